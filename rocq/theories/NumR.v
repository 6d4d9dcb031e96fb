(** The real-number instance (uses the standard library's Reals axioms). *)
From Coq Require Import ZArith Ring_theory Reals.
From Verif Require Import Num.

Definition Rnum : num :=
  {| car := R; n0 := 0%R; n1 := 1%R; nadd := Rplus; nsub := Rminus; nmul := Rmult; nopp := Ropp;
     nfma := fun a b c => (a * b + c)%R; nfms := fun a b c => (a * b - c)%R;
     nfnma := fun a b c => (c - a * b)%R;
     ndiv := Rdiv; nsqrt := sqrt; neqb := fun a b => if Req_EM_T a b then true else false |}.

Lemma Rlaws : laws Rnum.
Proof.
  constructor; try reflexivity.
  - exact RTheory.
  - cbn. intros a b. destruct (Req_EM_T a b); split; congruence.
Qed.
