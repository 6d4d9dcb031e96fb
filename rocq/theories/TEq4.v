From Coq Require Import ZArith Bool Ascii String List Lia.
From Verif Require Import Num Res ResFacts MQuat MSimd MOptL1 MPack CSyntax CPre CSem CSrc CProg CLinkG TSrc TSyntax TParse TSem MSrcT TEq TEq2 TEq3.
Import ListNotations.
Local Open Scope string_scope.
Local Open Scope Z_scope.

Definition for_of (l : list (list tparam * list tstmt)) : tstmt * texpr * tstmt * list tstmt :=
  match l with [(_, [SFor i c p b])] => (i, c, p, b) | _ => (SRet None, EInt 0, SRet None, []) end.
Definition T_for := Eval vm_compute in snd (for_of T_body).
Definition N_for := Eval vm_compute in snd (for_of N_body).
(** inside loopBody the references are _xp and the xCol of the caller *)
Definition eTb := Eval vm_compute in ("xp", 12%nat) :: ("xCol", 18%nat) :: eT17.
Definition eNb := Eval vm_compute in ("xp", 11%nat) :: ("xCol", 17%nat) :: eN16.
Section E.
Context {K : num} (lf : nat).
Local Notation exec := (exec u (K := K) lf).
Local Notation call := (call u (K := K) lf).
Local Notation pval := (pval (K := K)).
Local Notation qarr := (arr (quat K)).
Definition ptrs (p1 : Z) (p2 : option Z) : pval := PTup (qp 0 p1 :: match p2 with Some p => [qp 0 p] | None => [] end).
Definition memq (a0 : Z) (src : qarr) (a1 : Z) (buf : qarr) : list (Z * data K) := [(a0, DQ src); (a1, DQ buf)].
(** [t]: TPACK, else NPACK; [v]: the variable of the inner loop, [w]: that of the outer loop *)
Definition stP (t : bool) o cj (al : option (scal K)) m n e ld (v w : option pval) x xp (col : list (option pval)) : store :=
  if t then (stT o cj al m n e ld v w x xp ++ col)%list else (stN o cj al m n e ld w v x xp ++ col)%list.
Definition cLoad (t : bool) o cj : pval := if t then clos eT14 (sc o cj) T_load else clos eN13 (sc o cj) N_load.
Definition cStore (t : bool) o cj : pval := if t then clo eT16 (sc o cj) T_store else clo eN15 (sc o cj) N_store.
Lemma vldf a (x : qarr) p : vld false a x p = match x p with Some q => Ok (v_of_q q) | None => UB end.
Proof. unfold vld, ld. cbn. destruct (x p); reflexivity. Qed.
Ltac lz := lazy -[Z.add Z.mul vld vst mm256_mul mm256_hsub mm256_broadcast mm256_unpacklo mm256_unpackhi mm256_permute2f128 mm256_permute MULDQ_NN QCONJ_256D v_of_q q_of_v mm256_zero mm256_xorsign set256].
Lemma load_0 t f o cj al m n e ld v w x xp col mm : let s := (stP t o cj al m n e ld v w x xp [Some col], mm) in
  call (40 + f) s (cLoad t o cj) [] = Some (Ok (V (VM (preOP cj al mm256_zero)), s)).
Proof. intros s. subst s. destruct t, o, cj, al as [[a|z|q]|]. all: lz; reflexivity. Qed.
End E.
