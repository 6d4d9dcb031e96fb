(** Specification vocabulary for integer-valued double precision data. *)
From Coq Require Import ZArith Reals.
From Flocq Require Import IEEE754.BinarySingleNaN.
From Verif Require Import Num F64 Spec.
Local Open Scope Z_scope.

(** the double x is finite and its value is the integer z (of any size) *)
Definition isZ (x : f64) (z : Z) : Prop := is_finite x = true /\ B2R x = IZR z.
Definition qisZ {f} (v : quat (F64 f)) (q : quat Znum) : Prop := isZ (qr v) (qr q) /\ isZ (qi v) (qi q) /\ isZ (qj v) (qj q) /\ isZ (qk v) (qk q).
(** the same for a real, complex or quaternion scalar *)
Definition sisZ {f} (s : scal (F64 f)) (t : scal Znum) : Prop :=
  match s, t with
  | SR a, SR x => isZ a x
  | SC z, SC w => isZ (re z) (re w) /\ isZ (im z) (im w)
  | SH q, SH r => qisZ q r
  | _, _ => False
  end.
(** sum of the absolute values of the four components *)
Definition Z1 (q : quat Znum) : Z := Z.abs (qr q) + Z.abs (qi q) + Z.abs (qj q) + Z.abs (qk q).
Fixpoint Zsum_nat (n : nat) (f : Z -> Z) : Z := match n with O => 0 | S p => Zsum_nat p f + f (Z.of_nat p) end.
Definition Zsum (n : Z) (f : Z -> Z) : Z := Zsum_nat (Z.to_nat n) f.
Definition exact_max : Z := 2 ^ 53.
(** magnitudes of one element of GEMM small enough: ALPHA times any element used, the sum of products, and the whole expression *)
Definition gemm_small (oa ob : mop) (k : Z) (alpha : scal Znum) (A B : Z -> Z -> quat Znum) (beta : scal Znum) (C : Z -> Z -> quat Znum) (i j : Z) : Prop :=
  (forall l, 0 <= l < k -> Z1 (emb alpha) * Z1 (opm oa A i l) <= exact_max /\ Z1 (emb alpha) * Z1 (opm ob B l j) <= exact_max) /\
  Zsum k (fun l => Z1 (opm oa A i l) * Z1 (opm ob B l j)) <= exact_max /\
  Z1 (emb beta) * Z1 (C i j) + Z1 (emb alpha) * Zsum k (fun l => Z1 (opm oa A i l) * Z1 (opm ob B l j)) <= exact_max.
