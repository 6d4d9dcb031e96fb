(** Scalar operations, quaternion / complex data types.  No laws are built in:
    the code model uses only [num]; theorems that need algebra take [laws]. *)
From Coq Require Import ZArith Ring_theory InitialRing.

(** The scalar type [_F] of [quaternion<_F>] (include/haxx/haxx_def.hpp:34-36)
    with the operations the code uses on it.  [nfma a b c], [nfms a b c],
    [nfnma a b c] are the FMA macros of include/util/simd/intrin_alias.hpp:74-88
    (a*b+c, a*b-c, -(a*b)+c).  Simplification: whether they are fused is left to the instance. *)
Record num := MkNum {
  car :> Type;
  n0 : car; n1 : car;
  nadd : car -> car -> car; nsub : car -> car -> car;
  nmul : car -> car -> car; nopp : car -> car;
  nfma : car -> car -> car -> car;
  nfms : car -> car -> car -> car;
  nfnma : car -> car -> car -> car;
  ndiv : car -> car -> car; nsqrt : car -> car;
  neqb : car -> car -> bool }.

Arguments n0 {_}. Arguments n1 {_}.
Arguments nadd {_} _ _. Arguments nsub {_} _ _. Arguments nmul {_} _ _. Arguments nopp {_} _.
Arguments nfma {_} _ _ _. Arguments nfms {_} _ _ _. Arguments nfnma {_} _ _ _.
Arguments ndiv {_} _ _. Arguments nsqrt {_} _. Arguments neqb {_} _ _.

Declare Scope num_scope.
Delimit Scope num_scope with num.
Notation "a + b" := (nadd a b) : num_scope.
Notation "a - b" := (nsub a b) : num_scope.
Notation "a * b" := (nmul a b) : num_scope.
Notation "- a" := (nopp a) : num_scope.

(** Exact arithmetic: the hypothesis of the algebraic theorems. *)
Record laws (K : num) : Prop := MkLaws {
  l_ring : ring_theory (@n0 K) n1 nadd nmul nsub nopp eq;
  l_fma : forall a b c : K, nfma a b c = nadd (nmul a b) c;
  l_fms : forall a b c : K, nfms a b c = nsub (nmul a b) c;
  l_fnma : forall a b c : K, nfnma a b c = nsub c (nmul a b);
  l_eqb : forall a b : K, neqb a b = true <-> a = b }.

(** quaternion<_F> storage: include/haxx/haxx_def.hpp:36-56 (four components in this order). *)
Record quat (K : num) := Quat { qr : K; qi : K; qj : K; qk : K }.
Arguments Quat {_} _ _ _ _. Arguments qr {_} _. Arguments qi {_} _. Arguments qj {_} _. Arguments qk {_} _.

(** std::complex<_F> / COMPLEX*16 *)
Record cplx (K : num) := Cplx { re : K; im : K }.
Arguments Cplx {_} _ _. Arguments re {_} _. Arguments im {_} _.

(** A scalar argument of a BLAS call: real, complex or quaternion
    (the template parameter _AlphaF / _BetaF). *)
Inductive scal (K : num) := SR (a : K) | SC (z : cplx K) | SH (q : quat K).
Arguments SR {_} _. Arguments SC {_} _. Arguments SH {_} _.

(** Instances. *)
Definition Znum : num :=
  {| car := Z; n0 := 0%Z; n1 := 1%Z; nadd := Z.add; nsub := Z.sub; nmul := Z.mul; nopp := Z.opp;
     nfma := fun a b c => (a * b + c)%Z; nfms := fun a b c => (a * b - c)%Z;
     nfnma := fun a b c => (c - a * b)%Z;
     ndiv := Z.div; nsqrt := Z.sqrt; neqb := Z.eqb |}.

Lemma Zlaws : laws Znum.
Proof.
  constructor; try reflexivity.
  - exact Zth.
  - cbn. apply Z.eqb_eq.
Qed.


(** literals for examples *)
Definition zq (a b c d : Z) : quat Znum := @Quat Znum a b c d.
Definition zc (a b : Z) : cplx Znum := @Cplx Znum a b.
