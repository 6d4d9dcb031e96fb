(** Specification vocabulary for the rounding errors of the real-matrix GEMV and GEMM. *)
From Coq Require Import ZArith Reals.
From Flocq Require Import Core.Raux Core.Zaux IEEE754.BinarySingleNaN.
From Verif Require Import Num NumR F64 Spec SpecErr.
Local Open Scope R_scope.

(** a real matrix as a matrix of real quaternions *)
Definition Rmat (A : Z -> Z -> f64) (i j : Z) : quat Rnum := Hre (K := Rnum) (B2R (A i j)).
(** underflow units of one element: k terms, [c l] the magnitude that multiplies the l-th underflow *)
Definition real_units (k : Z) (alpha : R) (c : Z -> R) : R := 3 + 2 * IZR k * Rabs alpha + Rsum k (fun l => c l + 2).
(** sufficient condition against overflow of the intermediate results: entries are finite; ALPHA times an entry of either factor and
    the plain sum of products stay below the largest double *)
Definition real_room {f} (k : Z) (alpha : R) (row : Z -> f64) (col : Z -> quat (F64 f)) : Prop :=
  (forall l, (0 <= l < k)%Z -> is_finite (row l) = true /\ fin (col l) /\
     Rabs (alpha * B2R (row l)) + err_bound 1 (Rabs (alpha * B2R (row l))) 1 < bpow radix2 1024 /\
     below 1 1 (Qmaj (Qabs (Hre (K := Rnum) alpha)) (Qabs (QR (col l))))) /\
  below (Z.to_nat (k + 1)) (2 * IZR k) (Hsum (K := Rnum) k (fun l => Qmaj (Qabs (Hre (K := Rnum) (B2R (row l)))) (Qabs (QR (col l))))).
(** entry (i,l) of op(A) for a real matrix (conjugation does nothing) *)
Definition ropm (o : mop) (A : Z -> Z -> f64) (i l : Z) : f64 := match o with OpN | OpR => A i l | OpT | OpC => A l i end.
