(** Specification vocabulary for rounding errors: unit roundoff, the bound, and quaternion arithmetic on magnitudes. *)
From Coq Require Import ZArith Reals.
From Flocq Require Import Core.Raux Core.Zaux IEEE754.BinarySingleNaN.
From Verif Require Import Num NumR F64 Spec.
Local Open Scope R_scope.

(** 2^-53 and half the smallest positive double, 2^-1075 *)
Definition uro : R := bpow radix2 (-53).
Definition eta : R := bpow radix2 (-1075).
(** the classical form of a forward error bound: d roundings on magnitude m, and E units of underflow *)
Definition err_bound (d : nat) (m E : R) : R := ((1 + uro) ^ d - 1) * m + eta * (1 + uro) ^ d * E.

(** the real quaternion a quaternion of doubles denotes *)
Definition QR {f} (q : quat (F64 f)) : quat Rnum := @Quat Rnum (B2R (qr q)) (B2R (qi q)) (B2R (qj q)) (B2R (qk q)).
Definition SR_of {f} (s : scal (F64 f)) : scal Rnum :=
  match s with SR a => @SR Rnum (B2R a) | SC z => @SC Rnum (@Cplx Rnum (B2R (re z)) (B2R (im z))) | SH q => @SH Rnum (QR q) end.
Definition fin {f} (q : quat (F64 f)) : Prop :=
  is_finite (qr q) = true /\ is_finite (qi q) = true /\ is_finite (qj q) = true /\ is_finite (qk q) = true.

(** magnitudes: absolute values of the components, products and sums without cancellation *)
Definition Qabs (q : quat Rnum) : quat Rnum := @Quat Rnum (Rabs (qr q)) (Rabs (qi q)) (Rabs (qj q)) (Rabs (qk q)).
Definition Qmaj (p q : quat Rnum) : quat Rnum := @Quat Rnum
  (qr p * qr q + qi p * qi q + qj p * qj q + qk p * qk q)
  (qr p * qi q + qi p * qr q + qj p * qk q + qk p * qj q)
  (qr p * qj q + qi p * qk q + qj p * qr q + qk p * qi q)
  (qr p * qk q + qi p * qj q + qj p * qi q + qk p * qr q).
(** sum of the magnitudes of the components *)
Definition Q1 (q : quat Rnum) : R := Rabs (qr q) + Rabs (qi q) + Rabs (qj q) + Rabs (qk q).
Fixpoint Rsum_nat (n : nat) (f : Z -> R) : R := match n with O => 0 | S p => Rsum_nat p f + f (Z.of_nat p) end.
Definition Rsum (n : Z) (f : Z -> R) : R := Rsum_nat (Z.to_nat n) f.

(** every finite component of the double result [v] is within the bound of the exact result [x], given the magnitudes [m] *)
Definition close {f} (d : nat) (E : R) (v : quat (F64 f)) (x m : quat Rnum) : Prop :=
  (is_finite (qr v) = true -> Rabs (B2R (qr v) - qr x) <= err_bound d (qr m) E) /\
  (is_finite (qi v) = true -> Rabs (B2R (qi v) - qi x) <= err_bound d (qi m) E) /\
  (is_finite (qj v) = true -> Rabs (B2R (qj v) - qj x) <= err_bound d (qj m) E) /\
  (is_finite (qk v) = true -> Rabs (B2R (qk v) - qk x) <= err_bound d (qk m) E).
(** no component can exceed the largest double: magnitudes plus error stay below 2^1024 *)
Definition below (d : nat) (E : R) (m : quat Rnum) : Prop :=
  qr m + err_bound d (qr m) E < bpow radix2 1024 /\ qi m + err_bound d (qi m) E < bpow radix2 1024 /\
  qj m + err_bound d (qj m) E < bpow radix2 1024 /\ qk m + err_bound d (qk m) E < bpow radix2 1024.
(** every component of the scalar is finite *)
Definition sfin {f} (s : scal (F64 f)) : Prop :=
  match s with SR a => is_finite a = true | SC z => is_finite (re z) = true /\ is_finite (im z) = true | SH q => fin q end.
(** magnitudes of the (i,j) element of alpha*opA(A)*opB(B) + beta*C, without cancellation *)
Definition gemm_mag (oa ob : mop) (k : Z) (alpha : quat Rnum) (A B : Z -> Z -> quat Rnum) (beta : quat Rnum) (C : Z -> Z -> quat Rnum) (i j : Z) : quat Rnum :=
  Hadd (K := Rnum) (Qmaj (Qabs beta) (Qabs (C i j)))
    (Hsum (K := Rnum) k (fun l => Qmaj (Qmaj (Qabs alpha) (Qabs (opm (K := Rnum) oa A i l))) (Qabs (opm (K := Rnum) ob B l j)))).
(** its underflow units *)
Definition gemm_units (ob : mop) (k : Z) (B : Z -> Z -> quat Rnum) (j : Z) : R :=
  3 + Rsum k (fun l => 3 * Q1 (opm (K := Rnum) ob B l j) + 8).
(** magnitudes of a dot product *)
Definition dot_mag (n : Z) (v w : Z -> quat Rnum) : quat Rnum := Hsum (K := Rnum) n (fun i => Qmaj (Qabs (v i)) (Qabs (w i))).
