(** Specification vocabulary for the rounding errors of the Fortran kernels. *)
From Coq Require Import ZArith Reals.
From Verif Require Import Num NumR F64 Spec SpecErr.
Local Open Scope R_scope.

(** underflow units of one element of alpha*opA(A)*opB(B) + beta*C or of alpha*op(A)*x + beta*y: [k] terms, [row] the row of
    op(A) used *)
Definition row_units (k : Z) (alpha : quat Rnum) (row : Z -> quat Rnum) : R :=
  15 + 8 * IZR k * Q1 alpha + Rsum k (fun l => 6 * Q1 (row l) + 16).
(** sufficient condition against overflow of the intermediate results: the entries are finite, the products of ALPHA with the
    second factors and the plain sum of products stay below the largest double *)
Definition row_room {f} (k : Z) (alpha : quat Rnum) (row col : Z -> quat (F64 f)) : Prop :=
  (forall l, (0 <= l < k)%Z -> fin (row l) /\ fin (col l) /\ below 2 3 (Qmaj (Qabs alpha) (Qabs (QR (col l))))) /\
  below (Z.to_nat (2 * k + 2)) (8 * IZR k) (Hsum (K := Rnum) k (fun l => Qmaj (Qabs (QR (row l))) (Qabs (QR (col l))))).
(** magnitudes of element i of alpha*op(A)*x + beta*y *)
Definition gemv_mag (o : mop) (n : Z) (alpha : quat Rnum) (A : Z -> Z -> quat Rnum) (x : Z -> quat Rnum) (beta : quat Rnum) (y : Z -> quat Rnum) (i : Z) : quat Rnum :=
  Hadd (K := Rnum) (Qmaj (Qabs beta) (Qabs (y i))) (Hsum (K := Rnum) n (fun j => Qmaj (Qmaj (Qabs alpha) (Qabs (opm (K := Rnum) o A i j))) (Qabs (x j)))).
(** magnitudes of element (i,j) of A + alpha*x*y' *)
Definition ger_mag (alpha : quat Rnum) (x y : Z -> quat Rnum) (A : Z -> Z -> quat Rnum) (i j : Z) : quat Rnum :=
  Hadd (K := Rnum) (Qabs (A i j)) (Qmaj (Qmaj (Qabs alpha) (Qabs (x i))) (Qabs (y j))).
