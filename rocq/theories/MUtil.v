(** Matrix expansion and contraction utilities: src/hblas/fortran/util/{hzexp,hdexp,hzcon}.f and
    include/hblas/generic/util/{expand,contract}_impl.hpp.  A(2,LDA,* ) (A(4,LDA,* ) in hdexp.f) is the quaternion
    array, element A(:,I,J) at [fpos LDA I J]. *)
From Coq Require Import ZArith Bool Ascii.
From Verif Require Import Num Res MQuat MForL1 MForL2 MForL3.
Local Open Scope Z_scope.

Section U.
Context {K : num}.
Local Notation qarr := (arr (quat K)).
Local Notation zarr := (arr (cplx K)).

(** hzexp.f:18-21: the four stores of one element, destination rows r1,r2 and columns s1,s2 *)
Definition hzexp_put (q : quat K) (r1 r2 s1 s2 : Z) (b : zarr) (ldb : Z) : res zarr :=
  b <- st b (fpos ldb r1 s1) (h1 q) ;;
  b <- st b (fpos ldb r2 s2) (conjg (h1 q)) ;;
  b <- st b (fpos ldb r1 s2) (h2 q) ;;
  st b (fpos ldb r2 s1) (cneg (conjg (h2 q))).
(** hzexp.f:9-28; IB and JB are loop state.  Simplification: A(:,I,J) is read once *)
Definition hzexp1 (m n : Z) (a : qarr) (lda : Z) (b : zarr) (ldb : Z) : res zarr :=
  '(b, _) <- fdo 1 n (fun j '(b, jb) =>
    '(b, _) <- fdo 1 m (fun i '(b, ib) =>
      q <- ld a (fpos lda i j) ;; b <- hzexp_put q ib (ib + 1) jb (jb + 1) b ldb ;; Ok (b, ib + 2)) (b, 1) ;;
    Ok (b, jb + 2)) (b, 1) ;;
  Ok b.
(** hzexp.f:32-45 *)
Definition hzexp2 (m n : Z) (a : qarr) (lda : Z) (b : zarr) (ldb : Z) : res zarr :=
  fdo 1 n (fun j b => fdo 1 m (fun i b =>
    q <- ld a (fpos lda i j) ;; hzexp_put q i (i + m) j (j + n) b ldb) b) b.
(** hdexp.f:18-36: the sixteen stores of one element *)
Definition hdexp_put (q : quat K) (ib jb : Z) (b : arr K) (ldb : Z) : res (arr K) :=
  b <- st b (fpos ldb ib jb) (qr q) ;;
  b <- st b (fpos ldb ib (jb + 1)) (qi q) ;;
  b <- st b (fpos ldb ib (jb + 2)) (qj q) ;;
  b <- st b (fpos ldb ib (jb + 3)) (qk q) ;;
  b <- st b (fpos ldb (ib + 1) jb) (nopp (qi q)) ;;
  b <- st b (fpos ldb (ib + 1) (jb + 1)) (qr q) ;;
  b <- st b (fpos ldb (ib + 1) (jb + 2)) (nopp (qk q)) ;;
  b <- st b (fpos ldb (ib + 1) (jb + 3)) (qj q) ;;
  b <- st b (fpos ldb (ib + 2) jb) (nopp (qj q)) ;;
  b <- st b (fpos ldb (ib + 2) (jb + 1)) (qk q) ;;
  b <- st b (fpos ldb (ib + 2) (jb + 2)) (qr q) ;;
  b <- st b (fpos ldb (ib + 2) (jb + 3)) (nopp (qi q)) ;;
  b <- st b (fpos ldb (ib + 3) jb) (nopp (qk q)) ;;
  b <- st b (fpos ldb (ib + 3) (jb + 1)) (nopp (qj q)) ;;
  b <- st b (fpos ldb (ib + 3) (jb + 2)) (qi q) ;;
  st b (fpos ldb (ib + 3) (jb + 3)) (qr q).
(** hdexp.f:9-43.  Simplification: A(:,I,J) is read once *)
Definition hdexp (m n : Z) (a : qarr) (lda : Z) (b : arr K) (ldb : Z) : res (arr K) :=
  '(b, _) <- fdo 1 n (fun j '(b, jb) =>
    '(b, _) <- fdo 1 m (fun i '(b, ib) =>
      q <- ld a (fpos lda i j) ;; b <- hdexp_put q ib jb b ldb ;; Ok (b, ib + 4)) (b, 1) ;;
    Ok (b, jb + 4)) (b, 1) ;;
  Ok b.

(** hzcon.f:26-32 (and 61-66): one element from rows r1,r2 and columns s1,s2.  Only the half selected by UPLO is read. *)
Definition hzcon_get (notl : bool) (b : zarr) (ldb r1 r2 s1 s2 : Z) : res (quat K) :=
  z <- ld b (fpos ldb r1 s1) ;;
  w <- (if notl then ld b (fpos ldb r1 s2) else v <- ld b (fpos ldb r2 s1) ;; Ok (cneg (conjg v))) ;;
  Ok (hq z w).
(** hzcon.f:9-39.  Simplification: the two halves of A(:,I,J) are stored together *)
Definition hzcon1 (uplo : ascii) (m n : Z) (a : qarr) (lda : Z) (b : zarr) (ldb : Z) : res qarr :=
  let notl := lsame uplo "U" in
  '(a, _) <- fdo 1 n (fun j '(a, jb) =>
    '(a, _) <- fdo 1 m (fun i '(a, ib) =>
      q <- hzcon_get notl b ldb ib (ib + 1) jb (jb + 1) ;; a <- st a (fpos lda i j) q ;; Ok (a, ib + 2)) (a, 1) ;;
    Ok (a, jb + 2)) (a, 1) ;;
  Ok a.
(** hzcon.f:43-71 *)
Definition hzcon2 (uplo : ascii) (m n : Z) (a : qarr) (lda : Z) (b : zarr) (ldb : Z) : res qarr :=
  let notl := lsame uplo "U" in
  fdo 1 n (fun j a => fdo 1 m (fun i a =>
    q <- hzcon_get notl b ldb i (i + m) j (j + n) ;; st a (fpos lda i j) q) a) a.

(** expand_impl.hpp:18-30 *)
Definition complex_expand (order : ascii) (m n : Z) (a : qarr) (lda : Z) (b : zarr) (ldb : Z) : res zarr :=
  _ <- assertb (Ascii.eqb order "F" || Ascii.eqb order "S") ;;
  if Ascii.eqb order "F" then hzexp1 m n a lda b ldb else hzexp2 m n a lda b ldb.
(** expand_impl.hpp:32-38 *)
Definition real_expand (m n : Z) (a : qarr) (lda : Z) (b : arr K) (ldb : Z) : res (arr K) := hdexp m n a lda b ldb.
(** contract_impl.hpp:18-30 *)
Definition complex_contract (order uplo : ascii) (m n : Z) (a : qarr) (lda : Z) (b : zarr) (ldb : Z) : res qarr :=
  _ <- assertb (Ascii.eqb order "F" || Ascii.eqb order "S") ;;
  if Ascii.eqb order "F" then hzcon1 uplo m n a lda b ldb else hzcon2 uplo m n a lda b ldb.
End U.
