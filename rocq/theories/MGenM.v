(** Generic C++ matrix scaling / addition: include/hblas/generic/hblas1/hblas_{scalm,axpym}_impl.hpp.
    The calls to HBLAS_SCALV / HBLAS_AXPYV go to whatever implementation the build links; they are
    parameters here ([scalv side n alpha addr x inc], [axpyv ...]) and are instantiated in the Props files. *)
From Coq Require Import ZArith Bool Ascii.
From Verif Require Import Num Res MQuat MOptL1 MGenL1 MForL1.
Local Open Scope Z_scope.

Section M.
Context {K : num}.
Local Notation qarr := (arr (quat K)).
Variable scalv : ascii -> Z -> scal K -> Z -> qarr -> Z -> res qarr.
Variable axpyv : ascii -> Z -> scal K -> Z -> qarr -> Z -> Z -> qarr -> Z -> res qarr.

(** hblas_scalm_impl.hpp:25-42.  aa is the byte address of A; locA = A + j*LDA after j iterations. *)
Definition scalm (side transa : ascii) (m n : Z) (alpha : scal K) (aa : Z) (a : qarr) (lda inca : Z) : res qarr :=
  if (n <=? 0) || (m <=? 0) || (inca <=? 0) then Ok a else
  _ <- assertb (Ascii.eqb transa "N") ;;
  '(a, _) <- zfor 0 n (fun j '(a, locA) =>
    x <- scalv side m alpha (aa + 32 * locA) (shiftp a locA) inca ;;
    Ok (shiftp x (- locA), locA + lda)) (a, 0) ;;
  Ok a.

(** hblas_axpym_impl.hpp:21-42 (with _XF = quaternion) *)
Definition axpym (side transa : ascii) (m n : Z) (alpha : scal K) (aa : Z) (a : qarr) (lda inca : Z)
    (ba : Z) (b : qarr) (ldb incb : Z) : res qarr :=
  if (n <=? 0) || (m <=? 0) then Ok b else
  if s_eqb alpha n0 then Ok b else
  _ <- assertb (Ascii.eqb transa "N") ;;
  '(b, _, _) <- zfor 0 n (fun j '(b, locA, locB) =>
    y <- axpyv side m alpha (aa + 32 * locA) (shiftp a locA) inca (ba + 32 * locB) (shiftp b locB) incb ;;
    Ok (shiftp y (- locB), locA + lda, locB + ldb)) (b, 0, 0) ;;
  Ok b.
End M.

(** The two builds that link: AVX (axpy_scal.cxx) and Fortran (hscal*.f, haxpy*.f; no address argument). *)
Definition scalv_fortran {K : num} (side : ascii) n (alpha : scal K) (xa : Z) x inc := scalv_for side n alpha x inc.
(** haxpydh.f, haxpych.f, haxpyhh.f *)
Definition axpyv_fortran {K : num} (side : ascii) n (alpha : scal K) (xa : Z) x incx (ya : Z) y incy :=
  axpyv_for side n alpha x incx y incy.
(** hblas_scalm_impl.hpp:25-42 linked with axpy_scal.cxx *)
Definition scalm_avx {K : num} := scalm (K:=K) scalv_opt.
(** hblas_scalm_impl.hpp:25-42 linked with hscal*.f *)
Definition scalm_fortran {K : num} := scalm (K:=K) scalv_fortran.
(** hblas_axpym_impl.hpp:21-42 linked with axpy_scal.cxx *)
Definition axpym_avx {K : num} := axpym (K:=K) axpyv_opt.
(** hblas_axpym_impl.hpp:21-42 linked with haxpy*.f *)
Definition axpym_fortran {K : num} := axpym (K:=K) axpyv_fortran.
