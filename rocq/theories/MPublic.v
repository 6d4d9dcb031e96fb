(** Calls of the public functions, resolved through the texts of the build (MBuild.v): the function of this name with these parameter types is looked up among the
    definitions in the members of the library, and the text found runs.  Arguments in the order of the declarations in include/hblas/hblas1.hpp:71-118,
    hblas2.hpp:86-110, hblas3.hpp:62-72 and hblas_util.hpp; each array argument is a block of its own. *)
From Coq Require Import ZArith Bool Ascii String List.
From Verif Require Import Num Res FSem FProg CSyntax CSem CProg CLink MSrcC MBuild.
Import ListNotations.
Local Open Scope string_scope.
Local Open Scope Z_scope.

Section P.
Context {K : num}.
Local Notation qarr := (arr (quat K)).
Local Notation int := CSyntax.TInt.
Local Notation quatp := (TPtr TQuat).
Variables (fma : bool) (fuel : nat).
(** a C++ definition: the function [f] of the translation unit runs on the memory [m] *)
Definition cpp_call (f : string) (ts : list ctype) (ext : string -> string -> list (val K) -> mem K -> M (mem K)) (vs : list (val K)) (m : mem K) :=
  ccall (public_unit fma f ts) ext fuel f vs m.
Definition pub_swapv (n : Z) (xa : Z) (x : qarr) (incx : Z) (ya : Z) (y : qarr) (incy : Z) :=
  after (cpp_call "HBLAS_SWAPV" [int; quatp; int; quatp; int] no_ext [VZ n; ptr 0; VZ incx; ptr 1; VZ incy] [(xa, DQ x); (ya, DQ y)]).
Definition pub_copyv (n : Z) (xa : Z) (x : qarr) (incx : Z) (ya : Z) (y : qarr) (incy : Z) :=
  after (cpp_call "HBLAS_COPYV" [int; quatp; int; quatp; int] no_ext [VZ n; ptr 0; VZ incx; ptr 1; VZ incy] [(xa, DQ x); (ya, DQ y)]).
Definition pub_scalv (side : ascii) (n : Z) (alpha : scal K) (xa : Z) (x : qarr) (incx : Z) :=
  after (cpp_call "HBLAS_SCALV" [TChar; int; ty alpha; quatp; int] no_ext [VChr side; VZ n; val_of alpha; ptr 0; VZ incx] [(xa, DQ x)]).
Definition pub_axpyv (side : ascii) (n : Z) (alpha : scal K) (xa : Z) (x : qarr) (incx : Z) (ya : Z) (y : qarr) (incy : Z) :=
  after (cpp_call "HBLAS_AXPYV" [TChar; int; ty alpha; quatp; int; quatp; int] no_ext
    [VChr side; VZ n; val_of alpha; ptr 0; VZ incx; ptr 1; VZ incy] [(xa, DQ x); (ya, DQ y)]).
Definition pub_dotuv (n : Z) (xa : Z) (x : qarr) (incx : Z) (ya : Z) (y : qarr) (incy : Z) :=
  after (cpp_call "HBLAS_DOTUV" [int; quatp; int; quatp; int] no_ext [VZ n; ptr 0; VZ incx; ptr 1; VZ incy] [(xa, DQ x); (ya, DQ y)]).
Definition pub_dotcv (n : Z) (xa : Z) (x : qarr) (incx : Z) (ya : Z) (y : qarr) (incy : Z) :=
  after (cpp_call "HBLAS_DOTCV" [int; quatp; int; quatp; int] no_ext [VZ n; ptr 0; VZ incx; ptr 1; VZ incy] [(xa, DQ x); (ya, DQ y)]).
(** the templates call HBLAS_SCALV and HBLAS_AXPYV: CLinkG.v *)
Definition pub_scalm (side transa : ascii) (m n : Z) (alpha : scal K) (aa : Z) (a : qarr) (lda inca : Z) :=
  after (cpp_call "HBLAS_SCALM" [TChar; TChar; int; int; ty alpha; quatp; int; int] (scalv_link fma fuel)
    [VChr side; VChr transa; VZ m; VZ n; val_of alpha; ptr 0; VZ lda; VZ inca] [(aa, DQ a)]).
Definition pub_axpym (side transa : ascii) (m n : Z) (alpha : scal K) (aa : Z) (a : qarr) (lda inca : Z) (ba : Z) (b : qarr) (ldb incb : Z) :=
  after (cpp_call "HBLAS_AXPYM" [TChar; TChar; int; int; ty alpha; quatp; int; int; quatp; int; int] (axpyv_link fma fuel)
    [VChr side; VChr transa; VZ m; VZ n; val_of alpha; ptr 0; VZ lda; VZ inca; ptr 1; VZ ldb; VZ incb] [(aa, DQ a); (ba, DQ b)]).
(** real matrix A *)
Definition pub_gemv_real (trans : ascii) (m n : Z) (alpha : K) (aa : Z) (a : arr K) (lda : Z) (xa : Z) (x : qarr) (incx : Z) (beta : K) (ya : Z) (y : qarr) (incy : Z) :=
  cpp_call "HBLAS_GEMV" [TChar; int; int; TDouble; TPtr TDouble; int; quatp; int; TDouble; quatp; int] no_ext
    [VChr trans; VZ m; VZ n; VK alpha; VP (Ptr (OnK 0) 0 0 TDouble); VZ lda; ptr 1; VZ incx; VK beta; ptr 2; VZ incy] [(aa, DK a); (xa, DQ x); (ya, DQ y)].
Definition pub_gemm_real (ta tb : ascii) (m n k : Z) (alpha : K) (aa : Z) (a : arr K) (lda : Z) (ba : Z) (b : qarr) (ldb : Z) (beta : K) (ca : Z) (c : qarr) (ldc : Z) :=
  cpp_call "HBLAS_GEMM" [TChar; TChar; int; int; int; TDouble; TPtr TDouble; int; quatp; int; TDouble; quatp; int] no_ext
    [VChr ta; VChr tb; VZ m; VZ n; VZ k; VK alpha; VP (Ptr (OnK 0) 0 0 TDouble); VZ lda; ptr 1; VZ ldb; VK beta; ptr 2; VZ ldc] [(aa, DK a); (ba, DQ b); (ca, DQ c)].
(** quaternion matrices: aa, ba, ga, gb as in MSrcC.v *)
Definition gemm_types (alpha beta : scal K) : list ctype := [TChar; TChar; int; int; int; ty alpha; quatp; int; quatp; int; ty beta; quatp; int].
Definition pub_gemm (aa ba : Z) (ga gb : Z -> quat K) (ta tb : ascii) (m n k : Z) (alpha : scal K) (a_ad : Z) (a : qarr) (lda : Z)
    (b_ad : Z) (b : qarr) (ldb : Z) (beta : scal K) (c_ad : Z) (c : qarr) (ldc : Z) :=
  after (cpp_call "HBLAS_GEMM" (gemm_types alpha beta) (gemm_link fma fuel aa ba ga gb)
    [VChr ta; VChr tb; VZ m; VZ n; VZ k; val_of alpha; ptr 0; VZ lda; ptr 1; VZ ldb; val_of beta; ptr 2; VZ ldc] [(a_ad, DQ a); (b_ad, DQ b); (c_ad, DQ c)]).
(** a Fortran definition: the contents of the array the result is returned in *)
Definition uq (x : qarr) : uarg K := UPtr TQuat (FProg.cells x).
Definition uz (x : arr (cplx K)) : uarg K := UPtr CSyntax.TCplx (FProg.ccells x).
Definition pub_gemv (trans : ascii) (m n : Z) (alpha : scal K) (a : qarr) (lda : Z) (x : qarr) (incx : Z) (beta : scal K) (y : qarr) (incy : Z) : option (res (arr K)) :=
  fortran_call fma "HBLAS_GEMV" [UChr trans; UInt m; UInt n; UScal alpha; uq a; UInt lda; uq x; UInt incx; UScal beta; uq y; UInt incy].
Definition pub_geru (m n : Z) (alpha : scal K) (x : qarr) (incx : Z) (y : qarr) (incy : Z) (a : qarr) (lda : Z) : option (res (arr K)) :=
  fortran_call fma "HBLAS_GERU" [UInt m; UInt n; UScal alpha; uq x; UInt incx; uq y; UInt incy; uq a; UInt lda].
Definition pub_gerc (m n : Z) (alpha : scal K) (x : qarr) (incx : Z) (y : qarr) (incy : Z) (a : qarr) (lda : Z) : option (res (arr K)) :=
  fortran_call fma "HBLAS_GERC" [UInt m; UInt n; UScal alpha; uq x; UInt incx; uq y; UInt incy; uq a; UInt lda].
Definition pub_gemm_f (ta tb : ascii) (m n k : Z) (alpha : scal K) (a : qarr) (lda : Z) (b : qarr) (ldb : Z) (beta : scal K) (c : qarr) (ldc : Z) : option (res (arr K)) :=
  fortran_call fma "HBLAS_GEMM" [UChr ta; UChr tb; UInt m; UInt n; UInt k; UScal alpha; uq a; UInt lda; uq b; UInt ldb; UScal beta; uq c; UInt ldc].
Definition pub_complex_expand (order : ascii) (m n : Z) (a : qarr) (lda : Z) (b : arr (cplx K)) (ldb : Z) : option (res (arr K)) :=
  fortran_call fma "HBLAS_COMPLEX_EXPAND" [UChr order; UInt m; UInt n; uq a; UInt lda; uz b; UInt ldb].
Definition pub_real_expand (m n : Z) (a : qarr) (lda : Z) (b : arr K) (ldb : Z) : option (res (arr K)) :=
  fortran_call fma "HBLAS_REAL_EXPAND" [UInt m; UInt n; uq a; UInt lda; UPtr TDouble b; UInt ldb].
Definition pub_complex_contract (order uplo : ascii) (m n : Z) (a : qarr) (lda : Z) (b : arr (cplx K)) (ldb : Z) : option (res (arr K)) :=
  fortran_call fma "HBLAS_COMPLEX_CONTRACT" [UChr order; UChr uplo; UInt m; UInt n; uq a; UInt lda; uz b; UInt ldb].
End P.
