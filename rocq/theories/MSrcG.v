(** Calls of the templates of include/hblas/generic as source texts.  The texts are those of CSrcG.v, instantiated (CProgG.v) at the type of the scalar
    arguments; MATRIX arguments of real GEMV and GEMM are arrays of doubles.  hblas1.cxx.in, hblas2.cxx.in:75, hblas3.cxx.in instantiate SCALM, AXPYM, real GEMV and real
    GEMM in the library, and SWAPV and COPYV in a build without AVX kernels; the other templates are instantiated by their users. *)
From Coq Require Import ZArith Ascii String List.
From Verif Require Import Num Res MQuat CSyntax CSem CProg CProgG CLinkG CLink MSrcC.
Import ListNotations.
Local Open Scope string_scope.
Local Open Scope Z_scope.

Section C.
Context {K : num}.
Local Notation qarr := (arr (quat K)).
Variable fuel : nat.
(** hblas_swapv_impl.hpp, hblas_copyv_impl.hpp *)
Definition swap_gtext (n : Z) (xa : Z) (x : qarr) (incx : Z) (ya : Z) (y : qarr) (incy : Z) :=
  after (ccall unit_swapv_g no_ext fuel "HBLAS_SWAPV" [VZ n; ptr 0; VZ incx; ptr 1; VZ incy] [(xa, DQ x); (ya, DQ y)]).
Definition copy_gtext (n : Z) (xa : Z) (x : qarr) (incx : Z) (ya : Z) (y : qarr) (incy : Z) :=
  after (ccall unit_copyv_g no_ext fuel "HBLAS_COPYV" [VZ n; ptr 0; VZ incx; ptr 1; VZ incy] [(xa, DQ x); (ya, DQ y)]).
(** hblas_scalv_impl.hpp, hblas_axpyv_impl.hpp *)
Definition scal_gtext (side : ascii) (n : Z) (alpha : scal K) (xa : Z) (x : qarr) (incx : Z) :=
  after (ccall (unit_scalv_g (ty alpha)) no_ext fuel "HBLAS_SCALV" [VChr side; VZ n; val_of alpha; ptr 0; VZ incx] [(xa, DQ x)]).
Definition axpy_gtext (side : ascii) (n : Z) (alpha : scal K) (xa : Z) (x : qarr) (incx : Z) (ya : Z) (y : qarr) (incy : Z) :=
  after (ccall (unit_axpyv_g (ty alpha)) no_ext fuel "HBLAS_AXPYV" [VChr side; VZ n; val_of alpha; ptr 0; VZ incx; ptr 1; VZ incy] [(xa, DQ x); (ya, DQ y)]).
(** hblas_dotuv_impl.hpp, hblas_dotcv_impl.hpp *)
Definition dotu_gtext (n : Z) (xa : Z) (x : qarr) (incx : Z) (ya : Z) (y : qarr) (incy : Z) :=
  after (ccall unit_dotuv_g no_ext fuel "HBLAS_DOTUV" [VZ n; ptr 0; VZ incx; ptr 1; VZ incy] [(xa, DQ x); (ya, DQ y)]).
Definition dotc_gtext (n : Z) (xa : Z) (x : qarr) (incx : Z) (ya : Z) (y : qarr) (incy : Z) :=
  after (ccall unit_dotcv_g no_ext fuel "HBLAS_DOTCV" [VZ n; ptr 0; VZ incx; ptr 1; VZ incy] [(xa, DQ x); (ya, DQ y)]).
(** hblas_scalm_impl.hpp and hblas_axpym_impl.hpp, linked with the text of axpy_scal.cxx compiled with ([fma]) or without FMA *)
Definition scalm_gtext (fma : bool) (side transa : ascii) (m n : Z) (alpha : scal K) (aa : Z) (a : qarr) (lda inca : Z) :=
  after (ccall (unit_scalm_g (ty alpha)) (scalv_link fma fuel) fuel "HBLAS_SCALM" [VChr side; VChr transa; VZ m; VZ n; val_of alpha; ptr 0; VZ lda; VZ inca] [(aa, DQ a)]).
Definition axpym_gtext (fma : bool) (side transa : ascii) (m n : Z) (alpha : scal K) (aa : Z) (a : qarr) (lda inca : Z) (ba : Z) (b : qarr) (ldb incb : Z) :=
  after (ccall (unit_axpym_g (ty alpha)) (axpyv_link fma fuel) fuel "HBLAS_AXPYM"
    [VChr side; VChr transa; VZ m; VZ n; val_of alpha; ptr 0; VZ lda; VZ inca; ptr 1; VZ ldb; VZ incb] [(aa, DQ a); (ba, DQ b)]).
(** hblas_gemv_impl.hpp, hblas_gemm_impl.hpp at _MatF = _AlphaF = _BetaF = double.  The result includes the whole memory: A, X or B, and Y or C *)
Definition gemv_gtext (trans : ascii) (m n : Z) (alpha : K) (aa : Z) (a : arr K) (lda : Z) (xa : Z) (x : qarr) (incx : Z) (beta : K) (ya : Z) (y : qarr) (incy : Z) :=
  ccall (unit_gemv_g TDouble TDouble TDouble) no_ext fuel "HBLAS_GEMV"
    [VChr trans; VZ m; VZ n; VK alpha; VP (Ptr (OnK 0) 0 0 TDouble); VZ lda; ptr 1; VZ incx; VK beta; ptr 2; VZ incy] [(aa, DK a); (xa, DQ x); (ya, DQ y)].
Definition gemm_gtext (ta tb : ascii) (m n k : Z) (alpha : K) (aa : Z) (a : arr K) (lda : Z) (ba : Z) (b : qarr) (ldb : Z) (beta : K) (ca : Z) (c : qarr) (ldc : Z) :=
  ccall (unit_gemm_g TDouble TDouble TDouble) no_ext fuel "HBLAS_GEMM"
    [VChr ta; VChr tb; VZ m; VZ n; VZ k; VK alpha; VP (Ptr (OnK 0) 0 0 TDouble); VZ lda; ptr 1; VZ ldb; VK beta; ptr 2; VZ ldc] [(aa, DK a); (ba, DQ b); (ca, DQ c)].
End C.
