(** The public entry points of the default (AVX) build and the kernels they are linked to.  The C++ template arguments are
    read off the scalar arguments: [SR], [SC], [SH] for double, std::complex<double>, quaternion<double>. *)
From Coq Require Import ZArith Bool Ascii.
From Verif Require Import Num Res MQuat MSimd MOptL1 MGenM MForL2 MForL3 MGenL2 MPack MOptGemm.
Local Open Scope Z_scope.

Section D.
Context {K : num}.
Local Notation qarr := (arr (quat K)).

(** what a call of the optimised GEMM finds in its environment: the addresses and stale contents of the two pack buffers
    (src/hblas/cxx/hblas3/gemm.cxx:56-59) and the address of C *)
Record genv := GEnv { e_aa : Z; e_ba : Z; e_ga : Z -> quat K; e_gb : Z -> quat K; e_c : Z }.

(** HBLAS_GEMM<double, quaternion<double>, quaternion<double>, ALPHAF, BETAF>: src/hblas/cxx/hblas3/Gemm.cmake:2-10 (dd, dz, zd,
    zz from gemm.cxx), src/hblas/hblas3.cxx.in:41-60 (dh, zh, hd, hz, hh forward to Fortran) *)
Definition HBLAS_GEMM (e : genv) (transa transb : ascii) (m n k : Z) (alpha : scal K) (a : qarr) (lda : Z) (b : qarr) (ldb : Z)
    (beta : scal K) (c : qarr) (ldc : Z) : res qarr :=
  match alpha, beta with
  | SH _, _ | _, SH _ => hgemm transa transb m n k alpha a lda b ldb beta c ldc
  | _, _ => gemm_opt_default (e_aa e) (e_ba e) (e_ga e) (e_gb e) transa transb m n k alpha a lda b ldb beta (e_c e) c ldc
  end.
(** HBLAS_GEMM<double, double, quaternion<double>, double, double>: src/hblas/hblas3.cxx.in:64, the C++ template *)
Definition HBLAS_GEMM_real (transa transb : ascii) (m n k : Z) (alpha : K) (a : arr K) (lda : Z) (b : qarr) (ldb : Z)
    (beta : K) (c : qarr) (ldc : Z) : res qarr := gemm_real q_mul_avx transa transb m n k alpha a lda b ldb beta c ldc.
(** src/hblas/hblas2.cxx.in:53-72: all nine forward to Fortran *)
Definition HBLAS_GEMV (trans : ascii) (m n : Z) (alpha : scal K) (a : qarr) (lda : Z) (x : qarr) (incx : Z) (beta : scal K)
    (y : qarr) (incy : Z) : res qarr := hgemv trans m n alpha a lda x incx beta y incy.
(** src/hblas/hblas2.cxx.in:75: C++ template *)
Definition HBLAS_GEMV_real (trans : ascii) (m n : Z) (alpha : K) (a : arr K) (lda : Z) (x : qarr) (incx : Z) (beta : K)
    (y : qarr) (incy : Z) : res qarr := gemv_real q_mul_avx trans m n alpha a lda x incx beta y incy.
(** src/hblas/hblas2.cxx.in:81-86 *)
Definition HBLAS_GERU (m n : Z) (alpha : scal K) (x : qarr) (incx : Z) (y : qarr) (incy : Z) (a : qarr) (lda : Z) : res qarr :=
  hger false m n alpha x incx y incy a lda.
(** src/hblas/hblas2.cxx.in:90-95 *)
Definition HBLAS_GERC (m n : Z) (alpha : scal K) (x : qarr) (incx : Z) (y : qarr) (incy : Z) (a : qarr) (lda : Z) : res qarr :=
  hger true m n alpha x incx y incy a lda.
End D.
Arguments genv : clear implicits.
(** src/hblas/cxx/hblas3/gemm.cxx:56-59: the pack buffers are 32-byte aligned, as aligned_alloc guarantees *)
Definition good_env {K : num} (e : genv K) : Prop := e_aa e mod 32 = 0 /\ e_ba e mod 32 = 0.
