(** Calls of the Fortran kernels as source texts: which text a call with given ALPHA and BETA types reaches, and its arguments in the order of the
    C++ declarations.  The texts are those of SrcL1.v, SrcL2.v, SrcL3.v and SrcUtil.v; [fcall] (FProg.v) parses a text and runs it. *)
From Coq Require Import ZArith Ascii String List.
From Verif Require Import Num Res FSem FProg SrcL1 SrcL2 SrcL3 SrcUtil.
Import ListNotations.
Local Open Scope string_scope.
Local Open Scope Z_scope.

(** the memory of an array of quaternions (four REAL*8 each, real part first); of complex numbers *)
Definition quats {K : num} (mem : arr K) (x : arr (quat K)) : Prop := forall z, mem z = cells x z.
Definition complexes {K : num} (mem : arr K) (x : arr (cplx K)) : Prop := forall z, mem z = ccells x z.
(** the same outcome: both undefined, or both return and the results correspond *)
Definition same_outcome {A B} (R : A -> B -> Prop) (r : res A) (m : res B) : Prop :=
  match r, m with Ok a, Ok b => R a b | UB, UB => True | _, _ => False end.

Section C.
Context {K : num}.
Local Notation qarr := (arr (quat K)).
Local Notation zarr := (arr (cplx K)).
Local Notation qv x := (AM (cells x)).
Local Notation i z := (AV (VI z)).
Local Notation ch c := (AV (VC c)).
(** hblas1/hscal{d,c,h}.f, declared in include/hblas/fortran/hblas1.hpp *)
Definition scal_text (side : ascii) (n : Z) (alpha : scal K) (x : qarr) (incx : Z) : res (arr K) :=
  let args := [ch side; i n; pass alpha; qv x; i incx] in
  match alpha with SR _ => fcall "HSCALD" src_hscald args "X" | SC _ => fcall "HSCALC" src_hscalc args "X" | SH _ => fcall "HSCALH" src_hscalh args "X" end.
(** hblas1/haxpy{dh,ch,hh}.f *)
Definition axpy_text (side : ascii) (n : Z) (alpha : scal K) (x : qarr) (incx : Z) (y : qarr) (incy : Z) : res (arr K) :=
  let args a := [ch side; i n; a; qv x; i incx; qv y; i incy] in
  match alpha with SR _ => fcall "HAXPYDH" src_haxpydh (args (pass alpha)) "Y" | SC _ => fcall "HAXPYCH" src_haxpych (args (pass2 alpha)) "Y" | SH _ => fcall "HAXPYHH" src_haxpyhh (args (pass alpha)) "Y" end.
(** hblas1/hdotu.f, hdotc.f; r0: the result variable before the call *)
Definition dotu_text (r0 : quat K) (n : Z) (x : qarr) (incx : Z) (y : qarr) (incy : Z) : res (arr K) :=
  fcall "HDOTU" src_hdotu [qv (one r0); i n; qv x; i incx; qv y; i incy] "R".
Definition dotc_text (r0 : quat K) (n : Z) (x : qarr) (incx : Z) (y : qarr) (incy : Z) : res (arr K) :=
  fcall "HDOTC" src_hdotc [qv (one r0); i n; qv x; i incx; qv y; i incy] "R".
(** hblas2/hgemv{d,z,h}{d,z,h}.f *)
Definition gemv_text (trans : ascii) (m n : Z) (alpha : scal K) (a : qarr) (lda : Z) (x : qarr) (incx : Z) (beta : scal K) (y : qarr) (incy : Z) : res (arr K) :=
  let args := [ch trans; i m; i n; pass alpha; qv a; i lda; qv x; i incx; pass beta; qv y; i incy] in
  match alpha, beta with
  | SR _, SR _ => fcall "HGEMVDD" src_hgemvdd args "Y" | SR _, SC _ => fcall "HGEMVDZ" src_hgemvdz args "Y" | SR _, SH _ => fcall "HGEMVDH" src_hgemvdh args "Y"
  | SC _, SR _ => fcall "HGEMVZD" src_hgemvzd args "Y" | SC _, SC _ => fcall "HGEMVZZ" src_hgemvzz args "Y" | SC _, SH _ => fcall "HGEMVZH" src_hgemvzh args "Y"
  | SH _, SR _ => fcall "HGEMVHD" src_hgemvhd args "Y" | SH _, SC _ => fcall "HGEMVHZ" src_hgemvhz args "Y" | SH _, SH _ => fcall "HGEMVHH" src_hgemvhh args "Y"
  end.
(** hblas2/hgeru{d,z,h}.f and hgerc{d,z,h}.f *)
Definition geru_text (m n : Z) (alpha : scal K) (x : qarr) (incx : Z) (y : qarr) (incy : Z) (a : qarr) (lda : Z) : res (arr K) :=
  let args := [i m; i n; pass alpha; qv x; i incx; qv y; i incy; qv a; i lda] in
  match alpha with SR _ => fcall "HGERUD" src_hgerud args "A" | SC _ => fcall "HGERUZ" src_hgeruz args "A" | SH _ => fcall "HGERUH" src_hgeruh args "A" end.
Definition gerc_text (m n : Z) (alpha : scal K) (x : qarr) (incx : Z) (y : qarr) (incy : Z) (a : qarr) (lda : Z) : res (arr K) :=
  let args := [i m; i n; pass alpha; qv x; i incx; qv y; i incy; qv a; i lda] in
  match alpha with SR _ => fcall "HGERCD" src_hgercd args "A" | SC _ => fcall "HGERCZ" src_hgercz args "A" | SH _ => fcall "HGERCH" src_hgerch args "A" end.
(** hblas3/hgemm{d,z,h}{d,z,h}.f *)
Definition gemm_text (ta tb : ascii) (m n k : Z) (alpha : scal K) (a : qarr) (lda : Z) (b : qarr) (ldb : Z) (beta : scal K) (c : qarr) (ldc : Z) : res (arr K) :=
  let args := [ch ta; ch tb; i m; i n; i k; pass alpha; qv a; i lda; qv b; i ldb; pass beta; qv c; i ldc] in
  match alpha, beta with
  | SR _, SR _ => fcall "HGEMMDD" src_hgemmdd args "C" | SR _, SC _ => fcall "HGEMMDZ" src_hgemmdz args "C" | SR _, SH _ => fcall "HGEMMDH" src_hgemmdh args "C"
  | SC _, SR _ => fcall "HGEMMZD" src_hgemmzd args "C" | SC _, SC _ => fcall "HGEMMZZ" src_hgemmzz args "C" | SC _, SH _ => fcall "HGEMMZH" src_hgemmzh args "C"
  | SH _, SR _ => fcall "HGEMMHD" src_hgemmhd args "C" | SH _, SC _ => fcall "HGEMMHZ" src_hgemmhz args "C" | SH _, SH _ => fcall "HGEMMHH" src_hgemmhh args "C"
  end.
(** util/hzexp.f (ORDER 'F': HZEXP1, 'S': HZEXP2), util/hdexp.f, util/hzcon.f *)
Definition hzexp_text (first : bool) (m n : Z) (a : qarr) (lda : Z) (b : zarr) (ldb : Z) : res (arr K) :=
  fcall (if first then "HZEXP1" else "HZEXP2") src_hzexp [i m; i n; qv a; i lda; AM (ccells b); i ldb] "B".
Definition hdexp_text (m n : Z) (a : qarr) (lda : Z) (b : arr K) (ldb : Z) : res (arr K) :=
  fcall "HDEXP" src_hdexp [i m; i n; qv a; i lda; AM b; i ldb] "B".
Definition hzcon_text (first : bool) (uplo : ascii) (m n : Z) (a : qarr) (lda : Z) (b : zarr) (ldb : Z) : res (arr K) :=
  fcall (if first then "HZCON1" else "HZCON2") src_hzcon [ch uplo; i m; i n; qv a; i lda; AM (ccells b); i ldb] "A".
(** util/lsame.f: the value of LSAME(CA,CB) *)
Definition lsame_text (ca cb : ascii) : res (val K) := lsame_ext "LSAME" [VC ca; VC cb].
End C.
