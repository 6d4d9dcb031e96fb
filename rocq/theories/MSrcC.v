(** Calls of the C++ routines of the default build as source texts: which translation unit a call with given ALPHA and BETA types reaches, and its
    arguments in the order of the declarations.  The texts are those of CSrc.v; [compile] (CParse.v) preprocesses and parses a translation unit, [ccall]
    (CSem.v) runs a function of it.  Each array argument is a memory block of its own, its pointer the start of the block. *)
From Coq Require Import ZArith Ascii String List.
From Verif Require Import Num Res MQuat CSyntax CSem CProg CLink.
From Verif Require Export CLinkG.
Import ListNotations.
Local Open Scope string_scope.
Local Open Scope Z_scope.

Section C.
Context {K : num}.
Local Notation qarr := (arr (quat K)).
(** a run that ended, with the quaternion arrays in memory and the value returned; None: stuck, or more than [fuel] iterations of a loop *)
Fixpoint qarrs (m : mem K) : option (list qarr) :=
  match m with [] => Some [] | (_, DQ x) :: m => match qarrs m with Some l => Some (x :: l) | None => None end | _ => None end.
Definition after (o : option (res (mem K * option (val K)))) : option (res (list qarr * option (val K))) :=
  match o with
  | Some (Ok (m, v)) => match qarrs m with Some l => Some (Ok (l, v)) | None => None end
  | Some UB => Some UB | Some Abort => Some Abort | None => None
  end.
Variables (fma : bool) (fuel : nat).
(** copy_swap.cxx *)
Definition swap_ctext (n : Z) (xa : Z) (x : qarr) (incx : Z) (ya : Z) (y : qarr) (incy : Z) :=
  after (ccall (unit_swapv fma) no_ext fuel "HBLAS_SWAPV" [VZ n; ptr 0; VZ incx; ptr 1; VZ incy] [(xa, DQ x); (ya, DQ y)]).
Definition copy_ctext (n : Z) (xa : Z) (x : qarr) (incx : Z) (ya : Z) (y : qarr) (incy : Z) :=
  after (ccall (unit_copyv fma) no_ext fuel "HBLAS_COPYV" [VZ n; ptr 0; VZ incx; ptr 1; VZ incy] [(xa, DQ x); (ya, DQ y)]).
(** axpy_scal.cxx *)
Definition scal_ctext (side : ascii) (n : Z) (alpha : scal K) (xa : Z) (x : qarr) (incx : Z) :=
  after (ccall (unit_scalv fma (type_of alpha)) no_ext fuel "HBLAS_SCALV" [VChr side; VZ n; val_of alpha; ptr 0; VZ incx] [(xa, DQ x)]).
Definition axpy_ctext (side : ascii) (n : Z) (alpha : scal K) (xa : Z) (x : qarr) (incx : Z) (ya : Z) (y : qarr) (incy : Z) :=
  after (ccall (unit_axpyv fma (type_of alpha)) no_ext fuel "HBLAS_AXPYV" [VChr side; VZ n; val_of alpha; ptr 0; VZ incx; ptr 1; VZ incy] [(xa, DQ x); (ya, DQ y)]).
(** dot.cxx *)
Definition dotu_ctext (n : Z) (xa : Z) (x : qarr) (incx : Z) (ya : Z) (y : qarr) (incy : Z) :=
  after (ccall (unit_dotuv fma) no_ext fuel "HBLAS_DOTUV" [VZ n; ptr 0; VZ incx; ptr 1; VZ incy] [(xa, DQ x); (ya, DQ y)]).
Definition dotc_ctext (n : Z) (xa : Z) (x : qarr) (incx : Z) (ya : Z) (y : qarr) (incy : Z) :=
  after (ccall (unit_dotcv fma) no_ext fuel "HBLAS_DOTCV" [VZ n; ptr 0; VZ incx; ptr 1; VZ incy] [(xa, DQ x); (ya, DQ y)]).
(** kern.cxx; oa, ob, oc: where in its array each pointer argument points *)
Definition kern_ctext (m n k : Z) (aa : Z) (a : qarr) (oa : Z) (ba : Z) (b : qarr) (ob : Z) (ca : Z) (c : qarr) (oc ldc : Z) :=
  after (ccall (unit_kern fma) no_ext fuel "Kern"
    [VZ m; VZ n; VZ k; VP (Ptr (OnQ 0) oa 0 TQuat); VP (Ptr (OnQ 1) ob 0 TQuat); VP (Ptr (OnQ 2) oc 0 TQuat); VZ ldc] [(aa, DQ a); (ba, DQ b); (ca, DQ c)]).
(** gemm.cxx, linked as in CLink.v: Kern is the text of kern.cxx; aligned_alloc returns the addresses ba, aa and blocks with the contents gb, ga *)
Definition gemm_ctext (aa ba : Z) (ga gb : Z -> quat K) (ta tb : ascii) (m n k : Z) (alpha : scal K) (a_ad : Z) (a : qarr) (lda : Z)
    (b_ad : Z) (b : qarr) (ldb : Z) (beta : scal K) (c_ad : Z) (c : qarr) (ldc : Z) :=
  after (ccall (unit_gemm fma (type_of alpha) (type_of beta)) (gemm_link fma fuel aa ba ga gb) fuel "HBLAS_GEMM"
    [VChr ta; VChr tb; VZ m; VZ n; VZ k; val_of alpha; ptr 0; VZ lda; ptr 1; VZ ldb; val_of beta; ptr 2; VZ ldc] [(a_ad, DQ a); (b_ad, DQ b); (c_ad, DQ c)]).
(** a call that returns normally, leaving arrays and a value with property P *)
Definition returns_c (o : option (res (list qarr * option (val K)))) (P : list qarr -> option (val K) -> Prop) : Prop :=
  exists l v, o = Some (Ok (l, v)) /\ P l v.
End C.
