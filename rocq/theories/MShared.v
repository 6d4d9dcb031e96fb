(** Operands inside one allocation.  The kernels of MOptL1.v, MGenM.v and MOptGemm.v give every pointer argument its own
    array; here the same code runs on ONE memory, so a store through one pointer is seen by later loads through another.
    Pointers are element indices into the memory, whose element 0 is at byte address [ba].  Simplification: operands start at
    whole-element distances from each other (no partially overlapping quaternions).  The Fortran kernels are not treated:
    Fortran forbids a call that defines an aliased dummy argument. *)
From Coq Require Import ZArith Bool Ascii.
From Verif Require Import Num Res MQuat MSimd MOptL1 MGenL1 MGenM MPack MOptGemm.
Local Open Scope Z_scope.

Section S.
Context {K : num}.
Local Notation qarr := (arr (quat K)).

(** copy_swap.cxx:22-101 with _SWAP; px, py: the pointers X and Y *)
Definition swapv_sh (n ba : Z) (m : qarr) (px incx py incy : Z) : res qarr :=
  let nbatch := Z.quot n 1 in
  let al := IS_ALIGNED (ba + 32 * px) && IS_ALIGNED (ba + 32 * py) in
  '(m, _, _) <- zfor 0 nbatch (fun _ '(m, locX, locY) =>
    x1 <- vld al ba m locX ;;
    y1 <- vld al ba m locY ;;
    m <- vst al ba m locY x1 ;;
    m <- vst al ba m locX y1 ;;
    Ok (m, locX + incx, locY + incy)) (m, px, py) ;;
  Ok m.
(** copy_swap.cxx:22-101 without _SWAP *)
Definition copyv_sh (n ba : Z) (m : qarr) (px incx py incy : Z) : res qarr :=
  let nbatch := Z.quot n 1 in
  let al := IS_ALIGNED (ba + 32 * px) && IS_ALIGNED (ba + 32 * py) in
  '(m, _, _) <- zfor 0 nbatch (fun _ '(m, locX, locY) =>
    x1 <- vld al ba m locX ;;
    m <- vst al ba m locY x1 ;;
    Ok (m, locX + incx, locY + incy)) (m, px, py) ;;
  Ok m.
(** axpy_scal.cxx:26-212 with _AXPY *)
Definition axpyv_sh (side : ascii) (n : Z) (alpha : scal K) (ba : Z) (m : qarr) (px incx py incy : Z) : res qarr :=
  let nbatch := Z.quot n 1 in
  let mulLeft := Ascii.eqb side "L" in
  let al := IS_ALIGNED (ba + 32 * px) && IS_ALIGNED (ba + 32 * py) in
  '(m, _, _) <- zfor 0 nbatch (fun _ '(m, locX, locY) =>
    x1 <- vld al ba m locX ;;
    y1 <- vld al ba m locY ;;
    let y1 := axpy_step mulLeft alpha x1 y1 in
    m <- vst al ba m locY y1 ;;
    Ok (m, locX + 1 * incx, locY + 1 * incy)) (m, px, py) ;;
  Ok m.
(** hblas_axpym_impl.hpp:21-42 linked with axpy_scal.cxx *)
Definition axpym_sh (side transa : ascii) (m n : Z) (alpha : scal K) (ba : Z) (mem : qarr) (pa lda inca pb ldb incb : Z) : res qarr :=
  if (n <=? 0) || (m <=? 0) then Ok mem else
  if s_eqb alpha n0 then Ok mem else
  _ <- assertb (Ascii.eqb transa "N") ;;
  '(mem, _, _) <- zfor 0 n (fun j '(mem, locA, locB) =>
    mem <- axpyv_sh side m alpha ba mem locA inca locB incb ;;
    Ok (mem, locA + lda, locB + ldb)) (mem, pa, pb) ;;
  Ok mem.

(** GEMM: indices count elements from the address of C, so C = 0, A = pa, B = pb, and [ba] is the byte address of C.
    The pack buffers are separate allocations (gemm.cxx:56-59). *)
(** gemm.cxx:113-166 *)
Definition gemm_mc_sh (mc : Z) (transa : ascii) (m : Z) (alA : option (scal K)) (nJ nK : Z) (pa Ap lda : Z)
    (aa : Z) (aPack : qarr) (ba : Z) (bPack : qarr) (mem : qarr) (Cj ldc : Z) : res (qarr * qarr) :=
  '(mem, aPack, _, _) <- zforstep 0 m mc (fun i '(mem, aPack, Ai, Ci) =>
    let nI := Z.min (m - i) mc in
    aPack <- apack_call transa alA nI nK (shiftp mem pa) Ai lda aPack ;;
    mem <- gemm_tiles nI nJ nK aa aPack ba bPack mem Ci ldc ;;
    let Ai := if Ascii.eqb transa "T" || Ascii.eqb transa "C" then Ai + nI * lda else Ai + nI in
    Ok (mem, aPack, Ai, Ci + nI)) (mem, aPack, Ap, Cj) ;;
  Ok (mem, aPack).
(** gemm.cxx:89-173 *)
Definition gemm_kc_sh (mc kc : Z) (transa transb : ascii) (m k : Z) (alA alB : option (scal K)) (nJ : Z) (pa lda : Z)
    (pb Bj ldb : Z) (aa : Z) (aPack : qarr) (ba : Z) (bPack : qarr) (mem : qarr) (Cj ldc : Z) : res (qarr * qarr * qarr) :=
  '(mem, aPack, bPack, _, _) <- zforstep 0 k kc (fun kk '(mem, aPack, bPack, Ap, Bp) =>
    let nK := Z.min (k - kk) kc in
    bPack <- bpack_call transb alB nJ nK (shiftp mem pb) Bp ldb bPack ;;
    '(mem, aPack) <- gemm_mc_sh mc transa m alA nJ nK pa Ap lda aa aPack ba bPack mem Cj ldc ;;
    let Ap := if Ascii.eqb transa "T" || Ascii.eqb transa "C" then Ap + nK else Ap + nK * lda in
    let Bp := if Ascii.eqb transb "T" || Ascii.eqb transb "C" then Bp + nK * ldb else Bp + nK in
    Ok (mem, aPack, bPack, Ap, Bp)) (mem, aPack, bPack, 0, Bj) ;;
  Ok (mem, aPack, bPack).
(** gemm.cxx:81-179 *)
Definition gemm_nc_sh (mc nc kc : Z) (transa transb : ascii) (m n k : Z) (alA alB : option (scal K)) (pa lda : Z)
    (pb ldb : Z) (aa : Z) (aPack : qarr) (ba : Z) (bPack : qarr) (mem : qarr) (ldc : Z) : res qarr :=
  '(mem, _, _, _, _) <- zforstep 0 n nc (fun j '(mem, aPack, bPack, Bj, Cj) =>
    let nJ := Z.min (n - j) nc in
    '(mem, aPack, bPack) <- gemm_kc_sh mc kc transa transb m k alA alB nJ pa lda pb Bj ldb aa aPack ba bPack mem Cj ldc ;;
    let Cj := Cj + nJ * ldc in
    let Bj := if Ascii.eqb transb "T" || Ascii.eqb transb "C" then Bj + nJ else Bj + nJ * ldb in
    Ok (mem, aPack, bPack, Bj, Cj)) (mem, aPack, bPack, 0, 0) ;;
  Ok mem.
(** gemm.cxx:41-184; [aa], [bb]: addresses of the pack buffers *)
Definition gemm_sh (mc nc kc : Z) (aa bb : Z) (ga gb : Z -> quat K) (transa transb : ascii) (m n k : Z) (alpha : scal K)
    (pa lda pb ldb : Z) (beta : scal K) (ba : Z) (mem : qarr) (ldc : Z) : res qarr :=
  let bPack := aligned_buf (FixMod (kc * nc) REQ_ALIGN) gb in
  let aPack := aligned_buf (FixMod (kc * mc) REQ_ALIGN) ga in
  mem <- scalm_avx "L" "N" m n beta ba mem ldc 1 ;;
  gemm_nc_sh mc nc kc transa transb m n k (Some alpha) None pa lda pb ldb aa aPack bb bPack mem ldc.
(** the default blocking: gemm.hpp:18-26 *)
Definition gemm_sh_default := gemm_sh 64 512 64.
End S.
