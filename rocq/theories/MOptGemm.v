(** Optimised GEMM: src/hblas/cxx/hblas3/gemm.cxx and kern.cxx, with the packing choice of
    include/hblas/config/hblas3/gemm.hpp (_FACTOR_ALPHA_IN_A_PACK, _FACTOR_TRANSPOSE_INTO_A_PACK and _B_PACK defined).
    The blocking parameters MC, NC, KC are macros a build may override (gemm.hpp:18-26); they are arguments here. *)
From Coq Require Import ZArith Bool Ascii.
From Verif Require Import Num Res MQuat MSimd MOptL1 MGenM MPack.
Local Open Scope Z_scope.

(** include/util/macro.hpp:22 *)
Definition FixMod (x n : Z) : Z := if Z.rem x n =? 0 then x else x + n - Z.rem x n.

Section G.
Context {K : num}.
Local Notation qarr := (arr (quat K)).

(** LOAD_128D_ALIGNED (intrin_alias.hpp:22) of the low (h = 0) or high (h = 1) half of element e: 16-byte alignment *)
Definition vld128 (a : Z) (m : qarr) (e : Z) (h : bool) : res (m128 K) :=
  if negb ((a + 32 * e + (if h then 16 else 0)) mod 16 =? 0) then UB else
  q <- ld m e ;; Ok (if h then hi (v_of_q q) else lo (v_of_q q)).

(** kern.cxx:27-133.  aa, ba: byte addresses of aPack and bPack; oa, ob, oc: element offsets of A, B and C. *)
Definition kern (m n k : Z) (aa : Z) (a : qarr) (oa : Z) (ba : Z) (b : qarr) (ob : Z) (c : qarr) (oc ldc : Z) : res qarr :=
  let m2 := m =? 2 in
  let n2 := n =? 2 in
  c00 <- vld false 0 c oc ;;
  c10 <- (if m2 then vld false 0 c (oc + 1) else Ok mm256_zero) ;;
  c01 <- (if n2 then vld false 0 c (oc + ldc) else Ok mm256_zero) ;;
  c11 <- (if m2 && n2 then vld false 0 c (oc + ldc + 1) else Ok mm256_zero) ;;
  let r := TRANSPOSE_4x4 (M4 c00 c01 c10 c11) in
  '(r, _, _) <- zfor 0 k (fun _ '(r, locA, locB) =>
    a00 <- vld true aa a locA ;;
    a10 <- vld true aa a (locA + 1) ;;
    b00lo <- vld128 ba b locB false ;;
    b00hi <- vld128 ba b locB true ;;
    b10lo <- vld128 ba b (locB + 1) false ;;
    b10hi <- vld128 ba b (locB + 1) true ;;
    let a_IIII := mm256_permute a00 0xF in
    let a00 := mm256_permute a00 0x0 in
    let a_KKKK := mm256_permute a10 0xF in
    let a10 := mm256_permute a10 0x0 in
    let bSSSS := set256 b00lo b00lo in
    let bIIII := set256 b10lo b10lo in
    let bJJJJ := set256 b00hi b00hi in
    let bKKKK := set256 b10hi b10hi in
    let r := INC_MULD4Q_NN (M4 a00 a_IIII a10 a_KKKK) (M4 bSSSS bIIII bJJJJ bKKKK) r in
    Ok (r, locA + 2, locB + 2)) (r, oa, ob) ;;
  let r := TRANSPOSE_4x4 r in
  c <- vst false 0 c oc (w1 r) ;;
  c <- (if m2 then vst false 0 c (oc + 1) (w3 r) else Ok c) ;;
  c <- (if n2 then vst false 0 c (oc + ldc) (w2 r) else Ok c) ;;
  if m2 && n2 then vst false 0 c (oc + ldc + 1) (w4 r) else Ok c.

(** gemm.cxx:105-108 ([alB = None]) and 99-102 ([alB = Some ALPHA], the _FACTOR_ALPHA_IN_B_PACK build) with gemm.hpp:55-58 *)
Definition bpack_call (transb : ascii) (alB : option (scal K)) (nJ nK : Z) (b : qarr) (Bp ldb : Z) (bPack : qarr) : res qarr :=
  if Ascii.eqb transb "T" then npack T2 false alB nJ nK b Bp ldb bPack
  else if Ascii.eqb transb "C" then npack T2 true alB nJ nK b Bp ldb bPack
  else if Ascii.eqb transb "R" then tpack T2 true alB nK nJ b Bp ldb bPack
  else tpack T2 false alB nK nJ b Bp ldb bPack.
(** gemm.cxx:125-128 ([alA = Some ALPHA]) and 130-133 ([alA = None]) with gemm.hpp:71-74 *)
Definition apack_call (transa : ascii) (alA : option (scal K)) (nI nK : Z) (a : qarr) (Ai lda : Z) (aPack : qarr) : res qarr :=
  if Ascii.eqb transa "T" then tpack T1 false alA nK nI a Ai lda aPack
  else if Ascii.eqb transa "C" then tpack T1 true alA nK nI a Ai lda aPack
  else if Ascii.eqb transa "R" then npack T1 true alA nI nK a Ai lda aPack
  else npack T1 false alA nI nK a Ai lda aPack.

(** gemm.cxx:141-159: register tiles of one (nI x nJ) block; MR = NR = 2 (gemm.hpp:29-30) *)
Definition gemm_tiles (nI nJ nK : Z) (aa : Z) (aPack : qarr) (ba : Z) (bPack : qarr) (c : qarr) (Ci ldc : Z) : res qarr :=
  '(c, _, _) <- zforstep 0 nJ 2 (fun jj '(c, BL1, CBlk) =>
    let nJJJ := Z.min 2 (nJ - jj) in
    '(c, _, _) <- zforstep 0 nI 2 (fun ii '(c, smallA, smallC) =>
      let nIII := Z.min 2 (nI - ii) in
      c <- kern nIII nJJJ nK aa aPack smallA ba bPack BL1 c smallC ldc ;;
      Ok (c, smallA + 2 * nK, smallC + 2)) (c, 0, CBlk) ;;
    Ok (c, BL1 + 2 * nK, CBlk + 2 * ldc)) (c, 0, Ci) ;;
  Ok c.

(** gemm.cxx:113-166: the MC loop *)
Definition gemm_mc (mc : Z) (transa : ascii) (m : Z) (alA : option (scal K)) (nJ nK : Z) (a : qarr) (Ap lda : Z)
    (aa : Z) (aPack : qarr) (ba : Z) (bPack : qarr) (c : qarr) (Cj ldc : Z) : res (qarr * qarr) :=
  '(c, aPack, _, _) <- zforstep 0 m mc (fun i '(c, aPack, Ai, Ci) =>
    let nI := Z.min (m - i) mc in
    aPack <- apack_call transa alA nI nK a Ai lda aPack ;;
    c <- gemm_tiles nI nJ nK aa aPack ba bPack c Ci ldc ;;
    let Ai := if Ascii.eqb transa "T" || Ascii.eqb transa "C" then Ai + nI * lda else Ai + nI in
    Ok (c, aPack, Ai, Ci + nI)) (c, aPack, Ap, Cj) ;;
  Ok (c, aPack).

(** gemm.cxx:89-173: the KC loop *)
Definition gemm_kc (mc kc : Z) (transa transb : ascii) (m k : Z) (alA alB : option (scal K)) (nJ : Z) (a : qarr) (lda : Z)
    (b : qarr) (Bj ldb : Z) (aa : Z) (aPack : qarr) (ba : Z) (bPack : qarr) (c : qarr) (Cj ldc : Z) : res (qarr * qarr * qarr) :=
  '(c, aPack, bPack, _, _) <- zforstep 0 k kc (fun kk '(c, aPack, bPack, Ap, Bp) =>
    let nK := Z.min (k - kk) kc in
    bPack <- bpack_call transb alB nJ nK b Bp ldb bPack ;;
    '(c, aPack) <- gemm_mc mc transa m alA nJ nK a Ap lda aa aPack ba bPack c Cj ldc ;;
    let Ap := if Ascii.eqb transa "T" || Ascii.eqb transa "C" then Ap + nK else Ap + nK * lda in
    let Bp := if Ascii.eqb transb "T" || Ascii.eqb transb "C" then Bp + nK * ldb else Bp + nK in
    Ok (c, aPack, bPack, Ap, Bp)) (c, aPack, bPack, 0, Bj) ;;
  Ok (c, aPack, bPack).

(** gemm.cxx:81-179: the NC loop *)
Definition gemm_nc (mc nc kc : Z) (transa transb : ascii) (m n k : Z) (alA alB : option (scal K)) (a : qarr) (lda : Z)
    (b : qarr) (ldb : Z) (aa : Z) (aPack : qarr) (ba : Z) (bPack : qarr) (c : qarr) (ldc : Z) : res qarr :=
  '(c, _, _, _, _) <- zforstep 0 n nc (fun j '(c, aPack, bPack, Bj, Cj) =>
    let nJ := Z.min (n - j) nc in
    '(c, aPack, bPack) <- gemm_kc mc kc transa transb m k alA alB nJ a lda b Bj ldb aa aPack ba bPack c Cj ldc ;;
    let Cj := Cj + nJ * ldc in
    let Bj := if Ascii.eqb transb "T" || Ascii.eqb transb "C" then Bj + nJ else Bj + nJ * ldb in
    Ok (c, aPack, bPack, Bj, Cj)) (c, aPack, bPack, 0, 0) ;;
  Ok c.

(** gemm.cxx:56-59: aligned_alloc(REQ_ALIGN, nelem * sizeof(quaternion)): nelem elements of arbitrary content *)
Definition aligned_buf (nelem : Z) (garbage : Z -> quat K) : qarr :=
  fun p => if (0 <=? p) && (p <? nelem) then Some (garbage p) else None.

(** gemm.cxx:41-184, with the scalars given to the two packs left as arguments (gemm.hpp:33-40).
    [aa], [ba]: the addresses aligned_alloc returns (assumed not NULL); [ga], [gb]: the uninitialised
    contents of the buffers; [ca]: byte address of C (SCALM chooses aligned or unaligned loads from it). *)
Definition gemm_opt_at (mc nc kc : Z) (aa ba : Z) (ga gb : Z -> quat K)
    (transa transb : ascii) (m n k : Z) (alA alB : option (scal K)) (a : qarr) (lda : Z) (b : qarr) (ldb : Z)
    (beta : scal K) (ca : Z) (c : qarr) (ldc : Z) : res qarr :=
  let bPack := aligned_buf (FixMod (kc * nc) REQ_ALIGN) gb in
  let aPack := aligned_buf (FixMod (kc * mc) REQ_ALIGN) ga in
  c <- scalm_avx "L" "N" m n beta ca c ldc 1 ;;
  gemm_nc mc nc kc transa transb m n k alA alB a lda b ldb aa aPack ba bPack c ldc.
(** the build as it is: _FACTOR_ALPHA_IN_A_PACK defined (gemm.hpp:34) *)
Definition gemm_opt (mc nc kc : Z) (aa ba : Z) (ga gb : Z -> quat K)
    (transa transb : ascii) (m n k : Z) (alpha : scal K) (a : qarr) (lda : Z) (b : qarr) (ldb : Z)
    (beta : scal K) (ca : Z) (c : qarr) (ldc : Z) : res qarr :=
  gemm_opt_at mc nc kc aa ba ga gb transa transb m n k (Some alpha) None a lda b ldb beta ca c ldc.
(** the alternative the header offers: line 34 commented out and line 35 (_FACTOR_ALPHA_IN_B_PACK) enabled *)
Definition gemm_opt_fb (mc nc kc : Z) (aa ba : Z) (ga gb : Z -> quat K)
    (transa transb : ascii) (m n k : Z) (alpha : scal K) (a : qarr) (lda : Z) (b : qarr) (ldb : Z)
    (beta : scal K) (ca : Z) (c : qarr) (ldc : Z) : res qarr :=
  gemm_opt_at mc nc kc aa ba ga gb transa transb m n k None (Some alpha) a lda b ldb beta ca c ldc.
(** the default build: gemm.hpp:18-26 *)
Definition gemm_opt_default := gemm_opt 64 512 64.
End G.
