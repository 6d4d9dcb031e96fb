(** The C++ kernels of MOptL1.v, MGenM.v, MPack.v and MOptGemm.v as trees of single double accesses (SpecPar.v), for concurrent calls: same code, statement by
    statement, with the operands outside.  A pointer argument is a slot number; locals, registers and the pack buffers (allocated by the call,
    gemm.cxx:56-59) belong to the call.  IoOptFacts.v proves that the trees run alone are the kernels. *)
From Coq Require Import ZArith Bool Ascii List.
From Verif Require Import Num Res SpecPar FIo MQuat MSimd MOptL1 MGenL1 MGenM MPack MOptGemm.
Local Open Scope Z_scope.

(** zforstep of Res.v *)
Definition ioforstep {V S} (lo hi step : Z) (body : Z -> S -> io V S) (s : S) : io V S :=
  iofor 0 ((hi - lo + step - 1) / step) (fun t s => body (lo + step * t) s) s.

Section O.
Context {K : num}.
Local Notation qarr := (arr (quat K)).
(** MOptL1.vld, vst: intrin_alias.hpp:19-46.  A 256-bit access is four accesses of a double here: weaker than what the hardware does *)
Definition vget (al : bool) (a : Z) (x : nat) (e : Z) : io K (m256 K) :=
  if al && negb ((a + 32 * e) mod 32 =? 0) then Bad else
  Get x (4 * e) (fun qr => Get x (4 * e + 1) (fun qi => Get x (4 * e + 2) (fun qj => Get x (4 * e + 3) (fun qk => Ret (v_of_q (Quat qr qi qj qk)))))).
Definition vput (al : bool) (a : Z) (x : nat) (e : Z) (v : m256 K) : io K unit :=
  if al && negb ((a + 32 * e) mod 32 =? 0) then Bad else
  let q := q_of_v v in Put x (4 * e) (qr q) (Put x (4 * e + 1) (qi q) (Put x (4 * e + 2) (qj q) (Put x (4 * e + 3) (qk q) (Ret tt)))).

(** copy_swap.cxx:22-101; X is slot 0, Y slot 1 *)
Definition swapv_io (n : Z) (xa incx ya incy : Z) : io K unit :=
  let nbatch := Z.quot n 1 in
  let isAligned := IS_ALIGNED xa && IS_ALIGNED ya in
  let body al := fun (_ : Z) '(locX, locY) =>
    x1 <~ vget al xa 0 locX ;;
    y1 <~ vget al ya 1 locY ;;
    _ <~ vput al ya 1 locY x1 ;;
    _ <~ vput al xa 0 locX y1 ;;
    Ret (locX + incx, locY + incy) in
  _ <~ (if isAligned then iofor 0 nbatch (body true) (0, 0) else iofor 0 nbatch (body false) (0, 0)) ;;
  Ret tt.
Definition copyv_io (n : Z) (xa incx ya incy : Z) : io K unit :=
  let nbatch := Z.quot n 1 in
  let isAligned := IS_ALIGNED xa && IS_ALIGNED ya in
  let body al := fun (_ : Z) '(locX, locY) =>
    x1 <~ vget al xa 0 locX ;;
    _ <~ vput al ya 1 locY x1 ;;
    Ret (locX + incx, locY + incy) in
  _ <~ (if isAligned then iofor 0 nbatch (body true) (0, 0) else iofor 0 nbatch (body false) (0, 0)) ;;
  Ret tt.
(** axpy_scal.cxx:26-212 with _SCAL; X starts at element [o] of slot [s], byte address [xa] *)
Definition scalv_io (side : ascii) (n : Z) (alpha : scal K) (xa : Z) (s : nat) (o incx : Z) : io K unit :=
  let nbatch := Z.quot n 1 in
  let mulLeft := Ascii.eqb side "L" in
  let isAligned := IS_ALIGNED xa in
  _ <~ iofor 0 nbatch (fun _ locX =>
    x1 <~ vget isAligned (xa - 32 * o) s (o + locX) ;;
    let x1 := scal_step mulLeft alpha x1 in
    _ <~ vput isAligned (xa - 32 * o) s (o + locX) x1 ;;
    Ret (locX + 1 * incx)) 0 ;;
  Ret tt.
(** axpy_scal.cxx:26-212 with _AXPY; X at element [ox] of slot 0, Y at element [oy] of slot 1 *)
Definition axpyv_io (side : ascii) (n : Z) (alpha : scal K) (xa ox incx ya oy incy : Z) : io K unit :=
  let nbatch := Z.quot n 1 in
  let mulLeft := Ascii.eqb side "L" in
  let isAligned := IS_ALIGNED xa && IS_ALIGNED ya in
  _ <~ iofor 0 nbatch (fun _ '(locX, locY) =>
    x1 <~ vget isAligned (xa - 32 * ox) 0 (ox + locX) ;;
    y1 <~ vget isAligned (ya - 32 * oy) 1 (oy + locY) ;;
    let y1 := axpy_step mulLeft alpha x1 y1 in
    _ <~ vput isAligned (ya - 32 * oy) 1 (oy + locY) y1 ;;
    Ret (locX + 1 * incx, locY + 1 * incy)) (0, 0) ;;
  Ret tt.
(** dot.cxx:20-175 *)
Definition dot_io (cnj : bool) (n : Z) (xa incx ya incy : Z) : io K (quat K) :=
  let nbatch := Z.quot n 4 in
  let nleft := Z.rem n 4 in
  let al := IS_ALIGNED xa && IS_ALIGNED ya in
  '(r, locX, locY) <~ iofor 0 nbatch (fun _ '(r, locX, locY) =>
    x1 <~ vget al xa 0 locX ;;
    x2 <~ vget al xa 0 (locX + incx) ;;
    x3 <~ vget al xa 0 (locX + 2 * incx) ;;
    x4 <~ vget al xa 0 (locX + 3 * incx) ;;
    y1 <~ vget al ya 1 locY ;;
    y2 <~ vget al ya 1 (locY + incy) ;;
    y3 <~ vget al ya 1 (locY + 2 * incy) ;;
    y4 <~ vget al ya 1 (locY + 3 * incy) ;;
    let X := TRANSPOSE_4x4 (M4 x1 x2 x3 x4) in
    let Y := TRANSPOSE_4x4 (M4 y1 y2 y3 y4) in
    let r := if cnj then INC_MULD4Q_CN X Y r else INC_MULD4Q_NN X Y r in
    Ret (r, locX + 4 * incx, locY + 4 * incy))
    (M4 mm256_zero mm256_zero mm256_zero mm256_zero, 0, 0) ;;
  let R := TRANSPOSE_4x4 r in
  let r1 := mm256_add (w1 R) (w2 R) in
  let r1 := mm256_add r1 (w3 R) in
  let r1 := mm256_add r1 (w4 R) in
  r1 <~ iofor 0 nleft (fun i r1 =>
    x1 <~ vget al xa 0 (locX + i * incx) ;;
    y1 <~ vget al ya 1 (locY + i * incy) ;;
    Ret (mm256_add r1 (if cnj then MULDQ_CN x1 y1 else MULDQ_NN x1 y1))) r1 ;;
  Ret (q_of_v r1).
(** hblas_scalm_impl.hpp:25-42 and hblas_axpym_impl.hpp:21-42 linked with axpy_scal.cxx *)
Definition scalm_io (side transa : ascii) (m n : Z) (alpha : scal K) (aa : Z) (s : nat) (lda inca : Z) : io K unit :=
  if (n <=? 0) || (m <=? 0) || (inca <=? 0) then Ret tt else
  _ <~ lift (assertb (Ascii.eqb transa "N")) ;;
  _ <~ iofor 0 n (fun j locA =>
    _ <~ scalv_io side m alpha (aa + 32 * locA) s locA inca ;;
    Ret (locA + lda)) 0 ;;
  Ret tt.
Definition axpym_io (side transa : ascii) (m n : Z) (alpha : scal K) (aa lda inca ba ldb incb : Z) : io K unit :=
  if (n <=? 0) || (m <=? 0) then Ret tt else
  if s_eqb alpha n0 then Ret tt else
  _ <~ lift (assertb (Ascii.eqb transa "N")) ;;
  _ <~ iofor 0 n (fun j '(locA, locB) =>
    _ <~ axpyv_io side m alpha (aa + 32 * locA) locA inca (ba + 32 * locB) locB incb ;;
    Ret (locA + lda, locB + ldb)) (0, 0) ;;
  Ret tt.

(** pack.hpp:81-96, 169-182; the operand is slot [x], the buffer is the call's own *)
Definition pack_loop_io (o : packop) (cnj : bool) (alpha : option (scal K)) (cnt inc : Z) (x : nat) (p1 : Z) (p2 : option Z)
    (pos : Z) (buf : qarr) : io K (Z * qarr) :=
  '(_, _, pos, buf) <~ iofor 0 cnt (fun _ '(p1, p2, pos, buf) =>
    x1 <~ vget false 0 x p1 ;;
    x2 <~ match p2 with Some p => vget false 0 x p | None => Ret mm256_zero end ;;
    let '(t1, t2) := packOP o (preOP cnj alpha x1) (preOP cnj alpha x2) in
    buf <~ lift (vst false 0 buf pos t1) ;;
    buf <~ lift (vst false 0 buf (pos + 1) t2) ;;
    Ret (p1 + inc, option_map (fun p => p + inc) p2, pos + 2, buf)) (p1, p2, pos, buf) ;;
  Ret (pos, buf).
(** pack.hpp:28-127 *)
Definition tpack_io (o : packop) (cnj : bool) (alpha : option (scal K)) (m n : Z) (x : nat) (x0 ldx : Z) (buf : qarr) : io K qarr :=
  '(xb, pos, buf) <~ iofor 0 (Z.quot n 2) (fun _ '(xb, pos, buf) =>
    '(pos, buf) <~ pack_loop_io o cnj alpha m 1 x xb (Some (xb + ldx)) pos buf ;;
    Ret (xb + 2 * ldx, pos, buf)) (x0, 0, buf) ;;
  let j := Z.rem n 2 in
  if j =? 0 then Ret buf else
  _ <~ lift (assertb (j =? 1)) ;;
  '(_, buf) <~ pack_loop_io o cnj alpha m 1 x xb None pos buf ;;
  Ret buf.
(** pack.hpp:133-234 *)
Definition npack_io (o : packop) (cnj : bool) (alpha : option (scal K)) (m n : Z) (x : nat) (x0 ldx : Z) (buf : qarr) : io K qarr :=
  '(xb, pos, buf) <~ iofor 0 (Z.quot m 2) (fun _ '(xb, pos, buf) =>
    '(pos, buf) <~ pack_loop_io o cnj alpha n ldx x xb (Some (xb + 1)) pos buf ;;
    Ret (xb + 2 * 1, pos, buf)) (x0, 0, buf) ;;
  let i := Z.rem m 2 in
  if i =? 0 then Ret buf else
  _ <~ lift (assertb (i =? 1)) ;;
  '(_, buf) <~ pack_loop_io o cnj alpha n ldx x xb None pos buf ;;
  Ret buf.
(** kern.cxx:27-133; C is slot 2 *)
Definition kern_io (m n k : Z) (aa : Z) (a : qarr) (oa : Z) (ba : Z) (b : qarr) (ob : Z) (oc ldc : Z) : io K unit :=
  let m2 := m =? 2 in
  let n2 := n =? 2 in
  c00 <~ vget false 0 2 oc ;;
  c10 <~ (if m2 then vget false 0 2 (oc + 1) else Ret mm256_zero) ;;
  c01 <~ (if n2 then vget false 0 2 (oc + ldc) else Ret mm256_zero) ;;
  c11 <~ (if m2 && n2 then vget false 0 2 (oc + ldc + 1) else Ret mm256_zero) ;;
  let r := TRANSPOSE_4x4 (M4 c00 c01 c10 c11) in
  '(r, _, _) <~ lift (zfor 0 k (fun _ '(r, locA, locB) =>
    a00 <- vld true aa a locA ;;
    a10 <- vld true aa a (locA + 1) ;;
    b00lo <- vld128 ba b locB false ;;
    b00hi <- vld128 ba b locB true ;;
    b10lo <- vld128 ba b (locB + 1) false ;;
    b10hi <- vld128 ba b (locB + 1) true ;;
    let a_IIII := mm256_permute a00 0xF in
    let a00 := mm256_permute a00 0x0 in
    let a_KKKK := mm256_permute a10 0xF in
    let a10 := mm256_permute a10 0x0 in
    let bSSSS := set256 b00lo b00lo in
    let bIIII := set256 b10lo b10lo in
    let bJJJJ := set256 b00hi b00hi in
    let bKKKK := set256 b10hi b10hi in
    let r := INC_MULD4Q_NN (M4 a00 a_IIII a10 a_KKKK) (M4 bSSSS bIIII bJJJJ bKKKK) r in
    Ok (r, locA + 2, locB + 2)) (r, oa, ob)) ;;
  let r := TRANSPOSE_4x4 r in
  _ <~ vput false 0 2 oc (w1 r) ;;
  _ <~ (if m2 then vput false 0 2 (oc + 1) (w3 r) else Ret tt) ;;
  _ <~ (if n2 then vput false 0 2 (oc + ldc) (w2 r) else Ret tt) ;;
  if m2 && n2 then vput false 0 2 (oc + ldc + 1) (w4 r) else Ret tt.
(** gemm.cxx:99-108, 125-133; A is slot 0, B slot 1 *)
Definition bpack_call_io (transb : ascii) (alB : option (scal K)) (nJ nK : Z) (Bp ldb : Z) (bPack : qarr) : io K qarr :=
  if Ascii.eqb transb "T" then npack_io T2 false alB nJ nK 1 Bp ldb bPack
  else if Ascii.eqb transb "C" then npack_io T2 true alB nJ nK 1 Bp ldb bPack
  else if Ascii.eqb transb "R" then tpack_io T2 true alB nK nJ 1 Bp ldb bPack
  else tpack_io T2 false alB nK nJ 1 Bp ldb bPack.
Definition apack_call_io (transa : ascii) (alA : option (scal K)) (nI nK : Z) (Ai lda : Z) (aPack : qarr) : io K qarr :=
  if Ascii.eqb transa "T" then tpack_io T1 false alA nK nI 0 Ai lda aPack
  else if Ascii.eqb transa "C" then tpack_io T1 true alA nK nI 0 Ai lda aPack
  else if Ascii.eqb transa "R" then npack_io T1 true alA nI nK 0 Ai lda aPack
  else npack_io T1 false alA nI nK 0 Ai lda aPack.
(** gemm.cxx:141-159 *)
Definition gemm_tiles_io (nI nJ nK : Z) (aa : Z) (aPack : qarr) (ba : Z) (bPack : qarr) (Ci ldc : Z) : io K unit :=
  _ <~ ioforstep 0 nJ 2 (fun jj '(BL1, CBlk) =>
    let nJJJ := Z.min 2 (nJ - jj) in
    _ <~ ioforstep 0 nI 2 (fun ii '(smallA, smallC) =>
      let nIII := Z.min 2 (nI - ii) in
      _ <~ kern_io nIII nJJJ nK aa aPack smallA ba bPack BL1 smallC ldc ;;
      Ret (smallA + 2 * nK, smallC + 2)) (0, CBlk) ;;
    Ret (BL1 + 2 * nK, CBlk + 2 * ldc)) (0, Ci) ;;
  Ret tt.
(** gemm.cxx:113-166 *)
Definition gemm_mc_io (mc : Z) (transa : ascii) (m : Z) (alA : option (scal K)) (nJ nK : Z) (Ap lda : Z)
    (aa : Z) (aPack : qarr) (ba : Z) (bPack : qarr) (Cj ldc : Z) : io K qarr :=
  '(aPack, _, _) <~ ioforstep 0 m mc (fun i '(aPack, Ai, Ci) =>
    let nI := Z.min (m - i) mc in
    aPack <~ apack_call_io transa alA nI nK Ai lda aPack ;;
    _ <~ gemm_tiles_io nI nJ nK aa aPack ba bPack Ci ldc ;;
    let Ai := if Ascii.eqb transa "T" || Ascii.eqb transa "C" then Ai + nI * lda else Ai + nI in
    Ret (aPack, Ai, Ci + nI)) (aPack, Ap, Cj) ;;
  Ret aPack.
(** gemm.cxx:89-173 *)
Definition gemm_kc_io (mc kc : Z) (transa transb : ascii) (m k : Z) (alA alB : option (scal K)) (nJ : Z) (lda : Z)
    (Bj ldb : Z) (aa : Z) (aPack : qarr) (ba : Z) (bPack : qarr) (Cj ldc : Z) : io K (qarr * qarr) :=
  '(aPack, bPack, _, _) <~ ioforstep 0 k kc (fun kk '(aPack, bPack, Ap, Bp) =>
    let nK := Z.min (k - kk) kc in
    bPack <~ bpack_call_io transb alB nJ nK Bp ldb bPack ;;
    aPack <~ gemm_mc_io mc transa m alA nJ nK Ap lda aa aPack ba bPack Cj ldc ;;
    let Ap := if Ascii.eqb transa "T" || Ascii.eqb transa "C" then Ap + nK else Ap + nK * lda in
    let Bp := if Ascii.eqb transb "T" || Ascii.eqb transb "C" then Bp + nK * ldb else Bp + nK in
    Ret (aPack, bPack, Ap, Bp)) (aPack, bPack, 0, Bj) ;;
  Ret (aPack, bPack).
(** gemm.cxx:81-179 *)
Definition gemm_nc_io (mc nc kc : Z) (transa transb : ascii) (m n k : Z) (alA alB : option (scal K)) (lda : Z)
    (ldb : Z) (aa : Z) (aPack : qarr) (ba : Z) (bPack : qarr) (ldc : Z) : io K unit :=
  _ <~ ioforstep 0 n nc (fun j '(aPack, bPack, Bj, Cj) =>
    let nJ := Z.min (n - j) nc in
    '(aPack, bPack) <~ gemm_kc_io mc kc transa transb m k alA alB nJ lda Bj ldb aa aPack ba bPack Cj ldc ;;
    let Cj := Cj + nJ * ldc in
    let Bj := if Ascii.eqb transb "T" || Ascii.eqb transb "C" then Bj + nJ else Bj + nJ * ldb in
    Ret (aPack, bPack, Bj, Cj)) (aPack, bPack, 0, 0) ;;
  Ret tt.
(** gemm.cxx:41-184, _FACTOR_ALPHA_IN_A_PACK *)
Definition gemm_io (mc nc kc : Z) (aa ba : Z) (ga gb : Z -> quat K) (transa transb : ascii) (m n k : Z) (alpha : scal K) (lda ldb : Z)
    (beta : scal K) (ca : Z) (ldc : Z) : io K unit :=
  let bPack := aligned_buf (FixMod (kc * nc) REQ_ALIGN) gb in
  let aPack := aligned_buf (FixMod (kc * mc) REQ_ALIGN) ga in
  _ <~ scalm_io "L" "N" m n beta ca 2 ldc 1 ;;
  gemm_nc_io mc nc kc transa transb m n k (Some alpha) None lda ldb aa aPack ba bPack ldc.
End O.
