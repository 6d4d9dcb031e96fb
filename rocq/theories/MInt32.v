(** The index arithmetic that the C++ code performs in HAXX_INT = int32_t (cmake/HAXXCompilerFlags.cmake:65-68), made
    explicit: every product, sum and increment of HAXX_INT values that an index or a pointer offset is computed from goes
    through [i32], which is UB outside the 32-bit range (signed overflow).  Pointer + integer and size_t arithmetic is
    64 bits wide and unchecked.  Everything else is as in MGenL1.v, MGenL2.v, MOptL1.v, MOptGemm.v, whose definitions
    are reused where no HAXX_INT arithmetic occurs. *)
From Coq Require Import ZArith Bool Ascii.
From Verif Require Import Num Res MQuat MSimd MOptL1 MGenL1 MGenM MGenL2 MPack MOptGemm.
Local Open Scope Z_scope.

(** a HAXX_INT result (cmake/HAXXCompilerFlags.cmake:65-68): signed overflow is undefined *)
Definition i32 (v : Z) : res Z := if (- 2 ^ 31 <=? v) && (v <? 2 ^ 31) then Ok v else UB.

Section L1.
Context {K : num}.
Local Notation qarr := (arr (quat K)).

(** dot.cxx:20-175 *)
Definition dot_opt32 (cnj : bool) (n : Z) (xa : Z) (x : qarr) (incx : Z) (ya : Z) (y : qarr) (incy : Z) : res (quat K) :=
  let nbatch := Z.quot n 4 in
  let nleft := Z.rem n 4 in
  let al := IS_ALIGNED xa && IS_ALIGNED ya in
  '(r, locX, locY) <- zfor 0 nbatch (fun _ '(r, locX, locY) =>
    i2x <- i32 (2 * incx) ;; i3x <- i32 (3 * incx) ;; i4x <- i32 (4 * incx) ;;
    i2y <- i32 (2 * incy) ;; i3y <- i32 (3 * incy) ;; i4y <- i32 (4 * incy) ;;
    x1 <- vld al xa x locX ;;
    x2 <- vld al xa x (locX + incx) ;;
    x3 <- vld al xa x (locX + i2x) ;;
    x4 <- vld al xa x (locX + i3x) ;;
    y1 <- vld al ya y locY ;;
    y2 <- vld al ya y (locY + incy) ;;
    y3 <- vld al ya y (locY + i2y) ;;
    y4 <- vld al ya y (locY + i3y) ;;
    let X := TRANSPOSE_4x4 (M4 x1 x2 x3 x4) in
    let Y := TRANSPOSE_4x4 (M4 y1 y2 y3 y4) in
    let r := if cnj then INC_MULD4Q_CN X Y r else INC_MULD4Q_NN X Y r in
    Ok (r, locX + i4x, locY + i4y))
    (M4 mm256_zero mm256_zero mm256_zero mm256_zero, 0, 0) ;;
  let R := TRANSPOSE_4x4 r in
  let r1 := mm256_add (w1 R) (w2 R) in
  let r1 := mm256_add r1 (w3 R) in
  let r1 := mm256_add r1 (w4 R) in
  r1 <- zfor 0 nleft (fun i r1 =>
    px <- i32 (i * incx) ;; py <- i32 (i * incy) ;;
    x1 <- vld al xa x (locX + px) ;;
    y1 <- vld al ya y (locY + py) ;;
    Ok (mm256_add r1 (if cnj then MULDQ_CN x1 y1 else MULDQ_NN x1 y1))) r1 ;;
  Ok (q_of_v r1).

(** hblas_scalv_impl.hpp:75-81, the strided branch: NINCX = N*INCX, i += INCX *)
Definition scalv_gen32 (qmul : quat K -> quat K -> quat K) (side : ascii) (n : Z) (alpha : scal K) (x : qarr) (incx : Z) : res qarr :=
  if (n <=? 0) || (incx <=? 0) then Ok x else
  if incx =? 1 then scalv_gen qmul side n alpha x incx else
  let isL := negb (Ascii.eqb side "R") in
  nincx <- i32 (n * incx) ;;
  zforstep 0 nincx incx (fun i x =>
    x <- scal1 qmul isL alpha i x ;; _ <- i32 (i + incx) ;; Ok x) x.
End L1.

Section G.
Context {K : num} {MT : Type}.
Local Notation qarr := (arr (quat K)).
Variable qmul : quat K -> quat K -> quat K.
Variable mmul : MT -> quat K -> quat K.
Variable aM Ma : scal K -> MT -> MT.
Variable msub : MT -> MT -> MT.
Variable mconj : MT -> MT.

(** include/util/macro.hpp:16: RANK2_INDX(i,j,N) = i + j*N *)
Definition rank2_32 (i j lda : Z) : res Z := p <- i32 (j * lda) ;; i32 (i + p).

(** hblas_gemv_impl.hpp:82-105 *)
Definition gemv_beta32 (beta : scal K) (leny : Z) (y : qarr) (incy : Z) : res qarr :=
  if s_eqb beta n1 then Ok y else
  if incy =? 1 then
    if s_eqb beta n0 then zfor 0 leny (fun i y => v <- ld y i ;; st y i (q_set_real v n0)) y
    else zfor 0 leny (fun i y => v <- ld y i ;; st y i (smul_l qmul beta v)) y
  else
    if s_eqb beta n0 then
      '(y, _) <- zfor 0 leny (fun _ '(y, iy) => y <- (v <- ld y iy ;; st y iy (q_set_real v n0)) ;; iy <- i32 (iy + incy) ;; Ok (y, iy)) (y, 0) ;; Ok y
    else
      '(y, _) <- zfor 0 leny (fun _ '(y, iy) => y <- (v <- ld y iy ;; st y iy (smul_l qmul beta v)) ;; iy <- i32 (iy + incy) ;; Ok (y, iy)) (y, 0) ;; Ok y.
(** hblas_gemv_impl.hpp:111-164 *)
Definition gemv_n32 (alpha : scal K) (m n : Z) (a : arr MT) (lda : Z) (x : qarr) (incx : Z) (y : qarr) (incy : Z) : res qarr :=
  if incy =? 1 then
    '(y, _) <- zfor 0 n (fun j '(y, jx) =>
      y <- (v <- ld x jx ;;
            zfor 0 m (fun i y => p <- rank2_32 i j lda ;; aij <- ld a p ;; gemv_n_step qmul mmul aM Ma msub alpha aij v i y) y) ;;
      jx <- i32 (jx + incx) ;; Ok (y, jx)) (y, 0) ;; Ok y
  else
    '(y, _) <- zfor 0 n (fun j '(y, jx) =>
      y <- (v <- ld x jx ;;
            '(y, _) <- zfor 0 m (fun i '(y, iy) => p <- rank2_32 i j lda ;; y <- (aij <- ld a p ;; gemv_n_step qmul mmul aM Ma msub alpha aij v iy y) ;; iy <- i32 (iy + incy) ;; Ok (y, iy)) (y, 0) ;; Ok y) ;;
      jx <- i32 (jx + incx) ;; Ok (y, jx)) (y, 0) ;; Ok y.
(** hblas_gemv_impl.hpp:164-209 *)
Definition gemv_t32 (alpha : scal K) (noconj : bool) (m n : Z) (a : arr MT) (lda : Z) (x : qarr) (incx : Z) (y : qarr) (incy : Z) : res qarr :=
  let z := q_of_real n0 in
  '(y, _) <- zfor 0 n (fun j '(y, jy) =>
    y <- (h <- (if incx =? 1 then zfor 0 m (fun i h => p <- rank2_32 i j lda ;; aij <- ld a p ;; v <- ld x i ;; Ok (gemv_dot mmul mconj noconj aij v h)) z
                else '(h, _) <- zfor 0 m (fun i '(h, ix) => p <- rank2_32 i j lda ;; h <- (aij <- ld a p ;; v <- ld x ix ;; Ok (gemv_dot mmul mconj noconj aij v h)) ;; ix <- i32 (ix + incx) ;; Ok (h, ix)) (z, 0) ;; Ok h) ;;
          w <- ld y jy ;; st y jy (q_addeq w (smul_l qmul alpha h))) ;;
    jy <- i32 (jy + incy) ;; Ok (y, jy)) (y, 0) ;; Ok y.
(** hblas_gemv_impl.hpp:48-211 *)
Definition gemv_gen32 (trans : ascii) (m n : Z) (alpha : scal K) (a : arr MT) (lda : Z) (x : qarr) (incx : Z) (beta : scal K)
    (y : qarr) (incy : Z) : res qarr :=
  if (m =? 0) || (n =? 0) || (s_eqb alpha n0 && s_eqb beta n1) then Ok y else
  _ <- assertb (incx >? 0) ;; _ <- assertb (incy >? 0) ;;
  let noconj := Ascii.eqb trans "T" in
  let leny := if negb (Ascii.eqb trans "N") then n else m in
  y <- gemv_beta32 beta leny y incy ;;
  if s_eqb alpha n0 then Ok y else
  if Ascii.eqb trans "N" then gemv_n32 alpha m n a lda x incx y incy
  else gemv_t32 alpha noconj m n a lda x incx y incy.

(** hblas_gemm_impl.hpp:86-101, 134-149, 152-167: CCol = C + j*LDC, ACol = A + l*LDA; [bq] computes the offset into B and reads *)
Definition gemm_nota32 (m n k : Z) (alpha : scal K) (a : arr MT) (lda : Z) (bq : Z -> Z -> res (quat K)) (beta : scal K)
    (c : qarr) (ldc : Z) : res qarr :=
  zfor 0 n (fun j c =>
    cj <- i32 (j * ldc) ;;
    c <- (if s_eqb beta n0 then zfor 0 m (fun i c => gemm_scale qmul beta true (i + cj) c) c
          else if negb (s_eqb beta n1) then zfor 0 m (fun i c => gemm_scale qmul beta false (i + cj) c) c
          else Ok c) ;;
    zfor 0 k (fun l c =>
      al <- i32 (l * lda) ;;
      zfor 0 m (fun i c =>
        w <- ld c (i + cj) ;; ail <- ld a (i + al) ;; blj <- bq l j ;;
        st c (i + cj) (q_addeq w (mmul (aM alpha ail) blj))) c) c) c.
(** hblas_gemm_impl.hpp:103-115, 118-130, 171-182, 184-195, 200-211, 213-224 *)
Definition gemm_transa32 (ca : bool) (m n k : Z) (alpha : scal K) (a : arr MT) (lda : Z) (bq : Z -> Z -> res (quat K)) (beta : scal K)
    (c : qarr) (ldc : Z) : res qarr :=
  zfor 0 n (fun j c =>
    cj <- i32 (j * ldc) ;;
    zfor 0 m (fun i c =>
      ai <- i32 (i * lda) ;;
      h <- zfor 0 k (fun l h =>
             ali <- ld a (l + ai) ;; blj <- bq l j ;;
             Ok (q_addeq h (mmul (if ca then mconj ali else ali) blj))) (q_of_real n0) ;;
      w <- ld c (i + cj) ;;
      st c (i + cj) (if s_eqb beta n0 then smul_l qmul alpha h
                          else q_add (smul_l qmul alpha h) (smul_l qmul beta w))) c) c.
(** hblas_gemm_impl.hpp:17-227.  Simplification: the offset into B, computed once per column (row) by the code, is
    recomputed per element. *)
Definition gemm_gen32 (transa transb : ascii) (m n k : Z) (alpha : scal K) (a : arr MT) (lda : Z) (b : qarr) (ldb : Z)
    (beta : scal K) (c : qarr) (ldc : Z) : res qarr :=
  let nota := Ascii.eqb transa "N" in
  let notb := Ascii.eqb transb "N" in
  let conja := Ascii.eqb transa "C" in
  let conjb := Ascii.eqb transb "C" in
  if (m =? 0) || (n =? 0) || ((s_eqb alpha n0 || (k =? 0)) && s_eqb beta n1) then Ok c else
  if s_eqb alpha n0 then
    zfor 0 n (fun j c => cj <- i32 (j * ldc) ;; zfor 0 m (fun i c => gemm_scale qmul beta (s_eqb beta n0) (i + cj) c) c) c
  else
  let bN l j := p <- i32 (j * ldb) ;; ld b (l + p) in
  let bT l j := p <- i32 (l * ldb) ;; ld b (j + p) in
  let bC l j := p <- i32 (l * ldb) ;; v <- ld b (j + p) ;; Ok (q_conj v) in
  if notb then
    if nota then gemm_nota32 m n k alpha a lda bN beta c ldc
    else if conja then gemm_transa32 true m n k alpha a lda bN beta c ldc
    else gemm_transa32 false m n k alpha a lda bN beta c ldc
  else if nota then
    if conjb then gemm_nota32 m n k alpha a lda bC beta c ldc
    else gemm_nota32 m n k alpha a lda bT beta c ldc
  else if conja then
    if conjb then gemm_transa32 true m n k alpha a lda bC beta c ldc
    else gemm_transa32 true m n k alpha a lda bT beta c ldc
  else
    if conjb then gemm_transa32 false m n k alpha a lda bC beta c ldc
    else gemm_transa32 false m n k alpha a lda bT beta c ldc.
End G.

Section R.
Context {K : num}.
Local Notation qarr := (arr (quat K)).
Variable qmul : quat K -> quat K -> quat K.
(** hblas_gemv_impl.hpp:48-211 at _MatF = double *)
Definition gemv_real32 trans m n (alpha : K) (a : arr K) lda (x : qarr) incx (beta : K) y incy : res qarr :=
  gemv_gen32 qmul r_mul_q rmulscal rscalmul nsub smartconj_r trans m n (SR alpha) a lda x incx (SR beta) y incy.
(** hblas_gemm_impl.hpp:17-227 at _AMatF = double *)
Definition gemm_real32 transa transb m n k (alpha : K) (a : arr K) lda (b : qarr) ldb (beta : K) c ldc : res qarr :=
  gemm_gen32 qmul r_mul_q rmulscal smartconj_r transa transb m n k (SR alpha) a lda b ldb (SR beta) c ldc.
End R.

Section O.
Context {K : num}.
Local Notation qarr := (arr (quat K)).

(** gemm.cxx:141-159 *)
Definition gemm_tiles32 (nI nJ nK : Z) (aa : Z) (aPack : qarr) (ba : Z) (bPack : qarr) (c : qarr) (Ci ldc : Z) : res qarr :=
  '(c, _, _) <- zforstep 0 nJ 2 (fun jj '(c, BL1, CBlk) =>
    let nJJJ := Z.min 2 (nJ - jj) in
    '(c, _, _) <- zforstep 0 nI 2 (fun ii '(c, smallA, smallC) =>
      let nIII := Z.min 2 (nI - ii) in
      c <- kern nIII nJJJ nK aa aPack smallA ba bPack BL1 c smallC ldc ;;
      da <- i32 (2 * nK) ;; _ <- i32 (ii + 2) ;;
      Ok (c, smallA + da, smallC + 2)) (c, 0, CBlk) ;;
    db <- i32 (2 * nK) ;; dc <- i32 (2 * ldc) ;; _ <- i32 (jj + 2) ;;
    Ok (c, BL1 + db, CBlk + dc)) (c, 0, Ci) ;;
  Ok c.
(** gemm.cxx:113-166 *)
Definition gemm_mc32 (mc : Z) (transa : ascii) (m : Z) (alA : option (scal K)) (nJ nK : Z) (a : qarr) (Ap lda : Z)
    (aa : Z) (aPack : qarr) (ba : Z) (bPack : qarr) (c : qarr) (Cj ldc : Z) : res (qarr * qarr) :=
  '(c, aPack, _, _) <- zforstep 0 m mc (fun i '(c, aPack, Ai, Ci) =>
    let nI := Z.min (m - i) mc in
    aPack <- apack_call transa alA nI nK a Ai lda aPack ;;
    c <- gemm_tiles32 nI nJ nK aa aPack ba bPack c Ci ldc ;;
    d <- (if Ascii.eqb transa "T" || Ascii.eqb transa "C" then i32 (nI * lda) else Ok nI) ;;
    _ <- i32 (i + mc) ;;
    Ok (c, aPack, Ai + d, Ci + nI)) (c, aPack, Ap, Cj) ;;
  Ok (c, aPack).
(** gemm.cxx:89-173 *)
Definition gemm_kc32 (mc kc : Z) (transa transb : ascii) (m k : Z) (alA alB : option (scal K)) (nJ : Z) (a : qarr) (lda : Z)
    (b : qarr) (Bj ldb : Z) (aa : Z) (aPack : qarr) (ba : Z) (bPack : qarr) (c : qarr) (Cj ldc : Z) : res (qarr * qarr * qarr) :=
  '(c, aPack, bPack, _, _) <- zforstep 0 k kc (fun kk '(c, aPack, bPack, Ap, Bp) =>
    let nK := Z.min (k - kk) kc in
    bPack <- bpack_call transb alB nJ nK b Bp ldb bPack ;;
    '(c, aPack) <- gemm_mc32 mc transa m alA nJ nK a Ap lda aa aPack ba bPack c Cj ldc ;;
    da <- (if Ascii.eqb transa "T" || Ascii.eqb transa "C" then Ok nK else i32 (nK * lda)) ;;
    db <- (if Ascii.eqb transb "T" || Ascii.eqb transb "C" then i32 (nK * ldb) else Ok nK) ;;
    _ <- i32 (kk + kc) ;;
    Ok (c, aPack, bPack, Ap + da, Bp + db)) (c, aPack, bPack, 0, Bj) ;;
  Ok (c, aPack, bPack).
(** gemm.cxx:81-179 *)
Definition gemm_nc32 (mc nc kc : Z) (transa transb : ascii) (m n k : Z) (alA alB : option (scal K)) (a : qarr) (lda : Z)
    (b : qarr) (ldb : Z) (aa : Z) (aPack : qarr) (ba : Z) (bPack : qarr) (c : qarr) (ldc : Z) : res qarr :=
  '(c, _, _, _, _) <- zforstep 0 n nc (fun j '(c, aPack, bPack, Bj, Cj) =>
    let nJ := Z.min (n - j) nc in
    '(c, aPack, bPack) <- gemm_kc32 mc kc transa transb m k alA alB nJ a lda b Bj ldb aa aPack ba bPack c Cj ldc ;;
    dc <- i32 (nJ * ldc) ;;
    db <- (if Ascii.eqb transb "T" || Ascii.eqb transb "C" then Ok nJ else i32 (nJ * ldb)) ;;
    _ <- i32 (j + nc) ;;
    Ok (c, aPack, bPack, Bj + db, Cj + dc)) (c, aPack, bPack, 0, 0) ;;
  Ok c.
(** gemm.cxx:41-184; HBLAS_SCALM works with pointers only *)
Definition gemm_opt32 (mc nc kc : Z) (aa ba : Z) (ga gb : Z -> quat K)
    (transa transb : ascii) (m n k : Z) (alpha : scal K) (a : qarr) (lda : Z) (b : qarr) (ldb : Z)
    (beta : scal K) (ca : Z) (c : qarr) (ldc : Z) : res qarr :=
  let bPack := aligned_buf (FixMod (kc * nc) REQ_ALIGN) gb in
  let aPack := aligned_buf (FixMod (kc * mc) REQ_ALIGN) ga in
  c <- scalm_avx "L" "N" m n beta ca c ldc 1 ;;
  gemm_nc32 mc nc kc transa transb m n k (Some alpha) None a lda b ldb aa aPack ba bPack c ldc.
End O.
