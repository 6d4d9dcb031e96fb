(** Optimised (AVX) level-1 kernels: src/hblas/cxx/hblas1/{copy_swap,axpy_scal,dot}.cxx.
    A vector argument is (byte address of element 0, array).  locX/locY are element cursors. *)
From Coq Require Import ZArith Bool Ascii.
From Verif Require Import Num Res MQuat MSimd.
Local Open Scope Z_scope.

(* include/util/simd.hpp:19, include/util/macro.hpp:19 *)
Definition REQ_ALIGN : Z := 32.
(** include/util/macro.hpp:19 *)
Definition IS_ALIGNED (addr : Z) : bool := Z.land addr (REQ_ALIGN - 1) =? 0.

Section O.
Context {K : num}.
Local Notation qarr := (arr (quat K)).

(** LOAD/STORE_256D_(UN)ALIGNED_AS (intrin_alias.hpp:19-46).  The aligned forms fault unless the
    byte address is a multiple of 32; sizeof(quaternion<double>) = 32. *)
Definition vld (aligned : bool) (a : Z) (m : qarr) (e : Z) : res (m256 K) :=
  if aligned && negb ((a + 32 * e) mod 32 =? 0) then UB else
  q <- ld m e ;; Ok (v_of_q q).
(** intrin_alias.hpp:38-45 *)
Definition vst (aligned : bool) (a : Z) (m : qarr) (e : Z) (v : m256 K) : res qarr :=
  if aligned && negb ((a + 32 * e) mod 32 =? 0) then UB else st m e (q_of_v v).

(** copy_swap.cxx:22-101 with _SWAP.  N / BatchSize with BatchSize = 1. *)
Definition swapv_opt (n : Z) (xa : Z) (x : qarr) (incx : Z) (ya : Z) (y : qarr) (incy : Z) : res (qarr * qarr) :=
  let nbatch := Z.quot n 1 in
  let isAligned := IS_ALIGNED xa && IS_ALIGNED ya in
  let body al := fun (_ : Z) '(x, y, locX, locY) =>
    x1 <- vld al xa x locX ;;
    y1 <- vld al ya y locY ;;
    y <- vst al ya y locY x1 ;;
    x <- vst al xa x locX y1 ;;
    Ok (x, y, locX + incx, locY + incy) in
  '(x, y, _, _) <- (if isAligned then zfor 0 nbatch (body true) (x, y, 0, 0)
                    else zfor 0 nbatch (body false) (x, y, 0, 0)) ;;
  Ok (x, y).

(** copy_swap.cxx:22-101 without _SWAP; X is not written. *)
Definition copyv_opt (n : Z) (xa : Z) (x : qarr) (incx : Z) (ya : Z) (y : qarr) (incy : Z) : res qarr :=
  let nbatch := Z.quot n 1 in
  let isAligned := IS_ALIGNED xa && IS_ALIGNED ya in
  let body al := fun (_ : Z) '(y, locX, locY) =>
    x1 <- vld al xa x locX ;;
    y <- vst al ya y locY x1 ;;
    Ok (y, locX + incx, locY + incy) in
  '(y, _, _) <- (if isAligned then zfor 0 nbatch (body true) (y, 0, 0)
                 else zfor 0 nbatch (body false) (y, 0, 0)) ;;
  Ok y.

(** axpy_scal.cxx:92-134: the two registers of a complex ALPHA *)
Definition alpha_cplx (mulLeft : bool) (z : cplx K) : m256 K * m256 K :=
  let alphaC := V2 (re z) (im z) in
  let alphaC_conj := if mulLeft then V2 (re z) (im z) else V2 (re z) (nopp (im z)) in
  let alpha := set256 alphaC alphaC_conj in
  let alpha_conj := mm256_xorsign (mm256_permute alpha 0x5) false true false true in
  (alpha, alpha_conj).
(** axpy_scal.cxx:165-176 *)
Definition scal_step (mulLeft : bool) (alpha : scal K) (x1 : m256 K) : m256 K :=
  match alpha with
  | SR a => mm256_mul (mm256_broadcast a) x1
  | SC z => let '(al, alc) := alpha_cplx mulLeft z in
            let p1 := mm256_mul x1 al in
            let p2 := mm256_mul x1 alc in
            mm256_hsub p1 p2
  | SH q => if mulLeft then MULDQ_NN (v_of_q q) x1 else MULDQ_NN x1 (v_of_q q)
  end.
(** axpy_scal.cxx:182-194 *)
Definition axpy_step (mulLeft : bool) (alpha : scal K) (x1 y1 : m256 K) : m256 K :=
  match alpha with
  | SR a => FMA_256D (mm256_broadcast a) x1 y1
  | SC z => let '(al, alc) := alpha_cplx mulLeft z in
            let p1 := mm256_mul x1 al in
            let p2 := mm256_mul x1 alc in
            mm256_add y1 (mm256_hsub p1 p2)
  | SH q => if mulLeft then mm256_add y1 (MULDQ_NN (v_of_q q) x1) else mm256_add y1 (MULDQ_NN x1 (v_of_q q))
  end.

(** axpy_scal.cxx:26-212 with _SCAL *)
Definition scalv_opt (side : ascii) (n : Z) (alpha : scal K) (xa : Z) (x : qarr) (incx : Z) : res qarr :=
  let nbatch := Z.quot n 1 in
  let mulLeft := Ascii.eqb side "L" in
  let isAligned := IS_ALIGNED xa in
  '(x, _) <- zfor 0 nbatch (fun _ '(x, locX) =>
    x1 <- vld isAligned xa x locX ;;
    let x1 := scal_step mulLeft alpha x1 in
    x <- vst isAligned xa x locX x1 ;;
    Ok (x, locX + 1 * incx)) (x, 0) ;;
  Ok x.

(** axpy_scal.cxx:26-212 with _AXPY *)
Definition axpyv_opt (side : ascii) (n : Z) (alpha : scal K) (xa : Z) (x : qarr) (incx : Z)
    (ya : Z) (y : qarr) (incy : Z) : res qarr :=
  let nbatch := Z.quot n 1 in
  let mulLeft := Ascii.eqb side "L" in
  let isAligned := IS_ALIGNED xa && IS_ALIGNED ya in
  '(y, _, _) <- zfor 0 nbatch (fun _ '(y, locX, locY) =>
    x1 <- vld isAligned xa x locX ;;
    y1 <- vld isAligned ya y locY ;;
    let y1 := axpy_step mulLeft alpha x1 y1 in
    y <- vst isAligned ya y locY y1 ;;
    Ok (y, locX + 1 * incx, locY + 1 * incy)) (y, 0, 0) ;;
  Ok y.

(** dot.cxx:20-175; conj = _CONJ *)
Definition dot_opt (cnj : bool) (n : Z) (xa : Z) (x : qarr) (incx : Z) (ya : Z) (y : qarr) (incy : Z) : res (quat K) :=
  let nbatch := Z.quot n 4 in
  let nleft := Z.rem n 4 in
  let al := IS_ALIGNED xa && IS_ALIGNED ya in
  '(r, locX, locY) <- zfor 0 nbatch (fun _ '(r, locX, locY) =>
    x1 <- vld al xa x locX ;;
    x2 <- vld al xa x (locX + incx) ;;
    x3 <- vld al xa x (locX + 2 * incx) ;;
    x4 <- vld al xa x (locX + 3 * incx) ;;
    y1 <- vld al ya y locY ;;
    y2 <- vld al ya y (locY + incy) ;;
    y3 <- vld al ya y (locY + 2 * incy) ;;
    y4 <- vld al ya y (locY + 3 * incy) ;;
    let X := TRANSPOSE_4x4 (M4 x1 x2 x3 x4) in
    let Y := TRANSPOSE_4x4 (M4 y1 y2 y3 y4) in
    let r := if cnj then INC_MULD4Q_CN X Y r else INC_MULD4Q_NN X Y r in
    Ok (r, locX + 4 * incx, locY + 4 * incy))
    (M4 mm256_zero mm256_zero mm256_zero mm256_zero, 0, 0) ;;
  let R := TRANSPOSE_4x4 r in
  let r1 := mm256_add (w1 R) (w2 R) in
  let r1 := mm256_add r1 (w3 R) in
  let r1 := mm256_add r1 (w4 R) in
  r1 <- zfor 0 nleft (fun i r1 =>
    x1 <- vld al xa x (locX + i * incx) ;;
    y1 <- vld al ya y (locY + i * incy) ;;
    Ok (mm256_add r1 (if cnj then MULDQ_CN x1 y1 else MULDQ_NN x1 y1))) r1 ;;
  Ok (q_of_v r1).
(** dot.cxx:20-175 without _CONJ *)
Definition dotuv_opt := dot_opt false.
(** dot.cxx:20-175 with _CONJ *)
Definition dotcv_opt := dot_opt true.
End O.

(** pointer arithmetic on an argument: p + o *)
Definition shiftp {A} (m : arr A) (o : Z) : arr A := fun p => m (o + p).
