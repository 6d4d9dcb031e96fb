(** SIMD layer: lane-wise model of the AVX intrinsics used, and of include/util/simd/qop.hpp,
    include/util/simd/misc.hpp.  A 256-bit register is four scalar lanes (lane 0 lowest). *)
From Coq Require Import ZArith Bool.
From Verif Require Import Num MQuat.
Local Open Scope Z_scope.

Section V.
Context {K : num}.
(** __m256d and __m128d (include/util/simd/intrin_alias.hpp) *)
Record m256 := V4 { l0 : K; l1 : K; l2 : K; l3 : K }.
(** __m128d *)
Record m128 := V2 { d0 : K; d1 : K }.

(** ** Intrinsics (Intel SDM semantics) *)
Definition mm256_add (a b : m256) := V4 (nadd (l0 a) (l0 b)) (nadd (l1 a) (l1 b)) (nadd (l2 a) (l2 b)) (nadd (l3 a) (l3 b)).
(* _mm256_mul_pd *)
Definition mm256_mul (a b : m256) := V4 (nmul (l0 a) (l0 b)) (nmul (l1 a) (l1 b)) (nmul (l2 a) (l2 b)) (nmul (l3 a) (l3 b)).
(* intrin_alias.hpp:74-88 *)
Definition FMA_256D (a b c : m256) := V4 (nfma (l0 a) (l0 b) (l0 c)) (nfma (l1 a) (l1 b) (l1 c)) (nfma (l2 a) (l2 b) (l2 c)) (nfma (l3 a) (l3 b) (l3 c)).
(* intrin_alias.hpp:74-88 *)
Definition FMS_256D (a b c : m256) := V4 (nfms (l0 a) (l0 b) (l0 c)) (nfms (l1 a) (l1 b) (l1 c)) (nfms (l2 a) (l2 b) (l2 c)) (nfms (l3 a) (l3 b) (l3 c)).
(* intrin_alias.hpp:74-88 *)
Definition FNMA_256D (a b c : m256) := V4 (nfnma (l0 a) (l0 b) (l0 c)) (nfnma (l1 a) (l1 b) (l1 c)) (nfnma (l2 a) (l2 b) (l2 c)) (nfnma (l3 a) (l3 b) (l3 c)).
(* one bit of a shuffle immediate *)
Definition sel (b : bool) (x y : K) : K := if b then y else x.
(* _mm_shuffle_pd *)
Definition mm_shuffle (a b : m128) (imm : Z) := V2 (sel (Z.testbit imm 0) (d0 a) (d1 a)) (sel (Z.testbit imm 1) (d0 b) (d1 b)).
(* _mm256_shuffle_pd *)
Definition mm256_shuffle (a b : m256) (imm : Z) :=
  V4 (sel (Z.testbit imm 0) (l0 a) (l1 a)) (sel (Z.testbit imm 1) (l0 b) (l1 b))
     (sel (Z.testbit imm 2) (l2 a) (l3 a)) (sel (Z.testbit imm 3) (l2 b) (l3 b)).
(* _mm256_permute_pd *)
Definition mm256_permute (a : m256) (imm : Z) :=
  V4 (sel (Z.testbit imm 0) (l0 a) (l1 a)) (sel (Z.testbit imm 1) (l0 a) (l1 a))
     (sel (Z.testbit imm 2) (l2 a) (l3 a)) (sel (Z.testbit imm 3) (l2 a) (l3 a)).
(* intrin_alias.hpp:49 *)
Definition lo (a : m256) : m128 := V2 (l0 a) (l1 a).       (* GET_LO_128D_256D, intrin_alias.hpp:49 *)
Definition hi (a : m256) : m128 := V2 (l2 a) (l3 a).       (* GET_HI_128D_256D, intrin_alias.hpp:50 *)
Definition set256 (x y : m128) : m256 := V4 (d0 x) (d1 x) (d0 y) (d1 y).  (* SET_256D_FROM_128D, intrin_alias.hpp:52-57 *)
(* _mm256_permute2f128_pd: bits 0-1 / 4-5 select a.lo,a.hi,b.lo,b.hi; bits 3 / 7 zero the half *)
Definition p2sel (a b : m256) (c : Z) : m128 :=
  if Z.testbit c 3 then V2 n0 n0 else
  if Z.testbit c 1 then (if Z.testbit c 0 then hi b else lo b) else (if Z.testbit c 0 then hi a else lo a).
(* _mm256_permute2f128_pd *)
Definition mm256_permute2f128 (a b : m256) (imm : Z) := set256 (p2sel a b imm) (p2sel a b (Z.shiftr imm 4)).
(* _mm256_hsub_pd *)
Definition mm256_hsub (a b : m256) := V4 (nsub (l0 a) (l1 a)) (nsub (l0 b) (l1 b)) (nsub (l2 a) (l3 a)) (nsub (l2 b) (l3 b)).
(* _mm256_unpacklo_pd *)
Definition mm256_unpacklo (a b : m256) := V4 (l0 a) (l0 b) (l2 a) (l2 b).
(* _mm256_unpackhi_pd *)
Definition mm256_unpackhi (a b : m256) := V4 (l1 a) (l1 b) (l3 a) (l3 b).
(* _mm256_xor_pd with a sign-bit mask: negation of the masked lanes *)
Definition flip (b : bool) (x : K) := if b then nopp x else x.
(* _mm256_xor_pd with a sign-bit mask *)
Definition mm256_xorsign (a : m256) (b0 b1 b2 b3 : bool) := V4 (flip b0 (l0 a)) (flip b1 (l1 a)) (flip b2 (l2 a)) (flip b3 (l3 a)).
(* types.hpp:118 *)
Definition mm256_zero : m256 := V4 n0 n0 n0 n0.                 (* _mm256_setzero_pd *)
Definition mm256_broadcast (x : K) : m256 := V4 x x x x.        (* _mm256_broadcast_sd *)

(** a quaternion in memory loaded into a register and back (reinterpret_cast<double*>) *)
Definition v_of_q (q : quat K) : m256 := V4 (qr q) (qi q) (qj q) (qk q).
(* intrin_alias.hpp:38-45: STORE of a register to a quaternion *)
Definition q_of_v (v : m256) : quat K := Quat (l0 v) (l1 v) (l2 v) (l3 v).

(** ** qop.hpp *)
(* qop.hpp:18-28; set_epi64x lists the highest lane first *)
Definition QCONJ_256D (x : m256) : m256 := mm256_xorsign x false true true true.

(* qop.hpp:43-104 *)
Definition MULDQ_NN (x y : m256) : m256 :=
  let xLo := lo x in let yLo := lo y in let xHi := hi x in let yHi := hi y in
  let x1123 := mm256_permute x 0xB in
  let rLo := mm_shuffle xHi xHi 0x0 in
  let rHi := mm_shuffle xHi xLo 0x3 in
  let x2231 := set256 rLo rHi in
  let rLo := mm_shuffle yLo yLo 0x1 in
  let rHi := mm_shuffle yLo yLo 0x0 in
  let y1000 := set256 rLo rHi in
  let rHi := mm_shuffle yLo yHi 0x1 in
  let y2312 := set256 yHi rHi in
  let t1 := mm256_mul x1123 y1000 in
  let t12 := FMA_256D x2231 y2312 t1 in
  let t12 := mm256_xorsign t12 true false false false in
  let rLo := mm_shuffle xHi xHi 0x3 in
  let rHi := mm_shuffle xLo xHi 0x1 in
  let x3312 := set256 rLo rHi in
  let rHi := mm_shuffle xLo xLo 0x0 in
  let x0000 := set256 rHi rHi in
  let rLo := mm_shuffle yHi yHi 0x1 in
  let rHi := mm_shuffle yHi yLo 0x3 in
  let y3231 := set256 rLo rHi in
  let t3 := mm256_mul x3312 y3231 in
  let t03 := FMS_256D x0000 y t3 in
  mm256_add t03 t12.

(* qop.hpp:116-130 *)
Definition MULDQ_CN (x y : m256) : m256 := MULDQ_NN (QCONJ_256D x) y.

(* the four registers passed together to the macros of qop.hpp:160-436 *)
Record m4 := M4 { w1 : m256; w2 : m256; w3 : m256; w4 : m256 }.

(* qop.hpp:160-171 *)
Definition INC_MULD4Q_SCALAR (x y r : m4) : m4 :=
  M4 (FMA_256D (w1 x) (w1 y) (w1 r)) (FMA_256D (w1 x) (w2 y) (w2 r))
     (FMA_256D (w1 x) (w3 y) (w3 r)) (FMA_256D (w1 x) (w4 y) (w4 r)).
(* qop.hpp:198-209 *)
Definition MULD4Q_SCALAR (x y : m4) : m4 :=
  M4 (mm256_mul (w1 x) (w1 y)) (mm256_mul (w1 x) (w2 y))
     (mm256_mul (w1 x) (w3 y)) (mm256_mul (w1 x) (w4 y)).
(* qop.hpp:237-259 *)
Definition VEC_MULD4Q_NN (x y r : m4) : m4 :=
  let r1 := FNMA_256D (w2 x) (w2 y) (w1 r) in
  let r1 := FNMA_256D (w3 x) (w3 y) r1 in
  let r1 := FNMA_256D (w4 x) (w4 y) r1 in
  let r2 := FMA_256D (w2 x) (w1 y) (w2 r) in
  let r2 := FMA_256D (w3 x) (w4 y) r2 in
  let r2 := FNMA_256D (w4 x) (w3 y) r2 in
  let r3 := FNMA_256D (w2 x) (w4 y) (w3 r) in
  let r3 := FMA_256D (w3 x) (w1 y) r3 in
  let r3 := FMA_256D (w4 x) (w2 y) r3 in
  let r4 := FMA_256D (w2 x) (w3 y) (w4 r) in
  let r4 := FNMA_256D (w3 x) (w2 y) r4 in
  let r4 := FMA_256D (w4 x) (w1 y) r4 in
  M4 r1 r2 r3 r4.
(* qop.hpp:288-310 *)
Definition VEC_MULD4Q_CN (x y r : m4) : m4 :=
  let r1 := FMA_256D (w2 x) (w2 y) (w1 r) in
  let r1 := FMA_256D (w3 x) (w3 y) r1 in
  let r1 := FMA_256D (w4 x) (w4 y) r1 in
  let r2 := FNMA_256D (w2 x) (w1 y) (w2 r) in
  let r2 := FNMA_256D (w3 x) (w4 y) r2 in
  let r2 := FMA_256D (w4 x) (w3 y) r2 in
  let r3 := FMA_256D (w2 x) (w4 y) (w3 r) in
  let r3 := FNMA_256D (w3 x) (w1 y) r3 in
  let r3 := FNMA_256D (w4 x) (w2 y) r3 in
  let r4 := FNMA_256D (w2 x) (w3 y) (w4 r) in
  let r4 := FMA_256D (w3 x) (w2 y) r4 in
  let r4 := FNMA_256D (w4 x) (w1 y) r4 in
  M4 r1 r2 r3 r4.
(* qop.hpp:332-340 *)
Definition MULD4Q_NN (x y : m4) : m4 := VEC_MULD4Q_NN x y (MULD4Q_SCALAR x y).
(* qop.hpp:363-371 *)
Definition MULD4Q_CN (x y : m4) : m4 := VEC_MULD4Q_CN x y (MULD4Q_SCALAR x y).
(* qop.hpp:394-402 *)
Definition INC_MULD4Q_NN (x y r : m4) : m4 := VEC_MULD4Q_NN x y (INC_MULD4Q_SCALAR x y r).
(* qop.hpp:428-436 *)
Definition INC_MULD4Q_CN (x y r : m4) : m4 := VEC_MULD4Q_CN x y (INC_MULD4Q_SCALAR x y r).

(* misc.hpp:38-47 *)
Definition TRANSPOSE_4x4 (m : m4) : m4 :=
  let t1 := mm256_shuffle (w1 m) (w2 m) 0x0 in
  let t3 := mm256_shuffle (w1 m) (w2 m) 0xF in
  let t2 := mm256_shuffle (w3 m) (w4 m) 0x0 in
  let t4 := mm256_shuffle (w3 m) (w4 m) 0xF in
  M4 (mm256_permute2f128 t1 t2 0x20) (mm256_permute2f128 t3 t4 0x20)
     (mm256_permute2f128 t1 t2 0x31) (mm256_permute2f128 t3 t4 0x31).

(* haxx_quaternion_op.hpp:135-148, the AVX specialisation of operator* *)
Definition q_mul_avx (x y : quat K) : quat K := q_of_v (MULDQ_NN (v_of_q x) (v_of_q y)).
End V.
Arguments m256 : clear implicits. Arguments m128 : clear implicits. Arguments m4 : clear implicits.

(** ** Reading register blocks (used to state what the batched primitives do) *)
(** lane [t] of the four component registers, as a quaternion *)
Definition lane {K : num} (v : m256 K) (t : Z) : K :=
  if t =? 0 then l0 v else if t =? 1 then l1 v else if t =? 2 then l2 v else l3 v.
(** lane t of a component-wise block (misc.hpp:38-47 converts between the two layouts) *)
Definition soa {K : num} (m : m4 K) (t : Z) : quat K :=
  Quat (lane (w1 m) t) (lane (w2 m) t) (lane (w3 m) t) (lane (w4 m) t).
(** register [t] of the block, as a quaternion *)
Definition aos {K : num} (m : m4 K) (t : Z) : quat K :=
  q_of_v (if t =? 0 then w1 m else if t =? 1 then w2 m else if t =? 2 then w3 m else w4 m).

