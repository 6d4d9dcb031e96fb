(** Packing routines of the optimised GEMM: include/hblas/pack/pack.hpp, include/hblas/pack/packops.hpp, and the type
    wrapper AVXType<double> they use, include/util/types.hpp.  A pointer into an operand is (array, element offset). *)
From Coq Require Import ZArith Bool.
From Verif Require Import Num Res MQuat MSimd MOptL1.
Local Open Scope Z_scope.

Section P.
Context {K : num}.
Local Notation qarr := (arr (quat K)).

(** include/util/types.hpp:144-159: LoadScalar of a complex scalar, the two registers {R,I,R,I} and {I,-R,I,-R} *)
Definition load_cplx (z : cplx K) : m256 K * m256 K :=
  let alphaC := V2 (re z) (im z) in
  let alpha := set256 alphaC alphaC in
  (alpha, mm256_xorsign (mm256_permute alpha 0x5) false true false true).
(** AVXType::Mul(scalar, register): types.hpp:75-79 (noscalar_t), 177-181 (real_t), 184-191 (complex_t),
    215-219 (quaternion_t).  [None] is noscalar_t. *)
Definition avx_mul (alpha : option (scal K)) (x : m256 K) : m256 K :=
  match alpha with
  | None => x
  | Some (SR a) => mm256_mul (mm256_broadcast a) x
  | Some (SC z) => let '(ax, ay) := load_cplx z in mm256_hsub (mm256_mul x ax) (mm256_mul x ay)
  | Some (SH q) => MULDQ_NN (v_of_q q) x
  end.
(** AVXType::Mul(register, scalar): types.hpp:70-73 (noscalar_t), 172-176 (real_t), 192-207 (complex_t, marked "NEEDS
    VALIDATION" there), 210-214 (quaternion_t).  The masks of lines 195-196 list the highest lane first. *)
Definition avx_mul_r (x : m256 K) (alpha : option (scal K)) : m256 K :=
  match alpha with
  | None => x
  | Some (SR a) => mm256_mul (mm256_broadcast a) x
  | Some (SC z) => let '(bx, by_) := load_cplx z in
      let b1 := mm256_xorsign bx false false false true in
      let b2 := mm256_xorsign by_ false false true false in
      mm256_hsub (mm256_mul x b1) (mm256_mul x b2)
  | Some (SH q) => MULDQ_NN x (v_of_q q)
  end.
(** packops.hpp:76-79 (ConjPackOps::preOP) and 111 (GenericPackOps::preOP) *)
Definition preOP (cnj : bool) (alpha : option (scal K)) (x : m256 K) : m256 K :=
  avx_mul alpha (if cnj then QCONJ_256D x else x).

(** packops.hpp:154-167, 179-192: GenericPackOps_T1 / GenericPackOps_T2 *)
Inductive packop := T1 | T2.
(** packops.hpp:160-165 (T1::OP), 185-190 (T2::OP) *)
Definition packOP (o : packop) (x1 x2 : m256 K) : m256 K * m256 K :=
  match o with
  | T1 => (mm256_permute2f128 x1 x2 0x20, mm256_permute2f128 x1 x2 0x31)
  | T2 => (mm256_unpacklo x1 x2, mm256_unpackhi x1 x2)
  end.

(** the lambda loopBody: pack.hpp:81-96 (TPACK) and 169-182 (NPACK).  [p2 = None] is the one-pointer tuple of the remainder:
    apply_n (boilerplate.hpp:95-130) fills the missing register with Load() = 0.  PK = 2.  Loads and stores are unaligned
    (types.hpp:113-126). *)
Definition pack_loop (o : packop) (cnj : bool) (alpha : option (scal K)) (cnt inc : Z) (x : qarr) (p1 : Z) (p2 : option Z)
    (pos : Z) (buf : qarr) : res (Z * qarr) :=
  '(_, _, pos, buf) <- zfor 0 cnt (fun _ '(p1, p2, pos, buf) =>
    x1 <- vld false 0 x p1 ;;
    x2 <- match p2 with Some p => vld false 0 x p | None => Ok mm256_zero end ;;
    let '(t1, t2) := packOP o (preOP cnj alpha x1) (preOP cnj alpha x2) in
    buf <- vst false 0 buf pos t1 ;;
    buf <- vst false 0 buf (pos + 1) t2 ;;
    Ok (p1 + inc, option_map (fun p => p + inc) p2, pos + 2, buf)) (p1, p2, pos, buf) ;;
  Ok (pos, buf).

(** pack.hpp:28-127 *)
Definition tpack (o : packop) (cnj : bool) (alpha : option (scal K)) (m n : Z) (x : qarr) (x0 ldx : Z) (buf : qarr) : res qarr :=
  '(xb, pos, buf) <- zfor 0 (Z.quot n 2) (fun _ '(xb, pos, buf) =>
    '(pos, buf) <- pack_loop o cnj alpha m 1 x xb (Some (xb + ldx)) pos buf ;;
    Ok (xb + 2 * ldx, pos, buf)) (x0, 0, buf) ;;
  let j := Z.rem n 2 in
  if j =? 0 then Ok buf else
  _ <- assertb (j =? 1) ;;
  '(_, buf) <- pack_loop o cnj alpha m 1 x xb None pos buf ;;
  Ok buf.

(** pack.hpp:133-234 *)
Definition npack (o : packop) (cnj : bool) (alpha : option (scal K)) (m n : Z) (x : qarr) (x0 ldx : Z) (buf : qarr) : res qarr :=
  '(xb, pos, buf) <- zfor 0 (Z.quot m 2) (fun _ '(xb, pos, buf) =>
    '(pos, buf) <- pack_loop o cnj alpha n ldx x xb (Some (xb + 1)) pos buf ;;
    Ok (xb + 2 * 1, pos, buf)) (x0, 0, buf) ;;
  let i := Z.rem m 2 in
  if i =? 0 then Ok buf else
  _ <- assertb (i =? 1) ;;
  '(_, buf) <- pack_loop o cnj alpha n ldx x xb None pos buf ;;
  Ok buf.
End P.
