(** Property theorems C43: floating-point error of the optimised kernels. *)
From Coq Require Import ZArith Reals Lra Lia Bool Ascii.
From Flocq Require Import Core.Raux Core.Zaux IEEE754.BinarySingleNaN.
From Verif Require Import Num NumR Res Spec MQuat MSimd MOptL1 MOptGemm F64 SpecErr ErrTop.
Local Open Scope Z_scope.

(** ** C43.  Arithmetic is IEEE binary64, [fused] telling whether the build uses hardware FMA.  [close d E v x m]: every finite
    component of the computed [v] differs from the exact real value [x] by at most ((1+2^-53)^d - 1) * m + 2^-1075 (1+2^-53)^d E. *)
(** the product operator *)
Theorem C43_mul_err : forall fused (p q : quat (F64 fused)),
  let m := Qmaj (Qabs (QR p)) (Qabs (QR q)) in
  close 4 7 (q_mul_avx p q) (Hmul (K := Rnum) (QR p) (QR q)) m /\ (fin p -> fin q -> below 4 7 m -> fin (q_mul_avx p q)).
Proof. exact mul_err. Qed.
Print Assumptions C43_mul_err.
(** SCALV, any scalar (and a smaller constant for real and complex ones) *)
Theorem C43_scalv_err : forall fused s c n (alpha : scal (F64 fused)) xa (x : arr (quat (F64 fused))) inc v,
  side_char c = Some s -> 0 < inc -> holds_vec x n inc v ->
  returns (scalv_opt c n alpha xa x inc) (fun x' => same_but_vec x x' n inc /\
    forall i, 0 <= i < n -> exists q, x' (vpos n inc i) = Some q /\
      let m := Qmaj (Qabs (emb (SR_of alpha))) (Qabs (QR (v i))) in
      close 4 7 q (Hside s (emb (SR_of alpha)) (QR (v i))) m /\
      ((forall h, alpha <> SH h) -> close 2 3 q (Hside s (emb (SR_of alpha)) (QR (v i))) m) /\
      (sfin alpha -> fin (v i) -> below 4 7 m -> fin q)).
Proof. exact scalv_err. Qed.
Print Assumptions C43_scalv_err.
(** AXPYV, any scalar *)
Theorem C43_axpyv_err : forall fused s c n (alpha : scal (F64 fused)) xa (x : arr (quat (F64 fused))) incx ya y incy v w,
  side_char c = Some s -> 0 < incx -> 0 < incy ->
  holds_vec x n incx v -> holds_vec y n incy w ->
  returns (axpyv_opt c n alpha xa x incx ya y incy) (fun y' => same_but_vec y y' n incy /\
    forall i, 0 <= i < n -> exists q, y' (vpos n incy i) = Some q /\
      let m := Hadd (K := Rnum) (Qabs (QR (w i))) (Qmaj (Qabs (emb (SR_of alpha))) (Qabs (QR (v i)))) in
      close 5 8 q (Hadd (K := Rnum) (QR (w i)) (Hside s (emb (SR_of alpha)) (QR (v i)))) m /\
      (sfin alpha -> fin (v i) -> fin (w i) -> below 5 8 m -> fin q)).
Proof. exact axpyv_err. Qed.
Print Assumptions C43_axpyv_err.
(** DOTUV (cnj = false) and DOTCV (cnj = true) *)
Theorem C43_dot_err : forall fused cnj n xa (x : arr (quat (F64 fused))) incx ya y incy v w,
  0 <= n -> 0 < incx -> 0 < incy -> holds_vec x n incx v -> holds_vec y n incy w ->
  returns (dot_opt cnj n xa x incx ya y incy) (fun r =>
    let d := Z.to_nat (n + 4) in let E := (8 * IZR n + 3)%R in
    let m := dot_mag n (fun i => QR (v i)) (fun i => QR (w i)) in
    close d E r (Hsum (K := Rnum) n (fun i => Hmul (K := Rnum) (if cnj then Hconj (K := Rnum) (QR (v i)) else QR (v i)) (QR (w i)))) m /\
    ((forall i, 0 <= i < n -> fin (v i) /\ fin (w i)) -> below d E m -> fin r)).
Proof. exact dot_err. Qed.
Print Assumptions C43_dot_err.
(** GEMM with the real and complex ALPHA, BETA the public interface instantiates *)
Theorem C43_gemm_err : forall fused mc nc kc aa ba ga gb ca cb oa ob m n k (alpha beta : scal (F64 fused)) (a : arr (quat (F64 fused))) lda (b : arr (quat (F64 fused))) ldb cadr (c : arr (quat (F64 fused))) ldc A B w,
  (forall h, alpha <> SH h) -> (forall h, beta <> SH h) ->
  0 < mc -> Z.even mc = true -> 0 < nc -> Z.even nc = true -> 0 < kc -> aa mod 32 = 0 -> ba mod 32 = 0 ->
  trans_char_r ca = Some oa -> trans_char_r cb = Some ob -> 0 <= m -> 0 <= n -> 0 <= k -> m <= ldc ->
  holds_mat a lda (op_rows oa m k) (op_cols oa m k) A -> holds_mat b ldb (op_rows ob k n) (op_cols ob k n) B ->
  holds_mat c ldc m n w ->
  returns (gemm_opt mc nc kc aa ba ga gb ca cb m n k alpha a lda b ldb beta cadr c ldc) (fun c' => same_but_mat c c' ldc m n /\
    forall i j, 0 <= i < m -> 0 <= j < n -> exists q, c' (i + j * ldc) = Some q /\
      let RA := fun i j => QR (A i j) in let RB := fun i j => QR (B i j) in let RC := fun i j => QR (w i j) in
      let ra := emb (SR_of alpha) in let rb := emb (SR_of beta) in
      let d := Z.to_nat (4 * k + 3) in let E := gemm_units ob k RB j in let mg := gemm_mag oa ob k ra RA RB rb RC i j in
      close d E q (gemm_elt (K := Rnum) oa ob k ra RA RB rb RC i j) mg /\
      (sfin alpha -> sfin beta -> fin (w i j) ->
       (forall l, 0 <= l < k -> fin (opm oa A i l) /\ fin (opm ob B l j) /\ below 2 3 (Qmaj (Qabs ra) (Qabs (opm (K := Rnum) oa RA i l)))) ->
       below d E mg -> fin q)).
Proof. exact gemm_err. Qed.
Print Assumptions C43_gemm_err.
(** the factor is at most the classical gamma_d = d u / (1 - d u) *)
Theorem C43_gamma : forall d : nat, (INR d * uro < 1 -> (1 + uro) ^ d - 1 <= INR d * uro / (1 - INR d * uro))%R.
Proof. exact gamma_le. Qed.
Print Assumptions C43_gamma.
(** magnitudes up to 2^1022 and up to 2^52 roundings leave no room for overflow *)
Theorem C43_no_overflow : forall d E (m : quat Rnum), (INR d * uro <= / 2 -> 0 <= E < bpow radix2 1022 ->
  0 <= qr m < bpow radix2 1022 -> 0 <= qi m < bpow radix2 1022 -> 0 <= qj m < bpow radix2 1022 -> 0 <= qk m < bpow radix2 1022 -> below d E m)%R.
Proof. exact below_small. Qed.
Print Assumptions C43_no_overflow.
(** the hypotheses are met: three elements (1,1,1,1) each *)
Definition ones {f} : quat (F64 f) := @Quat (F64 f) f_one f_one f_one f_one.
Example C43_concrete : forall fused, exists r, dotuv_opt 3 0 (fun _ => Some (@ones fused)) 1 0 (fun _ => Some ones) 1 = Ok r /\ fin r /\ (Rabs (B2R (qr r) - -6) <= err_bound 7 12 27)%R.
Proof.
  intros fused.
  assert (B1 : @B2R 53 1024 f_one = 1%R) by (apply Bone_correct).
  assert (E1 : QR (@ones fused) = @Quat Rnum 1%R 1%R 1%R 1%R) by (unfold QR, ones; cbn [qr qi qj qk]; rewrite B1; reflexivity).
  pose proof (C43_dot_err fused false 3 0 (fun _ => Some ones) 1 0 (fun _ => Some ones) 1 (fun _ => ones) (fun _ => ones)
    ltac:(lia) ltac:(lia) ltac:(lia) (fun i _ => eq_refl) (fun i _ => eq_refl)) as D. fold (@dotuv_opt (F64 fused)) in D.
  change (dot_opt false) with (@dotuv_opt (F64 fused)) in D.
  destruct (dotuv_opt 3 0 (fun _ => Some (@ones fused)) 1 0 (fun _ => Some ones) 1) as [r| |]; cbn [returns] in D; try contradiction.
  exists r. split; [reflexivity|]. destruct D as [D1 D2]. rewrite E1 in D1, D2.
  assert (F : fin r).
  { apply D2; [intros; repeat split; reflexivity|]. apply C43_no_overflow.
    1: { rewrite uro_val. change (Z.to_nat (3 + 4)) with 7%nat. change (2 ^ 53)%Z with 9007199254740992%Z. cbn [INR]. lra. }
    all: assert (Big : (64 <= bpow radix2 1022)%R) by (change 64%R with (bpow radix2 6); apply bpow_le; lia).
    all: generalize dependent (bpow radix2 1022); intros X Big; unfold dot_mag, Hsum, Qmaj, Qabs; change (Z.to_nat 3) with 3%nat; cbn; rewrite ?Rabs_R1; lra. }
  split; [exact F|]. destruct D1 as [D1 _]. specialize (D1 (proj1 F)).
  unfold dot_mag, Hsum, Qmaj, Qabs in D1; change (Z.to_nat 3) with 3%nat in D1; change (Z.to_nat (3 + 4)) with 7%nat in D1; cbn in D1. rewrite ?Rabs_R1 in D1.
  replace (8 * 3 + 3)%R with 27%R in D1 by lra.
  match type of D1 with (Rabs (_ - ?x) <= err_bound ?d ?m _)%R => replace x with (-6)%R in D1 by lra; replace m with 12%R in D1 by lra end. exact D1.
Qed.
