(** Final forms of the rounding-error bounds. *)
From Coq Require Import ZArith Reals Lra Lia Psatz Bool Ascii.
From Flocq Require Import Core.Core IEEE754.BinarySingleNaN.
From Verif Require Import Num NumR Res ResFacts Spec SpecFacts VecFacts LoopFacts MQuat MSimd SimdFacts MOptL1 L1Facts L1Facts2 L1Facts3 MPack PackFacts
  MOptGemm OptGemmFacts OptGemmTop F64 SpecErr RoundFacts ErrFacts ErrFacts2 ErrFacts3.
Local Open Scope Z_scope.

(** ** the classical gamma_d *)
Lemma gamma_le d : (INR d * uro < 1 -> (1 + uro) ^ d - 1 <= INR d * uro / (1 - INR d * uro))%R.
Proof.
  intros Hd. assert (Hu := u_pos).
  assert (Gd : forall d, (INR d * uro < 1 -> (1 + uro) ^ d * (1 - INR d * uro) <= 1)%R).
  { clear d Hd. induction d as [|d IH]; intros Hd; [cbn; lra|]. rewrite S_INR in *. assert (H1 := pow_R1_Rle (1 + uro) d ltac:(lra)).
    assert (Hd' : (INR d * uro < 1)%R) by nra. specialize (IH Hd'). cbn [pow]. set (g := ((1 + uro) ^ d)%R) in *. pose proof (pos_INR d) as Hp. nra. }
  apply Rmult_le_reg_r with (1 - INR d * uro)%R; [lra|]. replace (INR d * uro / (1 - INR d * uro) * (1 - INR d * uro))%R with (INR d * uro)%R by (field; lra). specialize (Gd d Hd). lra.
Qed.
Lemma uro_val : (uro = / IZR (2 ^ 53))%R.
Proof. unfold uro. change (-53) with (- (53)). rewrite bpow_opp. reflexivity. Qed.
Lemma pow_small d : (INR d * uro <= / 2 -> (1 + uro) ^ d <= 2)%R.
Proof.
  intros Hd. assert (H1 := gamma_le d ltac:(lra)). assert (H2 : (INR d * uro / (1 - INR d * uro) <= 1)%R); [|lra].
  apply Rmult_le_reg_r with (1 - INR d * uro)%R; [lra|]. replace (INR d * uro / (1 - INR d * uro) * (1 - INR d * uro))%R with (INR d * uro)%R by (field; lra). lra.
Qed.
Lemma eta_small x : (0 <= x < bpow radix2 1022 -> eta * x < 1)%R.
Proof.
  intros [Hx0 Hx]. apply Rle_lt_trans with (eta * bpow radix2 1022)%R; [apply Rmult_le_compat_l; [apply eta_pos|lra]|].
  unfold eta. rewrite <- bpow_plus. change 1%R with (bpow radix2 0). apply bpow_lt. lia.
Qed.
Lemma below_small d E (m : quat Rnum) : (INR d * uro <= / 2 -> 0 <= E < bpow radix2 1022 ->
  0 <= qr m < bpow radix2 1022 -> 0 <= qi m < bpow radix2 1022 -> 0 <= qj m < bpow radix2 1022 -> 0 <= qk m < bpow radix2 1022 -> below d E m)%R.
Proof.
  intros Hd HE A B C D. assert (H2 := pow_small d Hd). assert (H3 := eta_small E HE).
  assert (H1 := pow_R1_Rle (1 + uro) d ltac:(pose proof u_pos; lra)).
  assert (B2 : (bpow radix2 1024 = 4 * bpow radix2 1022)%R) by (replace 1024 with (2 + 1022) by lia; rewrite bpow_plus; f_equal; cbn; ring).
  assert (B1 : (1 <= bpow radix2 1022)%R) by (change 1%R with (bpow radix2 0); apply bpow_le; lia).
  assert (G : forall x, (0 <= x < bpow radix2 1022 -> x + err_bound d x E < bpow radix2 1024)%R).
  { intros x Hx. unfold err_bound. rewrite B2. set (g := ((1 + uro) ^ d)%R) in *. replace (eta * g * E)%R with (g * (eta * E))%R by ring.
    assert (0 <= eta * E)%R by (apply Rmult_le_pos; [apply eta_pos|lra]). nra. }
  repeat split; apply G; auto.
Qed.

Lemma side_L' c s : side_char c = Some s -> sd (Ascii.eqb c "L") = s.
Proof. unfold side_char. destruct (Ascii.eqb c "L"), (Ascii.eqb c "R"); intros [=]; auto. Qed.

Section T.
Variable fused : bool.
Local Notation K := (F64 fused).
Local Notation FQ := (quat (F64 fused)).

Lemma scalv_err s c n (alpha : scal K) xa (x : arr FQ) inc v : side_char c = Some s -> 0 < inc -> holds_vec x n inc v ->
  returns (scalv_opt c n alpha xa x inc) (fun x' => same_but_vec x x' n inc /\
    forall i, 0 <= i < n -> exists q, x' (vpos n inc i) = Some q /\
      let m := Qmaj (Qabs (emb (SR_of alpha))) (Qabs (QR (v i))) in
      close 4 7 q (Hside s (emb (SR_of alpha)) (QR (v i))) m /\
      ((forall h, alpha <> SH h) -> close 2 3 q (Hside s (emb (SR_of alpha)) (QR (v i))) m) /\
      (sfin alpha -> fin (v i) -> below 4 7 m -> fin q)).
Proof.
  intros Hc Hinc Hx. rewrite <- (side_L' c s Hc). set (s0 := Ascii.eqb c "L").
  eapply returns_mono; [apply (scalv_opt_raw s0); eauto|]. intros x' [Hx' Hs]. split; auto.
  intros i Hi. exists (scalq s0 alpha (v i)). split; [auto|]. intros m.
  refine (conj _ (conj _ _)).
  - eapply qapx_close, (qapx_scalq_any fused False); try tauto. apply qapx_leaf; tauto.
  - intros Hh. eapply qapx_close, (qapx_scalq fused False); try tauto. apply qapx_leaf; tauto.
  - intros Fa Fv Hb. eapply (qapx_fin fused True); [|exact I|exact Hb]. apply (qapx_scalq_any fused True); auto. apply qapx_leaf; auto.
Qed.
Lemma axpyv_err s c n (alpha : scal K) xa (x : arr FQ) incx ya y incy v w : side_char c = Some s -> 0 < incx -> 0 < incy ->
  holds_vec x n incx v -> holds_vec y n incy w ->
  returns (axpyv_opt c n alpha xa x incx ya y incy) (fun y' => same_but_vec y y' n incy /\
    forall i, 0 <= i < n -> exists q, y' (vpos n incy i) = Some q /\
      let m := Hadd (K := Rnum) (Qabs (QR (w i))) (Qmaj (Qabs (emb (SR_of alpha))) (Qabs (QR (v i)))) in
      close 5 8 q (Hadd (K := Rnum) (QR (w i)) (Hside s (emb (SR_of alpha)) (QR (v i)))) m /\
      (sfin alpha -> fin (v i) -> fin (w i) -> below 5 8 m -> fin q)).
Proof.
  intros Hc Hix Hiy Hx Hy. rewrite <- (side_L' c s Hc). set (s0 := Ascii.eqb c "L").
  eapply returns_mono; [apply (axpyv_opt_raw s0); eauto|]. intros y' [Hy' Hs]. split; auto.
  intros i Hi. exists (axpyq fused s0 alpha (v i) (w i)). split; [apply Hy'; auto|]. intros m. split.
  - eapply qapx_close, (qapx_axpyq fused False); tauto.
  - intros Fa Fv Fw Hb. eapply (qapx_fin fused True); [|exact I|exact Hb]. apply (qapx_axpyq fused True); auto.
Qed.
Lemma dot_err cnj n xa (x : arr FQ) incx ya y incy v w :
  0 <= n -> 0 < incx -> 0 < incy -> holds_vec x n incx v -> holds_vec y n incy w ->
  returns (dot_opt cnj n xa x incx ya y incy) (fun r =>
    let d := Z.to_nat (n + 4) in let E := (8 * IZR n + 3)%R in
    let m := dot_mag n (fun i => QR (v i)) (fun i => QR (w i)) in
    close d E r (Hsum (K := Rnum) n (fun i => Hmul (K := Rnum) (if cnj then Hconj (K := Rnum) (QR (v i)) else QR (v i)) (QR (w i)))) m /\
    ((forall i, 0 <= i < n -> fin (v i) /\ fin (w i)) -> below d E m -> fin r)).
Proof.
  intros Hn Hix Hiy Hx Hy.
  pose proof (dot_opt_apx fused False cnj n xa x incx ya y incy v w Hn Hix Hiy Hx Hy ltac:(tauto)) as R1.
  pose proof (dot_opt_apx fused (forall i, 0 <= i < n -> fin (v i) /\ fin (w i)) cnj n xa x incx ya y incy v w Hn Hix Hiy Hx Hy ltac:(tauto)) as R2.
  destruct (dot_opt cnj n xa x incx ya y incy) as [r| |]; cbn [returns] in *; try contradiction. split.
  - eapply qapx_close. exact R1.
  - intros HP Hb. eapply qapx_fin; eauto.
Qed.
Lemma gemm_err mc nc kc aa ba ga gb ca cb oa ob m n k (alpha beta : scal K) (a : arr FQ) lda (b : arr FQ) ldb cadr (c : arr FQ) ldc A B w :
  (forall h, alpha <> SH h) -> (forall h, beta <> SH h) ->
  0 < mc -> Z.even mc = true -> 0 < nc -> Z.even nc = true -> 0 < kc -> aa mod 32 = 0 -> ba mod 32 = 0 ->
  trans_char_r ca = Some oa -> trans_char_r cb = Some ob -> 0 <= m -> 0 <= n -> 0 <= k -> m <= ldc ->
  holds_mat a lda (op_rows oa m k) (op_cols oa m k) A -> holds_mat b ldb (op_rows ob k n) (op_cols ob k n) B ->
  holds_mat c ldc m n w ->
  returns (gemm_opt mc nc kc aa ba ga gb ca cb m n k alpha a lda b ldb beta cadr c ldc) (fun c' => same_but_mat c c' ldc m n /\
    forall i j, 0 <= i < m -> 0 <= j < n -> exists q, c' (i + j * ldc) = Some q /\
      let RA := fun i j => QR (A i j) in let RB := fun i j => QR (B i j) in let RC := fun i j => QR (w i j) in
      let ra := emb (SR_of alpha) in let rb := emb (SR_of beta) in
      let d := Z.to_nat (4 * k + 3) in let E := gemm_units ob k RB j in let mg := gemm_mag oa ob k ra RA RB rb RC i j in
      close d E q (gemm_elt (K := Rnum) oa ob k ra RA RB rb RC i j) mg /\
      (sfin alpha -> sfin beta -> fin (w i j) ->
       (forall l, 0 <= l < k -> fin (opm oa A i l) /\ fin (opm ob B l j) /\ below 2 3 (Qmaj (Qabs ra) (Qabs (opm (K := Rnum) oa RA i l)))) ->
       below d E mg -> fin q)).
Proof.
  intros Hal Hbe. intros. eapply returns_mono; [apply (gemm_opt_raw mc nc kc aa ba ga gb ca cb oa ob) with (A := A) (B := B) (w := w); auto using buf_fits, dec_char|].
  intros c' [Hh S]. split; auto. intros i j Hi Hj. exists (gemm_val oa ob k alpha beta A B w i j). split; [auto|].
  intros RA RB RC ra rb d E mg. split.
  - eapply qapx_close, (qapx_gemm fused False); auto. tauto.
  - intros Fa Fb Fw Fl Hb. eapply (qapx_fin fused True); [|exact I|exact Hb]. apply (qapx_gemm fused True); auto.
    intros _. refine (conj Fa (conj Fb (conj Fw _))). intros l Hl. destruct (Fl l Hl) as (F1 & F2 & F3). refine (conj F1 (conj F2 _)).
    pose proof (qapx_scalq fused True true alpha (opm oa A i l) _ _ Hal (qapx_leaf fused True _ (fun _ => F1)) (fun _ => Fa) (fun _ => F1)) as Q.
    rewrite QR_opm in Q. eapply (qapx_fin fused True); [exact Q|exact I|exact F3].
Qed.
(** the product operator itself *)
Lemma mul_err (p q : FQ) :
  let m := Qmaj (Qabs (QR p)) (Qabs (QR q)) in
  close 4 7 (q_mul_avx p q) (Hmul (K := Rnum) (QR p) (QR q)) m /\ (fin p -> fin q -> below 4 7 m -> fin (q_mul_avx p q)).
Proof.
  intros m. split.
  - eapply qapx_close, (qapx_muldq fused False); try tauto; apply qapx_leaf; tauto.
  - intros Fp Fq Hb. eapply (qapx_fin fused True); [|exact I|exact Hb]. apply (qapx_muldq fused True); auto; apply qapx_leaf; auto.
Qed.
End T.
