(** norm, inv, versor in double precision *)
From Coq Require Import ZArith Reals Lra Lia Psatz Bool.
From Flocq Require Import Core.Core IEEE754.BinarySingleNaN.
From Verif Require Import Num NumR Spec SpecFacts MQuat MSimd F64 SpecErr RoundFacts ErrFacts ErrTop SpecNorm MNormC.
Local Open Scope R_scope.

Definition fdiv : f64 -> f64 -> f64 := @Bdiv 53 1024 prec64 emax64 mode_NE.
Definition fsqrt : f64 -> f64 := @Bsqrt 53 1024 prec64 emax64 mode_NE.
Lemma fdiv_ok x y : is_finite x = true -> B2R y <> 0 -> Rabs (frnd (B2R x / B2R y)) < bpow radix2 1024 ->
  is_finite (fdiv x y) = true /\ B2R (fdiv x y) = frnd (B2R x / B2R y).
Proof.
  intros Fx Hy B. pose proof (@Bdiv_correct 53 1024 prec64 emax64 mode_NE x y Hy) as H.
  destruct (Rlt_bool_spec (Rabs (round radix2 (SpecFloat.fexp 53 1024) (round_mode mode_NE) (B2R x / B2R y))) (bpow radix2 1024)) as [L|L].
  - destruct H as (E & Fe & _). split; [unfold fdiv; rewrite Fe; auto|exact E].
  - exfalso. apply (Rlt_irrefl (bpow radix2 1024)). eapply Rle_lt_trans; [exact L|exact B].
Qed.
Lemma fsqrt_ok x : is_finite x = true -> 0 < B2R x -> is_finite (fsqrt x) = true /\ B2R (fsqrt x) = frnd (sqrt (B2R x)).
Proof.
  intros Fx Hx. pose proof (@Bsqrt_correct 53 1024 prec64 emax64 mode_NE x) as (E & Fe & _). split; [|exact E].
  unfold fsqrt. rewrite Fe. destruct x as [s|s| |s m e H]; try discriminate; auto. destruct s; auto. exfalso.
  cbn in Hx. assert (F2R (Float radix2 (Z.neg m) e) < 0) by (apply F2R_lt_0; reflexivity). lra.
Qed.
Lemma u_small : 0 < uro <= / 1024.
Proof. rewrite uro_val. change (2 ^ 53)%Z with 9007199254740992%Z. lra. Qed.
Lemma G4_bound : (1 + uro) ^ 4 - 1 <= uro * (1 + 31 / 10 + 1 / 100 ).
Proof. pose proof u_small as [U1 U2]. cbn [pow]. assert (0 <= uro * uro) by nra. assert (uro * uro <= uro / 1024) by nra. nra. Qed.

Lemma eta_fact x : bpow radix2 (-960) <= x -> eta <= uro * uro * x.
Proof.
  intros Hx. apply Rle_trans with (uro * uro * bpow radix2 (-960)).
  - unfold uro, eta. rewrite <- !bpow_plus. apply bpow_le. lia.
  - apply Rmult_le_compat_l; auto. pose proof u_small; nra.
Qed.
Section C.
Variables (S N : R).
Hypothesis (SB : bpow radix2 (-960) <= S <= bpow radix2 960) (EN : N = sqrt S).
Lemma S_pos : 0 < S. Proof. eapply Rlt_le_trans; [apply bpow_gt_0|apply SB]. Qed.
Lemma N_pos : 0 < N. Proof. rewrite EN. apply sqrt_lt_R0, S_pos. Qed.
Lemma NN : N * N = S. Proof. rewrite EN. apply sqrt_sqrt. apply Rlt_le, S_pos. Qed.
Lemma N_lo : bpow radix2 (-480) <= N.
Proof. rewrite EN. rewrite <- (sqrt_Rsqr (bpow radix2 (-480))) by apply bpow_ge_0. apply sqrt_le_1_alt. unfold Rsqr. rewrite <- bpow_plus. apply SB. Qed.
Lemma N_hi : N <= bpow radix2 480.
Proof. rewrite EN. rewrite <- (sqrt_Rsqr (bpow radix2 480)) by apply bpow_ge_0. apply sqrt_le_1_alt. unfold Rsqr. rewrite <- bpow_plus. apply SB. Qed.
Lemma eta_N : eta <= uro * uro * N.
Proof. apply eta_fact. eapply Rle_trans; [|apply N_lo]. apply bpow_le. lia. Qed.
Lemma eta_iN : eta <= uro * uro * / N.
Proof.
  apply eta_fact. apply Rle_trans with (bpow radix2 (-480)); [apply bpow_le; lia|].
  change (-480)%Z with (Z.opp 480). rewrite bpow_opp. apply Rinv_le; [apply N_pos|apply N_hi].
Qed.
Lemma eta_1 : eta <= uro * uro * 1.
Proof. apply eta_fact. change 1 with (bpow radix2 0). apply bpow_le. lia. Qed.
Lemma core_norm (s : f64) : is_finite s = true -> Rabs (B2R s - S) <= 42 / 10 * uro * S ->
  is_finite (fsqrt s) = true /\ Rabs (B2R (fsqrt s) - N) <= 4 * uro * N.
Proof.
  intros Fs Hs. pose proof S_pos as SP. pose proof N_pos as NP. pose proof NN as NS. pose proof u_small as [U0 U1]. pose proof eta_N as EE. pose proof eta_pos as E0.
  assert (Hs' := Hs). apply Rabs_le_inv in Hs'.
  assert (P : 0 < B2R s) by nra. destruct (fsqrt_ok s Fs P) as [F ->]. split; auto.
  set (t := sqrt (B2R s)). assert (TT : t * t = B2R s) by (apply sqrt_sqrt; lra). assert (T0 : 0 < t) by (apply sqrt_lt_R0; auto).
  (* |t - N| (t + N) = |s - S| *)
  assert (D : Rabs (t - N) <= 22 / 10 * uro * N).
  { assert (X : Rabs (t - N) * (t + N) = Rabs (B2R s - S)).
    { rewrite <- (Rabs_pos_eq (t + N)) at 1 by lra. rewrite <- Rabs_mult. f_equal. rewrite <- TT, <- NS. ring. }
    assert (L : 98 / 100 * N <= t).
    { apply Rnot_lt_le. intros C. assert (t * t < 98 / 100 * N * (98 / 100 * N)) by nra. nra. }
    rewrite <- X in Hs. rewrite <- NS in Hs. pose proof (Rabs_pos (t - N)).
    apply Rmult_le_reg_r with (t + N); [lra|]. eapply Rle_trans; [exact Hs|]. nra. }
  pose proof (frnd_err t) as R. fold t. rewrite (Rabs_pos_eq t) in R by lra.
  apply Rabs_le_inv in D. apply Rabs_le_inv in R. apply Rabs_le. assert (0 <= uro * N) by nra. assert (uro * uro * N <= uro * N / 1024) by nra. assert (uro * t <= uro * N * (1 + 1 / 100)) by nra. nra.
Qed.
Variable n : f64.
Hypothesis (Fn : is_finite n = true) (Hn : Rabs (B2R n - N) <= 4 * uro * N).
Lemma n_lo : 99 / 100 * N <= B2R n. Proof. pose proof N_pos. pose proof u_small. apply Rabs_le_inv in Hn. nra. Qed.
Lemma n_nz : B2R n <> 0. Proof. pose proof n_lo. pose proof N_pos. lra. Qed.
Lemma inv_n : Rabs (/ B2R n - / N) <= 42 / 10 * uro * / N.
Proof.
  pose proof N_pos as NP. pose proof u_small as [U0 U1]. pose proof n_lo as NL.
  replace (/ B2R n - / N) with ((N - B2R n) * (/ B2R n * / N)) by (field; lra). rewrite Rabs_mult, (Rabs_pos_eq (/ B2R n * / N)).
  2:{ apply Rmult_le_pos; apply Rlt_le, Rinv_0_lt_compat; lra. }
  rewrite Rabs_minus_sym. assert (I : / B2R n <= 101011 / 100000 * / N).
  { replace (101011 / 100000 * / N) with (/ (100000 / 101011 * N)) by (field; lra). apply Rinv_le; lra. }
  assert (J : 0 < / B2R n) by (apply Rinv_0_lt_compat; lra). assert (J' : 0 < / N) by (apply Rinv_0_lt_compat; lra).
  apply Rle_trans with (4 * uro * N * (101011 / 100000 * / N * / N)).
  - apply Rmult_le_compat; auto using Rabs_pos; [apply Rmult_le_pos; lra|]. apply Rmult_le_compat_r; lra.
  - replace (4 * uro * N * (101011 / 100000 * / N * / N)) with (4 * 101011 / 100000 * uro * / N) by (field; lra). apply Rmult_le_compat_r; nra.
Qed.
(** one component divided by the computed norm *)
Lemma core_div (x : f64) : is_finite x = true -> Rabs (B2R x) <= N ->
  is_finite (fdiv x n) = true /\ Rabs (B2R (fdiv x n) - B2R x / N) <= 54 / 10 * uro.
Proof.
  intros Fx Hx. pose proof N_pos as NP. pose proof u_small as [U0 U1]. pose proof inv_n as I. pose proof eta_1 as E1. pose proof eta_pos as E0.
  assert (J' : 0 < / N) by (apply Rinv_0_lt_compat; lra).
  assert (D : Rabs (B2R x / B2R n - B2R x / N) <= 42 / 10 * uro).
  { unfold Rdiv. rewrite <- Rmult_minus_distr_l, Rabs_mult. apply Rle_trans with (N * (42 / 10 * uro * / N)).
    - apply Rmult_le_compat; auto using Rabs_pos.
    - apply Req_le. field. lra. }
  assert (M : Rabs (B2R x / N) <= 1).
  { unfold Rdiv. rewrite Rabs_mult, (Rabs_pos_eq (/ N)) by lra. apply Rle_trans with (N * / N); [apply Rmult_le_compat_r; lra|apply Req_le; field; lra]. }
  assert (M2 : Rabs (B2R x / B2R n) <= 101 / 100).
  { replace (B2R x / B2R n) with ((B2R x / B2R n - B2R x / N) + B2R x / N) by ring. eapply Rle_trans; [apply Rabs_triang|]. lra. }
  pose proof (frnd_err (B2R x / B2R n)) as R.
  assert (T : Rabs (frnd (B2R x / B2R n) - B2R x / N) <= 54 / 10 * uro).
  { replace (frnd (B2R x / B2R n) - B2R x / N) with ((frnd (B2R x / B2R n) - B2R x / B2R n) + (B2R x / B2R n - B2R x / N)) by ring.
    eapply Rle_trans; [apply Rabs_triang|]. nra. }
  destruct (fdiv_ok x n Fx n_nz) as [F E].
  { replace (frnd (B2R x / B2R n)) with ((frnd (B2R x / B2R n) - B2R x / N) + B2R x / N) by ring. eapply Rle_lt_trans; [apply Rabs_triang|].
    apply Rle_lt_trans with 2; [lra|]. change 2 with (bpow radix2 1). apply bpow_lt. lia. }
  split; auto. rewrite E. exact T.
Qed.
(** and divided once more *)
Lemma core_div2 (x : f64) : is_finite x = true -> Rabs (B2R x) <= N ->
  is_finite (fdiv (fdiv x n) n) = true /\ Rabs (B2R (fdiv (fdiv x n) n) - B2R x / S) <= 11 * uro * / N.
Proof.
  intros Fx Hx. destruct (core_div x Fx Hx) as [F1 H1]. pose proof N_pos as NP. pose proof u_small as [U0 U1]. pose proof inv_n as I. pose proof eta_iN as E1. pose proof eta_pos as E0.
  set (w := B2R (fdiv x n)) in *. assert (J' : 0 < / N) by (apply Rinv_0_lt_compat; lra). pose proof n_lo as NL.
  assert (J : 0 < / B2R n) by (apply Rinv_0_lt_compat; lra).
  assert (I2 : / B2R n <= 101011 / 100000 * / N).
  { replace (101011 / 100000 * / N) with (/ (100000 / 101011 * N)) by (field; lra). apply Rinv_le; lra. }
  assert (M : Rabs (B2R x / N) <= 1).
  { unfold Rdiv. rewrite Rabs_mult, (Rabs_pos_eq (/ N)) by lra. apply Rle_trans with (N * / N); [apply Rmult_le_compat_r; lra|apply Req_le; field; lra]. }
  assert (D : Rabs (w / B2R n - B2R x / S) <= 968 / 100 * uro * / N).
  { replace (w / B2R n - B2R x / S) with ((w - B2R x / N) * / B2R n + B2R x / N * (/ B2R n - / N)) by (rewrite <- NN; field; split; lra).
    eapply Rle_trans; [apply Rabs_triang|]. rewrite !Rabs_mult, (Rabs_pos_eq (/ B2R n)) by lra.
    assert (A1 : Rabs (w - B2R x / N) * / B2R n <= 54 / 10 * uro * (101011 / 100000 * / N)) by (apply Rmult_le_compat; auto using Rabs_pos; lra).
    assert (A2 : Rabs (B2R x / N) * Rabs (/ B2R n - / N) <= 1 * (42 / 10 * uro * / N)) by (apply Rmult_le_compat; auto using Rabs_pos).
    assert (0 <= uro * / N) by nra. nra. }
  assert (XS : Rabs (B2R x / S) <= / N).
  { replace (B2R x / S) with (B2R x / N * / N) by (rewrite <- NN; field; lra). rewrite Rabs_mult, (Rabs_pos_eq (/ N)) by lra. nra. }
  assert (uN : 0 <= uro * / N) by nra. assert (uuN : uro * (uro * / N) <= uro * / N / 1024) by nra.
  assert (M2 : Rabs (w / B2R n) <= / N + 968 / 100 * uro * / N).
  { replace (w / B2R n) with ((w / B2R n - B2R x / S) + B2R x / S) by ring. eapply Rle_trans; [apply Rabs_triang|]. lra. }
  pose proof (frnd_err (w / B2R n)) as R.
  assert (T : Rabs (frnd (w / B2R n) - B2R x / S) <= 11 * uro * / N).
  { replace (frnd (w / B2R n) - B2R x / S) with ((frnd (w / B2R n) - w / B2R n) + (w / B2R n - B2R x / S)) by ring.
    eapply Rle_trans; [apply Rabs_triang|]. assert (uro * Rabs (w / B2R n) <= uro * (/ N + 968 / 100 * uro * / N)) by (apply Rmult_le_compat_l; lra). nra. }
  destruct (fdiv_ok (fdiv x n) n F1 n_nz) as [F E].
  { fold w. replace (frnd (w / B2R n)) with ((frnd (w / B2R n) - B2R x / S) + B2R x / S) by ring. eapply Rle_lt_trans; [apply Rabs_triang|].
    apply Rle_lt_trans with (2 * / N); [nra|]. assert (IN : / N <= bpow radix2 480).
    { change 480%Z with (- (-480))%Z. rewrite bpow_opp. apply Rinv_le; [apply bpow_gt_0|apply N_lo]. }
    apply Rle_lt_trans with (bpow radix2 481); [|apply bpow_lt; lia]. change 481%Z with (1 + 480)%Z. rewrite bpow_plus. change (bpow radix2 1) with 2. lra. }
  split; auto. fold w in E. rewrite E. exact T.
Qed.
End C.

Section Q.
Variable fused : bool.
Local Notation K := (F64 fused).
Local Notation FQ := (quat (F64 fused)).
Lemma sumsq_fin (s : f64) S : bpow radix2 (-960) <= S <= bpow radix2 960 -> apx True s S S 4 16 -> is_finite s = true /\ Rabs (B2R s - S) <= 42 / 10 * uro * S.
Proof.
  intros SB (_ & _ & He & Hf). pose proof u_small as [U0 U1]. pose proof G4_bound as GB. pose proof (eta_fact S (proj1 SB)) as E1. pose proof eta_pos as E0.
  assert (SP : 0 < S) by (eapply Rlt_le_trans; [apply bpow_gt_0|apply SB]).
  set (g := (1 + uro) ^ 4) in *. assert (G1 : 1 <= g) by (apply pow_R1_Rle; lra). assert (G2 : g <= 101 / 100) by lra.
  assert (uS : 0 <= uro * S) by nra. assert (uuS : uro * (uro * S) <= uro * S / 1024) by nra.
  assert (EG : eta * g * 16 <= uro * S / 50) by (assert (eta * g <= uro * uro * S * (101 / 100)) by (apply Rmult_le_compat; lra); nra).
  assert (B : err_bound 4 S 16 <= 42 / 10 * uro * S) by (unfold err_bound; fold g; nra).
  assert (F : is_finite s = true).
  { apply Hf; auto. unfold top, RoundFacts.G. fold g. apply Rle_lt_trans with (2 * S); [nra|]. apply Rle_lt_trans with (bpow radix2 961).
    - change 961%Z with (1 + 960)%Z. rewrite bpow_plus. change (bpow radix2 1) with 2. lra.
    - apply bpow_lt. lia. }
  split; auto. eapply Rle_trans; [apply He; auto|exact B].
Qed.
Lemma sqlf (x : f64) : is_finite x = true -> apx True (fmul x x) (B2R x * B2R x) (B2R x * B2R x) 1 1.
Proof.
  intros F. pose proof (apx_leaf True x (fun _ => F)) as L.
  eapply apx_weaken; [apply (apx_mul True _ _ _ _ _ _ _ _ _ _ L L); auto|reflexivity| |lia|lra].
  rewrite <- Rabs_mult. rewrite Rabs_pos_eq; [lra|nra].
Qed.
Lemma sq_add (s x : f64) S d E : is_finite x = true -> apx True s S S (Datatypes.S d) E -> 1 <= E -> apx True (fadd s (fmul x x)) (S + B2R x * B2R x) (S + B2R x * B2R x) (Datatypes.S (Datatypes.S d)) (E + 2).
Proof.
  intros F A HE. eapply apx_weaken; [apply (apx_add True); [exact A|eapply apx_weaken; [apply (sqlf x F)|reflexivity|apply Rle_refl| |apply Rle_refl]; lia]|reflexivity|apply Rle_refl|lia|lra].
Qed.
Lemma sq_fma (s x : f64) S d E : is_finite x = true -> apx True s S S (Datatypes.S d) E -> 1 <= E ->
  apx True (nfma (n := F64 fused) x x s) (S + B2R x * B2R x) (S + B2R x * B2R x) (Datatypes.S (Datatypes.S d)) (E + 2).
Proof.
  intros F A HE. pose proof (apx_leaf True x (fun _ => F)) as L.
  eapply apx_weaken; [apply (apx_fma True fused _ _ _ _ _ _ _ _ _ _ _ _ _ _ (Datatypes.S d) L L A); auto; lia|ring| |lia|lra].
  rewrite <- Rabs_mult. rewrite Rabs_pos_eq; [lra|nra].
Qed.
Lemma norm_main (q : FQ) : moderate q -> is_finite (q_norm q) = true /\ Rabs (B2R (q_norm q) - nrm q) <= 4 * uro * nrm q.
Proof.
  intros [(F0 & F1 & F2 & F3) SB]. apply (core_norm (nrm2 q) (nrm q) SB eq_refl); apply (sumsq_fin _ (nrm2 q)); auto; unfold nrm2;
  (eapply apx_weaken; [eapply (sq_add _ (qk q) _ 2 (1 + 2 + 2) F3); [eapply (sq_add _ (qj q) _ 1 (1 + 2) F2); [eapply (sq_add _ (qi q) _ 0 1 F1); [apply sqlf; auto|lra]|lra]|lra]|ring|apply Req_le; ring|lia|lra]).
Qed.
Lemma norm_main_c (q : FQ) : moderate q -> is_finite (q_norm_contracted q) = true /\ Rabs (B2R (q_norm_contracted q) - nrm q) <= 4 * uro * nrm q.
Proof.
  intros [(F0 & F1 & F2 & F3) SB]. apply (core_norm (nrm2 q) (nrm q) SB eq_refl); apply (sumsq_fin _ (nrm2 q)); auto; unfold nrm2;
  (eapply apx_weaken; [eapply (sq_fma _ (qk q) _ 2 (1 + 2 + 2) F3); [eapply (sq_fma _ (qj q) _ 1 (1 + 2) F2); [eapply (sq_fma _ (qi q) _ 0 1 F1); [apply sqlf; auto|lra]|lra]|lra]|ring|apply Req_le; ring|lia|lra]).
Qed.
Lemma comp_le (q : FQ) : Rabs (B2R (qr q)) <= nrm q /\ Rabs (B2R (qi q)) <= nrm q /\ Rabs (B2R (qj q)) <= nrm q /\ Rabs (B2R (qk q)) <= nrm q.
Proof.
  unfold nrm. repeat split; rewrite <- sqrt_Rsqr_abs; apply sqrt_le_1_alt; unfold Rsqr, nrm2;
  generalize (B2R (qr q)) (B2R (qi q)) (B2R (qj q)) (B2R (qk q)); intros; nra.
Qed.
(** versor and inverse, given any accurate norm *)
Section N.
Variables (q : FQ) (n : K).
Hypothesis (M : moderate q) (Fn : is_finite (n : f64) = true) (Hn : Rabs (B2R (n : f64) - nrm q) <= 4 * uro * nrm q).
Lemma versor_core : qnear (q_div_r q n) (@Quat Rnum (B2R (qr q) / nrm q) (B2R (qi q) / nrm q) (B2R (qj q) / nrm q) (B2R (qk q) / nrm q)) (6 * uro).
Proof.
  destruct M as [(F0 & F1 & F2 & F3) SB]. destruct (comp_le q) as (C0 & C1 & C2 & C3). pose proof u_small as [U0 U1].
  assert (D : forall x : f64, is_finite x = true -> Rabs (B2R x) <= nrm q -> is_finite (fdiv x n) = true /\ Rabs (B2R (fdiv x n) - B2R x / nrm q) <= 6 * uro).
  { intros x Fx Cx. destruct (core_div (nrm2 q) (nrm q) SB eq_refl n Hn x Fx Cx). split; auto. lra. }
  destruct (D _ F0 C0), (D _ F1 C1), (D _ F2 C2), (D _ F3 C3). unfold qnear, fin. cbn [qr qi qj qk q_div_r q_diveq_r]. tauto.
Qed.
Lemma inv_core : qnear (q_div_r (q_div_r (q_conj q) n) n)
  (@Quat Rnum (B2R (qr q) / nrm2 q) (- B2R (qi q) / nrm2 q) (- B2R (qj q) / nrm2 q) (- B2R (qk q) / nrm2 q)) (11 * uro * / nrm q).
Proof.
  destruct M as [(F0 & F1 & F2 & F3) SB]. destruct (comp_le q) as (C0 & C1 & C2 & C3).
  assert (D : forall x : f64, is_finite x = true -> Rabs (B2R x) <= nrm q -> is_finite (fdiv (fdiv x n) n) = true /\ Rabs (B2R (fdiv (fdiv x n) n) - B2R x / nrm2 q) <= 11 * uro * / nrm q).
  { intros x Fx Cx. apply (core_div2 (nrm2 q) (nrm q) SB eq_refl n Hn x Fx Cx). }
  assert (D' : forall x : f64, is_finite x = true -> Rabs (B2R x) <= nrm q -> is_finite (fdiv (fdiv (fopp x) n) n) = true /\ Rabs (B2R (fdiv (fdiv (fopp x) n) n) - - B2R x / nrm2 q) <= 11 * uro * / nrm q).
  { intros x Fx Cx. rewrite <- fopp_R. apply D; [rewrite fopp_fin; auto|rewrite fopp_R, Rabs_Ropp; auto]. }
  destruct (D _ F0 C0), (D' _ F1 C1), (D' _ F2 C2), (D' _ F3 C3). unfold qnear, fin. cbn [qr qi qj qk q_div_r q_diveq_r q_conj]. tauto.
Qed.
End N.

Lemma HmulR (a0 a1 a2 a3 v0 v1 v2 v3 : R) : Hmul (K := Rnum) (@Quat Rnum a0 a1 a2 a3) (@Quat Rnum v0 v1 v2 v3) =
  @Quat Rnum (a0 * v0 - a1 * v1 - a2 * v2 - a3 * v3) (a0 * v1 + a1 * v0 + a2 * v3 - a3 * v2) (a0 * v2 - a1 * v3 + a2 * v0 + a3 * v1) (a0 * v3 + a1 * v2 - a2 * v1 + a3 * v0).
Proof. unfold Hmul. hunf. cbn. f_equal; ring. Qed.
(** unit vectors: sums of pairwise products *)
Lemma unit_sum b0 b1 b2 b3 : b0 * b0 + b1 * b1 + b2 * b2 + b3 * b3 = 1 -> Rabs b0 + Rabs b1 + Rabs b2 + Rabs b3 <= 2.
Proof.
  intros H.
  assert (E : forall x, x * x = Rabs x * Rabs x) by (intros x; rewrite <- Rabs_mult, Rabs_pos_eq; nra).
  rewrite (E b0), (E b1), (E b2), (E b3) in H. revert H. generalize (Rabs b0) (Rabs b1) (Rabs b2) (Rabs b3). clear. intros x y z w H.
  assert (Q : (x + y + z + w) * (x + y + z + w) <= 2 * 2).
  { assert (0 <= (x - y) * (x - y)) by apply Rle_0_sqr. assert (0 <= (x - z) * (x - z)) by apply Rle_0_sqr. assert (0 <= (x - w) * (x - w)) by apply Rle_0_sqr.
    assert (0 <= (y - z) * (y - z)) by apply Rle_0_sqr. assert (0 <= (y - w) * (y - w)) by apply Rle_0_sqr. assert (0 <= (z - w) * (z - w)) by apply Rle_0_sqr. lra. }
  apply Rnot_lt_le. intros C. assert (2 * 2 < (x + y + z + w) * (x + y + z + w)) by (apply Rmult_gt_0_lt_compat; lra). lra.
Qed.
Lemma lin4 b0 b1 b2 b3 d0 d1 d2 d3 e : 0 <= e -> Rabs b0 + Rabs b1 + Rabs b2 + Rabs b3 <= 2 -> Rabs d0 <= e -> Rabs d1 <= e -> Rabs d2 <= e -> Rabs d3 <= e ->
  Rabs (b0 * d0 + b1 * d1 + b2 * d2 + b3 * d3) <= 2 * e.
Proof.
  intros He Hb H0 H1 H2 H3. eapply Rle_trans; [apply Rabs_triang|]. eapply Rle_trans; [apply Rplus_le_compat_r, Rabs_triang|].
  eapply Rle_trans; [apply Rplus_le_compat_r, Rplus_le_compat_r, Rabs_triang|]. rewrite !Rabs_mult.
  pose proof (Rabs_pos b0). pose proof (Rabs_pos b1). pose proof (Rabs_pos b2). pose proof (Rabs_pos b3).
  assert (Rabs b0 * Rabs d0 <= Rabs b0 * e) by (apply Rmult_le_compat_l; auto). assert (Rabs b1 * Rabs d1 <= Rabs b1 * e) by (apply Rmult_le_compat_l; auto).
  assert (Rabs b2 * Rabs d2 <= Rabs b2 * e) by (apply Rmult_le_compat_l; auto). assert (Rabs b3 * Rabs d3 <= Rabs b3 * e) by (apply Rmult_le_compat_l; auto). nra.
Qed.
Lemma err4_small m : 0 <= m <= 11 / 10 -> err_bound 4 m 7 <= 5 * uro.
Proof.
  intros Hm. pose proof u_small as [U0 U1]. pose proof G4_bound as GB. pose proof eta_1 as E1. pose proof eta_pos as E0. unfold err_bound.
  set (g := (1 + uro) ^ 4) in *. assert (G1 : 1 <= g) by (apply pow_R1_Rle; lra). assert (G2 : g <= 101 / 100) by lra.
  assert ((g - 1) * m <= uro * (1 + 31 / 10 + 1 / 100) * (11 / 10)) by (apply Rmult_le_compat; lra).
  assert (eta * g <= uro * uro * 1 * (101 / 100)) by (apply Rmult_le_compat; lra). assert (uro * uro <= uro / 1024) by nra. nra.
Qed.
(** q times an accurate inverse *)
Lemma inv_mul_core (q v : FQ) : moderate q ->
  qnear v (@Quat Rnum (B2R (qr q) / nrm2 q) (- B2R (qi q) / nrm2 q) (- B2R (qj q) / nrm2 q) (- B2R (qk q) / nrm2 q)) (11 * uro * / nrm q) ->
  qnear (q_mul_avx q v) (H1 (K := Rnum)) (32 * uro).
Proof.
  intros [Fq SB] (Fv & V0 & V1 & V2 & V3). destruct (mul_err fused q v) as [Cl Fi]. cbn [qr qi qj qk] in *.
  pose proof (N_pos (nrm2 q) (nrm q) SB eq_refl) as NP. pose proof (NN (nrm2 q) (nrm q) SB eq_refl) as NS. pose proof u_small as [U0 U1].
  set (N := nrm q) in *. set (S := nrm2 q) in *.
  assert (HS : S = B2R (qr q) * B2R (qr q) + B2R (qi q) * B2R (qi q) + B2R (qj q) * B2R (qj q) + B2R (qk q) * B2R (qk q)) by reflexivity.
  unfold close, below, QR, Qabs, Qmaj in *. cbn [qr qi qj qk] in *.
  revert HS V0 V1 V2 V3 Cl Fi. set (R := q_mul_avx q v). generalize (B2R (qr q)) (B2R (qi q)) (B2R (qj q)) (B2R (qk q)) (B2R (qr v)) (B2R (qi v)) (B2R (qj v)) (B2R (qk v)).
  intros a0 a1 a2 a3 v0 v1 v2 v3 HS V0 V1 V2 V3 Cl Fi.
  pose (b0 := a0 / N). pose (b1 := a1 / N). pose (b2 := a2 / N). pose (b3 := a3 / N).
  pose (d0 := v0 * N - b0). pose (d1 := v1 * N + b1). pose (d2 := v2 * N + b2). pose (d3 := v3 * N + b3).
  assert (E0 : a0 = b0 * N) by (unfold b0; field; lra). assert (E1 : a1 = b1 * N) by (unfold b1; field; lra).
  assert (E2 : a2 = b2 * N) by (unfold b2; field; lra). assert (E3 : a3 = b3 * N) by (unfold b3; field; lra).
  assert (W0 : v0 = (b0 + d0) / N) by (unfold d0; field; lra). assert (W1 : v1 = (d1 - b1) / N) by (unfold d1; field; lra).
  assert (W2 : v2 = (d2 - b2) / N) by (unfold d2; field; lra). assert (W3 : v3 = (d3 - b3) / N) by (unfold d3; field; lra).
  assert (DB : forall x y, Rabs (x - y / S) <= 11 * uro * / N -> Rabs (x * N - y / N) <= 11 * uro).
  { intros x y Hxy. replace (x * N - y / N) with ((x - y / S) * N) by (rewrite <- NS; field; lra). rewrite Rabs_mult, (Rabs_pos_eq N) by lra.
    apply Rle_trans with (11 * uro * / N * N); [apply Rmult_le_compat_r; lra|apply Req_le; field; lra]. }
  assert (D0 : Rabs d0 <= 11 * uro) by (apply (DB v0 a0); auto).
  assert (D1 : Rabs d1 <= 11 * uro) by (replace d1 with (v1 * N - (- a1) / N) by (unfold d1, b1; field; lra); apply DB; auto).
  assert (D2 : Rabs d2 <= 11 * uro) by (replace d2 with (v2 * N - (- a2) / N) by (unfold d2, b2; field; lra); apply DB; auto).
  assert (D3 : Rabs d3 <= 11 * uro) by (replace d3 with (v3 * N - (- a3) / N) by (unfold d3, b3; field; lra); apply DB; auto).
  assert (U : b0 * b0 + b1 * b1 + b2 * b2 + b3 * b3 = 1).
  { unfold b0, b1, b2, b3. replace (a0 / N * (a0 / N) + a1 / N * (a1 / N) + a2 / N * (a2 / N) + a3 / N * (a3 / N)) with ((a0 * a0 + a1 * a1 + a2 * a2 + a3 * a3) / (N * N)) by (field; lra).
    rewrite <- HS, NS. field. pose proof (S_pos S SB). lra. }
  clear DB V0 V1 V2 V3 HS. clearbody b0 b1 b2 b3 d0 d1 d2 d3. pose proof (unit_sum _ _ _ _ U) as US.
  (* magnitudes *)
  assert (MG : forall x0 x1 x2 x3 y0 y1 y2 y3, x0 * x0 + x1 * x1 + x2 * x2 + x3 * x3 = 1 -> y0 * y0 + y1 * y1 + y2 * y2 + y3 * y3 = 1 -> Rabs x0 + Rabs x1 + Rabs x2 + Rabs x3 <= 2 ->
    forall w0 w1 w2 w3, Rabs w0 <= Rabs y0 + 11 * uro -> Rabs w1 <= Rabs y1 + 11 * uro -> Rabs w2 <= Rabs y2 + 11 * uro -> Rabs w3 <= Rabs y3 + 11 * uro ->
    0 <= Rabs (x0 * N) * Rabs (w0 / N) + Rabs (x1 * N) * Rabs (w1 / N) + Rabs (x2 * N) * Rabs (w2 / N) + Rabs (x3 * N) * Rabs (w3 / N) <= 11 / 10).
  { intros x0 x1 x2 x3 y0 y1 y2 y3 HX HY HX2 w0 w1 w2 w3 L0 L1 L2 L3.
    assert (EE : forall x w, Rabs (x * N) * Rabs (w / N) = Rabs x * Rabs w).
    { intros x w. rewrite <- !Rabs_mult. f_equal. field. lra. }
    rewrite !EE. assert (Q : forall x, x * x = Rabs x * Rabs x) by (intros x; rewrite <- Rabs_mult, Rabs_pos_eq; nra).
    rewrite (Q x0), (Q x1), (Q x2), (Q x3) in HX. rewrite (Q y0), (Q y1), (Q y2), (Q y3) in HY.
    pose proof (Rabs_pos x0) as P0. pose proof (Rabs_pos x1) as P1. pose proof (Rabs_pos x2) as P2. pose proof (Rabs_pos x3) as P3.
    pose proof (Rabs_pos w0) as Q0. pose proof (Rabs_pos w1) as Q1. pose proof (Rabs_pos w2) as Q2. pose proof (Rabs_pos w3) as Q3.
    revert HX HY HX2 L0 L1 L2 L3 P0 P1 P2 P3 Q0 Q1 Q2 Q3. clear - U0 U1.
    generalize (Rabs x0) (Rabs x1) (Rabs x2) (Rabs x3) (Rabs y0) (Rabs y1) (Rabs y2) (Rabs y3) (Rabs w0) (Rabs w1) (Rabs w2) (Rabs w3). intros.
    assert (r * r7 <= r * (r3 + 11 * uro)) by (apply Rmult_le_compat_l; auto). assert (r0 * r8 <= r0 * (r4 + 11 * uro)) by (apply Rmult_le_compat_l; auto).
    assert (r1 * r9 <= r1 * (r5 + 11 * uro)) by (apply Rmult_le_compat_l; auto). assert (r2 * r10 <= r2 * (r6 + 11 * uro)) by (apply Rmult_le_compat_l; auto).
    split; [repeat apply Rplus_le_le_0_compat; apply Rmult_le_pos; auto|].
    assert (0 <= (r - r3) * (r - r3)) by apply Rle_0_sqr. assert (0 <= (r0 - r4) * (r0 - r4)) by apply Rle_0_sqr.
    assert (0 <= (r1 - r5) * (r1 - r5)) by apply Rle_0_sqr. assert (0 <= (r2 - r6) * (r2 - r6)) by apply Rle_0_sqr.
    assert (r * r3 + r0 * r4 + r1 * r5 + r2 * r6 <= 1) by lra.
    assert ((r + r0 + r1 + r2) * (11 * uro) <= 2 * (11 * uro)) by (apply Rmult_le_compat_r; lra). lra. }
  assert (A0 : Rabs (b0 + d0) <= Rabs b0 + 11 * uro) by (eapply Rle_trans; [apply Rabs_triang|lra]).
  assert (AM : forall b d, Rabs d <= 11 * uro -> Rabs (d - b) <= Rabs b + 11 * uro) by (intros b d Hd; eapply Rle_trans; [apply Rabs_triang|rewrite Rabs_Ropp; lra]).
  pose proof (AM b1 d1 D1) as A1. pose proof (AM b2 d2 D2) as A2. pose proof (AM b3 d3 D3) as A3. clear AM.
  subst a0 a1 a2 a3 v0 v1 v2 v3.
  pose proof (MG b0 b1 b2 b3 b0 b1 b2 b3 U U US _ _ _ _ A0 A1 A2 A3) as M0.
  pose proof (MG b0 b1 b2 b3 b1 b0 b3 b2 U ltac:(lra) US _ _ _ _ A1 A0 A3 A2) as M1.
  pose proof (MG b0 b1 b2 b3 b2 b3 b0 b1 U ltac:(lra) US _ _ _ _ A2 A3 A0 A1) as M2.
  pose proof (MG b0 b1 b2 b3 b3 b2 b1 b0 U ltac:(lra) US _ _ _ _ A3 A2 A1 A0) as M3.
  clear MG. unfold qnear, H1. cbn [qr qi qj qk n0 n1 Rnum].
  assert (FR : fin R).
  { apply Fi; auto. assert (BB := below_small 4 7 (@Quat Rnum
      (Rabs (b0 * N) * Rabs ((b0 + d0) / N) + Rabs (b1 * N) * Rabs ((d1 - b1) / N) + Rabs (b2 * N) * Rabs ((d2 - b2) / N) + Rabs (b3 * N) * Rabs ((d3 - b3) / N))
      (Rabs (b0 * N) * Rabs ((d1 - b1) / N) + Rabs (b1 * N) * Rabs ((b0 + d0) / N) + Rabs (b2 * N) * Rabs ((d3 - b3) / N) + Rabs (b3 * N) * Rabs ((d2 - b2) / N))
      (Rabs (b0 * N) * Rabs ((d2 - b2) / N) + Rabs (b1 * N) * Rabs ((d3 - b3) / N) + Rabs (b2 * N) * Rabs ((b0 + d0) / N) + Rabs (b3 * N) * Rabs ((d1 - b1) / N))
      (Rabs (b0 * N) * Rabs ((d3 - b3) / N) + Rabs (b1 * N) * Rabs ((d2 - b2) / N) + Rabs (b2 * N) * Rabs ((d1 - b1) / N) + Rabs (b3 * N) * Rabs ((b0 + d0) / N)))).
    unfold below in BB. cbn [qr qi qj qk] in BB. assert (Big : 8 <= bpow radix2 1022) by (change 8 with (bpow radix2 3); apply bpow_le; lia).
    revert BB. generalize dependent (bpow radix2 1022). intros big Big BB.
    assert (I4 : INR 4 * uro <= / 2) by (cbn [INR]; lra).
    apply BB; auto; lra. }
  destruct FR as (R0 & R1 & R2 & R3). destruct Cl as (Q0 & Q1 & Q2 & Q3). specialize (Q0 R0). specialize (Q1 R1). specialize (Q2 R2). specialize (Q3 R3).
  rewrite HmulR in Q0, Q1, Q2, Q3. cbn [qr qi qj qk] in Q0, Q1, Q2, Q3. cbn [qr qi qj qk].
  pose proof (err4_small _ M0) as K0. pose proof (err4_small _ M1) as K1. pose proof (err4_small _ M2) as K2. pose proof (err4_small _ M3) as K3.
  assert (FinT : forall x y z, Rabs (x - y) <= 5 * uro -> Rabs (y - z) <= 2 * (11 * uro) -> Rabs (x - z) <= 32 * uro).
  { intros x y z Hxy Hyz. replace (x - z) with ((x - y) + (y - z)) by ring. eapply Rle_trans; [apply Rabs_triang|lra]. }
  refine (conj (conj R0 (conj R1 (conj R2 R3))) (conj _ (conj _ (conj _ _)))).
  - eapply FinT; [eapply Rle_trans; [exact Q0|exact K0]|].
    match goal with |- Rabs ?t <= _ => replace t with ((b0 * b0 + b1 * b1 + b2 * b2 + b3 * b3 - 1) + (b0 * d0 + b1 * (- d1) + b2 * (- d2) + b3 * (- d3))) by (field; lra) end.
    rewrite U, Rminus_diag_eq, Rplus_0_l by reflexivity.
    apply lin4; rewrite ?Rabs_Ropp; auto; lra.
  - eapply FinT; [eapply Rle_trans; [exact Q1|exact K1]|].
    match goal with |- Rabs ?t <= _ => replace t with (b0 * d1 + b1 * d0 + b2 * d3 + b3 * (- d2)) by (field; lra) end.
    apply lin4; rewrite ?Rabs_Ropp; auto; lra.
  - eapply FinT; [eapply Rle_trans; [exact Q2|exact K2]|].
    match goal with |- Rabs ?t <= _ => replace t with (b0 * d2 + b1 * (- d3) + b2 * d0 + b3 * d1) by (field; lra) end.
    apply lin4; rewrite ?Rabs_Ropp; auto; lra.
  - eapply FinT; [eapply Rle_trans; [exact Q3|exact K3]|].
    match goal with |- Rabs ?t <= _ => replace t with (b0 * d3 + b1 * d2 + b2 * (- d1) + b3 * d0) by (field; lra) end.
    apply lin4; rewrite ?Rabs_Ropp; auto; lra.
Qed.
End Q.
