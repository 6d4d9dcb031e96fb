(** C32-C34: frame, BETA = 0, degenerate sizes. *)
From Coq Require Import ZArith Lia Bool Ascii Ring_theory.
From Verif Require Import Num Res ResFacts Spec SpecFacts VecFacts LoopFacts GemmLoops MQuat QuatFacts MSimd MForL1 MForL2 MForL3 ForL3Facts MGenL1
  MGenL2 L1Facts2 L2Facts L2GenFacts MOptL1 MGenM MPack MOptGemm OptGemmFacts OptGemmTop PackFacts RawL3 F64.
Local Open Scope Z_scope.

Lemma fdec_char c o : trans_char c = Some o -> fdec c = o.
Proof.
  unfold trans_char. destruct (Ascii.eqb_spec c "N") as [->|_]; [intros [= <-]; reflexivity|].
  destruct (Ascii.eqb_spec c "T") as [->|_]; [intros [= <-]; reflexivity|].
  destruct (Ascii.eqb_spec c "C") as [->|_]; [intros [= <-]; reflexivity|]. discriminate.
Qed.
Lemma gdec_char c o : trans_char c = Some o -> gdec c = o.
Proof.
  unfold trans_char. destruct (Ascii.eqb_spec c "N") as [->|_]; [intros [= <-]; reflexivity|].
  destruct (Ascii.eqb_spec c "T") as [->|_]; [intros [= <-]; reflexivity|].
  destruct (Ascii.eqb_spec c "C") as [->|_]; [intros [= <-]; reflexivity|]. discriminate.
Qed.

(** ** C32 *)
Lemma frame_fortran (K : num) ca cb oa ob m n k alpha (a : arr (quat K)) lda (b : arr (quat K)) ldb beta (c : arr (quat K)) ldc A B w :
  trans_char ca = Some oa -> trans_char cb = Some ob -> 0 <= m -> 0 <= n -> 0 <= k -> m <= ldc ->
  holds_mat a lda (op_rows oa m k) (op_cols oa m k) A -> holds_mat b ldb (op_rows ob k n) (op_cols ob k n) B -> holds_mat c ldc m n w ->
  returns (hgemm ca cb m n k alpha a lda b ldb beta c ldc) (fun c' => same_but_mat c c' ldc m n /\ exists w', holds_mat c' ldc m n w').
Proof.
  intros Ca Cb Hm Hn Hk Hl Ha Hb Hc. apply fdec_char in Ca as <-. apply fdec_char in Cb as <-.
  eapply returns_mono; [apply (hgemm_raw ca cb m n k alpha a lda b ldb beta c ldc A B w); auto|].
  intros c' [H1' S1]. eauto.
Qed.
Lemma frame_real (K : num) qmul ca cb oa ob m n k alpha (a : arr K) lda (b : arr (quat K)) ldb beta (c : arr (quat K)) ldc A B w :
  trans_char ca = Some oa -> trans_char cb = Some ob -> 0 <= m -> 0 <= n -> 0 <= k -> m <= ldc ->
  holds_mat a lda (op_rows oa m k) (op_cols oa m k) A -> holds_mat b ldb (op_rows ob k n) (op_cols ob k n) B -> holds_mat c ldc m n w ->
  returns (gemm_real qmul ca cb m n k alpha a lda b ldb beta c ldc) (fun c' => same_but_mat c c' ldc m n /\ exists w', holds_mat c' ldc m n w').
Proof.
  intros Ca Cb Hm Hn Hk Hl Ha Hb Hc. apply gdec_char in Ca as <-. apply gdec_char in Cb as <-.
  eapply returns_mono; [apply (gemm_gen_raw qmul r_mul_q rmulscal smartconj_r ca cb m n k (SR alpha) a lda b ldb (SR beta) c ldc A B w); auto|].
  intros c' [H1' S1]. eauto.
Qed.
Lemma frame_opt (K : num) mc nc kc aa ba ga gb ca cb oa ob m n k alpha (a : arr (quat K)) lda (b : arr (quat K)) ldb beta cadr (c : arr (quat K)) ldc A B w :
  0 < mc -> Z.even mc = true -> 0 < nc -> Z.even nc = true -> 0 < kc -> aa mod 32 = 0 -> ba mod 32 = 0 ->
  trans_char_r ca = Some oa -> trans_char_r cb = Some ob -> 0 <= m -> 0 <= n -> 0 <= k -> m <= ldc ->
  holds_mat a lda (op_rows oa m k) (op_cols oa m k) A -> holds_mat b ldb (op_rows ob k n) (op_cols ob k n) B -> holds_mat c ldc m n w ->
  returns (gemm_opt mc nc kc aa ba ga gb ca cb m n k alpha a lda b ldb beta cadr c ldc) (fun c' =>
    same_but_mat c c' ldc m n /\ exists w', holds_mat c' ldc m n w').
Proof.
  intros. eapply returns_mono; [apply (gemm_opt_raw mc nc kc aa ba ga gb ca cb oa ob) with (A := A) (B := B) (w := w); auto using buf_fits, dec_char|].
  intros c' [H1' S1]. eauto.
Qed.

(** ** C33 *)
Lemma fone_false (K : num) (beta : scal K) : (forall x : K, neqb x n0 = true -> neqb x n1 = false) -> fzero beta = true -> fone beta = false.
Proof.
  intros H. destruct beta as [b|[b1 b2]|[b1 b2 b3 b4]]; cbn; intros E; rewrite ?andb_true_iff in E.
  - auto.
  - destruct E as [E1 E2]. rewrite H; auto.
  - destruct E as [[[E1 E2] E3] E4]. rewrite H; auto.
Qed.
Lemma beta0_fortran (K : num) ca cb oa ob m n k alpha (a : arr (quat K)) lda (b : arr (quat K)) ldb beta (c c2 : arr (quat K)) ldc A B w w2 :
  (forall x : K, neqb x n0 = true -> neqb x n1 = false) -> fzero beta = true ->
  trans_char ca = Some oa -> trans_char cb = Some ob -> 0 <= m -> 0 <= n -> 0 <= k -> m <= ldc ->
  holds_mat a lda (op_rows oa m k) (op_cols oa m k) A -> holds_mat b ldb (op_rows ob k n) (op_cols ob k n) B ->
  holds_mat c ldc m n w -> holds_mat c2 ldc m n w2 ->
  returns (hgemm ca cb m n k alpha a lda b ldb beta c ldc) (fun c' =>
  returns (hgemm ca cb m n k alpha a lda b ldb beta c2 ldc) (fun c2' =>
    forall i j, 0 <= i < m -> 0 <= j < n -> c' (i + j * ldc) = c2' (i + j * ldc))).
Proof.
  intros Hk01 Hz Ca Cb Hm Hn Hk Hl Ha Hb Hc Hc2. apply fdec_char in Ca as <-. apply fdec_char in Cb as <-.
  eapply returns_mono; [apply (hgemm_raw ca cb m n k alpha a lda b ldb beta c ldc A B w); auto|]. intros c' [H' _].
  eapply returns_mono; [apply (hgemm_raw ca cb m n k alpha a lda b ldb beta c2 ldc A B w2); auto|]. intros c2' [H2' _].
  intros i j Hi Hj. rewrite H', H2' by auto. f_equal. unfold hgemm_val, hgemm_main, hpre_elt.
  rewrite (fone_false K beta Hk01 Hz), Hz, andb_false_r. reflexivity.
Qed.
Lemma beta0_real (K : num) qmul ca cb oa ob m n k alpha (a : arr K) lda (b : arr (quat K)) ldb beta (c c2 : arr (quat K)) ldc A B w w2 :
  (forall x : K, neqb x n0 = true -> neqb x n1 = false) -> neqb beta n0 = true ->
  trans_char ca = Some oa -> trans_char cb = Some ob -> 0 <= m -> 0 <= n -> 0 <= k -> m <= ldc ->
  holds_mat a lda (op_rows oa m k) (op_cols oa m k) A -> holds_mat b ldb (op_rows ob k n) (op_cols ob k n) B ->
  holds_mat c ldc m n w -> holds_mat c2 ldc m n w2 ->
  returns (gemm_real qmul ca cb m n k alpha a lda b ldb beta c ldc) (fun c' =>
  returns (gemm_real qmul ca cb m n k alpha a lda b ldb beta c2 ldc) (fun c2' =>
    forall i j, 0 <= i < m -> 0 <= j < n -> c' (i + j * ldc) = c2' (i + j * ldc))).
Proof.
  intros Hk01 Hz Ca Cb Hm Hn Hk Hl Ha Hb Hc Hc2. apply gdec_char in Ca as <-. apply gdec_char in Cb as <-.
  eapply returns_mono; [apply (gemm_gen_raw qmul r_mul_q rmulscal smartconj_r ca cb m n k (SR alpha) a lda b ldb (SR beta) c ldc A B w); auto|]. intros c' [H' _].
  eapply returns_mono; [apply (gemm_gen_raw qmul r_mul_q rmulscal smartconj_r ca cb m n k (SR alpha) a lda b ldb (SR beta) c2 ldc A B w2); auto|]. intros c2' [H2' _].
  intros i j Hi Hj. rewrite H', H2' by auto. f_equal. unfold ggemm_val, ggemm_main, gpre_elt, gscale_elt, q_set_real.
  cbn [s_eqb]. rewrite (Hk01 _ Hz), Hz, andb_false_r. reflexivity.
Qed.
Lemma opt_nan fused mc nc kc aa ba ga gb ca cb oa ob m n k alpha (a : arr (quat (F64 fused))) lda b ldb beta cadr (c : arr (quat (F64 fused))) ldc A B w i j :
  (forall q, beta <> SH q) ->
  0 < mc -> Z.even mc = true -> 0 < nc -> Z.even nc = true -> 0 < kc -> aa mod 32 = 0 -> ba mod 32 = 0 ->
  trans_char_r ca = Some oa -> trans_char_r cb = Some ob -> 0 <= m -> 0 <= n -> 0 <= k -> m <= ldc ->
  holds_mat a lda (op_rows oa m k) (op_cols oa m k) A -> holds_mat b ldb (op_rows ob k n) (op_cols ob k n) B -> holds_mat c ldc m n w ->
  0 <= i < m -> 0 <= j < n -> qr (w i j) = f_nan ->
  returns (gemm_opt mc nc kc aa ba ga gb ca cb m n k alpha a lda b ldb beta cadr c ldc) (fun c' =>
    exists q, c' (i + j * ldc) = Some q /\ qr q = f_nan).
Proof.
  intros. eapply returns_mono; [apply (gemm_opt_raw mc nc kc aa ba ga gb ca cb oa ob) with (A := A) (B := B) (w := w); auto using buf_fits, dec_char|].
  intros c' [Hh _]. eexists. split; [apply Hh; auto|]. apply gemm_val_nan; auto.
Qed.
Lemma beta0_opt_exact (K : num) (L : laws K) mc nc kc aa ba ga gb ca cb oa ob m n k alpha (a : arr (quat K)) lda (b : arr (quat K)) ldb beta cadr (c : arr (quat K)) ldc A B w :
  emb beta = H0 ->
  0 < mc -> Z.even mc = true -> 0 < nc -> Z.even nc = true -> 0 < kc -> aa mod 32 = 0 -> ba mod 32 = 0 ->
  trans_char_r ca = Some oa -> trans_char_r cb = Some ob -> 0 <= m -> 0 <= n -> 0 <= k -> m <= ldc ->
  holds_mat a lda (op_rows oa m k) (op_cols oa m k) A -> holds_mat b ldb (op_rows ob k n) (op_cols ob k n) B -> holds_mat c ldc m n w ->
  returns (gemm_opt mc nc kc aa ba ga gb ca cb m n k alpha a lda b ldb beta cadr c ldc) (fun c' =>
    holds_mat c' ldc m n (fun i j => Hmul (emb alpha) (Hsum k (fun l => Hmul (opm oa A i l) (opm ob B l j))))).
Proof.
  intros E. intros. eapply returns_mono; [apply (gemm_opt_ok K L mc nc kc aa ba ga gb ca cb oa ob) with (A := A) (B := B) (w := w); auto|].
  intros c' [Hh _] i j Hi Hj. rewrite Hh by auto. unfold gemm_elt. rewrite E, (Hmul_0_l L), (Hadd_0_r L). reflexivity.
Qed.

(** ** C34 *)
Lemma gemm_fortran_alpha0 (K : num) (L : laws K) ca cb m n k alpha (a : arr (quat K)) lda (b : arr (quat K)) ldb beta (c : arr (quat K)) ldc w :
  emb alpha = H0 -> 0 <= m -> 0 <= n -> 0 <= k -> m <= ldc -> holds_mat c ldc m n w ->
  returns (hgemm ca cb m n k alpha a lda b ldb beta c ldc) (fun c' =>
    holds_mat c' ldc m n (fun i j => Hmul (emb beta) (w i j)) /\ same_but_mat c c' ldc m n).
Proof.
  intros E Hm Hn Hk Hl Hc. apply (fzero_emb L) in E.
  eapply returns_mono; [apply (hgemm_raw ca cb m n k alpha a lda b ldb beta c ldc (fun _ _ => H0) (fun _ _ => H0) w); auto; congruence|].
  intros c' [Hh S]. split; auto. intros i j Hi Hj. rewrite Hh by auto. f_equal. unfold hgemm_val. rewrite E. cbn [orb].
  destruct (fone beta) eqn:E1; cbn [andb]; [apply (fone_emb L) in E1; rewrite E1, (Hmul_1_l L); auto|].
  destruct (fzero beta) eqn:E0; [apply (fzero_emb L) in E0; rewrite E0, (Hmul_0_l L); reflexivity|]. apply (hbeta_elt_H L).
Qed.
Lemma gemm_real_alpha0 (K : num) (L : laws K) qmul ca cb m n k (a : arr K) lda (b : arr (quat K)) ldb beta (c : arr (quat K)) ldc w :
  0 <= m -> 0 <= n -> 0 <= k -> m <= ldc -> holds_mat c ldc m n w ->
  returns (gemm_real qmul ca cb m n k n0 a lda b ldb beta c ldc) (fun c' =>
    holds_mat c' ldc m n (fun i j => Hmul (Hre beta) (w i j)) /\ same_but_mat c c' ldc m n).
Proof.
  intros Hm Hn Hk Hl Hc. assert (E : s_eqb (K:=K) (SR n0) n0 = true) by (apply (l_eqb K L); auto).
  eapply returns_mono; [apply (gemm_gen_raw qmul r_mul_q rmulscal smartconj_r ca cb m n k (SR n0) a lda b ldb (SR beta) c ldc (fun _ _ => n0) (fun _ _ => H0) w); auto; congruence|].
  intros c' [Hh S]. split; auto. intros i j Hi Hj. rewrite Hh by auto. f_equal. unfold ggemm_val. rewrite E. cbn [orb].
  cbn [s_eqb]. destruct (neqb beta n1) eqn:E1; cbn [andb].
  { apply (l_eqb K L) in E1. subst beta. rewrite Hre_1, (Hmul_1_l L). auto. }
  unfold gscale_elt. destruct (neqb beta n0) eqn:E0.
  - apply (l_eqb K L) in E0. subst beta. rewrite Hre_0, (Hmul_0_l L). reflexivity.
  - apply (r_mul_q_H L).
Qed.
Lemma gemm_opt_n0 (K : num) mc nc kc aa ba ga gb ca cb m k (alpha : scal K) (a : arr (quat K)) lda (b : arr (quat K)) ldb beta cadr (c : arr (quat K)) ldc :
  0 < nc -> gemm_opt mc nc kc aa ba ga gb ca cb m 0 k alpha a lda b ldb beta cadr c ldc = Ok c.
Proof.
  intros Hn. unfold gemm_opt, gemm_opt_at, scalm_avx, scalm. cbn [Z.leb orb bind Z.compare]. unfold gemm_nc, zforstep.
  replace (0 - 0 + nc - 1) with (nc - 1) by lia. rewrite Z.div_small by lia. reflexivity.
Qed.
Lemma gemm_opt_k0 (K : num) (L : laws K) mc nc kc aa ba ga gb ca cb oa ob m n alpha (a : arr (quat K)) lda (b : arr (quat K)) ldb beta cadr (c : arr (quat K)) ldc w :
  0 < mc -> Z.even mc = true -> 0 < nc -> Z.even nc = true -> 0 < kc -> aa mod 32 = 0 -> ba mod 32 = 0 ->
  trans_char_r ca = Some oa -> trans_char_r cb = Some ob -> 0 <= m -> 0 <= n -> m <= ldc -> holds_mat c ldc m n w ->
  returns (gemm_opt mc nc kc aa ba ga gb ca cb m n 0 alpha a lda b ldb beta cadr c ldc) (fun c' =>
    holds_mat c' ldc m n (fun i j => Hmul (emb beta) (w i j)) /\ same_but_mat c c' ldc m n).
Proof.
  intros. eapply returns_mono; [apply (gemm_opt_ok K L mc nc kc aa ba ga gb ca cb oa ob) with (A := fun _ _ => Spec.H0) (B := fun _ _ => Spec.H0) (w := w); auto; try lia|].
  - intros i j Hi Hj. destruct oa; cbn in *; lia.
  - intros i j Hi Hj. destruct ob; cbn in *; lia.
  - intros c' [Hh S]. split; auto. intros i j Hi Hj. rewrite Hh by auto. unfold gemm_elt. rewrite Hsum_0, (Hmul_0_r L), (Hadd_0_l L). reflexivity.
Qed.
Lemma level1_empty (K : num) f c n (alpha : scal K) xa (x : arr (quat K)) incx ya (y : arr (quat K)) incy : n <= 0 ->
  swapv_opt n xa x incx ya y incy = Ok (x, y) /\ swapv_gen n x incx y incy = Ok (x, y) /\
  copyv_opt n xa x incx ya y incy = Ok y /\ copyv_gen n x incx y incy = Ok y /\
  scalv_opt c n alpha xa x incx = Ok x /\ scalv_gen f c n alpha x incx = Ok x /\ scalv_for c n alpha x incx = Ok x /\
  axpyv_opt c n alpha xa x incx ya y incy = Ok y /\ axpyv_gen f c n alpha x incx y incy = Ok y /\ axpyv_for c n alpha x incx y incy = Ok y.
Proof.
  intros Hn.
  assert (E1 : Z.to_nat (Z.quot n 1 - 0) = O) by (rewrite Z.quot_1_r; lia).
  assert (E : n <=? 0 = true) by lia.
  repeat apply conj; unfold swapv_opt, copyv_opt, scalv_opt, axpyv_opt, zfor, swapv_gen, copyv_gen, scalv_gen, axpyv_gen, scalv_for, axpyv_for;
    rewrite ?E1, ?E; cbn; try reflexivity; destruct (IS_ALIGNED xa); try reflexivity; destruct (IS_ALIGNED ya); reflexivity.
Qed.
Lemma ARadd_0_r_ (K : num) (L : laws K) : nadd (n0 : K) n0 = n0.
Proof. exact (Radd_0_l (l_ring K L) n0). Qed.
Lemma dot_empty (K : num) (L : laws K) f cnj n xa (x : arr (quat K)) incx ya y incy : n <= 0 ->
  dot_opt cnj n xa x incx ya y incy = Ok H0 /\ dot_gen f cnj n x incx y incy = Ok H0 /\ dot_for cnj n x incx y incy = Ok H0.
Proof.
  intros Hn. assert (E : n <=? 0 = true) by lia.
  split; [|split; [unfold dot_gen|unfold dot_for]; rewrite E; reflexivity].
  unfold dot_opt, zfor.
  assert (Q4 : Z.quot n 4 <= 0) by (rewrite <- (Z.opp_involutive n), Z.quot_opp_l by lia; pose proof (Z.quot_pos (- n) 4); lia).
  assert (R4 : Z.rem n 4 <= 0) by (rewrite <- (Z.opp_involutive n), Z.rem_opp_l by lia; pose proof (Z.rem_nonneg (- n) 4); lia).
  replace (Z.to_nat (Z.quot n 4 - 0)) with O by lia. replace (Z.to_nat (Z.rem n 4 - 0)) with O by lia. cbn.
  unfold H0, q_of_v. cbn. rewrite !(ARadd_0_r_ K L). reflexivity.
Qed.
