(** Whole kernels on integer-valued doubles. *)
From Coq Require Import ZArith Lia Bool Ascii.
From Flocq Require Import IEEE754.BinarySingleNaN.
From Verif Require Import Num NumR Res ResFacts Spec SpecFacts VecFacts LoopFacts MQuat MSimd SimdFacts MOptL1 L1Facts L1Facts2 L1Facts3 MForL1 MForL2 MForL3 MPack PackFacts
  MOptGemm OptGemmFacts OptGemmTop L2Facts ForL3Facts RawL3 MDispatch F64 SpecErr RoundFacts ErrFacts ErrFacts2 ErrFacts3 ErrTop SpecInt IntFacts IntFacts2 IntFacts3 BlockFacts.
Local Open Scope Z_scope.

Lemma Zsum_nonneg n f : (forall i, 0 <= i < n -> 0 <= f i) -> 0 <= Zsum n f.
Proof.
  intros Hf. destruct (Z_le_gt_dec 0 n) as [Hn|Hn]; [|unfold Zsum; replace (Z.to_nat n) with O by lia; cbn; lia].
  pose proof (Zsum_mono 0 n f ltac:(lia) Hf). rewrite Zsum_0 in *. lia.
Qed.
Lemma Zsum_ext n f g : (forall i, 0 <= i < n -> f i = g i) -> Zsum n f = Zsum n g.
Proof.
  intros E. destruct (Z_le_gt_dec 0 n) as [Hn|Hn]; [|unfold Zsum; replace (Z.to_nat n) with O by lia; reflexivity].
  revert E. pattern n. apply natlike_ind; auto. clear n Hn. intros n Hn IH E. unfold Z.succ. rewrite !Zsum_succ, IH, E by (intros; try apply E; lia). reflexivity.
Qed.
Lemma Zsum4 b f : 0 <= b -> Zsum (4 * b) f = Zsum b (fun i => f (4 * i + 0)) + Zsum b (fun i => f (4 * i + 1)) + Zsum b (fun i => f (4 * i + 2)) + Zsum b (fun i => f (4 * i + 3)).
Proof.
  intros Hb. pattern b. apply natlike_ind; auto. clear b Hb. intros b Hb IH. unfold Z.succ.
  replace (4 * (b + 1)) with (4 * b + 1 + 1 + 1 + 1) by lia. rewrite !Zsum_succ by lia. rewrite IH.
  replace (4 * b + 1 + 1 + 1) with (4 * b + 3) by lia. replace (4 * b + 1 + 1) with (4 * b + 2) by lia. rewrite Z.add_0_r. lia.
Qed.
Lemma Zsum_lane b t f : 0 <= b -> 0 <= t < 4 -> (forall i, 0 <= i < 4 * b -> 0 <= f i) -> Zsum b (fun i => f (4 * i + t)) <= Zsum (4 * b) f.
Proof.
  intros Hb Ht Hf. rewrite Zsum4 by auto.
  assert (N : forall u, 0 <= u < 4 -> 0 <= Zsum b (fun i => f (4 * i + u))) by (intros u Hu; apply Zsum_nonneg; intros; apply Hf; lia).
  pose proof (N 0 ltac:(lia)). pose proof (N 1 ltac:(lia)). pose proof (N 2 ltac:(lia)). pose proof (N 3 ltac:(lia)).
  assert (t = 0 \/ t = 1 \/ t = 2 \/ t = 3) as [->|[->|[->| ->]]] by lia; lia.
Qed.
Lemma Zsum_scale c n f : c * Zsum n f = Zsum n (fun i => c * f i).
Proof. unfold Zsum. induction (Z.to_nat n) as [|p IH]; cbn [Zsum_nat]; lia. Qed.

Section O.
Variable fused : bool.
Local Notation K := (F64 fused).
Local Notation FQ := (quat (F64 fused)).

Lemma qisZ_axpyq b (alpha : scal K) al (q r : FQ) zq zr : sisZ alpha al -> qisZ q zq -> qisZ r zr -> Z1 zr + Z1 (emb al) * Z1 zq <= exact_max ->
  qisZ (axpyq fused b alpha q r) (Hadd zr (Hside (sd b) (emb al) zq)).
Proof.
  intros A Q R HB. pose proof (Z1_nonneg zr) as N.
  assert (G : qisZ (Hadd r (scalq b alpha q)) (Hadd zr (Hside (sd b) (emb al) zq))).
  { apply qisZ_add; auto; [apply qisZ_scalq; auto; lia|].
    assert (Z1 (Hside (sd b) (emb al) zq) <= Z1 (emb al) * Z1 zq) by (destruct b; cbn [sd Hside]; [apply Z1_mul|rewrite (Z.mul_comm (Z1 (emb al))); apply Z1_mul]). lia. }
  destruct alpha as [a|z|h], al as [x|w|g]; cbn [sisZ] in A; try contradiction.
  - clear G. destruct (sleaf_r fused a x A) as (m & E & Hm & A'). rewrite E in HB. cbn [emb].
    destruct (qleaf fused q zq Q) as (b0 & b1 & b2 & b3 & E1 & ? & ? & ? & ? & ? & ? & ? & ?).
    destruct (qleaf fused r zr R) as (m0 & m1 & m2 & m3 & E2 & ? & ? & ? & ? & ? & ? & ? & ?). rewrite E1, E2 in HB.
    destruct q as [q0 q1 q2 q3], zq as [v0 v1 v2 v3], r as [r0 r1 r2 r3], zr as [w0 w1 w2 w3]. cbn [qr qi qj qk] in *. unfold axpyq.
    destruct b; lanes; fin4 HB.
  - replace (axpyq fused b (SC z) q r) with (Hadd r (scalq b (SC z) q)) by (unfold axpyq, scalq, axpy_step, scal_step; destruct (alpha_cplx b z); reflexivity). exact G.
  - replace (axpyq fused b (SH h) q r) with (Hadd r (scalq b (SH h) q)) by (unfold axpyq, scalq, axpy_step, scal_step; destruct b; reflexivity). exact G.
Qed.

(** one element of the optimised GEMM *)
Lemma qisZ_opm o (A : Z -> Z -> FQ) ZA i j : (match o with OpN | OpR => qisZ (A i j) (ZA i j) | OpT | OpC => qisZ (A j i) (ZA j i) end) -> qisZ (opm o A i j) (opm o ZA i j).
Proof. destruct o; cbn [opm]; auto; apply qisZ_conj. Qed.

Section G.
Variables (oa ob : mop) (k : Z) (alpha beta : scal K) (al be : scal Znum) (A B w : Z -> Z -> FQ) (ZA ZB zw : Z -> Z -> quat Znum) (i j : Z).
Hypothesis (Hk : 0 <= k) (HA : sisZ alpha al) (HBe : sisZ beta be).
Hypothesis (QA : forall l, 0 <= l < k -> qisZ (opm oa A i l) (opm oa ZA i l)).
Hypothesis (QB : forall l, 0 <= l < k -> qisZ (opm ob B l j) (opm ob ZB l j)).
Hypothesis (QW : qisZ (w i j) (zw i j)) (GS : gemm_small oa ob k al ZA ZB be zw i j).
Let ab l := Z1 (opm oa ZA i l) * Z1 (opm ob ZB l j).
Lemma ab_nonneg l : 0 <= ab l. Proof. apply Z.mul_nonneg_nonneg; apply Z1_nonneg. Qed.
Lemma part_bound p : 0 <= p < k ->
  Zsum p ab + ab p <= exact_max /\ Z1 (emb be) * Z1 (zw i j) + Z1 (emb al) * Zsum p ab + Z1 (emb al) * ab p <= exact_max.
Proof.
  intros Hp. destruct GS as (_ & S1 & S2). fold ab in S1, S2. pose proof (Z1_nonneg (emb al)) as Na.
  assert (M : Zsum p ab + ab p <= Zsum k ab).
  { rewrite <- Zsum_succ by lia. apply Zsum_mono; [lia|]. intros. apply ab_nonneg. }
  split; [lia|]. assert (Z1 (emb al) * (Zsum p ab + ab p) <= Z1 (emb al) * Zsum k ab) by (apply Z.mul_le_mono_nonneg_l; auto). lia.
Qed.
Lemma init_bound : Z1 (emb be) * Z1 (zw i j) <= exact_max.
Proof.
  destruct GS as (_ & S1 & S2). fold ab in S1, S2. pose proof (Z1_nonneg (emb al)) as Na.
  assert (0 <= Zsum k ab) by (apply Zsum_nonneg; intros; apply ab_nonneg).
  assert (0 <= Z1 (emb al) * Zsum k ab) by (apply Z.mul_nonneg_nonneg; auto). lia.
Qed.
Lemma Z1_part p : Z1 (Hadd (Hmul (emb be) (zw i j)) (Hsum p (fun l => Hmul (emb al) (Hmul (opm oa ZA i l) (opm ob ZB l j))))) <= Z1 (emb be) * Z1 (zw i j) + Z1 (emb al) * Zsum p ab.
Proof.
  eapply Z.le_trans; [apply Z1_add|]. apply Z.add_le_mono; [apply Z1_mul|]. rewrite <- (Hmul_sum_l Zlaws). eapply Z.le_trans; [apply Z1_mul|].
  apply Z.mul_le_mono_nonneg_l; [apply Z1_nonneg|]. eapply Z.le_trans; [apply Z1_sum|].
  unfold Zsum. induction (Z.to_nat p) as [|n IH]; cbn [Zsum_nat]; [lia|]. apply Z.add_le_mono; auto. unfold ab. apply Z1_mul.
Qed.
Lemma elt_form : gemm_elt oa ob k (emb al) ZA ZB (emb be) zw i j =
  Hadd (Hmul (emb be) (zw i j)) (Hsum k (fun l => Hmul (emb al) (Hmul (opm oa ZA i l) (opm ob ZB l j)))).
Proof. unfold gemm_elt. rewrite (Hadd_comm Zlaws), (Hmul_sum_l Zlaws). reflexivity. Qed.
Lemma qisZ_gemm : qisZ (gemm_val oa ob k alpha beta A B w i j) (gemm_elt oa ob k (emb al) ZA ZB (emb be) zw i j).
Proof.
  rewrite elt_form. unfold gemm_val, gemm_val_at, pprod.
  rewrite (facc_ext k _ _ (fun l => scalq true alpha (opm oa A i l)) (fun l => opm ob B l j)).
  2:{ intros l _. rewrite pre_scalq, pre_none', <- !opm_raw. split; reflexivity. }
  assert (Gen : forall p, 0 <= p -> p <= k -> qisZ (facc p (fun l => scalq true alpha (opm oa A i l)) (fun l => opm ob B l j) (scalq true beta (w i j)))
    (Hadd (Hmul (emb be) (zw i j)) (Hsum p (fun l => Hmul (emb al) (Hmul (opm oa ZA i l) (opm ob ZB l j)))))).
  { intros p Hp. pattern p. apply natlike_ind; auto.
    - intros _. rewrite facc_0, Hsum_0, (Hadd_0_r Zlaws). apply (qisZ_scalq fused true); auto. apply init_bound.
    - clear p Hp. intros p Hp IH Hpk. unfold Z.succ in *. specialize (IH ltac:(lia)). rewrite facc_succ, Hsum_succ by lia.
      rewrite (Hadd_assoc Zlaws), (Hmul_assoc Zlaws). apply qisZ_qinc; auto.
      + apply (qisZ_scalq fused true); auto; [apply QA; lia|]. apply GS; lia.
      + apply QB; lia.
      + pose proof (Z1_part p) as P. destruct (part_bound p ltac:(lia)) as [_ B2]. pose proof (Z1_mul (emb al) (opm oa ZA i p)) as M.
        assert (M2 : Z1 (Hmul (emb al) (opm oa ZA i p)) * Z1 (opm ob ZB p j) <= Z1 (emb al) * Z1 (opm oa ZA i p) * Z1 (opm ob ZB p j)) by (apply Z.mul_le_mono_nonneg_r; auto using Z1_nonneg).
        unfold ab in B2 at 2. rewrite Z.mul_assoc in B2. lia. }
  apply Gen; lia.
Qed.

(** the Fortran kernel *)
Hypothesis (RA : forall l, 0 <= l < k -> qisZ (rawm oa A i l) (rawm oa ZA i l)).
Hypothesis (RB : forall l, 0 <= l < k -> qisZ (rawm ob B l j) (rawm ob ZB l j)).
Lemma Z1_raw o X r s : Z1 (rawm o X r s) = Z1 (opm o X r s).
Proof. rewrite opm_raw. destruct (iscj o); rewrite ?Z1_conj; reflexivity. Qed.
Lemma sisZ_fzero a x : sisZ a x -> @fzero K a = fzero x.
Proof.
  destruct a as [a|a|a], x as [x|x|x]; cbn [sisZ]; try contradiction; intros HH; cbn [fzero].
  - exact (isZ_eqb _ _ _ _ HH isZ_zero).
  - destruct HH as [E1 E2]. f_equal; [exact (isZ_eqb _ _ _ _ E1 isZ_zero)|exact (isZ_eqb _ _ _ _ E2 isZ_zero)].
  - destruct HH as (E1 & E2 & E3 & E4). repeat f_equal; [exact (isZ_eqb _ _ _ _ E1 isZ_zero)|exact (isZ_eqb _ _ _ _ E2 isZ_zero)|exact (isZ_eqb _ _ _ _ E3 isZ_zero)|exact (isZ_eqb _ _ _ _ E4 isZ_zero)].
Qed.
Lemma sisZ_fone a x : sisZ a x -> @fone K a = fone x.
Proof.
  destruct a as [a|a|a], x as [x|x|x]; cbn [sisZ]; try contradiction; intros HH; cbn [fone].
  - exact (isZ_eqb _ _ _ _ HH isZ_one).
  - destruct HH as [E1 E2]. f_equal; [exact (isZ_eqb _ _ _ _ E1 isZ_one)|exact (isZ_eqb _ _ _ _ E2 isZ_zero)].
  - destruct HH as (E1 & E2 & E3 & E4). repeat f_equal; [exact (isZ_eqb _ _ _ _ E1 isZ_one)|exact (isZ_eqb _ _ _ _ E2 isZ_zero)|exact (isZ_eqb _ _ _ _ E3 isZ_zero)|exact (isZ_eqb _ _ _ _ E4 isZ_zero)].
Qed.
Lemma qisZ_hq0 : qisZ (hq c0 c0 : FQ) (H0 : quat Znum).
Proof. exact (qisZ_0 fused). Qed.
Lemma qisZ_hpre : qisZ (hpre_elt beta (w i j)) (Hmul (emb be) (zw i j)).
Proof.
  unfold hpre_elt. rewrite (sisZ_fzero _ _ HBe), (sisZ_fone _ _ HBe). pose proof init_bound as IB.
  destruct (fzero be) eqn:E0.
  - apply (fzero_emb Zlaws) in E0. rewrite E0, (Hmul_0_l Zlaws). apply qisZ_hq0.
  - destruct (fone be) eqn:E1; cbn [negb].
    + apply (fone_emb Zlaws) in E1. rewrite E1, (Hmul_1_l Zlaws). exact QW.
    + rewrite <- (hbeta_elt_H Zlaws). apply qisZ_hbeta; auto.
Qed.
Lemma qisZ_hgemm : oa <> OpR -> qisZ (hgemm_val oa ob k alpha beta A B w i j) (gemm_elt oa ob k (emb al) ZA ZB (emb be) zw i j).
Proof.
  intros HR. rewrite elt_form. unfold hgemm_val. rewrite (sisZ_fzero _ _ HA), (sisZ_fone _ _ HBe), (sisZ_fzero _ _ HBe).
  assert (Zal : fzero al = true -> Hsum k (fun l => Hmul (emb al) (Hmul (opm oa ZA i l) (opm ob ZB l j))) = H0).
  { intros E. apply (fzero_emb Zlaws) in E. rewrite E. rewrite <- (Hmul_sum_l Zlaws). apply (Hmul_0_l Zlaws). }
  destruct ((fzero al || (k =? 0)) && fone be) eqn:EQ.
  { apply andb_true_iff in EQ. destruct EQ as [E1 E2]. apply (fone_emb Zlaws) in E2. rewrite E2, (Hmul_1_l Zlaws).
    assert (E3 : Hsum k (fun l => Hmul (emb al) (Hmul (opm oa ZA i l) (opm ob ZB l j))) = H0).
    { apply orb_true_iff in E1. destruct E1 as [E1|E1]; [auto|]. apply Z.eqb_eq in E1. rewrite E1. reflexivity. }
    rewrite E3, (Hadd_0_r Zlaws). exact QW. }
  clear EQ. destruct (fzero al) eqn:E0.
  { rewrite Zal, (Hadd_0_r Zlaws) by auto. destruct (fzero be) eqn:EB.
    - apply (fzero_emb Zlaws) in EB. rewrite EB, (Hmul_0_l Zlaws). apply qisZ_hq0.
    - rewrite <- (hbeta_elt_H Zlaws). apply qisZ_hbeta; auto. apply init_bound. }
  clear Zal. unfold hgemm_main. pose proof (Z1_nonneg (emb al)) as Nal.
  assert (Gn : (oa = OpN) -> forall p, 0 <= p -> p <= k -> qisZ (ziter p (fun l acc => (if iscj ob then hnc_elt alpha else hn_elt alpha) (A i l) (rawm ob B l j) acc) (hpre_elt beta (w i j)))
    (Hadd (Hmul (emb be) (zw i j)) (Hsum p (fun l => Hmul (emb al) (Hmul (opm oa ZA i l) (opm ob ZB l j)))))).
  { intros EO p Hp. pattern p. apply natlike_ind; auto.
    - intros _. rewrite ziter_0, Hsum_0, (Hadd_0_r Zlaws). apply qisZ_hpre.
    - clear p Hp. intros p Hp IH Hpk. unfold Z.succ in *. specialize (IH ltac:(lia)). rewrite ziter_succ, Hsum_succ by lia.
      pose proof (Z1_part p) as P. destruct (part_bound p ltac:(lia)) as [_ B2]. destruct GS as (S0 & _ & _). destruct (S0 p ltac:(lia)) as [_ S1].
      rewrite <- Z1_raw in S1. unfold ab in B2 at 2. rewrite <- (Z1_raw ob) in B2. rewrite (opm_raw ob ZB), (Hadd_assoc Zlaws).
      pose proof (RA p ltac:(lia)) as R1. rewrite EO in R1. cbn [rawm] in R1.
      replace (opm oa ZA i p) with (ZA i p) in * by (rewrite EO; reflexivity).
      replace (Z1 (emb al) * (Z1 (ZA i p) * Z1 (rawm ob ZB p j))) with (Z1 (ZA i p) * (Z1 (emb al) * Z1 (rawm ob ZB p j))) in B2 by ring.
      destruct (iscj ob).
      + rewrite <- (hnc_elt_H Zlaws). apply qisZ_hnc; auto; [apply RB; lia|lia].
      + rewrite <- (hn_elt_H Zlaws). apply qisZ_hn; auto; [apply RB; lia|lia]. }
  assert (Gt : oa = OpT \/ oa = OpC -> forall p, 0 <= p -> p <= k -> qisZ (ziter p (fun l h => hgdot_elt (iscj oa) (iscj ob) (A l i) (rawm ob B l j) h) (hq c0 c0))
    (Hsum p (fun l => Hmul (opm oa ZA i l) (opm ob ZB l j)))).
  { intros EO p Hp. pattern p. apply natlike_ind; auto.
    - intros _. rewrite ziter_0, Hsum_0. apply qisZ_hq0.
    - clear p Hp. intros p Hp IH Hpk. unfold Z.succ in *. specialize (IH ltac:(lia)). rewrite ziter_succ, Hsum_succ by lia.
      destruct (part_bound p ltac:(lia)) as [B2 _].
      assert (P : Z1 (Hsum p (fun l => Hmul (opm oa ZA i l) (opm ob ZB l j))) <= Zsum p ab).
      { eapply Z.le_trans; [apply Z1_sum|]. unfold Zsum. induction (Z.to_nat p) as [|n IHn]; cbn [Zsum_nat]; [lia|]. apply Z.add_le_mono; auto. unfold ab. apply Z1_mul. }
      pose proof (RA p ltac:(lia)) as R1. pose proof (RB p ltac:(lia)) as R2. unfold ab in B2 at 2. rewrite <- (Z1_raw ob), <- (Z1_raw oa) in B2.
      rewrite (opm_raw oa ZA i p), (opm_raw ob ZB p j).
      replace (rawm oa A i p) with (A p i) in R1 by (destruct EO as [-> | ->]; reflexivity).
      rewrite <- (hgdot_elt_H Zlaws). apply qisZ_hgdot; auto. lia. }
  assert (P : Z1 (Hsum k (fun l => Hmul (opm oa ZA i l) (opm ob ZB l j))) <= Zsum k ab).
  { eapply Z.le_trans; [apply Z1_sum|]. unfold Zsum. induction (Z.to_nat k) as [|n IHn]; cbn [Zsum_nat]; [lia|]. apply Z.add_le_mono; auto. unfold ab. apply Z1_mul. }
  assert (PA : Z1 (emb al) * Z1 (Hsum k (fun l => Hmul (opm oa ZA i l) (opm ob ZB l j))) <= Z1 (emb al) * Zsum k ab) by (apply Z.mul_le_mono_nonneg_l; auto).
  pose proof init_bound as IB. destruct GS as (_ & _ & S2). fold ab in S2.
  assert (NB : 0 <= Z1 (emb be) * Z1 (zw i j)) by (apply Z.mul_nonneg_nonneg; apply Z1_nonneg).
  assert (Ft : oa = OpT \/ oa = OpC -> qisZ (let h := ziter k (fun l h => hgdot_elt (iscj oa) (iscj ob) (A l i) (rawm ob B l j) h) (hq c0 c0) in
           if fzero be then halpha_elt alpha h else halphabeta_elt alpha beta h (w i j))
    (Hadd (Hmul (emb be) (zw i j)) (Hsum k (fun l => Hmul (emb al) (Hmul (opm oa ZA i l) (opm ob ZB l j)))))).
  { intros EO. specialize (Gt EO k Hk ltac:(lia)). cbv zeta. rewrite <- (Hmul_sum_l Zlaws).
    destruct (fzero be) eqn:EB.
    - apply (fzero_emb Zlaws) in EB. rewrite EB, (Hmul_0_l Zlaws), (Hadd_0_l Zlaws), <- (halpha_elt_H Zlaws). apply qisZ_halpha; auto. lia.
    - rewrite (Hadd_comm Zlaws), <- (halphabeta_elt_H Zlaws). apply qisZ_halphabeta; auto. lia. }
  rewrite (sisZ_fzero _ _ HBe). destruct oa; [apply Gn; auto; lia|apply Ft; auto|apply Ft; auto|congruence].
Qed.
End G.

Lemma gemm_int (e : genv K) ca cb oa ob m n k alpha al (a : arr FQ) lda (b : arr FQ) ldb beta be (c : arr FQ) ldc A B w ZA ZB zw : good_env e ->
  trans_char ca = Some oa -> trans_char cb = Some ob -> 0 <= m -> 0 <= n -> 0 <= k -> m <= ldc ->
  holds_mat a lda (op_rows oa m k) (op_cols oa m k) A -> holds_mat b ldb (op_rows ob k n) (op_cols ob k n) B -> holds_mat c ldc m n w ->
  sisZ alpha al -> sisZ beta be ->
  (forall i j, 0 <= i < op_rows oa m k -> 0 <= j < op_cols oa m k -> qisZ (A i j) (ZA i j)) ->
  (forall i j, 0 <= i < op_rows ob k n -> 0 <= j < op_cols ob k n -> qisZ (B i j) (ZB i j)) ->
  (forall i j, 0 <= i < m -> 0 <= j < n -> qisZ (w i j) (zw i j)) ->
  (forall i j, 0 <= i < m -> 0 <= j < n -> gemm_small oa ob k al ZA ZB be zw i j) ->
  returns (HBLAS_GEMM e ca cb m n k alpha a lda b ldb beta c ldc) (fun c' => same_but_mat c c' ldc m n /\
    forall i j, 0 <= i < m -> 0 <= j < n -> exists q, c' (i + j * ldc) = Some q /\ qisZ q (gemm_elt oa ob k (emb al) ZA ZB (emb be) zw i j)).
Proof.
  intros G Ca Cb Hm Hn Hk Hld Ha Hb Hc Sa Sb QA QB QC GS.
  eapply returns_mono; [apply (pub_raw e ca cb oa ob) with (A := A) (B := B) (w := w); auto|]. intros c' [R S]. split; auto.
  intros i j Hi Hj. eexists. split; [apply R; auto|].
  assert (RA : forall l, 0 <= l < k -> qisZ (rawm oa A i l) (rawm oa ZA i l)) by (intros l Hl; destruct oa; cbn [rawm op_rows op_cols] in *; apply QA; auto).
  assert (RB : forall l, 0 <= l < k -> qisZ (rawm ob B l j) (rawm ob ZB l j)) by (intros l Hl; destruct ob; cbn [rawm op_rows op_cols] in *; apply QB; auto).
  assert (OA : forall l, 0 <= l < k -> qisZ (opm oa A i l) (opm oa ZA i l)) by (intros l Hl; rewrite !opm_raw; destruct (iscj oa); [apply qisZ_conj|]; auto).
  assert (OB : forall l, 0 <= l < k -> qisZ (opm ob B l j) (opm ob ZB l j)) by (intros l Hl; rewrite !opm_raw; destruct (iscj ob); [apply qisZ_conj|]; auto).
  assert (NR : oa <> OpR) by (intros ->; unfold trans_char in Ca; repeat match goal with H : context [if ?x then _ else _] |- _ => destruct x end; discriminate).
  unfold pub_val. destruct alpha, beta; first [apply qisZ_gemm; auto; fail | apply qisZ_hgemm; auto; fail].
Qed.

Lemma qisZ_muldq_c (cnj : bool) (p q : FQ) zp zq : qisZ p zp -> qisZ q zq -> Z1 zp * Z1 zq <= exact_max ->
  qisZ (q_of_v (if cnj then MULDQ_CN (v_of_q p) (v_of_q q) else MULDQ_NN (v_of_q p) (v_of_q q))) (Hmul (if cnj then Hconj zp else zp) zq).
Proof.
  intros P Q HB. destruct cnj.
  - replace (MULDQ_CN (v_of_q p) (v_of_q q)) with (MULDQ_NN (v_of_q (Hconj p)) (v_of_q q)) by (destruct p as [a b c d]; reflexivity).
    apply qisZ_muldq; auto; [apply qisZ_conj; auto|rewrite Z1_conj; auto].
  - apply qisZ_muldq; auto.
Qed.
Lemma HsumZ4 b (f : Z -> quat Znum) : 0 <= b ->
  Hsum (4 * b) f = Hadd (Hadd (Hadd (Hsum b (fun i => f (4 * i + 0))) (Hsum b (fun i => f (4 * i + 1)))) (Hsum b (fun i => f (4 * i + 2)))) (Hsum b (fun i => f (4 * i + 3))).
Proof.
  intros Hb. pattern b. apply natlike_ind; auto. clear b Hb. intros b Hb IH. unfold Z.succ.
  replace (4 * (b + 1)) with (4 * b + 1 + 1 + 1 + 1) by lia. rewrite !Hsum_succ by lia.
  rewrite IH. replace (4 * b + 1 + 1 + 1) with (4 * b + 3) by lia. replace (4 * b + 1 + 1) with (4 * b + 2) by lia. rewrite (Z.add_0_r (4 * b)).
  generalize (Hsum b (fun i => f (4 * i + 0))) (Hsum b (fun i => f (4 * i + 1))) (Hsum b (fun i => f (4 * i + 2))) (Hsum b (fun i => f (4 * i + 3))).
  intros [] [] [] []. generalize (f (4 * b)) (f (4 * b + 1)) (f (4 * b + 2)) (f (4 * b + 3)). intros [] [] [] []. unfold Hadd; cbn. f_equal; ring.
Qed.
Lemma dot_int cnj n xa (x : arr FQ) incx ya y incy (v w : Z -> FQ) zv zw :
  0 <= n -> 0 < incx -> 0 < incy -> holds_vec x n incx v -> holds_vec y n incy w ->
  (forall i, 0 <= i < n -> qisZ (v i) (zv i) /\ qisZ (w i) (zw i)) -> Zsum n (fun i => Z1 (zv i) * Z1 (zw i)) <= exact_max ->
  returns (dot_opt cnj n xa x incx ya y incy) (fun r => qisZ r (Hsum n (fun i => Hmul (if cnj then Hconj (zv i) else zv i) (zw i)))).
Proof.
  intros Hn Hix Hiy Hx Hy HP HB.
  assert (FX : forall i, 0 <= i < n -> qisZ (v i) (zv i)) by (intros i Hi; apply (HP i Hi)).
  assert (FY : forall i, 0 <= i < n -> qisZ (w i) (zw i)) by (intros i Hi; apply (HP i Hi)). clear HP.
  set (f := fun i => Hmul (if cnj then Hconj (zv i) else zv i) (zw i)). set (g := fun i => Z1 (zv i) * Z1 (zw i)) in *.
  assert (Ng : forall i, 0 <= g i) by (intros i; apply Z.mul_nonneg_nonneg; apply Z1_nonneg).
  assert (Lf : forall i, Z1 (f i) <= g i).
  { intros i. unfold f, g. eapply Z.le_trans; [apply Z1_mul|]. destruct cnj; rewrite ?Z1_conj; lia. }
  assert (Sf : forall p, Z1 (Hsum p f) <= Zsum p g).
  { intros p. eapply Z.le_trans; [apply Z1_sum|]. unfold Zsum. induction (Z.to_nat p) as [|q IHn]; cbn [Zsum_nat]; [lia|]. apply Z.add_le_mono; auto. }
  assert (Sl : forall b t, Z1 (Hsum b (fun i => f (4 * i + t))) <= Zsum b (fun i => g (4 * i + t))).
  { intros p t. eapply Z.le_trans; [apply Z1_sum|]. unfold Zsum. induction (Z.to_nat p) as [|q IHn]; cbn [Zsum_nat]; [lia|]. apply Z.add_le_mono; auto. }
  unfold dot_opt. rewrite Z.rem_mod_nonneg, Z.quot_div_nonneg by lia.
  set (aln := IS_ALIGNED xa && IS_ALIGNED ya).
  assert (Ha : aln = true -> IS_ALIGNED xa = true /\ IS_ALIGNED ya = true) by apply andb_true_iff.
  pose proof (Z.div_mod n 4 ltac:(lia)) as Hd. pose proof (Z.mod_pos_bound n 4 ltac:(lia)) as Hm.
  pose proof (Z.div_pos n 4 ltac:(lia) ltac:(lia)) as Hnb.
  assert (M : forall p, 0 <= p <= n -> Zsum p g <= exact_max) by (intros p Hp; eapply Z.le_trans; [apply (Zsum_mono p n); auto|auto]).
  assert (Lx : forall i p, 0 <= i < n -> p = i * incx -> vld aln xa x p = Ok (v_of_q (v i))).
  { intros i p Hi ->. apply vld_ok; [apply Ha|]. rewrite <- (vpos_pos n) by auto. auto. }
  assert (Ly : forall i p, 0 <= i < n -> p = i * incy -> vld aln ya y p = Ok (v_of_q (w i))).
  { intros i p Hi ->. apply vld_ok; [apply Ha|]. rewrite <- (vpos_pos n) by auto. auto. }
  pose (J := fun (b : Z) (r : m4 K) => forall t, 0 <= t < 4 -> qisZ (soa r t) (Hsum b (fun i => f (4 * i + t)))).
  eapply returns_bind with (P := fun '(r, lx, ly) => J (n / 4) r /\ lx = 4 * (n / 4) * incx /\ ly = 4 * (n / 4) * incy).
  - apply (zfor_inv (fun b '(r, lx, ly) => J b r /\ lx = 4 * b * incx /\ ly = 4 * b * incy)); auto.
    + refine (conj _ (conj _ _)); try reflexivity. intros t Ht. rewrite !Hsum_0.
      replace (soa _ t) with (H0 (K := K)) by (assert (t = 0 \/ t = 1 \/ t = 2 \/ t = 3) as [->|[->|[->| ->]]] by lia; reflexivity). apply qisZ_0.
    + intros b [[r lx] ly] Hb (HI & -> & ->).
      assert (Hb4 : 4 * b + 4 <= n) by lia.
      rewrite (Lx (4 * b)), (Lx (4 * b + 1)), (Lx (4 * b + 2)), (Lx (4 * b + 3)) by lia. cbn [bind].
      rewrite (Ly (4 * b)), (Ly (4 * b + 1)), (Ly (4 * b + 2)), (Ly (4 * b + 3)) by lia. cbn [bind returns].
      refine (conj _ (conj _ _)); try lia.
      set (X := M4 _ _ _ _). set (Y := M4 _ _ _ _). intros t Ht. specialize (HI t Ht).
      assert (EX : aos X t = v (4 * b + t)).
      { assert (Et : t = 0 \/ t = 1 \/ t = 2 \/ t = 3) by lia.
        destruct Et as [->|[->|[->| ->]]]; unfold X, aos; cbn [Z.eqb Pos.eqb w1 w2 w3 w4]; rewrite !q_of_v_of_q, ?Z.add_0_r; reflexivity. }
      assert (EY : aos Y t = w (4 * b + t)).
      { assert (Et : t = 0 \/ t = 1 \/ t = 2 \/ t = 3) by lia.
        destruct Et as [->|[->|[->| ->]]]; unfold Y, aos; cbn [Z.eqb Pos.eqb w1 w2 w3 w4]; rewrite !q_of_v_of_q, ?Z.add_0_r; reflexivity. }
      rewrite !Hsum_succ by lia.
      assert (Bd : Z1 (Hsum b (fun i => f (4 * i + t))) + Z1 (zv (4 * b + t)) * Z1 (zw (4 * b + t)) <= exact_max).
      { pose proof (Zsum_lane (b + 1) t g ltac:(lia) Ht ltac:(auto)) as Z1'. rewrite Zsum_succ in Z1' by lia. pose proof (M (4 * (b + 1)) ltac:(lia)).
        pose proof (Sl b t). unfold g in Z1' at 2. lia. }
      destruct cnj; [rewrite INC_qincc by auto|rewrite INC_qinc by auto]; rewrite !transpose_soa, EX, EY by auto.
      * apply qisZ_qincc; auto; [apply FX; lia|apply FY; lia].
      * apply qisZ_qinc; auto; [apply FX; lia|apply FY; lia].
  - intros [[r lx] ly] (HI & -> & ->).
    set (R := TRANSPOSE_4x4 r).
    assert (EA : forall u w : m256 K, q_of_v (mm256_add u w) = Hadd (q_of_v u) (q_of_v w)) by (intros [] []; reflexivity).
    set (r0 := mm256_add _ (w4 R)).
    assert (E0 : qisZ (q_of_v r0) (Hsum (4 * (n / 4)) f)).
    { unfold r0. rewrite !EA, HsumZ4 by lia.
      replace (q_of_v (w1 R)) with (soa r 0) by (rewrite <- !(transpose_aos r) by lia; reflexivity).
      replace (q_of_v (w2 R)) with (soa r 1) by (rewrite <- !(transpose_aos r) by lia; reflexivity).
      replace (q_of_v (w3 R)) with (soa r 2) by (rewrite <- !(transpose_aos r) by lia; reflexivity).
      replace (q_of_v (w4 R)) with (soa r 3) by (rewrite <- !(transpose_aos r) by lia; reflexivity).
      pose proof (M (4 * (n / 4)) ltac:(lia)) as M4. rewrite Zsum4 in M4 by lia.
      pose proof (Sl (n / 4) 0) as L0. pose proof (Sl (n / 4) 1) as L1. pose proof (Sl (n / 4) 2) as L2. pose proof (Sl (n / 4) 3) as L3.
      pose proof (HI 0 ltac:(lia)) as J0. pose proof (HI 1 ltac:(lia)) as J1. pose proof (HI 2 ltac:(lia)) as J2. pose proof (HI 3 ltac:(lia)) as J3.
      revert L0 L1 L2 L3 J0 J1 J2 J3 M4.
      generalize (Hsum (n / 4) (fun i => f (4 * i + 0))) (Hsum (n / 4) (fun i => f (4 * i + 1))) (Hsum (n / 4) (fun i => f (4 * i + 2))) (Hsum (n / 4) (fun i => f (4 * i + 3))).
      generalize (Zsum (n / 4) (fun i => g (4 * i + 0))) (Zsum (n / 4) (fun i => g (4 * i + 1))) (Zsum (n / 4) (fun i => g (4 * i + 2))) (Zsum (n / 4) (fun i => g (4 * i + 3))).
      intros s0 s1 s2 s3 p0 p1 p2 p3 L0 L1 L2 L3 J0 J1 J2 J3 M4.
      pose proof (Z1_nonneg p0) as N0. pose proof (Z1_nonneg p1) as N1. pose proof (Z1_nonneg p2) as N2. pose proof (Z1_nonneg p3) as N3.
      pose proof (Z1_add p0 p1) as A1. pose proof (Z1_add (Hadd p0 p1) p2) as A2.
      apply qisZ_add; auto; [apply qisZ_add; auto; [apply qisZ_add; auto|]|]; lia. }
    eapply returns_bind with (P := fun r1 => qisZ (q_of_v r1) (Hsum (4 * (n / 4) + n mod 4) f)).
    + apply (zfor_inv (fun i r1 => qisZ (q_of_v r1) (Hsum (4 * (n / 4) + i) f))); [lia|rewrite !Z.add_0_r; exact E0|].
      intros i r1 Hi Hr1.
      rewrite (Lx (4 * (n / 4) + i)), (Ly (4 * (n / 4) + i)) by lia. cbn [bind returns].
      rewrite Z.add_assoc, !Hsum_succ, EA by lia. pose proof (M (4 * (n / 4) + i + 1) ltac:(lia)) as M1. rewrite Zsum_succ in M1 by lia.
      pose proof (Sf (4 * (n / 4) + i)) as S1. pose proof (Lf (4 * (n / 4) + i)) as L1. pose proof (Z1_nonneg (Hsum (4 * (n / 4) + i) f)) as N1.
      apply qisZ_add; auto; [|lia]. apply qisZ_muldq_c; [apply FX; lia|apply FY; lia|]. fold (g (4 * (n / 4) + i)). lia.
    + intros r1 Hr1. cbn [returns]. fold f. rewrite Hd at 1. exact Hr1.
Qed.
Lemma scalv_int s c n (alpha : scal K) al xa (x : arr FQ) inc v zv : side_char c = Some s -> 0 < inc -> holds_vec x n inc v ->
  sisZ alpha al -> (forall i, 0 <= i < n -> qisZ (v i) (zv i) /\ Z1 (emb al) * Z1 (zv i) <= exact_max) ->
  returns (scalv_opt c n alpha xa x inc) (fun x' => same_but_vec x x' n inc /\
    forall i, 0 <= i < n -> exists q, x' (vpos n inc i) = Some q /\ qisZ q (Hside s (emb al) (zv i))).
Proof.
  intros Hc Hinc Hx HA HV. rewrite <- (side_L' c s Hc). set (s0 := Ascii.eqb c "L").
  eapply returns_mono; [apply (scalv_opt_raw s0); eauto|]. intros x' [Hx' Hs]. split; auto.
  intros i Hi. exists (scalq s0 alpha (v i)). destruct (HV i Hi). split; [auto|]. apply qisZ_scalq; auto.
Qed.
Lemma axpyv_int s c n (alpha : scal K) al xa (x : arr FQ) incx ya y incy v w zv zw : side_char c = Some s -> 0 < incx -> 0 < incy ->
  holds_vec x n incx v -> holds_vec y n incy w ->
  sisZ alpha al -> (forall i, 0 <= i < n -> qisZ (v i) (zv i) /\ qisZ (w i) (zw i) /\ Z1 (zw i) + Z1 (emb al) * Z1 (zv i) <= exact_max) ->
  returns (axpyv_opt c n alpha xa x incx ya y incy) (fun y' => same_but_vec y y' n incy /\
    forall i, 0 <= i < n -> exists q, y' (vpos n incy i) = Some q /\ qisZ q (Hadd (zw i) (Hside s (emb al) (zv i)))).
Proof.
  intros Hc Hix Hiy Hx Hy HA HV. rewrite <- (side_L' c s Hc). set (s0 := Ascii.eqb c "L").
  eapply returns_mono; [apply (axpyv_opt_raw s0); eauto|]. intros y' [Hy' Hs]. split; auto.
  intros i Hi. exists (axpyq fused s0 alpha (v i) (w i)). destruct (HV i Hi) as (? & ? & ?). split; [apply Hy'; auto|]. apply qisZ_axpyq; auto.
Qed.
Lemma mul_int (p q : FQ) zp zq : qisZ p zp -> qisZ q zq -> Z1 zp * Z1 zq <= exact_max -> qisZ (q_mul_avx p q) (Hmul zp zq).
Proof. intros. apply qisZ_muldq; auto. Qed.
End O.
