(** Integer data in the Fortran GEMV and GER. *)
From Coq Require Import ZArith Reals Lia Bool Ascii.
From Flocq Require Import IEEE754.BinarySingleNaN.
From Verif Require Import Num Res ResFacts Spec SpecFacts VecFacts LoopFacts MQuat MForL1 MForL2 MForL3 L1Facts2 L2Facts ForL3Facts OptGemmFacts RawL3 RawL2 RawL2b F64 SpecInt SpecIntF
  IntFacts IntFacts2 IntFacts3 IntTop.
Local Open Scope Z_scope.
Section T.
Variable fused : bool.
Local Notation K := (F64 fused).
Local Notation FQ := (quat (F64 fused)).
Local Notation qisZ := (@qisZ fused).
Ltac cext := lazymatch goal with
  | |- cex _ (cadd _ _) _ _ => eapply cex_add; [cext|cext|]
  | |- cex _ (csub _ _) _ _ => eapply cex_sub; [cext|cext|]
  | |- cex _ (cneg _) _ _ => eapply cex_neg; cext
  | |- cex _ (conjg _) _ _ => eapply cex_conj; cext
  | |- cex _ (cmul _ _) _ _ => eapply cex_mul; [cext|cext|]
  | |- cex _ (crmul _ _) _ _ => eapply cex_rmul; [eassumption|cext|]
  | |- cex _ _ _ _ => eassumption
  end.
Ltac gen1 t := let h := fresh in assert (h : 0 <= t) by (apply Z.mul_nonneg_nonneg; assumption); revert h; generalize t; intros ? ?.
Ltac gprods := repeat match goal with |- context [?a * ?b] => rewrite ?(Z.mul_comm b a); gen1 (a * b) end; intros.
Ltac cbnd := match goal with |- _ <= exact_max => idtac end; repeat match goal with h : cex _ _ _ _ |- _ => clear h | h : ex _ _ _ _ |- _ => clear h end;
  repeat match goal with h : _ <= exact_max |- _ => revert h end;
  rewrite ?Z.mul_add_distr_l, ?Z.mul_add_distr_r, ?Z.mul_add_distr_l, ?Z.mul_add_distr_r; gprods; lia.
Ltac cgo := eapply cex_hq; cext; cbnd.
Ltac hl A a b := let E := fresh in destruct (hleaf _ _ _ A) as (a & b & E & ? & ? & ? & ?); rewrite ?E in *; clear E.

Lemma qisZ_haxpyT alpha al (h y : FQ) zh zy : sisZ alpha al -> qisZ h zh -> qisZ y zy -> Z1 zy + Z1 (emb al) * Z1 zh <= exact_max ->
  qisZ (haxpyT_elt alpha h y) (haxpyT_elt al zh zy).
Proof. intros A H Y HB. exact (qisZ_plus_beta fused alpha al y h zy zh A Y H HB). Qed.
Lemma qisZ_hger (cnj : bool) alpha al (x y a : FQ) zx zy za : sisZ alpha al -> qisZ x zx -> qisZ y zy -> qisZ a za ->
  Z1 (emb al) * Z1 zy <= exact_max -> Z1 za + Z1 zx * (Z1 (emb al) * Z1 zy) <= exact_max -> qisZ (hger_elt cnj alpha x y a) (hger_elt cnj al zx zy za).
Proof.
  intros L X Y A HB HB2. destruct alpha as [r|z|g], al as [u|w|t]; cbn [sisZ] in L; try contradiction; unfold hger_elt; destruct cnj.
  1,2: destruct (sleaf_r fused r u L) as (m & E & Hm & A'); rewrite E in HB, HB2; hl X a1 a2; hl Y b1 b2; hl A k1 k2; cgo.
  1,2: destruct (cleaf fused z w) as (m & E & Hm & A'); try apply L; rewrite E in HB, HB2; hl X a1 a2; hl Y b1 b2; hl A k1 k2; cgo.
  1,2: cbn [emb] in HB, HB2; hl L g1 g2; hl X a1 a2; hl Y b1 b2; hl A k1 k2; cgo.
Qed.
Lemma qisZ_gval o k (alpha beta : scal K) al be (A : Z -> Z -> FQ) (v w : Z -> FQ) ZA zv zw i : o <> OpR -> 0 <= k -> sisZ alpha al -> sisZ beta be ->
  (forall l, 0 <= l < k -> qisZ (rawm o A i l) (rawm o ZA i l)) -> (forall l, 0 <= l < k -> qisZ (v l) (zv l)) -> qisZ (w i) (zw i) ->
  gemv_small o k al ZA zv be zw i -> qisZ (hgemv_val o k alpha beta A v w i) (gemv_elt o k (emb al) ZA zv (emb be) zw i).
Proof.
  intros Ho Hk HA HBe RA RV QW (S0 & S1 & S2).
  set (ab := fun l => Z1 (opm o ZA i l) * Z1 (zv l)) in *.
  assert (NA : 0 <= Z1 (emb al)) by apply Z1_nonneg.
  assert (Nab : forall l, 0 <= ab l) by (intros l; apply Z.mul_nonneg_nonneg; apply Z1_nonneg).
  assert (NS : forall p, 0 <= Zsum p ab) by (intros p; apply Zsum_nonneg; auto).
  assert (NB : 0 <= Z1 (emb be) * Z1 (zw i)) by (apply Z.mul_nonneg_nonneg; apply Z1_nonneg).
  assert (NAS : 0 <= Z1 (emb al) * Zsum k ab) by (apply Z.mul_nonneg_nonneg; auto).
  assert (W : qisZ (hgpre beta (w i)) (Hmul (emb be) (zw i))).
  { unfold hgpre, hpre_elt. rewrite (sisZ_fzero fused _ _ HBe), (sisZ_fone fused _ _ HBe). destruct (fone be) eqn:E1; cbn [negb].
    - apply (fone_emb Zlaws) in E1. rewrite E1, (Hmul_1_l Zlaws). exact QW.
    - destruct (fzero be) eqn:E0; [apply (fzero_emb Zlaws) in E0; rewrite E0, (Hmul_0_l Zlaws); apply qisZ_hq0|].
      rewrite <- (hbeta_elt_H Zlaws). apply qisZ_hbeta; auto. lia. }
  assert (MB : forall p, 0 <= p < k -> Zsum p ab + ab p <= Zsum k ab) by (intros p Hp; rewrite <- Zsum_succ by lia; apply Zsum_mono; [lia|auto]).
  assert (SB : forall p, Z1 (Hsum p (fun l => Hmul (opm o ZA i l) (zv l))) <= Zsum p ab).
  { intros p. eapply Z.le_trans; [apply Z1_sum|]. unfold Zsum. induction (Z.to_nat p) as [|n IHn]; cbn [Zsum_nat]; [lia|]. apply Z.add_le_mono; auto. unfold ab. apply Z1_mul. }
  unfold hgemv_val, gemv_elt. cbv zeta. rewrite (sisZ_fzero fused _ _ HA).
  destruct (fzero al) eqn:E0.
  { apply (fzero_emb Zlaws) in E0. rewrite E0, (Hmul_0_l Zlaws), (Hadd_0_l Zlaws). exact W. }
  rewrite (Hadd_comm Zlaws).
  assert (Gt : o <> OpN -> qisZ (haxpyT_elt alpha (ziter k (fun l h => hgdot_elt (iscj o) false (A l i) (v l) h) (hq c0 c0)) (hgpre beta (w i)))
     (Hadd (Hmul (emb be) (zw i)) (Hmul (emb al) (Hsum k (fun j => Hmul (opm o ZA i j) (zv j)))))).
  { intros EO.
    assert (G : forall p, 0 <= p -> p <= k -> qisZ (ziter p (fun l h => hgdot_elt (iscj o) false (A l i) (v l) h) (hq c0 c0)) (Hsum p (fun l => Hmul (opm o ZA i l) (zv l)))).
    { intros p Hp. pattern p. apply natlike_ind; auto.
      - intros _. rewrite ziter_0, Hsum_0. apply qisZ_hq0.
      - clear p Hp. intros p Hp IH Hpk. unfold Z.succ in *. specialize (IH ltac:(lia)). rewrite ziter_succ, Hsum_succ by lia.
        pose proof (MB p ltac:(lia)) as M. pose proof (SB p) as P. pose proof (RA p ltac:(lia)) as R1. pose proof (RV p ltac:(lia)) as R2.
        unfold ab in M at 2. rewrite <- (Z1_raw o) in M. rewrite (opm_raw o ZA i p).
        replace (rawm o A i p) with (A p i) in R1 by (destruct o; cbn; congruence).
        rewrite <- (hgdot_elt_H Zlaws (iscj o) false). apply qisZ_hgdot; auto. lia. }
    specialize (G k Hk ltac:(lia)). rewrite <- (haxpyT_elt_H Zlaws). apply qisZ_haxpyT; auto.
    pose proof (Z1_mul (emb be) (zw i)). pose proof (Z.mul_le_mono_nonneg_l _ _ (Z1 (emb al)) NA (SB k)). lia. }
  destruct o; [|apply Gt; discriminate|apply Gt; discriminate|congruence].
  rewrite (Hmul_sum_l Zlaws). cbn [opm] in *.
  assert (G : forall p, 0 <= p -> p <= k -> qisZ (ziter p (fun l acc => hn_elt alpha (A i l) (v l) acc) (hgpre beta (w i)))
    (Hadd (Hmul (emb be) (zw i)) (Hsum p (fun l => Hmul (emb al) (Hmul (ZA i l) (zv l)))))).
  { intros p Hp. pattern p. apply natlike_ind; auto.
    - intros _. rewrite ziter_0, Hsum_0, (Hadd_0_r Zlaws). exact W.
    - clear p Hp. intros p Hp IH Hpk. unfold Z.succ in *. specialize (IH ltac:(lia)). rewrite ziter_succ, Hsum_succ by lia.
      pose proof (MB p ltac:(lia)) as M. pose proof (SB p) as P. rewrite (Hadd_assoc Zlaws), <- (hn_elt_H Zlaws).
      pose proof (RA p ltac:(lia)) as R1. cbn [rawm] in R1. apply qisZ_hn; auto; [apply RV; lia|apply S0; lia|].
      assert (B1 : Z1 (Hadd (Hmul (emb be) (zw i)) (Hsum p (fun l => Hmul (emb al) (Hmul (ZA i l) (zv l))))) <= Z1 (emb be) * Z1 (zw i) + Z1 (emb al) * Zsum p ab).
      { eapply Z.le_trans; [apply Z1_add|]. apply Z.add_le_mono; [apply Z1_mul|]. rewrite <- (Hmul_sum_l Zlaws). eapply Z.le_trans; [apply Z1_mul|]. apply Z.mul_le_mono_nonneg_l; auto. }
      pose proof (Z.mul_le_mono_nonneg_l _ _ (Z1 (emb al)) NA M) as M2. rewrite Z.mul_add_distr_l in M2. unfold ab in M2 at 2.
      replace (Z1 (ZA i p) * (Z1 (emb al) * Z1 (zv p))) with (Z1 (emb al) * (Z1 (ZA i p) * Z1 (zv p))) by ring. lia. }
  apply G; lia.
Qed.
Lemma hgemv_int c o m n (alpha beta : scal K) al be (a : arr FQ) lda (x : arr FQ) incx (y : arr FQ) incy A v w ZA zv zw :
  trans_char c = Some o -> 0 < m -> 0 < n -> incx <> 0 -> incy <> 0 ->
  (m = n \/ c = "C"%char \/ exists r s, alpha = SR r /\ beta = SR s) ->
  (incy = 1 \/ ~ (exists r q, alpha = SR r /\ beta = SH q) /\ ~ (c = "N"%char /\ exists q, alpha = SH q)) ->
  holds_mat a lda m n A -> holds_vec x (op_cols o m n) incx v -> holds_vec y (op_rows o m n) incy w ->
  sisZ alpha al -> sisZ beta be ->
  (forall i j, 0 <= i < m -> 0 <= j < n -> qisZ (A i j) (ZA i j)) -> (forall j, 0 <= j < op_cols o m n -> qisZ (v j) (zv j)) ->
  (forall i, 0 <= i < op_rows o m n -> qisZ (w i) (zw i) /\ gemv_small o (op_cols o m n) al ZA zv be zw i) ->
  returns (hgemv c m n alpha a lda x incx beta y incy) (fun y' => same_but_vec y y' (op_rows o m n) incy /\
    forall i, 0 <= i < op_rows o m n -> exists q, y' (vpos (op_rows o m n) incy i) = Some q /\ qisZ q (gemv_elt o (op_cols o m n) (emb al) ZA zv (emb be) zw i)).
Proof.
  intros Hc Hm Hn Hix Hiy Hs Hb Ha Hx Hy Sa Sb QA QV QW.
  assert (Ho : o <> OpR) by (destruct (lsame_N _ _ Hc) as (_ & _ & _ & ?); auto).
  assert (Hk : 0 <= op_cols o m n) by (destruct o; cbn; lia).
  eapply returns_mono; [apply (hgemv_good c o m n alpha a lda x incx beta y incy A v w); auto|].
  intros y' [Hh S]. split; auto. intros i Hi. eexists. split; [apply Hh; auto|]. destruct (QW i Hi) as [Qi Gi].
  apply qisZ_gval; auto. intros l Hl. destruct o; cbn [rawm op_rows op_cols] in *; apply QA; auto.
Qed.
Lemma hger_int (cnj : bool) m n (alpha : scal K) al (x : arr FQ) incx (y : arr FQ) incy (a : arr FQ) lda v w A zv zw ZA :
  0 <= m -> 0 <= n -> incx <> 0 -> incy <> 0 -> m <= lda -> (incx = 1 \/ forall r, alpha <> SR r) ->
  holds_vec x m incx v -> holds_vec y n incy w -> holds_mat a lda m n A ->
  sisZ alpha al -> (forall i, 0 <= i < m -> qisZ (v i) (zv i)) -> (forall j, 0 <= j < n -> qisZ (w j) (zw j)) ->
  (forall i j, 0 <= i < m -> 0 <= j < n -> qisZ (A i j) (ZA i j) /\ ger_small al zv zw ZA i j) ->
  returns (hger cnj m n alpha x incx y incy a lda) (fun a' => same_but_mat a a' lda m n /\
    forall i j, 0 <= i < m -> 0 <= j < n -> exists q, a' (i + j * lda) = Some q /\ qisZ q ((if cnj then gerc_elt else geru_elt) (emb al) zv zw ZA i j)).
Proof.
  intros Hm Hn Hix Hiy Hl Hal Hx Hy Ha Sa QV QW QA.
  eapply returns_mono; [apply (hger_raw cnj m n alpha x incx y incy a lda v w A); auto|].
  intros a' [Hh S]. split; auto. intros i j Hi Hj. eexists. split; [apply Hh; auto|]. destruct (QA i j Hi Hj) as [Qa [G1 G2]].
  replace ((if cnj then gerc_elt else geru_elt) (emb al) zv zw ZA i j) with (Hadd (ZA i j) (Hmul (emb al) (Hmul (zv i) (if cnj then Hconj (zw j) else zw j)))) by (destruct cnj; reflexivity).
  unfold hger_val. rewrite (sisZ_fzero fused _ _ Sa). destruct (fzero al) eqn:E0.
  { apply (fzero_emb Zlaws) in E0. rewrite E0, (Hmul_0_l Zlaws), (Hadd_0_r Zlaws). exact Qa. }
  assert (EN : hnz (w j) = hnz (zw j)).
  { unfold hnz. destruct (QW j Hj) as (E1 & E2 & E3 & E4).
    repeat f_equal; [exact (isZ_eqb _ _ _ _ E1 isZ_zero)|exact (isZ_eqb _ _ _ _ E2 isZ_zero)|exact (isZ_eqb _ _ _ _ E3 isZ_zero)|exact (isZ_eqb _ _ _ _ E4 isZ_zero)]. }
  rewrite EN. destruct (hnz (zw j)) eqn:EZ.
  - rewrite <- (hger_elt_H Zlaws). apply qisZ_hger; auto.
  - apply (hnz_H Zlaws) in EZ. rewrite EZ. replace (if cnj then Hconj (H0 (K := Znum)) else H0 (K := Znum)) with (H0 (K := Znum)) by (destruct cnj; reflexivity).
    rewrite !(Hmul_0_r Zlaws), (Hadd_0_r Zlaws). exact Qa.
Qed.
End T.
