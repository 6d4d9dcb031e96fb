(** Rounding-error bounds of the Fortran GEMM, GEMV and GER. *)
From Coq Require Import ZArith Reals Lra Lia Psatz Bool Ascii.
From Flocq Require Import Core.Core IEEE754.BinarySingleNaN.
From Verif Require Import Num NumR Res ResFacts Spec SpecFacts VecFacts LoopFacts MQuat MForL1 MForL2 MForL3 PackFacts OptGemmFacts RawL3 RawL2 F64 SpecErr SpecErrF RoundFacts
  ErrFacts ErrFacts2 ErrFacts3 ErrFor.
Local Open Scope R_scope.

Lemma Beqb_R (x y : f64) : is_finite y = true -> @Beqb 53 1024 x y = true -> is_finite x = true /\ B2R x = B2R y.
Proof.
  intros Fy E. destruct (is_finite x) eqn:Fx.
  - split; auto. rewrite Beqb_correct in E by auto. apply Req_bool_true_iff in E || (destruct (Req_bool_spec (B2R x) (B2R y)); [auto|discriminate]).
  - exfalso. destruct x as [sx|sx| |sx mx ex Hx], y as [sy|sy| |sy my ey Hy]; try discriminate; destruct sx; discriminate.
Qed.
Lemma f0_R : @B2R 53 1024 f_zero = 0. Proof. reflexivity. Qed.
Lemma f1_R : @B2R 53 1024 f_one = 1. Proof. apply Bone_correct. Qed.

Section R.
Variables (fused : bool).
Local Notation K := (F64 fused).
Local Notation FQ := (quat (F64 fused)).
Local Notation RH := (quat Rnum).
Lemma eq0_R (x : K) : neqb x n0 = true -> B2R (x : f64) = 0. Proof. intros E. apply (Beqb_R x f_zero eq_refl) in E. rewrite f0_R in E. tauto. Qed.
Lemma eq1_R (x : K) : neqb x n1 = true -> B2R (x : f64) = 1.
Proof. intros E. apply (Beqb_R x f_one) in E; [|reflexivity]. rewrite f1_R in E. tauto. Qed.
Lemma fzero_R (s : scal K) : fzero s = true -> emb (SR_of s) = H0 (K := Rnum).
Proof.
  destruct s as [a|z|q]; cbn [fzero SR_of emb]; intros E.
  - unfold Hre, H0. cbn. rewrite (eq0_R _ E). reflexivity.
  - apply andb_prop in E as [E1 E2]. unfold Hc, H0. cbn. rewrite (eq0_R _ E1), (eq0_R _ E2). reflexivity.
  - rewrite !andb_true_iff in E. destruct E as [[[E1 E2] E3] E4]. unfold QR, H0. cbn. rewrite (eq0_R _ E1), (eq0_R _ E2), (eq0_R _ E3), (eq0_R _ E4). reflexivity.
Qed.
Lemma fone_R (s : scal K) : fone s = true -> emb (SR_of s) = H1 (K := Rnum).
Proof.
  destruct s as [a|z|q]; cbn [fone SR_of emb]; intros E.
  - unfold Hre, H1. cbn. rewrite (eq1_R _ E). reflexivity.
  - apply andb_prop in E as [E1 E2]. unfold Hc, H1. cbn. rewrite (eq1_R _ E1), (eq0_R _ E2). reflexivity.
  - rewrite !andb_true_iff in E. destruct E as [[E1 E2] [E3 E4]]. unfold QR, H1. cbn. rewrite (eq1_R _ E1), (eq0_R _ E2), (eq0_R _ E3), (eq0_R _ E4). reflexivity.
Qed.
Lemma hnz_R (q : FQ) : hnz q = false -> QR q = H0 (K := Rnum).
Proof.
  unfold hnz. intros E. apply orb_false_elim in E as [E1 E2]. apply negb_false_iff in E1, E2. apply andb_prop in E1 as [A1 A2], E2 as [A3 A4].
  unfold QR, H0. cbn. rewrite (eq0_R _ A1), (eq0_R _ A2), (eq0_R _ A3), (eq0_R _ A4). reflexivity.
Qed.
End R.

(** magnitudes *)
Local Notation RH := (quat Rnum).
Lemma Qmaj_assoc (p q r : RH) : Qmaj (Qmaj p q) r = Qmaj p (Qmaj q r). Proof. unfold Qmaj; cbn; f_equal; ring. Qed.
Lemma Qabs_H0 : Qabs (H0 (K := Rnum)) = H0 (K := Rnum). Proof. unfold Qabs, H0; cbn; rewrite Rabs_R0; reflexivity. Qed.
Lemma Qabs_H1 : Qabs (H1 (K := Rnum)) = H1 (K := Rnum). Proof. unfold Qabs, H1; cbn; rewrite Rabs_R0, Rabs_R1; reflexivity. Qed.
Lemma Qmaj_0_l (p : RH) : Qmaj (H0 (K := Rnum)) p = H0 (K := Rnum). Proof. unfold Qmaj, H0; cbn; f_equal; ring. Qed.
Lemma Qmaj_1_l (p : RH) : Qmaj (H1 (K := Rnum)) p = p. Proof. destruct p as [a b c d]; unfold Qmaj, H1; cbn; f_equal; ring. Qed.
Lemma Qmaj_0_r (p : RH) : Qmaj p (H0 (K := Rnum)) = H0 (K := Rnum). Proof. unfold Qmaj, H0; cbn; f_equal; ring. Qed.
Lemma Qmaj_add_r (p q r : RH) : Qmaj p (Hadd (K := Rnum) q r) = Hadd (K := Rnum) (Qmaj p q) (Qmaj p r). Proof. unfold Qmaj, Hadd; cbn; f_equal; ring. Qed.
Lemma Qmaj_sum n (p : RH) f : (0 <= n)%Z -> Qmaj p (Hsum (K := Rnum) n f) = Hsum (K := Rnum) n (fun l => Qmaj p (f l)).
Proof.
  intros Hn. pattern n. apply natlike_ind; auto.
  - rewrite !Hsum_0. apply Qmaj_0_r.
  - clear n Hn. intros n Hn IH. unfold Z.succ. rewrite !Hsum_succ by lia. rewrite Qmaj_add_r, IH. reflexivity.
Qed.
Lemma Hsum_H0 n (f : Z -> RH) : (0 <= n)%Z -> (forall l, (0 <= l < n)%Z -> f l = H0 (K := Rnum)) -> Hsum (K := Rnum) n f = H0 (K := Rnum).
Proof.
  intros Hn. pattern n. apply natlike_ind; auto. clear n Hn. intros n Hn IH Hf. unfold Z.succ in *. rewrite Hsum_succ by lia. rewrite IH by (intros; apply Hf; lia).
  rewrite Hf by lia. apply (Hadd_0_r Rlaws).
Qed.
Lemma Q1_pos q : 0 <= Q1 q. Proof. unfold Q1. pose proof (Rabs_pos (qr q)). pose proof (Rabs_pos (qi q)). pose proof (Rabs_pos (qj q)). pose proof (Rabs_pos (qk q)). lra. Qed.
Lemma Rsum_pos n f : (forall l, 0 <= f l) -> 0 <= Rsum n f.
Proof. intros Hf. unfold Rsum. induction (Z.to_nat n); cbn; [lra|]. specialize (Hf (Z.of_nat n0)). lra. Qed.
Lemma Rsum_le n f g : (forall l, f l <= g l) -> Rsum n f <= Rsum n g.
Proof. intros Hf. unfold Rsum. induction (Z.to_nat n); cbn; [lra|]. specialize (Hf (Z.of_nat n0)). lra. Qed.
Lemma row_units_ge k al row : (0 <= k)%Z -> 15 <= row_units k al row /\ 15 + 8 * IZR k * Q1 al <= row_units k al row /\ 15 + Rsum k (fun l => 6 * Q1 (row l) + 16) <= row_units k al row.
Proof.
  intros Hk. unfold row_units. assert (0 <= IZR k) by (apply IZR_le in Hk; auto). pose proof (Q1_pos al).
  assert (0 <= 8 * IZR k * Q1 al) by (apply Rmult_le_pos; lra).
  assert (0 <= Rsum k (fun l => 6 * Q1 (row l) + 16)) by (apply Rsum_pos; intros l; pose proof (Q1_pos (row l)); lra). lra.
Qed.

Section S.
Variables (fused : bool) (P : Prop).
Local Notation K := (F64 fused).
Local Notation FQ := (quat (F64 fused)).
Local Notation qapx := (qapx fused P).

Lemma qapx_hpre (beta : scal K) (y : FQ) : (P -> sfin beta) -> (P -> fin y) ->
  qapx (hpre_elt beta y) (Hmul (K := Rnum) (emb (SR_of beta)) (QR y)) (Qmaj (Qabs (emb (SR_of beta))) (Qabs (QR y))) 3 7.
Proof.
  intros Fb Fy. unfold hpre_elt. destruct (fzero beta) eqn:E0.
  - rewrite (fzero_R _ _ E0), Qabs_H0, Qmaj_0_l, (Hmul_0_l Rlaws).
    eapply qapx_weaken; [exact (qapx_zero fused P)|reflexivity|..]; try apply Rle_refl; try lia. lra.
  - destruct (fone beta) eqn:E1; cbn [negb]; [|apply qapx_hbeta; auto].
    rewrite (fone_R _ _ E1), Qabs_H1, Qmaj_1_l, (Hmul_1_l Rlaws).
    eapply qapx_weaken; [apply qapx_leaf; auto|reflexivity|..]; try apply Rle_refl; try lia. lra.
Qed.
(** accumulation over a row, ALPHA applied first *)
Lemma qapx_nsum (cb : bool) k (alpha : scal K) (row col : Z -> FQ) (s : FQ) xs ms : (0 <= k)%Z -> (P -> sfin alpha) ->
  (P -> forall l, (0 <= l < k)%Z -> fin (row l) /\ fin (col l) /\ below 2 3 (Qmaj (Qabs (emb (SR_of alpha))) (Qabs (QR (col l))))) ->
  qapx s xs ms 3 7 ->
  qapx (ziter k (fun l acc => (if cb then hnc_elt alpha else hn_elt alpha) (row l) (col l) acc) s)
    (Hadd (K := Rnum) xs (Hsum (K := Rnum) k (fun l => Hmul (K := Rnum) (Hmul (K := Rnum) (emb (SR_of alpha)) (QR (row l))) (cjq cb (QR (col l))))))
    (Hadd (K := Rnum) ms (Hsum (K := Rnum) k (fun l => Qmaj (Qmaj (Qabs (emb (SR_of alpha))) (Qabs (QR (row l)))) (Qabs (QR (col l))))))
    (Z.to_nat (4 * k + 4)) (7 + Rsum k (fun l => 6 * Q1 (QR (row l)) + 16)).
Proof.
  intros Hk Fa HP S. assert (G : forall p, (0 <= p)%Z -> (p <= k)%Z -> qapx (ziter p (fun l acc => (if cb then hnc_elt alpha else hn_elt alpha) (row l) (col l) acc) s)
    (Hadd (K := Rnum) xs (Hsum (K := Rnum) p (fun l => Hmul (K := Rnum) (Hmul (K := Rnum) (emb (SR_of alpha)) (QR (row l))) (cjq cb (QR (col l))))))
    (Hadd (K := Rnum) ms (Hsum (K := Rnum) p (fun l => Qmaj (Qmaj (Qabs (emb (SR_of alpha))) (Qabs (QR (row l)))) (Qabs (QR (col l))))))
    (Z.to_nat (4 * p + 4)) (7 + Rsum p (fun l => 6 * Q1 (QR (row l)) + 16))); [|apply (G k); lia].
  intros p Hp. pattern p. apply natlike_ind; auto.
  - intros _. rewrite ziter_0, !Hsum_0, Rsum_0, !(Hadd_0_r Rlaws).
    eapply qapx_weaken; [exact S|reflexivity|..]; try apply Rle_refl; try lia. lra.
  - clear p Hp. intros p Hp IH Hpk. unfold Z.succ in *. specialize (IH ltac:(lia)). rewrite ziter_succ, !Hsum_succ, Rsum_succ, !(Hadd_assoc Rlaws) by lia.
    replace (Z.to_nat (4 * (p + 1) + 4)) with (4 + Z.to_nat (4 * p + 4))%nat by lia. rewrite <- Rplus_assoc.
    assert (F1 : P -> fin (row p)) by (intros h; apply (HP h); lia). assert (F2 : P -> fin (col p)) by (intros h; apply (HP h); lia).
    assert (F3 : P -> below 2 3 (Qmaj (Qabs (emb (SR_of alpha))) (Qabs (QR (col p))))) by (intros h; apply (HP h); lia).
    destruct cb; [apply qapx_hnc|apply qapx_hn]; auto; lia.
Qed.
(** dot product of a row and a column *)
Lemma qapx_dsum (ca cb : bool) k (row col : Z -> FQ) : (0 <= k)%Z ->
  (P -> forall l, (0 <= l < k)%Z -> fin (row l) /\ fin (col l)) ->
  qapx (ziter k (fun l h => hgdot_elt ca cb (row l) (col l) h) (hq c0 c0))
    (Hsum (K := Rnum) k (fun l => Hmul (K := Rnum) (cjq ca (QR (row l))) (cjq cb (QR (col l)))))
    (Hsum (K := Rnum) k (fun l => Qmaj (Qabs (QR (row l))) (Qabs (QR (col l))))) (Z.to_nat (2 * k + 2)) (8 * IZR k).
Proof.
  intros Hk HP. assert (G : forall p, (0 <= p)%Z -> (p <= k)%Z -> qapx (ziter p (fun l h => hgdot_elt ca cb (row l) (col l) h) (hq c0 c0))
    (Hsum (K := Rnum) p (fun l => Hmul (K := Rnum) (cjq ca (QR (row l))) (cjq cb (QR (col l)))))
    (Hsum (K := Rnum) p (fun l => Qmaj (Qabs (QR (row l))) (Qabs (QR (col l))))) (Z.to_nat (2 * p + 2)) (8 * IZR p)); [|apply (G k); lia].
  intros p Hp. pattern p. apply natlike_ind; auto.
  - intros _. rewrite ziter_0, !Hsum_0. eapply qapx_weaken; [exact (qapx_zero fused P)|reflexivity|..]; try apply Rle_refl; try lia. lra.
  - clear p Hp. intros p Hp IH Hpk. unfold Z.succ in *. specialize (IH ltac:(lia)). rewrite ziter_succ, !Hsum_succ by lia.
    replace (Z.to_nat (2 * (p + 1) + 2)) with (2 + Z.to_nat (2 * p + 2))%nat by lia. rewrite plus_IZR. replace (8 * (IZR p + 1)) with (8 * IZR p + 8) by ring.
    apply qapx_hgdot; auto; [intros h; apply (HP h); lia|intros h; apply (HP h); lia|lia].
Qed.
End S.

Section G.
Variables (fused : bool).
Local Notation K := (F64 fused).
Local Notation FQ := (quat (F64 fused)).
Lemma fin_conj_iff (q : FQ) : fin (Hconj q) <-> fin q.
Proof.
  split; [|apply fin_conj]. intros (F1 & F2 & F3 & F4). cbn [qr qi qj qk Hconj] in *.
  change (is_finite (fopp (qi q)) = true) in F2. change (is_finite (fopp (qj q)) = true) in F3. change (is_finite (fopp (qk q)) = true) in F4.
  rewrite fopp_fin in F2, F3, F4. repeat split; auto.
Qed.
Lemma fin_opm o (A : Z -> Z -> FQ) i l : fin (opm o A i l) <-> fin (rawm o A i l).
Proof. rewrite opm_raw. destruct (iscj o); [apply fin_conj_iff|tauto]. Qed.
Lemma abs_opm o (A : Z -> Z -> FQ) i l : Qabs (QR (opm o A i l)) = Qabs (QR (rawm o A i l)).
Proof. rewrite opm_raw. destruct (iscj o); [rewrite QR_conj, Qabs_conj|]; reflexivity. Qed.
Lemma Q1_abs q : Q1 q = qr (Qabs q) + qi (Qabs q) + qj (Qabs q) + qk (Qabs q). Proof. reflexivity. Qed.
Lemma Q1_opm o (A : Z -> Z -> FQ) i l : Q1 (QR (opm o A i l)) = Q1 (QR (rawm o A i l)).
Proof. rewrite !Q1_abs, abs_opm. reflexivity. Qed.
Lemma cjq_opm o (A : Z -> Z -> FQ) i l : cjq (iscj o) (QR (rawm o A i l)) = QR (opm o A i l).
Proof. rewrite opm_raw. unfold cjq. destruct (iscj o); [rewrite QR_conj|]; reflexivity. Qed.
Lemma Rsum_ext n f g : (forall l, f l = g l) -> Rsum n f = Rsum n g.
Proof. intros E. apply Rle_antisym; apply Rsum_le; intros l; rewrite E; apply Rle_refl. Qed.
Variable P : Prop.
Local Notation qapx := (qapx fused P).

(** ALPHA*row*col + BETA*c, from the two ways the code computes it.  [rw], [cl] are the stored entries, [ca], [cb] tell whether
    they are conjugated *)
Definition rc_val (alpha : quat Rnum) (k : Z) (row col : Z -> quat Rnum) (beta c : quat Rnum) : quat Rnum :=
  Hadd (K := Rnum) (Hmul (K := Rnum) alpha (Hsum (K := Rnum) k (fun l => Hmul (K := Rnum) (row l) (col l)))) (Hmul (K := Rnum) beta c).
Definition rc_mag (alpha : quat Rnum) (k : Z) (row col : Z -> quat Rnum) (beta c : quat Rnum) : quat Rnum :=
  Hadd (K := Rnum) (Qmaj (Qabs beta) (Qabs c)) (Hsum (K := Rnum) k (fun l => Qmaj (Qmaj (Qabs alpha) (Qabs (row l))) (Qabs (col l)))).
Lemma rc_val_alt alpha k row col beta c : rc_val alpha k row col beta c =
  Hadd (K := Rnum) (Hmul (K := Rnum) beta c) (Hsum (K := Rnum) k (fun l => Hmul (K := Rnum) (Hmul (K := Rnum) alpha (row l)) (col l))).
Proof. unfold rc_val. rewrite (Hadd_comm Rlaws). f_equal. rewrite (Hmul_sum_l Rlaws). apply Hsum_ext. intros l _. rewrite (Hmul_assoc Rlaws). reflexivity. Qed.
Lemma rc_mag_alt alpha k row col beta c : (0 <= k)%Z -> rc_mag alpha k row col beta c =
  Hadd (K := Rnum) (Qmaj (Qabs alpha) (Hsum (K := Rnum) k (fun l => Qmaj (Qabs (row l)) (Qabs (col l))))) (Qmaj (Qabs beta) (Qabs c)).
Proof. intros Hk. unfold rc_mag. rewrite (Hadd_comm Rlaws). f_equal. rewrite Qmaj_sum by auto. apply Hsum_ext. intros l _. apply Qmaj_assoc. Qed.
Lemma rc_zero k row col beta c : (0 <= k)%Z -> rc_val (H0 (K := Rnum)) k row col beta c = Hmul (K := Rnum) beta c /\ rc_mag (H0 (K := Rnum)) k row col beta c = Qmaj (Qabs beta) (Qabs c).
Proof.
  intros Hk. split.
  - unfold rc_val. rewrite (Hmul_0_l Rlaws). apply (Hadd_0_l Rlaws).
  - rewrite rc_mag_alt by auto. rewrite Qabs_H0, Qmaj_0_l. apply (Hadd_0_l Rlaws).
Qed.
Lemma rc_empty alpha row col beta c : rc_val alpha 0 row col beta c = Hmul (K := Rnum) beta c /\ rc_mag alpha 0 row col beta c = Qmaj (Qabs beta) (Qabs c).
Proof.
  unfold rc_val, rc_mag. rewrite !Hsum_0, (Hmul_0_r Rlaws), (Hadd_0_l Rlaws), (Hadd_0_r Rlaws). auto.
Qed.

Lemma qapx_wk (v : FQ) x m d E d' E' : qapx v x m d E -> (d <= d')%nat -> E <= E' -> qapx v x m d' E'.
Proof. intros Q Hd HE. eapply qapx_weaken; [exact Q|reflexivity|..]; auto; apply Rle_refl. Qed.

Lemma qapx_hgemm oa ob k (alpha beta : scal K) (A B w : Z -> Z -> FQ) i j : oa <> OpR -> (0 <= k)%Z ->
  let al := emb (SR_of alpha) in let be := emb (SR_of beta) in
  (P -> sfin alpha /\ sfin beta /\ fin (w i j) /\ row_room k al (fun l => opm oa A i l) (fun l => opm ob B l j)) ->
  qapx (hgemm_val oa ob k alpha beta A B w i j) (rc_val al k (fun l => QR (opm oa A i l)) (fun l => QR (opm ob B l j)) be (QR (w i j)))
    (rc_mag al k (fun l => QR (opm oa A i l)) (fun l => QR (opm ob B l j)) be (QR (w i j))) (Z.to_nat (4 * k + 7)) (row_units k al (fun l => QR (opm oa A i l))).
Proof.
  intros Ho Hk al be HP.
  destruct (row_units_ge k al (fun l => QR (opm oa A i l)) Hk) as (U0 & U1 & U2).
  assert (Fa : P -> sfin alpha) by (intros h; apply (HP h)). assert (Fb : P -> sfin beta) by (intros h; apply (HP h)). assert (Fw : P -> fin (w i j)) by (intros h; apply (HP h)).
  unfold hgemm_val. destruct ((fzero alpha || (k =? 0)%Z) && fone beta) eqn:EQ.
  { apply andb_prop in EQ as [EQ E1]. unfold be. rewrite (fone_R _ _ E1).
    assert (E : forall c, rc_val al k (fun l => QR (opm oa A i l)) (fun l => QR (opm ob B l j)) (H1 (K := Rnum)) c = Hmul (K := Rnum) (H1 (K := Rnum)) c /\
      rc_mag al k (fun l => QR (opm oa A i l)) (fun l => QR (opm ob B l j)) (H1 (K := Rnum)) c = Qmaj (Qabs (H1 (K := Rnum))) (Qabs c)).
    { intros c. apply orb_prop in EQ as [EQ|EQ]; [unfold al; rewrite (fzero_R _ _ EQ); apply rc_zero; auto|apply Z.eqb_eq in EQ; subst k; apply rc_empty]. }
    destruct (E (QR (w i j))) as [-> ->]. rewrite (Hmul_1_l Rlaws), Qabs_H1, Qmaj_1_l. eapply qapx_wk; [apply qapx_leaf; auto|lia|lra]. }
  clear EQ. destruct (fzero alpha) eqn:E0.
  { unfold al at 1 2. rewrite (fzero_R _ _ E0). destruct (rc_zero k (fun l => QR (opm oa A i l)) (fun l => QR (opm ob B l j)) be (QR (w i j)) Hk) as [-> ->].
    destruct (fzero beta) eqn:B0.
    - unfold be. rewrite (fzero_R _ _ B0), (Hmul_0_l Rlaws), Qabs_H0, Qmaj_0_l. eapply qapx_wk; [exact (qapx_zero fused P)|lia|lra].
    - eapply qapx_wk; [apply qapx_hbeta; auto|lia|lra]. }
  unfold hgemm_main.
  assert (TR : oa <> OpN -> qapx (let h := ziter k (fun l h => hgdot_elt (iscj oa) (iscj ob) (rawm oa A i l) (rawm ob B l j) h) (hq c0 c0) in
           if fzero beta then halpha_elt alpha h else halphabeta_elt alpha beta h (w i j))
     (rc_val al k (fun l => QR (opm oa A i l)) (fun l => QR (opm ob B l j)) be (QR (w i j)))
    (rc_mag al k (fun l => QR (opm oa A i l)) (fun l => QR (opm ob B l j)) be (QR (w i j))) (Z.to_nat (4 * k + 7)) (row_units k al (fun l => QR (opm oa A i l)))).
  { intros _. cbv zeta.
    assert (HP2 : P -> forall l, (0 <= l < k)%Z -> fin (rawm oa A i l) /\ fin (rawm ob B l j)).
    { intros h l Hl. destruct (HP h) as (_ & _ & _ & R & _). destruct (R l Hl) as (R1 & R2 & _). rewrite fin_opm in R1, R2. auto. }
    pose proof (qapx_dsum fused P (iscj oa) (iscj ob) k (fun l => rawm oa A i l) (fun l => rawm ob B l j) Hk HP2) as D.
    rewrite (Hsum_ext k _ (fun l => Hmul (K := Rnum) (QR (opm oa A i l)) (QR (opm ob B l j)))) in D by (intros l _; rewrite !cjq_opm; reflexivity).
    rewrite (Hsum_ext k (fun l => Qmaj (Qabs (QR (rawm oa A i l))) (Qabs (QR (rawm ob B l j)))) (fun l => Qmaj (Qabs (QR (opm oa A i l))) (Qabs (QR (opm ob B l j))))) in D
      by (intros l _; rewrite !abs_opm; reflexivity).
    revert D. generalize (ziter k (fun l h => hgdot_elt (iscj oa) (iscj ob) (rawm oa A i l) (rawm ob B l j) h) (hq c0 c0)). intros h D.
    assert (Fh : P -> fin h) by (intros hp; destruct (HP hp) as (_ & _ & _ & _ & R); eapply qapx_fin; [exact D|exact hp|exact R]).
    rewrite rc_mag_alt by auto. unfold rc_val. destruct (fzero beta) eqn:B0.
    - unfold be. rewrite (fzero_R _ _ B0), (Hmul_0_l Rlaws), Qabs_H0, Qmaj_0_l, !(Hadd_0_r Rlaws).
      eapply qapx_wk; [apply qapx_halpha; [auto|exact Fh|exact D]|lia|fold al; lra].
    - eapply qapx_wk; [apply qapx_halphabeta; [auto|auto|exact Fh|auto|exact D]|lia|fold al; lra]. }
  destruct oa; [|apply TR; discriminate|apply TR; discriminate|congruence].
  assert (HP2 : P -> forall l, (0 <= l < k)%Z -> fin (A i l) /\ fin (rawm ob B l j) /\ below 2 3 (Qmaj (Qabs al) (Qabs (QR (rawm ob B l j))))).
  { intros h l Hl. destruct (HP h) as (_ & _ & _ & R & _). destruct (R l Hl) as (R1 & R2 & R3). rewrite fin_opm in R2. rewrite abs_opm in R3. auto. }
  pose proof (qapx_nsum fused P (iscj ob) k alpha (fun l => A i l) (fun l => rawm ob B l j) _ _ _ Hk Fa HP2 (qapx_hpre fused P beta (w i j) Fb Fw)) as N.
  rewrite rc_val_alt. unfold rc_mag. cbn [opm] in *.
  rewrite (Hsum_ext k _ (fun l => Hmul (K := Rnum) (Hmul (K := Rnum) al (QR (A i l))) (QR (opm ob B l j)))) in N by (intros l _; rewrite cjq_opm; reflexivity).
  rewrite (Hsum_ext k (fun l => Qmaj (Qmaj _ _) (Qabs (QR (rawm ob B l j)))) (fun l => Qmaj (Qmaj (Qabs al) (Qabs (QR (A i l)))) (Qabs (QR (opm ob B l j))))) in N
    by (intros l _; rewrite abs_opm; reflexivity).
  eapply qapx_wk; [exact N|lia|lra].
Qed.
End G.
