(** The Fortran GEMV over exact arithmetic, also on the shapes for which LENX and LENY are exchanged. *)
From Coq Require Import ZArith Lia Bool Ascii.
From Verif Require Import Num Res ResFacts Spec SpecFacts VecFacts LoopFacts MQuat MForL1 MForL2 MForL3 L1Facts2 L2Facts OptGemmFacts RawL3 RawL2.
Local Open Scope Z_scope.
Section F.
Context {K : num}.
Hypothesis L : laws K.
Local Notation qarr := (arr (quat K)).
Lemma ziter_sum n (f : Z -> quat K -> quat K) (g : Z -> quat K) s : 0 <= n -> (forall l h, f l h = Hadd h (g l)) -> ziter n f s = Hadd s (Hsum n g).
Proof.
  intros Hn E. revert n Hn. apply natlike_ind.
  - rewrite ziter_0, Hsum_0, (Hadd_0_r L). reflexivity.
  - intros n Hn IH. unfold Z.succ. rewrite ziter_succ, Hsum_succ, IH, E, (Hadd_assoc L) by lia. reflexivity.
Qed.
Lemma hgemv_actual c o m n alpha (a : qarr) lda (x : qarr) incx beta (y : qarr) incy A v w t :
  trans_char c = Some o -> 0 < m -> 0 < n -> incx <> 0 -> incy <> 0 ->
  ~ (exists r s, alpha = SR r /\ beta = SR s) ->
  (incy = 1 \/ ~ (exists r q, alpha = SR r /\ beta = SH q) /\ ~ (c = "N"%char /\ exists q, alpha = SH q)) ->
  let lenx := match o with OpT => n | _ => m end in let leny := match o with OpT => m | _ => n end in
  let rows := op_rows o m n in let cols := op_cols o m n in
  (emb beta = H1 -> t = rows) -> (emb beta <> H1 -> t = Z.max rows leny) ->
  holds_mat a lda m n A -> (forall j, 0 <= j < cols -> x (vpos lenx incx j) = Some (v j)) ->
  (forall i, 0 <= i < t -> y (vpos leny incy i) = Some (w i)) ->
  returns (hgemv c m n alpha a lda x incx beta y incy) (fun y' =>
    (forall i, 0 <= i < t -> let b := if i <? leny then emb beta else H1 in
       y' (vpos leny incy i) = Some (if i <? rows then gemv_elt o cols (emb alpha) A v b w i else Hmul b (w i))) /\
    (forall p, (forall i, 0 <= i < t -> p <> vpos leny incy i) -> y' p = y p)).
Proof.
  intros Hc Hm Hn Hix Hiy Hnr Hb lenx leny rows cols T1 T2 Ha Hx Hy. destruct (lsame_N c o Hc) as (E1 & E2 & E3 & E4).
  assert (EL : hgemv_lens alpha beta c m n = (lenx, leny)).
  { unfold hgemv_lens. replace (match alpha, beta with SR _, SR _ => lsame "N" c | _, _ => lsame "T" c end) with (lsame "T" c).
    - rewrite E2. unfold lenx, leny. destruct o; reflexivity.
    - destruct alpha, beta; auto. exfalso. apply Hnr; eauto. }
  assert (ER : hgemv_rows c m n = rows) by (unfold hgemv_rows, rows; rewrite E1; destruct o; auto; congruence).
  assert (EC : hgemv_cols c m n = cols) by (unfold hgemv_cols, cols; rewrite E1; destruct o; auto; congruence).
  assert (EU : hgemv_use alpha beta c m n = t).
  { unfold hgemv_use. rewrite EL, ER. cbn [snd]. destruct (fone beta) eqn:E; symmetry; [apply T1, (fone_emb L), E|apply T2]. intros X. apply (fone_emb L) in X. congruence. }
  pose proof (hgemv_raw c m n alpha a lda x incx beta y incy A v w Hm Hn Hiy) as R. cbv zeta in R. rewrite EL, EC, EU in R. cbn [fst snd] in R.
  eapply returns_mono; [apply R; auto; intros i Hi; rewrite line0_vpos; auto|]. clear R. intros y' [Hv Hs]. split; [|intros p Hp; apply Hs; intros i Hi; rewrite line0_vpos; auto].
  intros i Hi b. rewrite <- line0_vpos by auto. rewrite (Hv i Hi). f_equal. clear Hv Hs.
  assert (EB : hgb_val alpha beta incy leny w i = Hmul b (w i)).
  { unfold hgb_val, b. destruct (fone beta) eqn:E; [apply (fone_emb L) in E; rewrite E; destruct (i <? leny); rewrite (Hmul_1_l L); auto|].
    replace (negb (incy =? 1) && negb (fzero beta) && match alpha, beta with SR _, SH _ => true | _, _ => false end) with false.
    - destruct (i <? leny); [|rewrite (Hmul_1_l L); auto]. unfold hpre_elt. destruct (fzero beta) eqn:E0; [apply (fzero_emb L) in E0; rewrite E0, (Hmul_0_l L); reflexivity|rewrite E; apply (hbeta_elt_H L)].
    - symmetry. destruct Hb as [->|[Hb _]]; [reflexivity|]. destruct alpha, beta; rewrite ?andb_false_r; auto. exfalso. apply Hb; eauto. }
  rewrite EB. clear EB. generalize b. clear b. intros b. unfold hgemv_main, gemv_elt.
  destruct (fzero alpha) eqn:E0.
  { apply (fzero_emb L) in E0. rewrite E0, (Hmul_0_l L), (Hadd_0_l L). destruct (i <? rows); reflexivity. }
  assert (EN : o = OpN -> hgn_elt alpha incy = hn_elt alpha).
  { intros ->. unfold hgn_elt. destruct Hb as [->|[_ Hb]]; [reflexivity|]. destruct (incy =? 1); auto. unfold hn_elt_strided. destruct alpha; auto.
    exfalso. apply Hb. split; eauto. unfold trans_char in Hc. destruct (Ascii.eqb_spec c "N"); auto. destruct (Ascii.eqb c "T"); [discriminate|]. destruct (Ascii.eqb c "C"); discriminate. }
  rewrite E1, E2. unfold rows, cols. destruct o; cbn [op_rows op_cols]; [| | |congruence].
  - rewrite EN by auto. destruct (i <? m); auto. rewrite (ziter_sum _ _ (fun j => Hmul (emb alpha) (Hmul (A i j) (v j)))) by (lia || (intros; apply (hn_elt_H L))).
    rewrite <- (Hmul_sum_l L). apply (Hadd_comm L).
  - destruct (i <? n); auto. rewrite (ziter_sum _ _ (fun l => Hmul (A l i) (v l))) by (lia || (intros; apply (hdotT_elt_H L))).
    rewrite (haxpyT_elt_H L), hq00, (Hadd_0_l L). apply (Hadd_comm L).
  - destruct (i <? n); auto. rewrite (ziter_sum _ _ (fun l => Hmul (Hconj (A l i)) (v l))) by (lia || (intros; apply (hdotT_elt_H L))).
    rewrite (haxpyT_elt_H L), hq00, (Hadd_0_l L). apply (Hadd_comm L).
Qed.
End F.
