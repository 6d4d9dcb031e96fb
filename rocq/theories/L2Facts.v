(** Fortran GEMV and GER. *)
From Coq Require Import ZArith Lia Bool Ascii Ring.
From Verif Require Import Num Res ResFacts Spec SpecFacts VecFacts LoopFacts MQuat QuatFacts MForL1 L1Facts2 MForL2.
Local Open Scope Z_scope.

Section F.
Context {K : num} (L : laws K).
Add Ring Kr : (l_ring K L).
Local Notation qarr := (arr (quat K)).

Ltac celt := cbv [emb hbeta_elt hn_elt hn_elt_strided hdotT_elt haxpyT_elt hger_elt hq cadd csub cmul crmul cneg conjg h1 h2 c0]; cbn [re im];
  hunf; cbn [re im qr qi qj qk]; try (f_equal; ring).
Lemma hbeta_elt_H (beta : scal K) y : hbeta_elt beta y = Hmul (emb beta) y.
Proof. destruct beta as [b|[b c]|[]], y; celt. Qed.
Lemma hn_elt_H (alpha : scal K) a x y : hn_elt alpha a x y = Hadd y (Hmul (emb alpha) (Hmul a x)).
Proof. destruct alpha as [b|[b c]|[]], a, x, y; celt. Qed.
Lemma hn_elt_strided_H (alpha : scal K) a x y : (forall q, alpha <> SH q) -> hn_elt_strided alpha a x y = Hadd y (Hmul (emb alpha) (Hmul a x)).
Proof. intros Ha. destruct alpha as [b|b|q]; [apply hn_elt_H|apply hn_elt_H|]. destruct (Ha q); auto. Qed.
Lemma hdotT_elt_H nc (a x h : quat K) : hdotT_elt nc a x h = Hadd h (Hmul (if nc then a else Hconj a) x).
Proof. destruct nc, a, x, h; celt. Qed.
Lemma haxpyT_elt_H (alpha : scal K) h y : haxpyT_elt alpha h y = Hadd y (Hmul (emb alpha) h).
Proof. destruct alpha as [b|[b c]|[]], h, y; celt. Qed.
Lemma hger_elt_H cnj (alpha : scal K) x y a : hger_elt cnj alpha x y a = Hadd a (Hmul (emb alpha) (Hmul x (if cnj then Hconj y else y))).
Proof. destruct cnj, alpha as [b|[b c]|[]], x, y, a; celt. Qed.
Lemma hq00 : hq (K:=K) c0 c0 = H0. Proof. reflexivity. Qed.
Lemma fone_emb (beta : scal K) : fone beta = true <-> emb beta = H1.
Proof.
  destruct beta as [a|[a c]|[a b c d]]; cbn; unfold Hre, Hc, H1; cbn; rewrite ?andb_true_iff, ?(l_eqb K L);
    (split; [intros; f_equal; tauto|injection 1; intros; tauto]).
Qed.
Lemma hnz_H (y : quat K) : hnz y = false <-> y = H0.
Proof.
  destruct y as [a b c d]; unfold hnz; cbn [qr qi qj qk]. rewrite orb_false_iff, !negb_false_iff, !andb_true_iff, !(l_eqb K L).
  unfold H0. split; [intros; f_equal; tauto|injection 1; intros; tauto].
Qed.
Lemma fstart_pos n inc i : inc <> 0 -> fstart n inc + i * inc - 1 = vpos n inc i.
Proof. intros Hi. unfold fstart, vpos. destruct (Z.gtb_spec inc 0), (Z.ltb_spec inc 0); lia. Qed.

(** ** BETA stage *)
Definition beta_ok (alpha beta : scal K) (incy : Z) : Prop :=
  incy = 1 \/ emb beta = H0 \/ emb beta = H1 \/ (forall a b, alpha = SR a -> beta = SH b -> False).
Lemma hgemv_beta_ok alpha beta leny ky (y : qarr) incy w :
  0 <= leny -> incy <> 0 -> beta_ok alpha beta incy -> (emb beta <> H1 -> ky = fstart leny incy) ->
  holds_vec y leny incy w ->
  returns (hgemv_beta alpha beta leny ky y incy) (fun y' => is_vec y y' leny incy (fun i => Hmul (emb beta) (w i))).
Proof.
  intros Hn Hinc Hok Hky Hy. apply is_vec_refl in Hy. unfold hgemv_beta, fdo.
  destruct (fone beta) eqn:E1.
  { apply fone_emb in E1. rewrite E1. eapply is_vec_ext; [|exact Hy]. intros; rewrite (Hmul_1_l L); auto. }
  assert (N1 : emb beta <> H1) by (intros E; apply fone_emb in E; congruence). specialize (Hky N1). subst ky.
  destruct (Z.eqb_spec incy 1) as [->|Hne].
  - destruct (fzero beta) eqn:E0.
    + apply (fzero_emb L) in E0. rewrite E0. apply (vmap_plain y y leny _ _ _ _ w); auto; try lia.
      intros i y' Hi Hl. replace (1 + i - 1) with i by lia. rewrite (st_some _ _ _ _ Hl), (Hmul_0_l L), hq00. auto.
    + apply (vmap_plain y y leny _ _ _ _ w); auto; try lia.
      intros i y' Hi Hl. replace (1 + i - 1) with i by lia. rewrite (ld_some _ _ _ Hl). cbn [bind].
      rewrite (st_some _ _ _ _ Hl), hbeta_elt_H. auto.
  - destruct (fzero beta) eqn:E0.
    + apply (fzero_emb L) in E0. rewrite E0.
      apply (vmap_cursor y y leny incy _ _ _ (fun _ p y => st y (p - 1) (hq c0 c0)) _ w); auto; try lia.
      intros i p y' Hi -> Hl. rewrite fstart_pos by auto. rewrite (st_some _ _ _ _ Hl), (Hmul_0_l L), hq00. auto.
    + assert (Ei : match alpha, beta with SR _, SH _ => 0 | _, _ => incy end = incy).
      { destruct Hok as [?|[E|[E|E]]]; [lia| |tauto|].
        - apply (fzero_emb L) in E. congruence.
        - destruct alpha, beta; auto. destruct (E _ _ eq_refl eq_refl). }
      rewrite Ei.
      apply (vmap_cursor y y leny incy _ _ _ (fun _ p y => v <- ld y (p - 1) ;; st y (p - 1) (hbeta_elt beta v)) _ w); auto; try lia.
      intros i p y' Hi -> Hl. rewrite fstart_pos by auto. rewrite (ld_some _ _ _ Hl). cbn [bind].
      rewrite (st_some _ _ _ _ Hl), hbeta_elt_H. auto.
Qed.

(** ** 'N' *)
Lemma hgemv_n_ok alpha m n (a : qarr) lda (x : qarr) kx incx (y y' : qarr) ky incy A v w :
  0 <= m -> 0 <= n -> incx <> 0 -> incy <> 0 -> kx = fstart n incx -> (incy <> 1 -> ky = fstart m incy) ->
  (incy = 1 \/ forall q, alpha <> SH q) ->
  holds_mat a lda m n A -> holds_vec x n incx v -> is_vec y y' m incy w ->
  returns (hgemv_n alpha m n a lda x kx incx y' ky incy) (fun y'' =>
    is_vec y y'' m incy (fun i => Hadd (w i) (Hmul (emb alpha) (Hsum n (fun j => Hmul (A i j) (v j)))))).
Proof.
  intros Hm Hn Hix Hiy -> Hky Hal Ha Hx Hy. unfold hgemv_n, fdo.
  pose (I := fun (j : Z) y'' => is_vec y y'' m incy (fun i => Hadd (w i) (Hmul (emb alpha) (Hsum j (fun j => Hmul (A i j) (v j)))))).
  assert (I0 : I 0 y').
  { unfold I. eapply is_vec_ext; [|exact Hy]. intros; rewrite Hsum_0, (Hmul_0_r L), (Hadd_0_r L); auto. }
  assert (Step : forall j i p y0 f, 0 <= j < n -> 0 <= i < m ->
     (forall a x y, f a x y = Hadd y (Hmul (emb alpha) (Hmul a x))) ->
     y0 p = Some (Hadd (w i) (Hmul (emb alpha) (Hsum j (fun j => Hmul (A i j) (v j))))) ->
     hn_step f a lda (1 + i) (1 + j) (v j) p y0 =
       Ok (upd y0 p (Hadd (w i) (Hmul (emb alpha) (Hsum (j + 1) (fun j => Hmul (A i j) (v j))))))).
  { intros j i p y0 f Hj Hi Hf Hl. unfold hn_step. rewrite (ld_some _ _ _ Hl). cbn [bind].
    replace (1 + i - 1) with i by lia. replace (1 + j - 1) with j by lia.
    rewrite (ld_some _ _ _ (Ha i j Hi Hj)). cbn [bind]. rewrite (st_some _ _ _ _ Hl), Hf.
    rewrite Hsum_succ by lia. rewrite (Hmul_add_l L), (Hadd_assoc L). reflexivity. }
  destruct (Z.eqb_spec incy 1) as [->|Hne].
  - pose (step := fun j jx y => v <- ld x (jx - 1) ;;
       zfor 1 (m + 1) (fun i y => hn_step (hn_elt alpha) a lda i j v (i - 1) y) y).
    apply (cursori_n I step n); auto; try lia.
    intros j y0 Hj HI. unfold step. rewrite fstart_pos by auto. rewrite (ld_some _ _ _ (Hx j Hj)). cbn [bind].
    eapply (vmap_plain y y0 m); [lia|lia| |exact HI].
    intros i y1 Hi Hl. replace (1 + i - 1) with i by lia. apply Step; auto. apply hn_elt_H.
  - specialize (Hky Hne). subst ky. destruct Hal as [?|Hal]; [lia|].
    pose (step := fun j jx y => v <- ld x (jx - 1) ;;
       '(y, _) <- zfor 1 (m + 1) (fun i '(y, iy) => y <- hn_step (hn_elt_strided alpha) a lda i j v (iy - 1) y ;; Ok (y, iy + incy)) (y, fstart m incy) ;;
            Ok y).
    apply (cursori_n I step n); auto; try lia.
    intros j y0 Hj HI. unfold step. rewrite fstart_pos by auto. rewrite (ld_some _ _ _ (Hx j Hj)). cbn [bind].
    eapply (vmap_cursor y y0 m incy _ _ _ (fun i iy y => hn_step (hn_elt_strided alpha) a lda i (1 + j) (v j) (iy - 1) y) ); [lia|lia|exact Hiy| |exact HI].
    intros i p y1 Hi -> Hl. rewrite fstart_pos by auto. apply Step; auto. intros; apply hn_elt_strided_H; auto.
Qed.

(** ** 'T' / 'C' *)
Lemma hgemv_dot_ok nc m n (a : qarr) lda (x : qarr) kx incx A v j :
  0 <= m -> 0 <= j < n -> incx <> 0 -> (incx <> 1 -> kx = fstart m incx) ->
  holds_mat a lda m n A -> holds_vec x m incx v ->
  returns (if incx =? 1 then fdo 1 m (fun i h => hdot_step nc a lda i (1 + j) x (i - 1) h) (hq c0 c0)
           else '(h, _) <- fdo 1 m (fun i '(h, ix) => h <- hdot_step nc a lda i (1 + j) x (ix - 1) h ;; Ok (h, ix + incx)) (hq c0 c0, kx) ;; Ok h)
    (fun h => h = Hsum m (fun i => Hmul (if nc then A i j else Hconj (A i j)) (v i))).
Proof.
  intros Hm Hj Hix Hkx Ha Hx. unfold fdo.
  pose (t := fun i => Hmul (if nc then A i j else Hconj (A i j)) (v i)).
  pose (I := fun (i : Z) h => h = Hsum i t).
  assert (Step : forall i p h, 0 <= i < m -> p = vpos m incx i -> I i h -> returns (hdot_step nc a lda (1 + i) (1 + j) x p h) (I (i + 1))).
  { intros i p h Hi -> ->. unfold hdot_step. replace (1 + i - 1) with i by lia. replace (1 + j - 1) with j by lia.
    rewrite (ld_some _ _ _ (Ha i j Hi Hj)). cbn [bind]. rewrite (ld_some _ _ _ (Hx i Hi)). cbn [bind returns].
    rewrite hdotT_elt_H. unfold I. rewrite Hsum_succ by lia. unfold t at 3. destruct nc; reflexivity. }
  destruct (Z.eqb_spec incx 1) as [->|Hne].
  - apply (plain_n I); auto; try lia; [|reflexivity].
    intros i h Hi HI. replace (1 + i - 1) with i by lia. apply Step; auto. rewrite vpos_1; auto.
  - rewrite (Hkx Hne). apply (cursori_n I (fun i ix h => hdot_step nc a lda i (1 + j) x (ix - 1) h)); auto; try lia; [|reflexivity].
    intros i h Hi HI. rewrite fstart_pos by auto. apply Step; auto.
Qed.
Lemma hgemv_t_ok alpha nc m n (a : qarr) lda (x : qarr) kx incx (y y' : qarr) ky incy A v w :
  0 <= m -> 0 <= n -> incx <> 0 -> incy <> 0 -> (incx <> 1 -> kx = fstart m incx) -> ky = fstart n incy ->
  holds_mat a lda m n A -> holds_vec x m incx v -> is_vec y y' n incy w ->
  returns (hgemv_t alpha nc m n a lda x kx incx y' ky incy) (fun y'' =>
    is_vec y y'' n incy (fun j => Hadd (w j) (Hmul (emb alpha) (Hsum m (fun i => Hmul (if nc then A i j else Hconj (A i j)) (v i)))))).
Proof.
  intros Hm Hn Hix Hiy Hkx -> Ha Hx Hy. unfold hgemv_t.
  set (new := fun j => Hadd (w j) (Hmul (emb alpha) (Hsum m (fun i => Hmul (if nc then A i j else Hconj (A i j)) (v i))))).
  pose (step := fun j jy y => 
    h <- (if incx =? 1 then fdo 1 m (fun i h => hdot_step nc a lda i j x (i - 1) h) (hq c0 c0)
           else '(h, _) <- fdo 1 m (fun i '(h, ix) => h <- hdot_step nc a lda i j x (ix - 1) h ;; Ok (h, ix + incx)) (hq c0 c0, kx) ;; Ok h) ;;
    w <- ld y (jy - 1) ;; st y (jy - 1) (haxpyT_elt alpha h w)).
  apply (vmap_cursor y y' n incy 1 (n + 1) (fstart n incy) step new w); auto; try lia.
  intros j p y0 Hj -> Hl. unfold step.
  destruct (proj1 (returns_ex _ _) (hgemv_dot_ok nc m n a lda x kx incx A v j Hm Hj Hix Hkx Ha Hx)) as (h & -> & ->).
  cbn [bind]. rewrite fstart_pos by auto. rewrite (ld_some _ _ _ Hl). cbn [bind].
  rewrite (st_some _ _ _ _ Hl), haxpyT_elt_H. reflexivity.
Qed.

(** ** assembly *)
Definition shape_ok (alpha beta : scal K) (o : mop) (m n incx incy : Z) : Prop :=
  (exists a b, alpha = SR a /\ beta = SR b) \/ m = n \/ o = OpC \/ (emb beta = H1 /\ 0 < incx /\ 0 < incy).

Lemma hgemv_ok c o m n alpha (a : qarr) lda (x : qarr) incx beta (y : qarr) incy A v w :
  trans_char c = Some o -> 0 < m -> 0 < n -> incx <> 0 -> incy <> 0 ->
  shape_ok alpha beta o m n incx incy -> beta_ok alpha beta incy ->
  (o = OpN -> incy = 1 \/ forall q, alpha <> SH q) ->
  holds_mat a lda m n A -> holds_vec x (op_cols o m n) incx v -> holds_vec y (op_rows o m n) incy w ->
  returns (hgemv c m n alpha a lda x incx beta y incy) (fun y' =>
    holds_vec y' (op_rows o m n) incy (gemv_elt o (op_cols o m n) (emb alpha) A v (emb beta) w) /\
    same_but_vec y y' (op_rows o m n) incy).
Proof.
  intros Hc Hm Hn Hix Hiy Hsh Hb Hal Ha Hx Hy. unfold hgemv.
  replace (m =? 0) with false by lia. replace (n =? 0) with false by lia. cbn [orb].
  assert (Noop : emb alpha = H0 -> forall y' : qarr, is_vec y y' (op_rows o m n) incy (fun i => Hmul (emb beta) (w i)) ->
     is_vec y y' (op_rows o m n) incy (gemv_elt o (op_cols o m n) (emb alpha) A v (emb beta) w)).
  { intros E y'. apply is_vec_ext. intros i Hi. unfold gemv_elt. rewrite E, (Hmul_0_l L), (Hadd_0_l L). auto. }
  destruct (fzero alpha && fone beta) eqn:EQ.
  { apply andb_true_iff in EQ as [E0 E1]. apply (fzero_emb L) in E0. apply fone_emb in E1.
    apply Noop; auto. rewrite E1. eapply is_vec_ext; [|apply is_vec_refl; exact Hy]. intros; rewrite (Hmul_1_l L); auto. }
  clear EQ.
  assert (Lens : exists lenx leny, hgemv_lens alpha beta c m n = (lenx, leny) /\
     (lenx = op_cols o m n /\ leny = op_rows o m n \/ emb beta = H1 /\ 0 < incx /\ 0 < incy)).
  { unfold trans_char in Hc.
    destruct (Ascii.eqb_spec c "N") as [->|_]; [injection Hc as <-|
    destruct (Ascii.eqb_spec c "T") as [->|_]; [injection Hc as <-|
    destruct (Ascii.eqb_spec c "C") as [->|_]; [injection Hc as <-|discriminate]]];
    unfold hgemv_lens; cbn [op_cols op_rows];
    (destruct Hsh as [(p & q & -> & ->)|[->|[E|Hsh]]]; try discriminate);
    try (destruct alpha, beta); eexists _, _; (split; [reflexivity|]); auto. }
  destruct Lens as (lenx & leny & -> & Hlen).
  assert (Hkx : fstart lenx incx = fstart (op_cols o m n) incx).
  { destruct Hlen as [[-> ->]|(_ & Hx0 & _)]; auto. unfold fstart. destruct (Z.gtb_spec incx 0); auto; lia. }
  assert (Hky : fstart leny incy = fstart (op_rows o m n) incy).
  { destruct Hlen as [[-> ->]|(_ & _ & Hy0)]; auto. unfold fstart. destruct (Z.gtb_spec incy 0); auto; lia. }
  assert (Hb' : returns (hgemv_beta alpha beta leny (fstart leny incy) y incy) (fun y' =>
      is_vec y y' (op_rows o m n) incy (fun i => Hmul (emb beta) (w i)))).
  { destruct Hlen as [[-> ->]|(E1 & _ & Hy0)].
    - apply hgemv_beta_ok; auto. destruct o; cbn; lia.
    - unfold hgemv_beta. pose proof (proj2 (fone_emb beta) E1) as ->. cbn [returns]. rewrite E1.
      eapply is_vec_ext; [|apply is_vec_refl; exact Hy]. intros; rewrite (Hmul_1_l L); auto. }
  eapply returns_bind; [exact Hb'|]. intros y' Hy'.
  destruct (fzero alpha) eqn:E0.
  { apply (fzero_emb L) in E0. apply Noop; auto. }
  rewrite Hkx, Hky.
  assert (Fin : forall nc, (o = OpN -> False) -> nc = (match o with OpT => true | _ => false end) -> (o = OpT \/ o = OpC) ->
     returns (hgemv_t alpha nc m n a lda x (fstart (op_cols o m n) incx) incx y' (fstart (op_rows o m n) incy) incy) (fun y' =>
    holds_vec y' (op_rows o m n) incy (gemv_elt o (op_cols o m n) (emb alpha) A v (emb beta) w) /\
    same_but_vec y y' (op_rows o m n) incy)).
  { intros nc _ -> Ho.
    assert (Er : op_rows o m n = n) by (destruct Ho as [-> | ->]; reflexivity).
    assert (Ec : op_cols o m n = m) by (destruct Ho as [-> | ->]; reflexivity).
    rewrite Er, Ec in *.
    eapply returns_mono.
    - apply (hgemv_t_ok alpha _ m n a lda x _ incx y y' _ incy A v (fun i => Hmul (emb beta) (w i))); auto; try lia.
    - intros y'' H. eapply is_vec_ext in H; [exact H|]. intros j Hj. unfold gemv_elt. rewrite (Hadd_comm L). do 2 f_equal.
      destruct Ho as [-> | ->]; reflexivity. }
  unfold trans_char in Hc.
  destruct (Ascii.eqb_spec c "N") as [->|_]; [injection Hc as <-|
  destruct (Ascii.eqb_spec c "T") as [->|_]; [injection Hc as <-|
  destruct (Ascii.eqb_spec c "C") as [->|_]; [injection Hc as <-|discriminate]]].
  - change (lsame "N" "N") with true. cbn match. cbn [op_rows op_cols] in *.
    eapply returns_mono.
    + apply (hgemv_n_ok alpha m n a lda x _ incx y y' _ incy A v (fun i => Hmul (emb beta) (w i))); auto; try lia.
    + intros y'' H. eapply is_vec_ext in H; [exact H|]. intros j Hj. unfold gemv_elt. rewrite (Hadd_comm L). reflexivity.
  - change (lsame "T" "N") with false. change (lsame "T" "T") with true. cbn match. apply Fin; auto; discriminate.
  - change (lsame "C" "N") with false. change (lsame "T" "C") with false. cbn match. apply Fin; auto; discriminate.
Qed.

(** ** GER *)
Lemma hger_ok cnj m n alpha (x : qarr) incx (y : qarr) incy (a : qarr) lda v w A :
  0 <= m -> 0 <= n -> incx <> 0 -> incy <> 0 -> m <= lda -> (incx = 1 \/ forall r, alpha <> SR r) ->
  holds_vec x m incx v -> holds_vec y n incy w -> holds_mat a lda m n A ->
  returns (hger cnj m n alpha x incx y incy a lda) (fun a' =>
    holds_mat a' lda m n (fun i j => Hadd (A i j) (Hmul (emb alpha) (Hmul (v i) (if cnj then Hconj (w j) else w j)))) /\
    same_but_mat a a' lda m n).
Proof.
  intros Hm Hn Hix Hiy Hld Hal Hx Hy Ha. unfold hger.
  set (new := fun i j => Hadd (A i j) (Hmul (emb alpha) (Hmul (v i) (if cnj then Hconj (w j) else w j)))).
  destruct (Z.eqb_spec m 0) as [->|Hm0]; [split; [intros i j Hi; lia|intros p _; auto]|].
  destruct (Z.eqb_spec n 0) as [->|Hn0]; [split; [intros i j Hi Hj; lia|intros p _; auto]|].
  cbn [orb]. destruct (fzero alpha) eqn:E0.
  { apply (fzero_emb L) in E0. split; [|intros p _; auto]. intros i j Hi Hj. unfold new.
    rewrite E0, (Hmul_0_l L), (Hadd_0_r L). auto. }
  pose proof (sep_ld lda m n Hld) as Hsep.
  pose (I := fun (j : Z) a' => is_mat a a' lda m n (mprog new A j)).
  apply returns_mono with (P := I n); [|intros a' H; apply mprog_end in H; exact H].
  assert (I0 : I 0 a) by (apply mprog_start, is_mat_refl; auto).
  assert (Skip : forall j a', 0 <= j < n -> hnz (w j) = false -> I j a' -> I (j + 1) a').
  { intros j a' Hj Hz HI. apply hnz_H in Hz.
    apply (mprog_step a a' lda m n new A j (fun i => A i j)); auto.
    - intros i Hi. unfold new. rewrite Hz.
      replace (if cnj then Hconj H0 else H0) with (H0 (K:=K)) by (destruct cnj; auto; rewrite (Hconj_0 L); auto).
      rewrite !(Hmul_0_r L), (Hadd_0_r L). auto.
    - eapply is_mat_ext; [|exact HI]. intros i j' Hi Hj'. unfold setcol. destruct (Z.eqb_spec j' j) as [->|]; auto.
      apply mprog_at. }
  assert (Step : forall j i p (a' : qarr), 0 <= j < n -> 0 <= i < m -> p = vpos m incx i ->
     a' (i + j * lda) = Some (mprog new A j i j) ->
     hger_step cnj alpha x p (w j) (1 + i - 1 + (1 + j - 1) * lda) a' = Ok (upd a' (i + j * lda) (new i j))).
  { intros j i p a' Hj Hi -> Hl. unfold hger_step. replace (1 + i - 1 + (1 + j - 1) * lda) with (i + j * lda) by lia.
    rewrite (ld_some _ _ _ Hl). cbn [bind]. rewrite (ld_some _ _ _ (Hx i Hi)). cbn [bind].
    rewrite (st_some _ _ _ _ Hl), hger_elt_H, mprog_at. reflexivity. }
  unfold fdo. destruct (Z.eqb_spec incx 1) as [->|Hne].
  - pose (step := fun j jy a => v <- ld y (jy - 1) ;;
       if hnz v then zfor 1 (m + 1) (fun i a => hger_step cnj alpha x (i - 1) v (i - 1 + (j - 1) * lda) a) a else Ok a).
    apply (cursori_n I step n); auto; try lia.
    intros j a' Hj HI. unfold step. rewrite fstart_pos by auto. rewrite (ld_some _ _ _ (Hy j Hj)). cbn [bind].
    destruct (hnz (w j)) eqn:Ez; [|apply Skip; auto].
    eapply returns_mono; [|intros a'' H; apply (mprog_step a a'' lda m n new A j (fun i => new i j)); auto; exact H].
    eapply (mcol_map a a' lda m n (mprog new A j) j); auto; [lia|].
    intros i a1 Hi Hl. replace (1 + i - 1) with i by lia.
    replace i with (1 + i - 1) at 2 by lia. apply Step; auto. rewrite vpos_1; auto.
  - destruct Hal as [?|Hal]; [lia|].
    pose (step := fun j jy a => v <- ld y (jy - 1) ;;
       if hnz v then
              '(a, _) <- zfor 1 (m + 1) (fun i '(a, ix) => a <- hger_step_strided cnj alpha x (ix - 1) v (i - 1 + (j - 1) * lda) a ;; Ok (a, ix + incx)) (a, fstart m incx) ;; Ok a
       else Ok a).
    apply (cursori_n I step n); auto; try lia.
    intros j a' Hj HI. unfold step. rewrite fstart_pos by auto. rewrite (ld_some _ _ _ (Hy j Hj)). cbn [bind].
    destruct (hnz (w j)) eqn:Ez; [|apply Skip; auto].
    eapply returns_mono; [|intros a'' H; apply (mprog_step a a'' lda m n new A j (fun i => new i j)); auto; exact H].
    eapply (mcol_map_cursor a a' lda m n (mprog new A j) j _ _ _ _
      (fun i ix a => hger_step_strided cnj alpha x (ix - 1) (w j) (i - 1 + (1 + j - 1) * lda) a)); auto; [lia|].
    intros i p a1 Hi -> Hl.
    replace (hger_step_strided cnj alpha) with (hger_step cnj alpha) by (destruct alpha as [r| |]; auto; destruct (Hal r); auto).
    rewrite fstart_pos by auto. apply Step; auto.
Qed.
End F.
