(** Fortran GEMM. *)
From Coq Require Import ZArith Lia Bool Ascii Ring.
From Verif Require Import Num Res ResFacts Spec SpecFacts VecFacts LoopFacts GemmLoops MQuat QuatFacts MForL1 L1Facts2 MForL2 L2Facts MForL3.
Local Open Scope Z_scope.

Section F.
Context {K : num} (L : laws K).
Add Ring Kr : (l_ring K L).
Local Notation qarr := (arr (quat K)).

Ltac celt3 := cbv [emb hnc_elt hgdot_elt halpha_elt halphabeta_elt hbeta_elt hq cadd csub cmul crmul cneg conjg h1 h2 c0]; cbn [re im qr qi qj qk];
  hunf; cbn [re im qr qi qj qk]; try (f_equal; ring).
Lemma hnc_elt_H (alpha : scal K) a b c : hnc_elt alpha a b c = Hadd c (Hmul (emb alpha) (Hmul a (Hconj b))).
Proof. destruct alpha as [p|[p q]|[]], a, b, c; celt3. Qed.
Lemma hgdot_elt_H ca cb (a b h : quat K) : hgdot_elt ca cb a b h = Hadd h (Hmul (if ca then Hconj a else a) (if cb then Hconj b else b)).
Proof. destruct ca, cb, a, b, h; celt3. Qed.
Lemma halpha_elt_H (alpha : scal K) h : halpha_elt alpha h = Hmul (emb alpha) h.
Proof. destruct alpha as [p|[p q]|[]], h; celt3. Qed.
Lemma halphabeta_elt_H (alpha beta : scal K) h c : halphabeta_elt alpha beta h c = Hadd (Hmul (emb alpha) h) (Hmul (emb beta) c).
Proof. unfold halphabeta_elt. rewrite halpha_elt_H. generalize (Hmul (emb alpha) h) as t. intros t. destruct beta as [p|[p q]|[]], t, c; celt3. Qed.

Lemma fpos_S ldim i j : fpos ldim (1 + i) (1 + j) = i + j * ldim.
Proof. unfold fpos. replace (1 + i - 1) with i by lia. replace (1 + j - 1) with j by lia. reflexivity. Qed.

Lemma hgemm_pre_ok m n beta ldc j (c c0 : qarr) f :
  0 <= m -> m <= ldc -> 0 <= j < n -> is_mat c c0 ldc m n f ->
  returns (hgemm_pre m beta ldc (1 + j) c0) (fun c1 => is_mat c c1 ldc m n (setcol j (fun i => Hmul (emb beta) (f i j)) f)).
Proof.
  intros Hm Hld Hj HI. unfold hgemm_pre, fdo. pose proof (sep_ld ldc m n Hld) as Hsep.
  destruct (fzero beta) eqn:E0.
  { apply (fzero_emb L) in E0. apply (mcol_map c c0 ldc m n f j); auto; try lia.
    intros i c1 Hi Hl. rewrite fpos_S, (st_some _ _ _ _ Hl), E0, (Hmul_0_l L). reflexivity. }
  destruct (fone beta) eqn:E1; cbn [negb].
  - apply (fone_emb L) in E1. cbn [returns]. eapply is_mat_ext; [|exact HI]. intros i j' Hi Hj'. unfold setcol.
    destruct (Z.eqb_spec j' j) as [->|]; auto. rewrite E1, (Hmul_1_l L); auto.
  - apply (mcol_map c c0 ldc m n f j); auto; try lia.
    intros i c1 Hi Hl. rewrite fpos_S, (ld_some _ _ _ Hl). cbn [bind]. rewrite (st_some _ _ _ _ Hl), (hbeta_elt_H L). reflexivity.
Qed.

Lemma hgemm_nota_ok upd_elt bpos alpha m n k (a : qarr) lda (b : qarr) beta (c : qarr) ldc A B w :
  (forall l j p cc av, 0 <= l < k -> 0 <= j < n -> b (bpos (1 + l) (1 + j)) = Some p -> upd_elt av p cc = Hadd cc (Hmul (emb alpha) (Hmul av (B l j)))) ->
  0 <= m -> 0 <= n -> 0 <= k -> m <= ldc ->
  holds_mat a lda m k A -> (forall l j, 0 <= l < k -> 0 <= j < n -> exists p, b (bpos (1 + l) (1 + j)) = Some p) -> holds_mat c ldc m n w ->
  returns (hgemm_nota upd_elt bpos m n k a lda b beta c ldc) (fun c' => is_mat c c' ldc m n
    (gemm_elt OpN OpN k (emb alpha) A B (emb beta) w)).
Proof.
  intros Hu Hm Hn Hk Hld Ha Hb Hc. unfold hgemm_nota, fdo. pose proof (sep_ld _ m n Hld) as Hsep.
  pose (acc := fun j l i => Hadd (Hmul (emb beta) (w i j)) (Hmul (emb alpha) (Hsum l (fun l => Hmul (A i l) (B l j))))).
  pose (inner := fun j l i (c : qarr) => bv <- ld b (bpos l j) ;; w <- ld c (fpos ldc i j) ;; av <- ld a (fpos lda i l) ;;
        st c (fpos ldc i j) (upd_elt av bv w)).
  eapply returns_mono; [apply (nota_loops c c ldc m n k 1 (n + 1) (m + 1) (k + 1) (hgemm_pre m beta ldc) inner w acc); auto; try lia|].
  - intros j f c0 Hj He HI. eapply returns_mono; [apply (hgemm_pre_ok m n beta ldc j c c0 f); auto|].
    intros c1 H1. eapply is_mat_ext; [|exact H1]. intros i j' Hi Hj'. unfold setcol. destruct (j' =? j); auto.
    unfold acc. rewrite Hsum_0, (Hmul_0_r L), (Hadd_0_r L), He; auto.
  - intros j l i c0 Hj Hl Hi Hc0. unfold inner. destruct (Hb l j Hl Hj) as [p Ep].
    rewrite (ld_some _ _ _ Ep). cbn [bind]. rewrite !fpos_S.
    rewrite (ld_some _ _ _ Hc0). cbn [bind]. rewrite (ld_some _ _ _ (Ha i l Hi Hl)). cbn [bind].
    rewrite (st_some _ _ _ _ Hc0). do 2 f_equal. rewrite (Hu l j) by auto. unfold acc.
    rewrite Hsum_succ by lia. rewrite (Hmul_add_l L), (Hadd_assoc L). reflexivity.
  - apply is_mat_refl; auto.
  - intros c' H. eapply is_mat_ext; [|exact H]. intros i j Hi Hj. unfold acc, gemm_elt. apply (Hadd_comm L).
Qed.

Lemma hgemm_transa_ok (ca cb : bool) bpos alpha m n k (a : qarr) lda (b : qarr) beta (c : qarr) ldc A B w :
  0 <= m -> 0 <= n -> 0 <= k -> m <= ldc ->
  holds_mat a lda k m A ->
  (forall l j, 0 <= l < k -> 0 <= j < n -> exists p, b (bpos (1 + l) (1 + j)) = Some p /\ (if cb then Hconj p else p) = B l j) -> holds_mat c ldc m n w ->
  returns (hgemm_transa ca cb bpos m n k alpha a lda b beta c ldc) (fun c' => is_mat c c' ldc m n
    (gemm_elt (if ca then OpC else OpT) OpN k (emb alpha) A B (emb beta) w)).
Proof.
  intros Hm Hn Hk Hld Ha Hb Hc. unfold hgemm_transa, fdo. pose proof (sep_ld _ m n Hld) as Hsep.
  set (new := gemm_elt (if ca then OpC else OpT) OpN k (emb alpha) A B (emb beta) w).
  pose (body := fun j i (c : qarr) => 
      h <- zfor 1 (k + 1) (fun l h =>
             av <- ld a (fpos lda l i) ;; bv <- ld b (bpos l j) ;; Ok (hgdot_elt ca cb av bv h)) (hq c0 c0) ;;
      if fzero beta then st c (fpos ldc i j) (halpha_elt alpha h)
      else w <- ld c (fpos ldc i j) ;; st c (fpos ldc i j) (halphabeta_elt alpha beta h w)).
  apply (mat_map c c ldc m n 1 (n + 1) (m + 1) body new w); auto; try lia.
  2:{ apply is_mat_refl; auto. }
  intros i j c1 Hi Hj Hl. unfold body. rewrite !fpos_S.
  pose (t := fun l => Hmul (if ca then Hconj (A l i) else A l i) (B l j)).
  assert (D : returns (zfor 1 (k + 1) (fun l h =>
             av <- ld a (fpos lda l (1 + i)) ;; bv <- ld b (bpos l (1 + j)) ;; Ok (hgdot_elt ca cb av bv h)) (hq c0 c0)) (fun h => h = Hsum k t)).
  { apply (plain_n (fun l h => h = Hsum l t)); auto; try lia.
    intros l h Hl' ->. rewrite fpos_S. rewrite (ld_some _ _ _ (Ha l i Hl' Hi)). cbn [bind].
    destruct (Hb l j Hl' Hj) as (p & Ep & Eb). rewrite (ld_some _ _ _ Ep). cbn [bind returns].
    rewrite Hsum_succ by lia. rewrite hgdot_elt_H, Eb. reflexivity. }
  destruct (proj1 (returns_ex _ _) D) as (h & -> & ->). cbn [bind].
  assert (Es : Hsum k t = Hsum k (fun l => Hmul (opm (if ca then OpC else OpT) A i l) (opm OpN B l j))).
  { apply Hsum_ext. intros l Hl'. unfold t. destruct ca; reflexivity. }
  unfold new, gemm_elt. rewrite <- Es.
  destruct (fzero beta) eqn:E0.
  - apply (fzero_emb L) in E0. rewrite (st_some _ _ _ _ Hl), halpha_elt_H, E0, (Hmul_0_l L), (Hadd_0_r L). reflexivity.
  - rewrite (ld_some _ _ _ Hl). cbn [bind]. rewrite (st_some _ _ _ _ Hl), halphabeta_elt_H. reflexivity.
Qed.

Lemma hgemm_ok ca cb oa ob m n k alpha (a : qarr) lda (b : qarr) ldb beta (c : qarr) ldc A B w :
  trans_char ca = Some oa -> trans_char cb = Some ob -> 0 <= m -> 0 <= n -> 0 <= k -> m <= ldc ->
  holds_mat a lda (op_rows oa m k) (op_cols oa m k) A -> holds_mat b ldb (op_rows ob k n) (op_cols ob k n) B ->
  holds_mat c ldc m n w ->
  returns (hgemm ca cb m n k alpha a lda b ldb beta c ldc) (fun c' =>
    holds_mat c' ldc m n (gemm_elt oa ob k (emb alpha) A B (emb beta) w) /\ same_but_mat c c' ldc m n).
Proof.
  intros Ca Cb Hm Hn Hk Hld Ha Hb Hc. unfold hgemm.
  destruct (Z.eqb_spec m 0) as [->|Hm0]; [cbn; split; [intros i j Hi Hj; lia|intros p _; auto]|].
  destruct (Z.eqb_spec n 0) as [->|Hn0]; [cbn; split; [intros i j Hi Hj; lia|intros p _; auto]|].
  cbn [orb].
  set (new := gemm_elt oa ob k (emb alpha) A B (emb beta) w).
  assert (NewZ : emb alpha = H0 \/ k = 0 -> forall i j, new i j = Hmul (emb beta) (w i j)).
  { intros E i j. unfold new, gemm_elt. destruct E as [-> | ->].
    - rewrite (Hmul_0_l L), (Hadd_0_l L); auto.
    - rewrite Hsum_0, (Hmul_0_r L), (Hadd_0_l L); auto. }
  assert (Fin : forall c', is_mat c c' ldc m n new -> holds_mat c' ldc m n new /\ same_but_mat c c' ldc m n) by (intros c' H; exact H).
  destruct ((fzero alpha || (k =? 0)) && fone beta) eqn:EQ.
  { apply andb_true_iff in EQ as [E0 E1]. apply (fone_emb L) in E1. cbn [returns]. apply Fin.
    eapply is_mat_ext; [|apply is_mat_refl; exact Hc]. intros i j Hi Hj. rewrite NewZ, E1, (Hmul_1_l L); auto.
    apply orb_true_iff in E0 as [E0|E0]; [left; apply (fzero_emb L); auto|right; lia]. }
  pose proof (sep_ld ldc m n Hld) as Hsep.
  clear EQ. destruct (fzero alpha) eqn:E0.
  { apply (fzero_emb L) in E0. unfold fdo. destruct (fzero beta) eqn:B0.
    - apply (mat_map c c ldc m n 1 (n + 1) (m + 1) (fun j i c => st c (fpos ldc i j) (hq c0 c0)) new w); auto; try lia.
      + intros i j c1 Hi Hj Hl. rewrite fpos_S, (st_some _ _ _ _ Hl), NewZ by auto.
        apply (fzero_emb L) in B0. rewrite B0, (Hmul_0_l L). reflexivity.
      + apply is_mat_refl; auto.
    - apply (mat_map c c ldc m n 1 (n + 1) (m + 1) (fun j i c => v <- ld c (fpos ldc i j) ;; st c (fpos ldc i j) (hbeta_elt beta v)) new w); auto; try lia.
      + intros i j c1 Hi Hj Hl. rewrite fpos_S, (ld_some _ _ _ Hl). cbn [bind]. rewrite (st_some _ _ _ _ Hl), NewZ by auto.
        rewrite (hbeta_elt_H L). reflexivity.
      + apply is_mat_refl; auto. }
  assert (NN : forall bpos upd_elt, oa = OpN ->
    (forall l j p cc av, 0 <= l < k -> 0 <= j < n -> b (bpos (1 + l) (1 + j)) = Some p -> upd_elt av p cc = Hadd cc (Hmul (emb alpha) (Hmul av (opm ob B l j)))) ->
    (forall l j, 0 <= l < k -> 0 <= j < n -> exists p, b (bpos (1 + l) (1 + j)) = Some p) ->
    returns (hgemm_nota upd_elt bpos m n k a lda b beta c ldc) (fun c' => is_mat c c' ldc m n new)).
  { intros bpos ue -> Hu Hbq. eapply returns_mono; [apply (hgemm_nota_ok ue bpos alpha m n k a lda b beta c ldc A (opm ob B) w); auto; lia|].
    intros c' H. exact H. }
  assert (TT : forall bpos (cj cj' : bool), oa = (if cj then OpC else OpT) ->
    (forall l j, 0 <= l < k -> 0 <= j < n -> exists p, b (bpos (1 + l) (1 + j)) = Some p /\ (if cj' then Hconj p else p) = opm ob B l j) ->
    returns (hgemm_transa cj cj' bpos m n k alpha a lda b beta c ldc) (fun c' => is_mat c c' ldc m n new)).
  { intros bpos cj cj' Ho Hbq. eapply returns_mono; [apply (hgemm_transa_ok cj cj' bpos alpha m n k a lda b beta c ldc A (opm ob B) w); auto; try lia|].
    - rewrite Ho in Ha. destruct cj; exact Ha.
    - intros c' H. eapply is_mat_ext; [|exact H]. intros i j Hi Hj. unfold new, gemm_elt. rewrite Ho. reflexivity. }
  assert (BN : ob = OpN -> forall l j, 0 <= l < k -> 0 <= j < n -> b (fpos ldb (1 + l) (1 + j)) = Some (B l j)).
  { intros -> l j Hl Hj. rewrite fpos_S. apply Hb; auto. }
  assert (BT : (ob = OpT \/ ob = OpC) -> forall l j, 0 <= l < k -> 0 <= j < n -> b (fpos ldb (1 + j) (1 + l)) = Some (B j l)).
  { intros Ho l j Hl Hj. rewrite fpos_S. apply Hb; destruct Ho as [-> | ->]; auto. }
  clear E0. unfold trans_char in Ca, Cb.
  destruct (Ascii.eqb_spec ca "N") as [->|_]; [injection Ca as <-|
  destruct (Ascii.eqb_spec ca "T") as [->|_]; [injection Ca as <-|
  destruct (Ascii.eqb_spec ca "C") as [->|_]; [injection Ca as <-|discriminate]]];
  (destruct (Ascii.eqb_spec cb "N") as [->|_]; [injection Cb as <-|
  destruct (Ascii.eqb_spec cb "T") as [->|_]; [injection Cb as <-|
  destruct (Ascii.eqb_spec cb "C") as [->|_]; [injection Cb as <-|discriminate]]]);
  match goal with |- context [if lsame ?x ?y then _ else _] => idtac end;
  cbn [lsame];
  repeat match goal with |- context [lsame ?x ?y] => let v := eval vm_compute in (lsame x y) in change (lsame x y) with v end; cbv iota;
  first [
    apply NN; [reflexivity| |];
      [intros l j p cc av Hl Hj Ep; first [rewrite BN in Ep by auto|rewrite BT in Ep by auto]; injection Ep as <-; first [apply (hn_elt_H L)|apply hnc_elt_H]
      |intros l j Hl Hj; eexists; first [apply BN; auto; fail|apply BT; auto; fail]]
  | apply TT; [reflexivity|]; intros l j Hl Hj; eexists; split; [first [apply BN; auto; fail|apply BT; auto; fail]|reflexivity]].
Qed.
End F.
