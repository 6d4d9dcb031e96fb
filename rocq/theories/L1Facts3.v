(** Alignment independence, SCALM / AXPYM. *)
From Coq Require Import ZArith Lia Bool Ascii Ring.
From Verif Require Import Num Res ResFacts Spec SpecFacts VecFacts MQuat QuatFacts MSimd SimdFacts MOptL1 MGenL1 MForL1 MGenM L1Facts L1Facts2.
Local Open Scope Z_scope.

(** ** alignment *)
Section Al.
Context {K : num}.
Local Notation qarr := (arr (quat K)).
Lemma vld_al al a (m : qarr) e : (al = true -> IS_ALIGNED a = true) -> vld al a m e = vld false 0 m e.
Proof. intros Ha. unfold vld. rewrite aligned_guard by auto. reflexivity. Qed.
Lemma vst_al al a (m : qarr) e v : (al = true -> IS_ALIGNED a = true) -> vst al a m e v = vst false 0 m e v.
Proof. intros Ha. unfold vst. rewrite aligned_guard by auto. reflexivity. Qed.

Ltac one := repeat first
  [ rewrite vld_al by (intros Eal; try (apply andb_true_iff in Eal); tauto)
  | rewrite vst_al by (intros Eal; try (apply andb_true_iff in Eal); tauto)
  | match goal with |- bind ?r _ = bind ?r _ => destruct r; cbn [bind]; auto end ].

Lemma bind_ext {A B} (r r' : res A) (f f' : A -> res B) : r = r' -> (forall a, f a = f' a) -> bind r f = bind r' f'.
Proof. intros -> Hf. destruct r'; cbn; auto. Qed.

Lemma scalv_opt_addr c n alpha xa xa' (x : qarr) inc : scalv_opt c n alpha xa x inc = scalv_opt c n alpha xa' x inc.
Proof.
  unfold scalv_opt. apply bind_ext; [|reflexivity]. apply zfor_ext. intros i [s l] _.
  rewrite !(vld_al _ _ _ _ (fun e => e)). destruct (vld false 0 s l); cbn [bind]; auto.
  rewrite !(vst_al _ _ _ _ _ (fun e => e)). reflexivity.
Qed.
Lemma andb_l a b : a && b = true -> a = true. Proof. destruct a; auto; discriminate. Qed.
Lemma andb_r a b : a && b = true -> b = true. Proof. destruct a; auto; discriminate. Qed.
Lemma axpyv_opt_addr c n alpha xa xa' (x : qarr) incx ya ya' y incy :
  axpyv_opt c n alpha xa x incx ya y incy = axpyv_opt c n alpha xa' x incx ya' y incy.
Proof.
  unfold axpyv_opt. apply bind_ext; [|reflexivity]. apply zfor_ext. intros i [[s l] l'] _.
  rewrite !(vld_al _ _ _ _ (andb_l _ _)). destruct (vld false 0 x l); cbn [bind]; auto.
  rewrite !(vld_al _ _ _ _ (andb_r _ _)). destruct (vld false 0 s l'); cbn [bind]; auto.
  rewrite !(vst_al _ _ _ _ _ (andb_r _ _)). reflexivity.
Qed.
Lemma dot_opt_addr cnj n xa xa' (x : qarr) incx ya ya' y incy :
  dot_opt cnj n xa x incx ya y incy = dot_opt cnj n xa' x incx ya' y incy.
Proof.
  unfold dot_opt. apply bind_ext.
  - apply zfor_ext. intros i [[s l] l'] _.
    repeat (rewrite !(vld_al _ _ x _ (andb_l _ _)); match goal with |- bind ?r _ = _ => destruct r; cbn [bind]; auto end).
    repeat (rewrite !(vld_al _ _ y _ (andb_r _ _)); match goal with |- bind ?r _ = _ => destruct r; cbn [bind]; auto end).
  - intros [[r l] l']. apply bind_ext; [|reflexivity]. apply zfor_ext. intros i s _.
    rewrite !(vld_al _ _ x _ (andb_l _ _)). destruct (vld false 0 x _); cbn [bind]; auto.
    rewrite !(vld_al _ _ y _ (andb_r _ _)). reflexivity.
Qed.
Lemma copyv_opt_addr n xa xa' (x : qarr) incx ya ya' y incy :
  copyv_opt n xa x incx ya y incy = copyv_opt n xa' x incx ya' y incy.
Proof.
  assert (G : forall xa ya, copyv_opt n xa x incx ya y incy =
    bind (zfor 0 (Z.quot n 1) (fun _ '(y, locX, locY) =>
      x1 <- vld false 0 x locX ;; y <- vst false 0 y locY x1 ;; Ok (y, locX + incx, locY + incy)) (y, 0, 0))
      (fun '(y, _, _) => Ok y)).
  { clear. intros xa ya. unfold copyv_opt. apply bind_ext; [|reflexivity].
    destruct (IS_ALIGNED xa && IS_ALIGNED ya) eqn:E; apply zfor_ext; intros i [[s l] l'] _; [|reflexivity].
    apply andb_true_iff in E as [E1 E2].
    rewrite (vld_al true xa) by auto. apply bind_ext; auto. intros v. rewrite (vst_al true ya) by auto. reflexivity. }
  rewrite (G xa ya), (G xa' ya'). reflexivity.
Qed.
Lemma swapv_opt_addr n xa xa' (x : qarr) incx ya ya' y incy :
  swapv_opt n xa x incx ya y incy = swapv_opt n xa' x incx ya' y incy.
Proof.
  assert (G : forall xa ya, swapv_opt n xa x incx ya y incy =
    bind (zfor 0 (Z.quot n 1) (fun _ '(x, y, locX, locY) =>
      x1 <- vld false 0 x locX ;; y1 <- vld false 0 y locY ;;
      y <- vst false 0 y locY x1 ;; x <- vst false 0 x locX y1 ;; Ok (x, y, locX + incx, locY + incy)) (x, y, 0, 0))
      (fun '(x, y, _, _) => Ok (x, y))).
  { clear. intros xa ya. unfold swapv_opt. apply bind_ext; [|reflexivity].
    destruct (IS_ALIGNED xa && IS_ALIGNED ya) eqn:E; apply zfor_ext; intros i [[[s s'] l] l'] _; [|reflexivity].
    apply andb_true_iff in E as [E1 E2].
    rewrite (vld_al true xa) by auto. apply bind_ext; auto. intros v.
    rewrite (vld_al true ya) by auto. apply bind_ext; auto. intros v'.
    rewrite (vst_al true ya) by auto. apply bind_ext; auto. intros v''.
    rewrite (vst_al true xa) by auto. reflexivity. }
  rewrite (G xa ya), (G xa' ya'). reflexivity.
Qed.
End Al.

(** ** matrix windows with a row stride *)
Definition is_matinc {A} (a a' : arr A) (ldim inc m n : Z) (f : Z -> Z -> A) : Prop :=
  holds_matinc a' ldim inc m n f /\ same_but_matinc a a' ldim inc m n.
(** columns below j already new *)
Definition cprog {A} (new old : Z -> Z -> A) (j0 i j : Z) : A := if j <? j0 then new i j else old i j.

(** one column processed through a shifted pointer *)
Lemma col_step {A} (a a' x' : arr A) ldim inc m n new old j :
  disjoint_mat ldim inc m n -> 0 <= j < n -> 0 < inc ->
  is_matinc a a' ldim inc m n (cprog new old j) ->
  (holds_vec (shiftp a' (j * ldim)) m inc (fun i => old i j)) /\
  (holds_vec x' m inc (fun i => new i j) -> same_but_vec (shiftp a' (j * ldim)) x' m inc ->
   is_matinc a (shiftp x' (- (j * ldim))) ldim inc m n (cprog new old (j + 1))).
Proof.
  intros Hd Hj Hinc [Hv Hs]. split.
  - intros i Hi. unfold shiftp. rewrite vpos_pos by auto. rewrite Z.add_comm, Hv by auto.
    unfold cprog. rewrite Z.ltb_irrefl. reflexivity.
  - intros Hx Hsx. split.
    + intros i j' Hi Hj'. unfold shiftp. unfold cprog.
      destruct (Z.eq_dec j' j) as [->|Hne].
      * replace (- (j * ldim) + (i * inc + j * ldim)) with (vpos m inc i) by (rewrite vpos_pos by auto; lia).
        rewrite Hx by auto. destruct (Z.ltb_spec j (j + 1)); auto; lia.
      * rewrite Hsx.
        { unfold shiftp. replace (j * ldim + (- (j * ldim) + (i * inc + j' * ldim))) with (i * inc + j' * ldim) by lia.
          rewrite Hv by auto. unfold cprog. destruct (Z.ltb_spec j' j), (Z.ltb_spec j' (j + 1)); auto; lia. }
        { intros i' Hi' E. rewrite vpos_pos in E by auto. apply Hne.
          apply (Hd i j' i' j); auto. lia. }
    + intros p Hp. unfold shiftp. rewrite Hsx.
      * unfold shiftp. replace (j * ldim + (- (j * ldim) + p)) with p by lia. apply Hs; auto.
      * intros i Hi E. rewrite vpos_pos in E by auto. apply (Hp i j); auto. lia.
Qed.
Lemma is_matinc_init {A} (a : arr A) ldim inc m n new old :
  holds_matinc a ldim inc m n old -> is_matinc a a ldim inc m n (cprog new old 0).
Proof.
  intros Hv. split; [|intros p _; auto]. intros i j Hi Hj. rewrite Hv by auto.
  unfold cprog. destruct (Z.ltb_spec j 0); auto; lia.
Qed.
Lemma is_matinc_done {A} (a a' : arr A) ldim inc m n new old :
  is_matinc a a' ldim inc m n (cprog new old n) -> holds_matinc a' ldim inc m n new /\ same_but_matinc a a' ldim inc m n.
Proof.
  intros [Hv Hs]. split; auto. intros i j Hi Hj. rewrite Hv by auto.
  unfold cprog. destruct (Z.ltb_spec j n); auto; lia.
Qed.
Lemma noop_matinc {A} (a : arr A) ldim inc m n w : m <= 0 \/ n <= 0 ->
  holds_matinc a ldim inc m n w /\ same_but_matinc a a ldim inc m n.
Proof. intros Hn; split; [intros i j Hi Hj; lia|intros p _; auto]. Qed.

Section M.
Context {K : num} (L : laws K).
Local Notation qarr := (arr (quat K)).
Lemma scalm_raw scalv (g : quat K -> quat K) c m n alpha aa (a : qarr) lda inca f :
  (forall xa x v, holds_vec x m inca v -> returns (scalv c m alpha xa x inca) (fun x' =>
      holds_vec x' m inca (fun i => g (v i)) /\ same_but_vec x x' m inca)) ->
  0 < inca -> disjoint_mat lda inca m n -> holds_matinc a lda inca m n f ->
  returns (scalm scalv c "N" m n alpha aa a lda inca) (fun a' =>
    holds_matinc a' lda inca m n (fun i j => g (f i j)) /\ same_but_matinc a a' lda inca m n).
Proof.
  intros Hsc Hinc Hd Ha. unfold scalm.
  destruct (Z.leb_spec n 0); [apply noop_matinc; auto|]. destruct (Z.leb_spec m 0); [apply noop_matinc; auto|].
  destruct (Z.leb_spec inca 0); [lia|]. cbn [orb assertb Ascii.eqb Bool.eqb bind].
  set (new := fun i j => g (f i j)).
  eapply returns_bind with (P := fun '(a', l) => is_matinc a a' lda inca m n (cprog new f n) /\ l = n * lda).
  - apply (zfor_inv (fun j '(a', l) => is_matinc a a' lda inca m n (cprog new f j) /\ l = j * lda)); [lia| |].
    + split; [apply is_matinc_init; auto|lia].
    + intros j [a' l] Hj [HI ->].
      eapply returns_bind.
      * apply Hsc. apply (proj1 (col_step a a' a' lda inca m n new f j Hd Hj Hinc HI)).
      * intros x' [Hx Hsx]. cbn. split; [|lia].
        apply (proj2 (col_step a a' x' lda inca m n new f j Hd Hj Hinc HI)); auto.
  - intros [a' l] [HI _]. apply is_matinc_done in HI. exact HI.
Qed.
Lemma scalm_ok scalv (s : side) c m n alpha aa (a : qarr) lda inca f :
  (forall xa x v, holds_vec x m inca v -> returns (scalv c m alpha xa x inca) (fun x' =>
      holds_vec x' m inca (fun i => Hside s (emb alpha) (v i)) /\ same_but_vec x x' m inca)) ->
  0 < inca -> disjoint_mat lda inca m n -> holds_matinc a lda inca m n f ->
  returns (scalm scalv c "N" m n alpha aa a lda inca) (fun a' =>
    holds_matinc a' lda inca m n (fun i j => Hside s (emb alpha) (f i j)) /\ same_but_matinc a a' lda inca m n).
Proof. exact (scalm_raw scalv (Hside s (emb alpha)) c m n alpha aa a lda inca f). Qed.
Lemma axpym_ok axpyv (s : side) c m n alpha aa (a : qarr) lda inca ba b ldb incb f g :
  (s_eqb alpha n0 = true -> emb alpha = H0) ->
  (forall xa x ya y v w, holds_vec x m inca v -> holds_vec y m incb w ->
     returns (axpyv c m alpha xa x inca ya y incb) (fun y' =>
      holds_vec y' m incb (fun i => Hadd (w i) (Hside s (emb alpha) (v i))) /\ same_but_vec y y' m incb)) ->
  0 < inca -> 0 < incb -> disjoint_mat ldb incb m n -> holds_matinc a lda inca m n f -> holds_matinc b ldb incb m n g ->
  returns (axpym axpyv c "N" m n alpha aa a lda inca ba b ldb incb) (fun b' =>
    holds_matinc b' ldb incb m n (fun i j => Hadd (g i j) (Hside s (emb alpha) (f i j))) /\ same_but_matinc b b' ldb incb m n).
Proof.
  intros Hz Hax Hia Hib Hd Ha Hb. unfold axpym.
  destruct (Z.leb_spec n 0); [apply noop_matinc; auto|]. destruct (Z.leb_spec m 0); [apply noop_matinc; auto|].
  cbn [orb]. destruct (s_eqb alpha n0).
  { rewrite Hz by auto. split; [|intros p _; auto]. intros i j Hi Hj. rewrite Hb by auto.
    rewrite (Hside_0 L), (Hadd_0_r L). reflexivity. }
  cbn [assertb Ascii.eqb Bool.eqb bind].
  set (new := fun i j => Hadd (g i j) (Hside s (emb alpha) (f i j))).
  eapply returns_bind with (P := fun '(b', l, l') => is_matinc b b' ldb incb m n (cprog new g n) /\ l = n * lda /\ l' = n * ldb).
  - apply (zfor_inv (fun j '(b', l, l') => is_matinc b b' ldb incb m n (cprog new g j) /\ l = j * lda /\ l' = j * ldb)); [lia| |].
    + split; [apply is_matinc_init; auto|lia].
    + intros j [[b' l] l'] Hj (HI & -> & ->).
      eapply returns_bind.
      * apply (Hax _ _ _ _ (fun i => f i j) (fun i => g i j)).
        { intros i Hi. unfold shiftp. rewrite vpos_pos, Z.add_comm by auto. auto. }
        { apply (proj1 (col_step b b' b' ldb incb m n new g j Hd Hj Hib HI)). }
      * intros x' [Hx Hsx]. cbn. split; [|lia].
        apply (proj2 (col_step b b' x' ldb incb m n new g j Hd Hj Hib HI)); auto.
  - intros [[b' l] l'] [HI _]. apply is_matinc_done in HI. exact HI.
Qed.
End M.

(** ** corollaries used by the property file *)
Lemma Zpos_neq n : 0 < n -> n <> 0. Proof. lia. Qed.
Lemma returns_Ok {A} (r : res A) P : returns r P -> exists a, r = Ok a /\ P a.
Proof. apply returns_ex. Qed.
Lemma agree2 {A} (x : arr A) n inc w r1 r2 : inc <> 0 ->
  returns r1 (fun x' => holds_vec x' n inc w /\ same_but_vec x x' n inc) ->
  returns r2 (fun x' => holds_vec x' n inc w /\ same_but_vec x x' n inc) ->
  exists x1 x2, r1 = Ok x1 /\ r2 = Ok x2 /\ same x1 x2.
Proof.
  intros Hi R1 R2. apply returns_Ok in R1 as (x1 & -> & P1). apply returns_Ok in R2 as (x2 & -> & P2).
  exists x1, x2. split; [|split]; auto. eapply vec_unique; eauto.
Qed.
Lemma agree3 {A} (x : arr A) n inc w r1 r2 r3 : inc <> 0 ->
  returns r1 (fun x' => holds_vec x' n inc w /\ same_but_vec x x' n inc) ->
  returns r2 (fun x' => holds_vec x' n inc w /\ same_but_vec x x' n inc) ->
  returns r3 (fun x' => holds_vec x' n inc w /\ same_but_vec x x' n inc) ->
  exists x1 x2 x3, r1 = Ok x1 /\ r2 = Ok x2 /\ r3 = Ok x3 /\ same x1 x2 /\ same x1 x3.
Proof.
  intros Hi R1 R2 R3. apply returns_Ok in R1 as (x1 & -> & P1). apply returns_Ok in R2 as (x2 & -> & P2).
  apply returns_Ok in R3 as (x3 & -> & P3).
  exists x1, x2, x3. repeat split; auto; eapply vec_unique; eauto.
Qed.
Lemma swapv_agree : forall (K : num) n xa (x : arr (quat K)) incx ya y incy v w,
  0 < incx -> 0 < incy -> holds_vec x n incx v -> holds_vec y n incy w ->
  exists x1 y1 x2 y2, swapv_opt n xa x incx ya y incy = Ok (x1, y1) /\ swapv_gen n x incx y incy = Ok (x2, y2) /\
    same x1 x2 /\ same y1 y2.
Proof.
  intros K n xa x incx ya y incy v w Hix Hiy Hx Hy.
  destruct (returns_Ok _ _ (swapv_opt_ok n xa x incx ya y incy v w Hix Hiy Hx Hy)) as ([x1 y1] & E1 & P1 & Q1).
  destruct (returns_Ok _ _ (swapv_gen_ok n x incx y incy v w Hix Hiy Hx Hy)) as ([x2 y2] & E2 & P2 & Q2).
  exists x1, y1, x2, y2. repeat split; auto; eapply vec_unique; eauto; lia.
Qed.
Lemma copyv_agree : forall (K : num) n xa (x : arr (quat K)) incx ya y incy v w,
  0 < incx -> 0 < incy -> holds_vec x n incx v -> holds_vec y n incy w ->
  exists y1 y2, copyv_opt n xa x incx ya y incy = Ok y1 /\ copyv_gen n x incx y incy = Ok y2 /\ same y1 y2.
Proof.
  intros K n xa x incx ya y incy v w Hix Hiy Hx Hy.
  eapply agree2; [apply (Zpos_neq _ Hiy)|apply (copyv_opt_ok n xa x incx ya y incy v w); auto|apply (copyv_gen_ok n x incx y incy v w); auto].
Qed.
Section C.
Context {K : num} (L : laws K).
Lemma s_eqb_zero (alpha : scal K) : (forall d, alpha = SH (Quat n0 n0 n0 d) -> d = n0) -> s_eqb alpha n0 = true -> emb alpha = H0.
Proof.
  intros Hk He. apply (s_eqb_emb L) in He. destruct He as (E1 & E2 & E3).
  destruct alpha as [a|[a c]|[a b c d]]; cbn in *; unfold Hre, Hc, H0; cbn; subst; auto.
  rewrite (Hk d eq_refl). reflexivity.
Qed.
Lemma dotc_hermitian n xa (x : arr (quat K)) incx ya y incy v w :
  0 < incx -> 0 < incy -> holds_vec x n incx v -> holds_vec y n incy w ->
  exists p q, dotcv_opt n xa x incx ya y incy = Ok p /\ dotcv_opt n ya y incy xa x incx = Ok q /\ p = Hconj q.
Proof.
  intros Hix Hiy Hx Hy. eexists _, _. split; [apply (dot_opt_ok L true n xa x incx ya y incy v w); auto|].
  split; [apply (dot_opt_ok L true n ya y incy xa x incx w v); auto|].
  rewrite (Hconj_sum L). apply Hsum_ext. intros i Hi. unfold dterm. rewrite (Hconj_mul L), (Hconj_conj L). reflexivity.
Qed.
Lemma dotc_self n xa (x : arr (quat K)) incx v : 0 < incx -> holds_vec x n incx v ->
  dotcv_opt n xa x incx xa x incx = Ok (Hsum n (fun i => Hre (Hnsq (v i)))).
Proof.
  intros Hix Hx. unfold dotcv_opt. rewrite (dot_opt_ok L true n xa x incx xa x incx v v); auto. f_equal.
  apply Hsum_ext. intros i Hi. unfold dterm. apply (Hnsq_conj' L).
Qed.
End C.
Lemma disjoint_colmajor ldim inc m n : 0 < inc -> (m - 1) * inc < ldim -> disjoint_mat ldim inc m n.
Proof.
  intros Hinc Hl i j i' j' Hi Hj Hi' Hj' E.
  assert (Ej : j = j').
  { assert (B : forall k, 0 <= k < m -> 0 <= k * inc <= (m - 1) * inc) by (intros; nia).
    pose proof (B i Hi). pose proof (B i' Hi'). destruct (Z.lt_trichotomy j j') as [Hlt|[?|Hlt]]; auto; exfalso; nia. }
  subst j'. split; auto. nia.
Qed.
