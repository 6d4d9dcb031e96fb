(** SCALV, AXPYV, DOT: all backends. *)
From Coq Require Import ZArith Lia Bool Ascii Ring.
From Verif Require Import Num Res ResFacts Spec SpecFacts VecFacts MQuat QuatFacts MSimd SimdFacts MOptL1 MGenL1 MForL1 L1Facts.
Local Open Scope Z_scope.

Section F.
Context {K : num} (L : laws K).
Add Ring Kr : (l_ring K L).
Local Notation qarr := (arr (quat K)).
Implicit Types (alpha : scal K) (cnj : bool).
Ltac fma := rewrite ?(l_fma K L), ?(l_fms K L), ?(l_fnma K L).

Definition sd (b : bool) : side := if b then Lft else Rgt.
Lemma scal_step_H b alpha (x : quat K) : q_of_v (scal_step b alpha (v_of_q x)) = Hside (sd b) (emb alpha) x.
Proof.
  destruct alpha as [a|[a c]|q]; cbn [emb].
  - destruct x, b; cbn; unfold q_of_v; hunf; cbn; f_equal; ring.
  - destruct x, b; cbn; unfold q_of_v; hunf; cbn; f_equal; ring.
  - cbn [scal_step]. destruct b; rewrite (MULDQ_NN_H L), !q_of_v_of_q; reflexivity.
Qed.
Lemma axpy_step_H b alpha (x y : quat K) : q_of_v (axpy_step b alpha (v_of_q x) (v_of_q y)) = Hadd y (Hside (sd b) (emb alpha) x).
Proof.
  destruct alpha as [a|[a c]|q]; cbn [emb].
  - destruct x, y, b; cbn; unfold q_of_v; hunf; cbn; fma; f_equal; ring.
  - destruct x, y, b; cbn; unfold q_of_v; hunf; cbn; f_equal; ring.
  - cbn [axpy_step].
    assert (E : forall u w : m256 K, q_of_v (mm256_add u w) = Hadd (q_of_v u) (q_of_v w)) by (intros [] []; reflexivity).
    destruct b; rewrite E, (MULDQ_NN_H L), !q_of_v_of_q; reflexivity.
Qed.
Lemma smul_l_H qmul alpha x : (forall p q, qmul p q = Hmul p q) -> smul_l qmul alpha x = Hside (K:=K) Lft (emb alpha) x.
Proof. intros Hq. destruct alpha; cbn; [apply (r_mul_q_H L)|apply (c_mul_q_H L)|apply Hq]. Qed.
Lemma smul_r_H qmul alpha x : (forall p q, qmul p q = Hmul p q) -> smul_r qmul x alpha = Hside (K:=K) Rgt (emb alpha) x.
Proof. intros Hq. destruct alpha; cbn; [apply (q_mul_r_H L)|apply (q_mul_c_H L)|apply Hq]. Qed.
Lemma haxpy_elt_H b alpha (x y : quat K) : haxpy_elt (negb b) alpha x y = Hadd y (Hside (sd b) (emb alpha) x).
Proof.
  destruct alpha as [a|[a c]|[]]; destruct x, y, b; cbn; unfold haxpyd_elt, haxpyc_elt, haxpyh_elt; hunf; cbn; f_equal; ring.
Qed.
Lemma hscal_elt_H b alpha (x : quat K) : hscal_elt (negb b) alpha x = Hside (sd b) (emb alpha) x.
Proof.
  destruct alpha as [a|[a c]|[]]; destruct x, b; cbn; unfold hscald_elt, hscalc_elt, hscalh_elt, hq, cmul, conjg, h1, h2; hunf; cbn; f_equal; ring.
Qed.
Lemma hdot_elt_H cnj (x y r : quat K) :
  (if cnj then hdotc_elt else hdotu_elt) x y r = Hadd r (Hmul (if cnj then Hconj x else x) y).
Proof. destruct cnj, x, y, r; cbn; unfold hdotc_elt, hdotu_elt; hunf; cbn; f_equal; ring. Qed.
Lemma fzero_emb (alpha : scal K) : fzero alpha = true <-> emb alpha = H0.
Proof.
  destruct alpha as [a|[a c]|[a b c d]]; cbn; unfold Hre, Hc, H0; cbn; rewrite ?andb_true_iff, ?(l_eqb K L);
    (split; [intros; f_equal; tauto|injection 1; intros; tauto]).
Qed.
Lemma s_eqb_emb (alpha : scal K) v : s_eqb alpha v = true ->
  qr (emb alpha) = v /\ qi (emb alpha) = n0 /\ qj (emb alpha) = n0.
Proof.
  destruct alpha as [a|[a c]|q]; cbn; rewrite ?andb_true_iff, ?(l_eqb K L); intros Hz; try tauto.
  apply (q_eqb_spec L) in Hz. cbn in Hz. tauto.
Qed.
Lemma Hside_0 (s : side) (x : quat K) : Hside s H0 x = H0.
Proof. destruct s; cbn; [apply (Hmul_0_l L)|apply (Hmul_0_r L)]. Qed.


(** one-array and two-array step shapes *)
Definition maps1 (f : quat K -> quat K) (step : Z -> qarr -> res qarr) : Prop :=
  forall p x q, x p = Some q -> step p x = Ok (upd x p (f q)).
Definition maps2 (f : quat K -> quat K -> quat K) (x : qarr) (step : Z -> Z -> qarr -> res qarr) : Prop :=
  forall p q y u w, x p = Some u -> y q = Some w -> step p q y = Ok (upd y q (f u w)).

Lemma scal1_maps qmul b alpha : (forall p q, qmul p q = Hmul p q) -> maps1 (Hside (sd b) (emb alpha)) (scal1 qmul b alpha).
Proof.
  intros Hq p x q Hx. unfold scal1. rewrite (ld_some _ _ _ Hx). cbn [bind]. rewrite (st_some _ _ _ _ Hx).
  destruct b; [rewrite smul_l_H by auto|rewrite smul_r_H by auto]; reflexivity.
Qed.
Lemma axpy1_maps qmul b alpha x : (forall p q, qmul p q = Hmul p q) ->
  maps2 (fun u w => Hadd w (Hside (sd b) (emb alpha) u)) x (axpy1 qmul b alpha x).
Proof.
  intros Hq p q y u w Hx Hy. unfold axpy1. rewrite (ld_some _ _ _ Hx). cbn [bind]. rewrite (ld_some _ _ _ Hy). cbn [bind].
  rewrite (st_some _ _ _ _ Hy), (q_addeq_H).
  destruct b; [rewrite smul_l_H by auto|rewrite smul_r_H by auto]; reflexivity.
Qed.
Lemma maps1_step f step n inc x x' v i p : maps1 f step -> inc <> 0 -> 0 <= i < n -> p = vpos n inc i ->
  is_vec x x' n inc (prog (fun k => f (v k)) v i) ->
  returns (step p x') (fun x'' => is_vec x x'' n inc (prog (fun k => f (v k)) v (i + 1))).
Proof.
  intros Hm Hinc Hi Hp HI. destruct (prog_step _ _ _ _ _ _ _ p HI Hinc Hi Hp) as [Lx Ux].
  rewrite (Hm _ _ _ Lx). exact Ux.
Qed.
Lemma maps2_step f step n incx incy x y y' v w i p q : maps2 f x step -> incy <> 0 -> 0 <= i < n ->
  p = vpos n incx i -> q = vpos n incy i -> holds_vec x n incx v ->
  is_vec y y' n incy (prog (fun k => f (v k) (w k)) w i) ->
  returns (step p q y') (fun y'' => is_vec y y'' n incy (prog (fun k => f (v k) (w k)) w (i + 1))).
Proof.
  intros Hm Hinc Hi Hp Hq Hx HI. destruct (prog_step _ _ _ _ _ _ _ q HI Hinc Hi Hq) as [Ly Uy].
  rewrite (Hm p q y' (v i) (w i)); [exact Uy| |exact Ly]. rewrite Hp; auto.
Qed.

Definition scal_post (x : qarr) n inc (s : side) alpha v (x' : qarr) : Prop :=
  holds_vec x' n inc (fun i => Hside s (emb alpha) (v i)) /\ same_but_vec x x' n inc.
Definition axpy_post (y : qarr) n incy (s : side) alpha v w (y' : qarr) : Prop :=
  holds_vec y' n incy (fun i => Hadd (w i) (Hside s (emb alpha) (v i))) /\ same_but_vec y y' n incy.

Lemma noop_vec (x : qarr) n inc w : n <= 0 -> holds_vec x n inc w /\ same_but_vec x x n inc.
Proof. intros Hn; split; [intros k Hk; lia|intros p _; auto]. Qed.

(** no laws: each element is replaced by one [scal_step] *)
Definition scalq (s : bool) (alpha : scal K) (q : quat K) : quat K := q_of_v (scal_step s alpha (v_of_q q)).
Lemma scalv_opt_raw s c n alpha xa (x : qarr) inc v : Ascii.eqb c "L" = s -> 0 < inc -> holds_vec x n inc v ->
  returns (scalv_opt c n alpha xa x inc) (fun x' => holds_vec x' n inc (fun i => scalq s alpha (v i)) /\ same_but_vec x x' n inc).
Proof.
  intros Hc Hinc Hx. unfold scalv_opt. rewrite Z.quot_1_r, Hc.
  destruct (Z_le_gt_dec n 0) as [Hn|Hn]; [rewrite zfor_none by lia; apply noop_vec; auto|].
  apply returns_mono with (P := fun x' => is_vec x x' n inc (prog (fun k => scalq s alpha (v k)) v n)).
  2:{ intros x' Hx'. eapply is_vec_done; try eassumption; lia. }
  rewrite (zfor_ext _ _ _ (fun _ '(s0, ix) =>
     bind (x1 <- vld (IS_ALIGNED xa) xa s0 ix ;; vst (IS_ALIGNED xa) xa s0 ix (scal_step s alpha x1)) (fun s => Ok (s, ix + inc)))).
  2:{ intros i [? ?] _. rewrite bind_assoc, Z.mul_1_l. reflexivity. }
  apply (cursor1_n (fun i x' => is_vec x x' n inc (prog (fun k => scalq s alpha (v k)) v i))
     (fun ix s0 => x1 <- vld (IS_ALIGNED xa) xa s0 ix ;; vst (IS_ALIGNED xa) xa s0 ix (scal_step s alpha x1))); try lia.
  - intros i x' Hi HI. rewrite Z.add_0_l.
    apply (maps1_step _ (fun p x' => x1 <- vld (IS_ALIGNED xa) xa x' p ;; vst (IS_ALIGNED xa) xa x' p (scal_step s alpha x1)));
      auto; try lia; [|rewrite vpos_pos; auto].
    intros p x0 q Hq. rewrite (vld_ok _ _ _ _ _ (fun e => e) Hq). cbn [bind].
    rewrite (vst_ok _ _ _ _ _ _ (fun e => e) Hq). reflexivity.
  - apply is_vec_init; auto.
Qed.

Lemma scalv_opt_ok s c n alpha xa (x : qarr) inc v : Ascii.eqb c "L" = s -> 0 < inc -> holds_vec x n inc v ->
  returns (scalv_opt c n alpha xa x inc) (scal_post x n inc (sd s) alpha v).
Proof.
  intros Hc Hinc Hx. eapply returns_mono; [apply (scalv_opt_raw s); eauto|]. intros x' [Hx' Hs]. split; auto.
  intros i Hi. rewrite Hx' by auto. unfold scalq. rewrite scal_step_H. reflexivity.
Qed.

Lemma axpyv_opt_ok s c n alpha xa (x : qarr) incx ya y incy v w : Ascii.eqb c "L" = s -> 0 < incx -> 0 < incy ->
  holds_vec x n incx v -> holds_vec y n incy w ->
  returns (axpyv_opt c n alpha xa x incx ya y incy) (axpy_post y n incy (sd s) alpha v w).
Proof.
  intros Hc Hix Hiy Hx Hy. unfold axpyv_opt. rewrite Z.quot_1_r, Hc.
  destruct (Z_le_gt_dec n 0) as [Hn|Hn]; [rewrite zfor_none by lia; apply noop_vec; auto|].
  set (al := IS_ALIGNED xa && IS_ALIGNED ya).
  assert (Ha : al = true -> IS_ALIGNED xa = true /\ IS_ALIGNED ya = true) by apply andb_true_iff.
  pose (f := fun u w => Hadd w (Hside (sd s) (emb alpha) u)).
  apply returns_mono with (P := fun y' => is_vec y y' n incy (prog (fun k => f (v k) (w k)) w n)).
  2:{ intros y' Hy'. eapply is_vec_done in Hy'; [exact Hy'|lia]. }
  pose (step := fun ix iy s0 => x1 <- vld al xa x ix ;; y1 <- vld al ya s0 iy ;; vst al ya s0 iy (axpy_step s alpha x1 y1)).
  rewrite (zfor_ext _ _ _ (fun _ '(s0, ix, iy) => bind (step ix iy s0) (fun s => Ok (s, ix + incx, iy + incy)))).
  2:{ intros i [[? ?] ?] _. unfold step. rewrite !bind_assoc.
      destruct (vld al xa x _); cbn [bind]; auto. rewrite !bind_assoc, !Z.mul_1_l. reflexivity. }
  apply (cursor2_n (fun i y' => is_vec y y' n incy (prog (fun k => f (v k) (w k)) w i)) step); try lia.
  - intros i y' Hi HI. rewrite !Z.add_0_l.
    apply (maps2_step f step n incx incy x y y' v w i); auto; try lia; try (rewrite vpos_pos; auto).
    intros p q y0 u0 w0 Hp Hq. unfold step.
    rewrite (vld_ok al xa x p u0 (fun e => proj1 (Ha e)) Hp). cbn [bind].
    rewrite (vld_ok al ya y0 q w0 (fun e => proj2 (Ha e)) Hq). cbn [bind].
    rewrite (vst_ok al ya y0 q w0 _ (fun e => proj2 (Ha e)) Hq), axpy_step_H. reflexivity.
  - apply is_vec_init; auto.
Qed.

(** generic templates *)
Lemma scalv_gen_ok qmul s c n alpha (x : qarr) inc v : (forall p q, qmul p q = Hmul p q) ->
  Ascii.eqb c "R" = negb s -> 0 < inc -> holds_vec x n inc v ->
  returns (scalv_gen qmul c n alpha x inc) (scal_post x n inc (sd s) alpha v).
Proof.
  intros Hq Hc Hinc Hx. unfold scalv_gen. rewrite Hc, negb_involutive.
  destruct (Z.leb_spec n 0) as [Hn|Hn]; [apply noop_vec; auto|]. cbn [orb].
  destruct (Z.leb_spec inc 0) as [Hn'|_]; [lia|].
  pose (I := fun (i : Z) x' => is_vec x x' n inc (prog (fun k => Hside (sd s) (emb alpha) (v k)) v i)).
  apply returns_mono with (P := I n).
  2:{ intros x' Hx'. eapply is_vec_done; try eassumption; lia. }
  assert (I0 : I 0 x) by (apply is_vec_init; auto).
  destruct (Z.eqb_spec inc 1) as [->|_].
  - assert (St : forall i j x', j = i -> 0 <= i < n -> I i x' -> returns (scal1 qmul s alpha j x') (I (i + 1))).
    { intros i j x' -> Hi HI. apply (maps1_step _ (scal1 qmul s alpha)); auto; try lia; [apply scal1_maps; auto|rewrite vpos_1; auto]. }
    apply unrolled_inv; auto; try lia. intros i s0 Hi Hle HI.
    eapply returns_bind; [apply (St i); auto; lia|]. intros s1 I1.
    eapply returns_bind; [apply (St (i + 1)); auto; lia|]. intros s2 I2.
    eapply returns_bind; [apply (St (i + 1 + 1)); auto; lia|]. intros s3 I3.
    eapply returns_bind; [apply (St (i + 1 + 1 + 1)); auto; lia|]. intros s4 I4.
    replace (i + 5) with (i + 1 + 1 + 1 + 1 + 1) by lia. apply St; auto; lia.
  - apply returns_mono with (P := I ((n * inc - 0 + inc - 1) / inc)).
    2:{ replace (n * inc - 0 + inc - 1) with ((inc - 1) + n * inc) by lia.
        rewrite Z.div_add, Z.div_small by lia. rewrite Z.add_0_l. auto. }
    apply zforstep_inv; auto; [nia|].
    intros t x' Ht Hlt HI. assert (t < n) by nia.
    apply (maps1_step _ (scal1 qmul s alpha)); auto; try lia; [apply scal1_maps; auto|rewrite vpos_pos by auto; lia].
Qed.

Lemma axpyv_gen_ok qmul s c n alpha (x : qarr) incx y incy v w : (forall p q, qmul p q = Hmul p q) ->
  Ascii.eqb c "R" = negb s -> (s_eqb alpha n0 = true -> emb alpha = H0) ->
  0 < incx -> 0 < incy -> holds_vec x n incx v -> holds_vec y n incy w ->
  returns (axpyv_gen qmul c n alpha x incx y incy) (axpy_post y n incy (sd s) alpha v w).
Proof.
  intros Hq Hc Hz Hix Hiy Hx Hy. unfold axpyv_gen. rewrite Hc, negb_involutive.
  destruct (Z.leb_spec n 0) as [Hn|Hn]; [apply noop_vec; auto|].
  destruct (s_eqb alpha n0).
  { unfold axpy_post. rewrite Hz by auto. split; [|intros p _; auto].
    intros i Hi. rewrite Hy by auto. rewrite Hside_0, (Hadd_0_r L). auto. }
  unfold assertb. replace (incx >? 0) with true by lia. replace (incy >? 0) with true by lia. cbn [bind].
  pose (f := fun u w => Hadd w (Hside (sd s) (emb alpha) u)).
  pose (I := fun (i : Z) y' => is_vec y y' n incy (prog (fun k => f (v k) (w k)) w i)).
  apply returns_mono with (P := I n).
  2:{ intros y' Hy'. eapply is_vec_done in Hy'; [exact Hy'|lia]. }
  assert (I0 : I 0 y) by (apply is_vec_init; auto).
  assert (Hm : maps2 f x (axpy1 qmul s alpha x)) by (apply axpy1_maps; auto).
  destruct ((incx =? 1) && (incy =? 1)) eqn:E.
  - apply andb_true_iff in E as [E1 E2]. apply Z.eqb_eq in E1, E2. subst incx incy.
    assert (St : forall i j y', j = i -> 0 <= i < n -> I i y' -> returns (axpy1 qmul s alpha x j j y') (I (i + 1))).
    { intros i j y' -> Hi HI. apply (maps2_step f (axpy1 qmul s alpha x) n 1 1 x y y' v w i); auto; try lia; rewrite vpos_1; auto. }
    apply unrolled_inv; auto; try lia. intros i s0 Hi Hle HI.
    eapply returns_bind; [apply (St i); auto; lia|]. intros s1 I1.
    eapply returns_bind; [apply (St (i + 1)); auto; lia|]. intros s2 I2.
    eapply returns_bind; [apply (St (i + 1 + 1)); auto; lia|]. intros s3 I3.
    replace (i + 4) with (i + 1 + 1 + 1 + 1) by lia. apply St; auto; lia.
  - apply (cursor2_n I (fun ix iy s0 => axpy1 qmul s alpha x ix iy s0)); auto; try lia.
    intros i y' Hi HI. rewrite !Z.add_0_l.
    apply (maps2_step f (axpy1 qmul s alpha x) n incx incy x y y' v w i); auto; try lia; rewrite vpos_pos by auto; lia.
Qed.

(** Fortran, strides of either sign *)
Lemma kstart_pos n inc i : kstart n inc + i * inc - 1 = vpos n inc i.
Proof. unfold kstart, vpos. destruct (inc <? 0); lia. Qed.

Lemma scalv_for_ok s c n alpha (x : qarr) inc v :
  lsame "R" c = negb s -> emb alpha <> H0 -> inc <> 0 -> holds_vec x n inc v ->
  returns (scalv_for c n alpha x inc) (scal_post x n inc (sd s) alpha v).
Proof.
  intros Hc Hz Hinc Hx. unfold scalv_for. rewrite Hc.
  destruct (Z.leb_spec n 0) as [Hn|Hn]; [apply noop_vec; auto|].
  destruct (fzero alpha) eqn:Ez; [apply fzero_emb in Ez; contradiction|].
  pose (I := fun (i : Z) x' => is_vec x x' n inc (prog (fun k => Hside (sd s) (emb alpha) (v k)) v i)).
  apply returns_mono with (P := I n).
  2:{ intros x' Hx'. eapply is_vec_done; try eassumption; lia. }
  assert (I0 : I 0 x) by (apply is_vec_init; auto).
  pose (step := fun i (x : qarr) => v <- ld x i ;; st x i (hscal_elt (negb s) alpha v)).
  assert (Hm : maps1 (Hside (sd s) (emb alpha)) step).
  { intros p x0 q Hq. unfold step. rewrite (ld_some _ _ _ Hq). cbn [bind]. rewrite (st_some _ _ _ _ Hq), hscal_elt_H. reflexivity. }
  unfold fdo. destruct (Z.eqb_spec inc 1) as [->|_].
  - apply plain_n; auto; try lia. intros i x' Hi HI.
    apply (maps1_step _ step n 1 x x' v i); auto; try lia. rewrite vpos_1. lia.
  - apply (cursor1_n I (fun ix => step (ix - 1))); auto; try lia.
    intros i x' Hi HI. apply (maps1_step _ step n inc x x' v i); auto. apply kstart_pos.
Qed.

Lemma axpyv_for_ok s c n alpha (x : qarr) incx y incy v w :
  lsame "R" c = negb s -> incx <> 0 -> incy <> 0 -> holds_vec x n incx v -> holds_vec y n incy w ->
  returns (axpyv_for c n alpha x incx y incy) (axpy_post y n incy (sd s) alpha v w).
Proof.
  intros Hc Hix Hiy Hx Hy. unfold axpyv_for. rewrite Hc.
  destruct (Z.leb_spec n 0) as [Hn|Hn]; [apply noop_vec; auto|].
  destruct (fzero alpha) eqn:Ez.
  { apply fzero_emb in Ez. unfold axpy_post. rewrite Ez. split; [|intros p _; auto].
    intros i Hi. rewrite Hy by auto. rewrite Hside_0, (Hadd_0_r L). auto. }
  pose (f := fun u w => Hadd w (Hside (sd s) (emb alpha) u)).
  pose (I := fun (i : Z) y' => is_vec y y' n incy (prog (fun k => f (v k) (w k)) w i)).
  apply returns_mono with (P := I n).
  2:{ intros y' Hy'. eapply is_vec_done in Hy'; [exact Hy'|lia]. }
  assert (I0 : I 0 y) by (apply is_vec_init; auto).
  pose (step := fun i j (y : qarr) => v <- ld x i ;; w <- ld y j ;; st y j (haxpy_elt (negb s) alpha v w)).
  assert (Hm : maps2 f x step).
  { intros p q y0 u0 w0 Hp Hq. unfold step. rewrite (ld_some _ _ _ Hp). cbn [bind]. rewrite (ld_some _ _ _ Hq). cbn [bind].
    rewrite (st_some _ _ _ _ Hq), haxpy_elt_H. reflexivity. }
  unfold fdo. destruct ((incx =? 1) && (incy =? 1)) eqn:E.
  - apply andb_true_iff in E as [E1 E2]. apply Z.eqb_eq in E1, E2. subst incx incy.
    apply plain_n; auto; try lia. intros i y' Hi HI.
    apply (maps2_step f step n 1 1 x y y' v w i); auto; try lia; rewrite vpos_1; lia.
  - apply (cursor2_n I (fun ix iy => step (ix - 1) (iy - 1))); auto; try lia.
    intros i y' Hi HI. apply (maps2_step f step n incx incy x y y' v w i); auto; apply kstart_pos.
Qed.

(** inner products *)
Definition dterm (cnj : bool) (v w : Z -> quat K) (i : Z) : quat K := Hmul (if cnj then Hconj (v i) else v i) (w i).

Lemma dot_gen_ok qmul cnj n (x : qarr) incx y incy v w : (forall p q, qmul p q = Hmul p q) ->
  0 < incx -> 0 < incy -> holds_vec x n incx v -> holds_vec y n incy w ->
  dot_gen qmul cnj n x incx y incy = Ok (Hsum n (dterm cnj v w)).
Proof.
  intros Hq Hix Hiy Hx Hy.
  assert (R : returns (dot_gen qmul cnj n x incx y incy) (fun r => r = Hsum n (dterm cnj v w))).
  2:{ destruct (dot_gen qmul cnj n x incx y incy); cbn in R; try contradiction. congruence. }
  unfold dot_gen.
  destruct (Z.leb_spec n 0) as [Hn|Hn]; [cbn; rewrite Hsum_neg by lia; reflexivity|].
  unfold assertb. replace (incx >? 0) with true by lia. replace (incy >? 0) with true by lia. cbn [bind].
  pose (I := fun i r => r = Hsum i (dterm cnj v w)).
  assert (St : forall i p q r, 0 <= i < n -> p = vpos n incx i -> q = vpos n incy i -> I i r ->
                returns (dot1 qmul cnj x y p q r) (I (i + 1))).
  { intros i p q r Hi -> -> HI. unfold dot1. rewrite (ld_some _ _ _ (Hx i Hi)). cbn [bind]. rewrite (ld_some _ _ _ (Hy i Hi)).
    cbn [bind]. cbn. unfold I. rewrite Hsum_succ, <- HI, q_addeq_H, Hq by lia. unfold dterm.
    destruct cnj; [rewrite q_conj_H|]; reflexivity. }
  destruct ((incx =? 1) && (incy =? 1)) eqn:E.
  - apply andb_true_iff in E as [E1 E2]. apply Z.eqb_eq in E1, E2. subst incx incy.
    apply (zfor_inv I); [lia|reflexivity|]. intros i r Hi HI. apply St; auto; rewrite vpos_1; auto.
  - apply (cursor2_n I (fun ix iy => dot1 qmul cnj x y ix iy)); auto; try lia; [|reflexivity].
    intros i r Hi HI. apply St; auto; rewrite vpos_pos; lia.
Qed.

Lemma dot_for_ok cnj n (x : qarr) incx y incy v w :
  incx <> 0 -> incy <> 0 -> holds_vec x n incx v -> holds_vec y n incy w ->
  dot_for cnj n x incx y incy = Ok (Hsum n (dterm cnj v w)).
Proof.
  intros Hix Hiy Hx Hy.
  assert (R : returns (dot_for cnj n x incx y incy) (fun r => r = Hsum n (dterm cnj v w))).
  2:{ destruct (dot_for cnj n x incx y incy); cbn in R; try contradiction. congruence. }
  unfold dot_for.
  destruct (Z.leb_spec n 0) as [Hn|Hn]; [cbn; rewrite Hsum_neg by lia; reflexivity|].
  pose (I := fun i r => r = Hsum i (dterm cnj v w)).
  pose (step := fun i j (r : quat K) => v <- ld x i ;; w <- ld y j ;; Ok ((if cnj then hdotc_elt else hdotu_elt) v w r)).
  assert (St : forall i p q r, 0 <= i < n -> p = vpos n incx i -> q = vpos n incy i -> I i r ->
                returns (step p q r) (I (i + 1))).
  { intros i p q r Hi -> -> HI. unfold step. rewrite (ld_some _ _ _ (Hx i Hi)). cbn [bind]. rewrite (ld_some _ _ _ (Hy i Hi)).
    cbn [bind returns]. unfold I. rewrite Hsum_succ, <- HI, hdot_elt_H by lia. reflexivity. }
  unfold fdo. destruct ((incx =? 1) && (incy =? 1)) eqn:E.
  - apply andb_true_iff in E as [E1 E2]. apply Z.eqb_eq in E1, E2. subst incx incy.
    apply (plain_n I); auto; try lia; [|reflexivity]. intros i r Hi HI. apply (St i); auto; rewrite vpos_1; lia.
  - apply (cursor2_n I (fun ix iy => step (ix - 1) (iy - 1))); auto; try lia; [|reflexivity].
    intros i r Hi HI. apply (St i); auto; apply kstart_pos.
Qed.

Lemma dot_opt_ok cnj n xa (x : qarr) incx ya y incy v w :
  0 < incx -> 0 < incy -> holds_vec x n incx v -> holds_vec y n incy w ->
  dot_opt cnj n xa x incx ya y incy = Ok (Hsum n (dterm cnj v w)).
Proof.
  intros Hix Hiy Hx Hy.
  destruct (Z_lt_le_dec n 0) as [Hneg|Hn].
  { unfold dot_opt. assert (Hq0 : Z.quot n 4 <= 0) by (replace n with (- - n) by lia; rewrite Z.quot_opp_l by lia;
      pose proof (Z.quot_pos (- n) 4); lia).
    pose proof (Z.rem_nonpos n 4 ltac:(lia) ltac:(lia)) as Hr0.
    rewrite zfor_none by lia. cbn [bind]. rewrite zfor_none by lia. cbn [bind].
    rewrite Hsum_neg by lia. f_equal. cbn. unfold q_of_v, H0; cbn. f_equal; ring. }
  assert (R : returns (dot_opt cnj n xa x incx ya y incy) (fun r => r = Hsum n (dterm cnj v w))).
  2:{ destruct (dot_opt cnj n xa x incx ya y incy); cbn in R; try contradiction. congruence. }
  unfold dot_opt. rewrite Z.rem_mod_nonneg, Z.quot_div_nonneg by lia.
  set (al := IS_ALIGNED xa && IS_ALIGNED ya).
  assert (Ha : al = true -> IS_ALIGNED xa = true /\ IS_ALIGNED ya = true) by apply andb_true_iff.
  set (f := dterm cnj v w).
  pose proof (Z.div_mod n 4 ltac:(lia)) as Hd. pose proof (Z.mod_pos_bound n 4 ltac:(lia)) as Hm.
  assert (Lx : forall i p, 0 <= i < n -> p = i * incx -> vld al xa x p = Ok (v_of_q (v i))).
  { intros i p Hi ->. apply vld_ok; [apply Ha|]. rewrite <- (vpos_pos n) by auto. auto. }
  assert (Ly : forall i p, 0 <= i < n -> p = i * incy -> vld al ya y p = Ok (v_of_q (w i))).
  { intros i p Hi ->. apply vld_ok; [apply Ha|]. rewrite <- (vpos_pos n) by auto. auto. }
  eapply returns_bind with (P := fun '(r, lx, ly) =>
    Hadd (Hadd (Hadd (soa r 0) (soa r 1)) (soa r 2)) (soa r 3) = Hsum (4 * (n / 4)) f /\
    lx = 4 * (n / 4) * incx /\ ly = 4 * (n / 4) * incy).
  - apply (zfor_inv (fun b '(r, lx, ly) => Hadd (Hadd (Hadd (soa r 0) (soa r 1)) (soa r 2)) (soa r 3) = Hsum (4 * b) f /\
        lx = 4 * b * incx /\ ly = 4 * b * incy)).
    + apply Z.div_pos; lia.
    + rewrite Z.mul_0_r, Hsum_0. repeat split. unfold soa, lane, H0, Hadd; cbn. f_equal; ring.
    + intros b [[r lx] ly] Hb (HI & -> & ->).
      assert (Hb4 : 4 * b + 4 <= n) by lia.
      rewrite (Lx (4 * b)), (Lx (4 * b + 1)), (Lx (4 * b + 2)), (Lx (4 * b + 3)) by lia. cbn [bind].
      rewrite (Ly (4 * b)), (Ly (4 * b + 1)), (Ly (4 * b + 2)), (Ly (4 * b + 3)) by lia. cbn [bind returns].
      repeat split; try lia.
      set (X := M4 _ _ _ _). set (Y := M4 _ _ _ _).
      assert (E : forall t, 0 <= t < 4 -> soa (if cnj then INC_MULD4Q_CN (TRANSPOSE_4x4 X) (TRANSPOSE_4x4 Y) r
                    else INC_MULD4Q_NN (TRANSPOSE_4x4 X) (TRANSPOSE_4x4 Y) r) t = Hadd (soa r t) (f (4 * b + t))).
      { intros t Ht.
        replace (f (4 * b + t)) with (Hmul (if cnj then Hconj (aos X t) else aos X t) (aos Y t)).
        2:{ assert (Et : t = 0 \/ t = 1 \/ t = 2 \/ t = 3) by lia.
            destruct Et as [->|[->|[->| ->]]]; unfold f, dterm, X, Y, aos; cbn [Z.eqb Pos.eqb w1 w2 w3 w4];
              rewrite !q_of_v_of_q, ?Z.add_0_r; reflexivity. }
        destruct cnj; [rewrite (INC_MULD4Q_CN_H L)|rewrite (INC_MULD4Q_NN_H L)]; auto; rewrite !transpose_soa by auto; reflexivity. }
      rewrite !E by lia.
      replace (4 * (b + 1)) with (4 * b + 1 + 1 + 1 + 1) by lia. rewrite !Hsum_succ by lia. rewrite <- HI.
      replace (4 * b + 0) with (4 * b) by lia.
      replace (4 * b + 1 + 1) with (4 * b + 2) by lia. replace (4 * b + 2 + 1) with (4 * b + 3) by lia.
      generalize (soa r 0), (soa r 1), (soa r 2), (soa r 3), (f (4*b)), (f (4*b+1)), (f (4*b+2)), (f (4*b+3)).
      intros. unfold Hadd; cbn; f_equal; ring.
  - intros [[r lx] ly] (HI & -> & ->).
    set (R := TRANSPOSE_4x4 r).
    assert (EA : forall u w : m256 K, q_of_v (mm256_add u w) = Hadd (q_of_v u) (q_of_v w)) by (intros [] []; reflexivity).
    set (r0 := mm256_add _ (w4 R)).
    assert (E0 : q_of_v r0 = Hsum (4 * (n / 4)) f).
    { unfold r0. rewrite !EA, <- HI.
      rewrite <- !(transpose_aos r) by lia. fold R. reflexivity. }
    eapply returns_bind with (P := fun r1 => q_of_v r1 = Hsum (4 * (n / 4) + n mod 4) f).
    + apply (zfor_inv (fun i r1 => q_of_v r1 = Hsum (4 * (n / 4) + i) f)); [lia|rewrite Z.add_0_r; exact E0|].
      intros i r1 Hi Hr1.
      rewrite (Lx (4 * (n / 4) + i)), (Ly (4 * (n / 4) + i)) by lia. cbn [bind returns].
      rewrite Z.add_assoc, Hsum_succ, <- Hr1, EA by lia. f_equal.
      unfold f, dterm. destruct cnj; [rewrite (MULDQ_CN_H L)|rewrite (MULDQ_NN_H L)]; rewrite !q_of_v_of_q; reflexivity.
    + intros r1 Hr1. cbn. rewrite Hr1. f_equal. lia.
Qed.
End F.
