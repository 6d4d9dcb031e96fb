(** Correctness of the level-1 kernels. *)
From Coq Require Import ZArith Lia Bool Ascii Ring.
From Verif Require Import Num Res ResFacts Spec SpecFacts VecFacts MQuat QuatFacts MSimd SimdFacts MOptL1 MGenL1 MForL1.
Local Open Scope Z_scope.

Lemma is_aligned_mod a : IS_ALIGNED a = true -> a mod 32 = 0.
Proof.
  unfold IS_ALIGNED, REQ_ALIGN. change (32 - 1) with (Z.ones 5). rewrite Z.land_ones by lia.
  change (2 ^ 5) with 32. intros H. apply Z.eqb_eq in H. exact H.
Qed.
Lemma aligned_guard al a e : (al = true -> IS_ALIGNED a = true) -> al && negb ((a + 32 * e) mod 32 =? 0) = false.
Proof.
  destruct al; [|reflexivity]. rewrite andb_true_l. intros H. specialize (H eq_refl). apply is_aligned_mod in H.
  replace (a + 32 * e) with (a + e * 32) by lia. rewrite Z.mod_add, H by lia. reflexivity.
Qed.
Lemma vld_ok {K : num} al a (m : arr (quat K)) e q :
  (al = true -> IS_ALIGNED a = true) -> m e = Some q -> vld al a m e = Ok (v_of_q q).
Proof. intros Ha Hm. unfold vld. rewrite aligned_guard by auto. rewrite (ld_some _ _ _ Hm). reflexivity. Qed.
Lemma vst_ok {K : num} al a (m : arr (quat K)) e q v :
  (al = true -> IS_ALIGNED a = true) -> m e = Some q -> vst al a m e v = Ok (upd m e (q_of_v v)).
Proof. intros Ha Hm. unfold vst. rewrite aligned_guard by auto. apply st_some with q; auto. Qed.

Section NoLaws.
Context {K : num}.
Local Notation qarr := (arr (quat K)).

Lemma swapv_opt_ok n xa (x : qarr) incx ya y incy v w :
  0 < incx -> 0 < incy -> holds_vec x n incx v -> holds_vec y n incy w ->
  returns (swapv_opt n xa x incx ya y incy) (fun '(x', y') =>
    (holds_vec x' n incx w /\ same_but_vec x x' n incx) /\ (holds_vec y' n incy v /\ same_but_vec y y' n incy)).
Proof.
  intros Hix Hiy Hx Hy. unfold swapv_opt. rewrite Z.quot_1_r.
  set (al := IS_ALIGNED xa && IS_ALIGNED ya).
  eapply returns_bind with (P := fun '(x', y', _, _) =>
    is_vec x x' n incx (prog w v (Z.max 0 n)) /\ is_vec y y' n incy (prog v w (Z.max 0 n))).
  - assert (Hloop : forall b, (b = true -> al = true) -> returns
      (zfor 0 n (fun _ '(x0, y0, locX, locY) =>
         x1 <- vld b xa x0 locX ;; y1 <- vld b ya y0 locY ;;
         y2 <- vst b ya y0 locY x1 ;; x2 <- vst b xa x0 locX y1 ;;
         Ok (x2, y2, locX + incx, locY + incy)) (x, y, 0, 0))
      (fun '(x', y', _, _) =>
        is_vec x x' n incx (prog w v (Z.max 0 n)) /\ is_vec y y' n incy (prog v w (Z.max 0 n)))).
    { intros b Hb.
      assert (Hbx : b = true -> IS_ALIGNED xa = true /\ IS_ALIGNED ya = true).
      { intros E; specialize (Hb E); unfold al in Hb; apply andb_true_iff in Hb; auto. }
      apply returns_mono with (P := fun '(x', y', lx, ly) =>
        is_vec x x' n incx (prog w v (Z.max 0 n)) /\ is_vec y y' n incy (prog v w (Z.max 0 n))
        /\ lx = vpos n incx (Z.max 0 n) /\ ly = vpos n incy (Z.max 0 n)).
      2:{ intros [[[? ?] ?] ?]; tauto. }
      apply (zfor_inv_max (fun i '(x', y', lx, ly) =>
        is_vec x x' n incx (prog w v i) /\ is_vec y y' n incy (prog v w i) /\ lx = vpos n incx i /\ ly = vpos n incy i)).
      - repeat split; try (apply is_vec_init; auto); rewrite vpos_pos by auto; lia.
      - intros i [[[x' y'] lx] ly] Hi (Hx' & Hy' & Elx & Ely).
        destruct (prog_step _ _ _ _ _ _ _ lx Hx' ltac:(lia) ltac:(lia) Elx) as [Lx Ux].
        destruct (prog_step _ _ _ _ _ _ _ ly Hy' ltac:(lia) ltac:(lia) Ely) as [Ly Uy].
        rewrite (vld_ok b xa x' lx _ (fun e => proj1 (Hbx e)) Lx). cbn [bind].
        rewrite (vld_ok b ya y' ly _ (fun e => proj2 (Hbx e)) Ly). cbn [bind].
        rewrite (vst_ok b ya y' ly _ _ (fun e => proj2 (Hbx e)) Ly). cbn [bind].
        rewrite (vst_ok b xa x' lx _ _ (fun e => proj1 (Hbx e)) Lx). cbn [bind].
        rewrite !q_of_v_of_q. cbn. rewrite !vpos_succ, <- Elx, <- Ely. auto. }
    destruct al eqn:Eal; apply Hloop; auto.
  - intros [[[x' y'] lx] ly] [Hx' Hy']. cbn. split; eapply is_vec_done; try eassumption; lia.
Qed.
End NoLaws.

(** canonical loop forms of the optimised kernels *)
Section NoLaws2.
Context {K : num}.
Local Notation qarr := (arr (quat K)).


Lemma copyv_opt_ok n xa (x : qarr) incx ya y incy v w :
  0 < incx -> 0 < incy -> holds_vec x n incx v -> holds_vec y n incy w ->
  returns (copyv_opt n xa x incx ya y incy) (fun y' => holds_vec y' n incy v /\ same_but_vec y y' n incy).
Proof.
  intros Hix Hiy Hx Hy. unfold copyv_opt. rewrite Z.quot_1_r.
  set (al := IS_ALIGNED xa && IS_ALIGNED ya).
  assert (Hloop : forall b, (b = true -> al = true) -> returns
      (bind (zfor 0 n (fun _ '(y0, locX, locY) =>
         x1 <- vld b xa x locX ;; y2 <- vst b ya y0 locY x1 ;; Ok (y2, locX + incx, locY + incy)) (y, 0, 0))
       (fun '(y, _, _) => Ok y))
      (fun y' => holds_vec y' n incy v /\ same_but_vec y y' n incy)).
  { intros b Hb.
    assert (Hbx : b = true -> IS_ALIGNED xa = true /\ IS_ALIGNED ya = true).
    { intros E; specialize (Hb E); unfold al in Hb; apply andb_true_iff in Hb; auto. }
    rewrite (zfor_ext _ _ _ (fun _ '(s, ix, iy) =>
      bind (x1 <- vld b xa x ix ;; vst b ya s iy x1) (fun s => Ok (s, ix + incx, iy + incy)))).
    2:{ intros i [[? ?] ?] _. rewrite bind_assoc. reflexivity. }
    eapply returns_mono;
      [apply (cursor2_loop (fun i y' => is_vec y y' n incy (prog v w i))
                (fun ix iy s => x1 <- vld b xa x ix ;; vst b ya s iy x1))|].
    - intros i y' Hi HI. rewrite Z.sub_0_r in Hi. rewrite !Z.add_0_l.
      destruct (prog_step _ _ _ _ _ _ _ (i * incy) HI ltac:(lia) Hi) as [Ly Uy]; [rewrite vpos_pos; auto|].
      specialize (Hx i Hi). rewrite vpos_pos in Hx by auto.
      rewrite (vld_ok b xa x _ _ (fun e => proj1 (Hbx e)) Hx). cbn [bind].
      rewrite (vst_ok b ya y' _ _ _ (fun e => proj2 (Hbx e)) Ly). rewrite q_of_v_of_q. exact Uy.
    - apply is_vec_init; auto.
    - intros y'. apply is_vec_done. lia. }
  destruct al eqn:Eal; apply Hloop; auto.
Qed.

Lemma swap1_step n (x y x' y' : qarr) incx incy v w i p q :
  incx <> 0 -> incy <> 0 -> 0 <= i < n -> p = vpos n incx i -> q = vpos n incy i ->
  is_vec x x' n incx (prog w v i) /\ is_vec y y' n incy (prog v w i) ->
  returns (swap1 p q (x', y')) (fun s =>
    is_vec x (fst s) n incx (prog w v (i + 1)) /\ is_vec y (snd s) n incy (prog v w (i + 1))).
Proof.
  intros Hx Hy Hi Ep Eq [Ix Iy].
  destruct (prog_step _ _ _ _ _ _ _ p Ix Hx Hi Ep) as [Lx Ux].
  destruct (prog_step _ _ _ _ _ _ _ q Iy Hy Hi Eq) as [Ly Uy].
  unfold swap1. rewrite (ld_some _ _ _ Lx). cbn [bind]. rewrite (ld_some _ _ _ Ly). cbn [bind].
  rewrite (st_some _ _ _ _ Lx). cbn [bind]. rewrite (st_some _ _ _ _ Ly). cbn. auto.
Qed.

Lemma swapv_gen_ok n (x : qarr) incx y incy v w :
  0 < incx -> 0 < incy -> holds_vec x n incx v -> holds_vec y n incy w ->
  returns (swapv_gen n x incx y incy) (fun '(x', y') =>
    (holds_vec x' n incx w /\ same_but_vec x x' n incx) /\ (holds_vec y' n incy v /\ same_but_vec y y' n incy)).
Proof.
  intros Hix Hiy Hx Hy. unfold swapv_gen.
  destruct (Z.leb_spec n 0) as [Hn|Hn].
  { cbn. repeat split; auto; intros k Hk; lia. }
  unfold assertb. replace (incx >? 0) with true by lia. replace (incy >? 0) with true by lia. cbn [bind].
  pose (I := fun (i : Z) (s : qarr * qarr) => is_vec x (fst s) n incx (prog w v i) /\ is_vec y (snd s) n incy (prog v w i)).
  apply returns_mono with (P := I n).
  2:{ intros [x' y'] [Ix Iy]. split; eapply is_vec_done; try eassumption; lia. }
  assert (I0 : I 0 (x, y)) by (split; apply is_vec_init; auto).
  destruct ((incx =? 1) && (incy =? 1)) eqn:E.
  - apply andb_true_iff in E as [E1 E2]. apply Z.eqb_eq in E1, E2. subst incx incy.
    assert (St : forall i j s, j = i -> 0 <= i < n -> I i s -> returns (swap1 j j s) (I (i + 1))).
    { intros i j [x' y'] -> Hi HI. apply (swap1_step n x y x' y' 1 1 v w i i i); auto; try lia; rewrite vpos_1; auto. }
    apply unrolled_inv; auto; try lia.
    intros i s Hi Hle HI.
    eapply returns_bind; [apply (St i); auto; lia|]. intros s1 I1.
    eapply returns_bind; [apply (St (i + 1)); auto; lia|]. intros s2 I2.
    replace (i + 3) with (i + 1 + 1 + 1) by lia. apply St; auto; lia.
  - apply (cursor2_n I (fun ix iy s => swap1 ix iy s)); auto; try lia.
    intros i [x' y'] Hi HI. rewrite !Z.add_0_l.
    apply (swap1_step n x y x' y' incx incy v w i); auto; try lia; rewrite vpos_pos by auto; lia.
Qed.

Lemma copy1_step n (x y y' : qarr) incx incy v w i p q :
  incy <> 0 -> 0 <= i < n -> p = vpos n incx i -> q = vpos n incy i -> holds_vec x n incx v ->
  is_vec y y' n incy (prog v w i) ->
  returns (copy1 x p q y') (fun y'' => is_vec y y'' n incy (prog v w (i + 1))).
Proof.
  intros Hy Hi Ep Eq Hx Iy.
  destruct (prog_step _ _ _ _ _ _ _ q Iy Hy Hi Eq) as [Ly Uy].
  unfold copy1. rewrite (ld_some x p (v i)) by (rewrite Ep; auto). cbn [bind].
  rewrite (st_some _ _ _ _ Ly). exact Uy.
Qed.

Lemma copyv_gen_ok n (x : qarr) incx y incy v w :
  0 < incx -> 0 < incy -> holds_vec x n incx v -> holds_vec y n incy w ->
  returns (copyv_gen n x incx y incy) (fun y' => holds_vec y' n incy v /\ same_but_vec y y' n incy).
Proof.
  intros Hix Hiy Hx Hy. unfold copyv_gen.
  destruct (Z.leb_spec n 0) as [Hn|Hn].
  { cbn. repeat split; auto; intros k Hk; lia. }
  unfold assertb. replace (incx >? 0) with true by lia. replace (incy >? 0) with true by lia. cbn [bind].
  pose (I i y' := is_vec y y' n incy (prog v w i)).
  apply returns_mono with (P := I n).
  2:{ intros y' Iy. eapply is_vec_done; try eassumption; lia. }
  assert (I0 : I 0 y) by (apply is_vec_init; auto).
  destruct ((incx =? 1) && (incy =? 1)) eqn:E.
  - apply andb_true_iff in E as [E1 E2]. apply Z.eqb_eq in E1, E2. subst incx incy.
    assert (St : forall i j s, j = i -> 0 <= i < n -> I i s -> returns (copy1 x j j s) (I (i + 1))).
    { intros i j y' -> Hi HI. apply (copy1_step n x y y' 1 1 v w i i i); auto; try lia; rewrite vpos_1; auto. }
    apply unrolled_inv; auto; try lia.
    intros i s Hi Hle HI.
    eapply returns_bind; [apply (St i); auto; lia|]. intros s1 I1.
    eapply returns_bind; [apply (St (i + 1)); auto; lia|]. intros s2 I2.
    eapply returns_bind; [apply (St (i + 1 + 1)); auto; lia|]. intros s3 I3.
    eapply returns_bind; [apply (St (i + 1 + 1 + 1)); auto; lia|]. intros s4 I4.
    eapply returns_bind; [apply (St (i + 1 + 1 + 1 + 1)); auto; lia|]. intros s5 I5.
    eapply returns_bind; [apply (St (i + 1 + 1 + 1 + 1 + 1)); auto; lia|]. intros s6 I6.
    replace (i + 7) with (i + 1 + 1 + 1 + 1 + 1 + 1 + 1) by lia. apply St; auto; lia.
  - apply (cursor2_n I (fun ix iy s => copy1 x ix iy s)); auto; try lia.
    intros i y' Hi HI. rewrite !Z.add_0_l.
    apply (copy1_step n x y y' incx incy v w i); auto; try lia; rewrite vpos_pos by auto; lia.
Qed.
End NoLaws2.
