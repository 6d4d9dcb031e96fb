(** Kernels on one shared memory. *)
From Coq Require Import ZArith Lia Bool Ascii.
From Verif Require Import Num Res ResFacts Spec SpecFacts VecFacts MQuat QuatFacts MSimd SimdFacts MOptL1 MGenL1 MGenM L1Facts L1Facts2 L1Facts3
  MShared SpecShared.
Local Open Scope Z_scope.

Lemma range_dec (P : Z -> Prop) : (forall j, P j \/ ~ P j) -> forall n, (exists j, 0 <= j < n /\ P j) \/ (forall j, 0 <= j < n -> ~ P j).
Proof.
  intros D n. destruct (Z_lt_le_dec n 0) as [Hn|Hn]; [right; intros; lia|]. pattern n. apply natlike_ind; auto.
  - right. intros; lia.
  - intros x Hx [(j & Hj & Pj)|H]; [left; exists j; split; [lia|auto]|].
    destruct (D x) as [Px|Nx]; [left; exists x; split; [lia|auto]|].
    right. intros j Hj. destruct (Z.eq_dec j x) as [->|]; auto. apply H. lia.
Qed.

Section NoLaws.
Context {K : num}.
Local Notation qarr := (arr (quat K)).
Local Notation H := (quat K).

Lemma align_ptr al ba px py p : al = IS_ALIGNED (ba + 32 * px) && IS_ALIGNED (ba + 32 * py) -> al && negb ((ba + 32 * p) mod 32 =? 0) = false.
Proof.
  intros ->. destruct (IS_ALIGNED (ba + 32 * px)) eqn:E; [|reflexivity]. destruct (IS_ALIGNED (ba + 32 * py)); [|reflexivity].
  apply is_aligned_mod in E. cbn [andb]. rewrite Z.mul_comm, Z.mod_add in E by lia. rewrite Z.mul_comm, Z.mod_add, E by lia. reflexivity.
Qed.
Lemma vld_sh al ba px py (m : qarr) p q : al = IS_ALIGNED (ba + 32 * px) && IS_ALIGNED (ba + 32 * py) -> m p = Some q -> vld al ba m p = Ok (v_of_q q).
Proof. intros E Hm. unfold vld. rewrite (align_ptr al ba px py p E), (ld_some _ _ _ Hm). reflexivity. Qed.
Lemma vst_sh al ba px py (m : qarr) p q v : al = IS_ALIGNED (ba + 32 * px) && IS_ALIGNED (ba + 32 * py) -> m p = Some q -> vst al ba m p v = Ok (upd m p (q_of_v v)).
Proof. intros E Hm. unfold vst. rewrite (align_ptr al ba px py p E). apply st_some with q; auto. Qed.

Lemma pos_inj p inc i j : inc <> 0 -> p + i * inc = p + j * inc -> i = j.
Proof. intros Hi E. apply (Z.mul_reg_r i j inc); lia. Qed.
(** memory after the first i elements of Y are new *)
Definition shI (m cur : qarr) (py n incy : Z) (new old : Z -> H) (i : Z) : Prop :=
  vec_at cur py n incy (prog new old i) /\ changes_vec m cur py n incy.
Lemma shI_init m py n incy new old : vec_at m py n incy old -> shI m m py n incy new old 0.
Proof. intros Hv. split; [|intros q _; auto]. intros k Hk. rewrite Hv by auto. unfold prog. destruct (Z.ltb_spec k 0); auto; lia. Qed.
Lemma shI_step m cur py n incy new old i : incy <> 0 -> 0 <= i < n -> shI m cur py n incy new old i ->
  cur (py + i * incy) = Some (old i) /\ shI m (upd cur (py + i * incy) (new i)) py n incy new old (i + 1).
Proof.
  intros Hy Hi [HV HC]. split.
  - rewrite HV by auto. unfold prog. destruct (Z.ltb_spec i i); auto; lia.
  - split.
    + intros k Hk. destruct (Z.eq_dec k i) as [->|Hne].
      * rewrite upd_same. unfold prog. destruct (Z.ltb_spec i (i + 1)); auto; lia.
      * rewrite upd_diff by (intros E; apply pos_inj in E; auto). rewrite HV by auto.
        unfold prog. destruct (Z.ltb_spec k i), (Z.ltb_spec k (i + 1)); auto; lia.
    + intros q Hq. rewrite upd_diff by (apply Hq; auto). apply HC; auto.
Qed.
Lemma shI_done m cur py n incy new old i : n <= i -> shI m cur py n incy new old i -> vec_at cur py n incy new /\ changes_vec m cur py n incy.
Proof. intros Hi [HV HC]. split; auto. intros k Hk. rewrite HV by auto. unfold prog. destruct (Z.ltb_spec k i); auto; lia. Qed.
(** X(i) still has its original value when it is read *)
Lemma shI_read m cur px py n incx incy new old v i : incy <> 0 -> not_behind n px incx py incy -> vec_at m px n incx v -> vec_at m py n incy old ->
  0 <= i < n -> shI m cur py n incy new old i -> cur (px + i * incx) = Some (v i).
Proof.
  intros Hy NB Hx Hold Hi [HV HC].
  destruct (range_dec (fun j => px + i * incx = py + j * incy) (fun j => match Z.eq_dec (px + i * incx) (py + j * incy) with left e => or_introl e | right e => or_intror e end) n) as [(j & Hj & E)|N].
  - rewrite E, HV by auto. unfold prog. destruct (Z.ltb_spec j i) as [Hlt|Hge]; [exfalso; apply (NB i j); lia|].
    rewrite <- (Hx i Hi), E, (Hold j Hj). reflexivity.
  - rewrite HC by exact N. apply Hx; auto.
Qed.

Lemma copyv_sh_ok n ba (m : qarr) px incx py incy v w : incy <> 0 -> not_behind n px incx py incy -> vec_at m px n incx v -> vec_at m py n incy w ->
  returns (copyv_sh n ba m px incx py incy) (fun m' => vec_at m' py n incy v /\ changes_vec m m' py n incy).
Proof.
  intros Hy NB Hx Hw. unfold copyv_sh. rewrite Z.quot_1_r. set (al := IS_ALIGNED (ba + 32 * px) && _).
  assert (Eal : al = IS_ALIGNED (ba + 32 * px) && IS_ALIGNED (ba + 32 * py)) by reflexivity.
  eapply returns_bind; [apply (zfor_inv_max (fun i '((cur, lx, ly) : qarr * Z * Z) => shI m cur py n incy v w i /\ lx = px + i * incx /\ ly = py + i * incy))|].
  - split; [apply shI_init; auto|lia].
  - intros i [[cur lx] ly] Hi (HI & -> & ->). pose proof (shI_read _ _ _ _ _ _ _ _ _ v i Hy NB Hx Hw Hi HI) as Rx.
    destruct (shI_step _ _ _ _ _ _ _ i Hy Hi HI) as [Ry HI'].
    rewrite (vld_sh al ba px py cur _ _ Eal Rx). cbn [bind]. rewrite (vst_sh al ba px py cur _ _ _ Eal Ry). cbn [bind returns].
    rewrite q_of_v_of_q. split; [exact HI'|lia].
  - intros [[cur lx] ly] (HI & _). cbn [returns]. eapply shI_done; [|exact HI]. lia.
Qed.
Lemma axpyv_sh_raw s c n alpha ba (m : qarr) px incx py incy v w : Ascii.eqb c "L" = s -> incy <> 0 -> not_behind n px incx py incy ->
  vec_at m px n incx v -> vec_at m py n incy w ->
  returns (axpyv_sh c n alpha ba m px incx py incy) (fun m' =>
    vec_at m' py n incy (fun i => q_of_v (axpy_step s alpha (v_of_q (v i)) (v_of_q (w i)))) /\ changes_vec m m' py n incy).
Proof.
  intros Hc Hy NB Hx Hw. unfold axpyv_sh. rewrite Z.quot_1_r, Hc. set (al := IS_ALIGNED (ba + 32 * px) && _).
  assert (Eal : al = IS_ALIGNED (ba + 32 * px) && IS_ALIGNED (ba + 32 * py)) by reflexivity.
  set (u := fun i => q_of_v (axpy_step s alpha (v_of_q (v i)) (v_of_q (w i)))).
  eapply returns_bind; [apply (zfor_inv_max (fun i '((cur, lx, ly) : qarr * Z * Z) => shI m cur py n incy u w i /\ lx = px + i * incx /\ ly = py + i * incy))|].
  - split; [apply shI_init; auto|lia].
  - intros i [[cur lx] ly] Hi (HI & -> & ->). pose proof (shI_read _ _ _ _ _ _ _ _ _ v i Hy NB Hx Hw Hi HI) as Rx.
    destruct (shI_step _ _ _ _ _ _ _ i Hy Hi HI) as [Ry HI'].
    rewrite (vld_sh al ba px py cur _ _ Eal Rx). cbn [bind]. rewrite (vld_sh al ba px py cur _ _ Eal Ry). cbn [bind].
    rewrite (vst_sh al ba px py cur _ _ _ Eal Ry). cbn [bind returns]. split; [exact HI'|lia].
  - intros [[cur lx] ly] (HI & _). cbn [returns]. eapply shI_done; [|exact HI]. lia.
Qed.

Lemma swapv_sh_ok n ba (m : qarr) px incx py incy v w : incx <> 0 -> incy <> 0 -> vec_apart n px incx py incy -> vec_at m px n incx v -> vec_at m py n incy w ->
  returns (swapv_sh n ba m px incx py incy) (fun m' => vec_at m' px n incx w /\ vec_at m' py n incy v /\
    forall q, (forall i, 0 <= i < n -> q <> px + i * incx /\ q <> py + i * incy) -> m' q = m q).
Proof.
  intros Hix Hiy AP Hx Hw. unfold swapv_sh. rewrite Z.quot_1_r. set (al := IS_ALIGNED (ba + 32 * px) && _).
  assert (Eal : al = IS_ALIGNED (ba + 32 * px) && IS_ALIGNED (ba + 32 * py)) by reflexivity.
  eapply returns_bind; [apply (zfor_inv_max (fun i '((cur, lx, ly) : qarr * Z * Z) =>
     vec_at cur px n incx (prog w v i) /\ vec_at cur py n incy (prog v w i) /\
     (forall q, (forall i, 0 <= i < n -> q <> px + i * incx /\ q <> py + i * incy) -> cur q = m q) /\ lx = px + i * incx /\ ly = py + i * incy))|].
  - refine (conj _ (conj _ (conj _ _))); [| |auto|lia];
      intros k Hk; unfold prog; destruct (Z.ltb_spec k 0); try lia; [apply Hx|apply Hw]; auto.
  - intros i [[cur lx] ly] Hi (HX & HY & HC & -> & ->).
    assert (Rx : cur (px + i * incx) = Some (v i)) by (rewrite HX by auto; unfold prog; destruct (Z.ltb_spec i i); auto; lia).
    assert (Ry : cur (py + i * incy) = Some (w i)) by (rewrite HY by auto; unfold prog; destruct (Z.ltb_spec i i); auto; lia).
    rewrite (vld_sh al ba px py cur _ _ Eal Rx). cbn [bind]. rewrite (vld_sh al ba px py cur _ _ Eal Ry). cbn [bind].
    rewrite (vst_sh al ba px py cur _ _ _ Eal Ry). cbn [bind]. rewrite q_of_v_of_q.
    assert (Rx' : upd cur (py + i * incy) (v i) (px + i * incx) = Some (v i)) by (rewrite upd_diff by (apply AP; auto); exact Rx).
    rewrite (vst_sh al ba px py _ _ _ _ Eal Rx'). cbn [bind returns]. rewrite q_of_v_of_q.
    refine (conj _ (conj _ (conj _ _))); [| | |lia].
    + intros k Hk. destruct (Z.eq_dec k i) as [->|Hne].
      * rewrite upd_same. unfold prog. destruct (Z.ltb_spec i (i + 1)); auto; lia.
      * rewrite upd_diff by (intros E; apply pos_inj in E; auto). rewrite upd_diff by (apply AP; auto). rewrite HX by auto.
        unfold prog. destruct (Z.ltb_spec k i), (Z.ltb_spec k (i + 1)); auto; lia.
    + intros k Hk. rewrite upd_diff by (apply not_eq_sym, AP; auto). destruct (Z.eq_dec k i) as [->|Hne].
      * rewrite upd_same. unfold prog. destruct (Z.ltb_spec i (i + 1)); auto; lia.
      * rewrite upd_diff by (intros E; apply pos_inj in E; auto). rewrite HY by auto.
        unfold prog. destruct (Z.ltb_spec k i), (Z.ltb_spec k (i + 1)); auto; lia.
    + intros q Hq. pose proof (Hq i Hi) as [Q1 Q2]. rewrite !upd_diff by auto. apply HC; auto.
  - intros [[cur lx] ly] (HX & HY & HC & _). cbn [returns]. refine (conj _ (conj _ HC)).
    + intros k Hk. rewrite HX by auto. unfold prog. destruct (Z.ltb_spec k (Z.max 0 n)); auto; lia.
    + intros k Hk. rewrite HY by auto. unfold prog. destruct (Z.ltb_spec k (Z.max 0 n)); auto; lia.
Qed.
Lemma swapv_sh_same n ba (m : qarr) p inc v : vec_at m p n inc v ->
  returns (swapv_sh n ba m p inc p inc) (fun m' => forall q, m' q = m q).
Proof.
  intros Hx. unfold swapv_sh. rewrite Z.quot_1_r. set (al := IS_ALIGNED (ba + 32 * p) && _).
  assert (Eal : al = IS_ALIGNED (ba + 32 * p) && IS_ALIGNED (ba + 32 * p)) by reflexivity.
  eapply returns_bind; [apply (zfor_inv_max (fun i '((cur, lx, ly) : qarr * Z * Z) => (forall q, cur q = m q) /\ lx = p + i * inc /\ ly = p + i * inc))|].
  - split; [auto|lia].
  - intros i [[cur lx] ly] Hi (HC & -> & ->). pose proof (Hx i ltac:(lia)) as Rx. rewrite <- HC in Rx.
    rewrite (vld_sh al ba p p cur _ _ Eal Rx). cbn [bind]. rewrite (vst_sh al ba p p cur _ _ _ Eal Rx). cbn [bind]. rewrite q_of_v_of_q.
    rewrite (vst_sh al ba p p _ _ (v i) _ Eal (upd_same _ _ _)). cbn [bind returns]. rewrite q_of_v_of_q.
    split; [|lia]. intros q. destruct (Z.eq_dec q (p + i * inc)) as [->|Hne]; [rewrite upd_same, <- HC, Rx; auto|rewrite !upd_diff by auto; apply HC].
  - intros [[cur lx] ly] (HC & _). exact HC.
Qed.
(** AXPYV on separate arrays, for any arithmetic *)
Lemma axpyv_sep_raw s c n alpha xa (x : qarr) incx ya y incy v w : Ascii.eqb c "L" = s -> 0 < incx -> 0 < incy ->
  holds_vec x n incx v -> holds_vec y n incy w ->
  returns (axpyv_opt c n alpha xa x incx ya y incy) (fun y' =>
    holds_vec y' n incy (fun i => q_of_v (axpy_step s alpha (v_of_q (v i)) (v_of_q (w i)))) /\ same_but_vec y y' n incy).
Proof.
  intros Hc Hix Hiy Hx Hy. unfold axpyv_opt. rewrite Z.quot_1_r, Hc.
  destruct (Z_le_gt_dec n 0) as [Hn|Hn]; [rewrite zfor_none by lia; apply noop_vec; auto|].
  set (al := IS_ALIGNED xa && IS_ALIGNED ya).
  assert (Ha : al = true -> IS_ALIGNED xa = true /\ IS_ALIGNED ya = true) by apply andb_true_iff.
  pose (f := fun u w => q_of_v (axpy_step s alpha (v_of_q u) (v_of_q w))).
  apply returns_mono with (P := fun y' => is_vec y y' n incy (prog (fun k => f (v k) (w k)) w n)).
  2:{ intros y' Hy'. eapply is_vec_done in Hy'; [exact Hy'|lia]. }
  pose (step := fun ix iy s0 => x1 <- vld al xa x ix ;; y1 <- vld al ya s0 iy ;; vst al ya s0 iy (axpy_step s alpha x1 y1)).
  rewrite (zfor_ext _ _ _ (fun _ '(s0, ix, iy) => bind (step ix iy s0) (fun s => Ok (s, ix + incx, iy + incy)))).
  2:{ intros i [[? ?] ?] _. unfold step. rewrite !bind_assoc.
      destruct (vld al xa x _); cbn [bind]; auto. rewrite !bind_assoc, !Z.mul_1_l. reflexivity. }
  apply (cursor2_n (fun i y' => is_vec y y' n incy (prog (fun k => f (v k) (w k)) w i)) step); try lia.
  - intros i y' Hi HI. rewrite !Z.add_0_l.
    apply (maps2_step f step n incx incy x y y' v w i); auto; try lia; try (rewrite vpos_pos; auto).
    intros p q y0 u0 w0 Hp Hq. unfold step.
    rewrite (vld_ok al xa x p u0 (fun e => proj1 (Ha e)) Hp). cbn [bind].
    rewrite (vld_ok al ya y0 q w0 (fun e => proj2 (Ha e)) Hq). cbn [bind].
    rewrite (vst_ok al ya y0 q w0 _ (fun e => proj2 (Ha e)) Hq). reflexivity.
  - apply is_vec_init; auto.
Qed.
End NoLaws.
