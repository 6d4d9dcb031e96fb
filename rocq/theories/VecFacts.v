(** Invariant vocabulary for loops over strided vectors. *)
From Coq Require Import ZArith Lia Bool.
From Verif Require Import Num Res ResFacts Spec SpecFacts.
Local Open Scope Z_scope.

Lemma zfor_inv_max {S} (I : Z -> S -> Prop) lo hi body s :
  I lo s ->
  (forall i s, lo <= i < hi -> I i s -> returns (body i s) (I (i + 1))) ->
  returns (zfor lo hi body s) (I (Z.max lo hi)).
Proof.
  intros H0 Hb. destruct (Z_le_gt_dec lo hi) as [Hl|Hl].
  - rewrite Z.max_r by lia. apply zfor_inv; auto.
  - rewrite zfor_none, Z.max_l by lia. exact H0.
Qed.

(** x' is x with the n-vector contents replaced by w *)
Definition is_vec {A} (x x' : arr A) (n inc : Z) (w : Z -> A) : Prop :=
  holds_vec x' n inc w /\ same_but_vec x x' n inc.
(** elements below i already new *)
Definition prog {A} (new old : Z -> A) (i k : Z) : A := if k <? i then new k else old k.

Lemma is_vec_ext {A} (x x' : arr A) n inc w w' :
  (forall k, 0 <= k < n -> w k = w' k) -> is_vec x x' n inc w -> is_vec x x' n inc w'.
Proof. intros He [Hv Hs]; split; auto. intros k Hk. rewrite <- He by auto. apply Hv; auto. Qed.

Lemma is_vec_init {A} (x : arr A) n inc new old :
  holds_vec x n inc old -> is_vec x x n inc (prog new old 0).
Proof.
  intros Hv; split; [|intros p _; auto].
  intros k Hk. rewrite Hv by auto. unfold prog. destruct (Z.ltb_spec k 0); auto; lia.
Qed.

Lemma is_vec_done {A} (x x' : arr A) n inc new old m :
  n <= m -> is_vec x x' n inc (prog new old m) -> holds_vec x' n inc new /\ same_but_vec x x' n inc.
Proof.
  intros Hm [Hv Hs]; split; auto.
  intros k Hk. rewrite Hv by auto. unfold prog. destruct (Z.ltb_spec k m); auto; lia.
Qed.

Lemma prog_step {A} (x x' : arr A) n inc new old i p :
  is_vec x x' n inc (prog new old i) -> inc <> 0 -> 0 <= i < n -> p = vpos n inc i ->
  x' p = Some (old i) /\ is_vec x (upd x' p (new i)) n inc (prog new old (i + 1)).
Proof.
  intros [Hv Hs] Hinc Hi ->. split.
  - rewrite Hv by auto. unfold prog. destruct (Z.ltb_spec i i); auto; lia.
  - split.
    + intros k Hk. destruct (Z.eq_dec k i) as [->|Hne].
      * rewrite upd_same. unfold prog. destruct (Z.ltb_spec i (i + 1)); auto; lia.
      * rewrite upd_diff by (intros E; apply vpos_inj in E; auto). rewrite Hv by auto.
        unfold prog. destruct (Z.ltb_spec k i), (Z.ltb_spec k (i + 1)); auto; lia.
    + intros p Hp. rewrite upd_diff by (apply Hp; auto). apply Hs; auto.
Qed.

Lemma kstart_vpos n inc (f : Z -> Z -> Z) :
  (forall n inc, f n inc = if inc <? 0 then (- n + 1) * inc + 1 else 1) ->
  f n inc - 1 = vpos n inc 0.
Proof. intros ->. unfold vpos. destruct (inc <? 0); lia. Qed.
Lemma vpos_succ n inc i : vpos n inc (i + 1) = vpos n inc i + inc.
Proof. unfold vpos. destruct (inc <? 0); lia. Qed.
Lemma vpos_1 n i : vpos n 1 i = i.
Proof. unfold vpos. cbn. lia. Qed.

Lemma vpos_lin n inc i : vpos n inc i = vpos n inc 0 + i * inc.
Proof. unfold vpos. destruct (inc <? 0); lia. Qed.

(** loops with one / two cursors *)
Lemma cursor1_loop {S} (I : Z -> S -> Prop) (step : Z -> S -> res S) lo hi ix0 incx s :
  let n := hi - lo in
  (forall i s, 0 <= i < n -> I i s -> returns (step (ix0 + i * incx) s) (I (i + 1))) -> I 0 s ->
  returns (bind (zfor lo hi (fun _ '(s, ix) => bind (step ix s) (fun s => Ok (s, ix + incx))) (s, ix0))
             (fun '(s, _) => Ok s)) (I (Z.max 0 n)).
Proof.
  cbv zeta. intros Hs H0.
  eapply returns_bind with (P := fun '(s, ix) => I (Z.max 0 (hi - lo)) s /\ ix = ix0 + (Z.max 0 (hi - lo)) * incx).
  - replace (Z.max 0 (hi - lo)) with (Z.max lo hi - lo) by lia.
    apply (zfor_inv_max (fun i '(s, ix) => I (i - lo) s /\ ix = ix0 + (i - lo) * incx)).
    + replace (lo - lo) with 0 by lia. split; auto; lia.
    + intros i [s' ix] Hi [HI ->].
      eapply returns_bind; [apply Hs; [lia|exact HI]|]. intros s'' H''. cbn.
      replace (i + 1 - lo) with (i - lo + 1) by lia. split; auto; lia.
  - intros [s' ix] [HI _]. exact HI.
Qed.
Lemma cursor2_loop {S} (I : Z -> S -> Prop) (step : Z -> Z -> S -> res S) lo hi ix0 incx iy0 incy s :
  let n := hi - lo in
  (forall i s, 0 <= i < n -> I i s -> returns (step (ix0 + i * incx) (iy0 + i * incy) s) (I (i + 1))) -> I 0 s ->
  returns (bind (zfor lo hi (fun _ '(s, ix, iy) => bind (step ix iy s) (fun s => Ok (s, ix + incx, iy + incy))) (s, ix0, iy0))
             (fun '(s, _, _) => Ok s)) (I (Z.max 0 n)).
Proof.
  cbv zeta. intros Hs H0.
  eapply returns_bind with (P := fun '(s, ix, iy) => I (Z.max 0 (hi - lo)) s
      /\ ix = ix0 + (Z.max 0 (hi - lo)) * incx /\ iy = iy0 + (Z.max 0 (hi - lo)) * incy).
  - replace (Z.max 0 (hi - lo)) with (Z.max lo hi - lo) by lia.
    apply (zfor_inv_max (fun i '(s, ix, iy) => I (i - lo) s /\ ix = ix0 + (i - lo) * incx /\ iy = iy0 + (i - lo) * incy)).
    + replace (lo - lo) with 0 by lia. repeat split; auto; lia.
    + intros i [[s' ix] iy] Hi (HI & -> & ->).
      eapply returns_bind; [apply Hs; [lia|exact HI]|]. intros s'' H''. cbn.
      replace (i + 1 - lo) with (i - lo + 1) by lia. repeat split; auto; lia.
  - intros [[s' ix] iy] [HI _]. exact HI.
Qed.

Lemma cursor1_n {S} (I : Z -> S -> Prop) (step : Z -> S -> res S) n lo hi ix0 incx s :
  hi - lo = n -> 0 <= n ->
  (forall i s, 0 <= i < n -> I i s -> returns (step (ix0 + i * incx) s) (I (i + 1))) -> I 0 s ->
  returns (bind (zfor lo hi (fun _ '(s, ix) => bind (step ix s) (fun s => Ok (s, ix + incx))) (s, ix0))
             (fun '(s, _) => Ok s)) (I n).
Proof. intros <- Hn Hs H0. eapply returns_mono; [apply cursor1_loop; eauto|]. rewrite Z.max_r by lia. auto. Qed.
Lemma cursor2_n {S} (I : Z -> S -> Prop) (step : Z -> Z -> S -> res S) n lo hi ix0 incx iy0 incy s :
  hi - lo = n -> 0 <= n ->
  (forall i s, 0 <= i < n -> I i s -> returns (step (ix0 + i * incx) (iy0 + i * incy) s) (I (i + 1))) -> I 0 s ->
  returns (bind (zfor lo hi (fun _ '(s, ix, iy) => bind (step ix iy s) (fun s => Ok (s, ix + incx, iy + incy))) (s, ix0, iy0))
             (fun '(s, _, _) => Ok s)) (I n).
Proof. intros <- Hn Hs H0. eapply returns_mono; [apply cursor2_loop; eauto|]. rewrite Z.max_r by lia. auto. Qed.
(** plain loop with shifted index *)
Lemma plain_n {S} (I : Z -> S -> Prop) (body : Z -> S -> res S) n lo hi s :
  hi - lo = n -> 0 <= n ->
  (forall i s, 0 <= i < n -> I i s -> returns (body (lo + i) s) (I (i + 1))) -> I 0 s ->
  returns (zfor lo hi body s) (I n).
Proof.
  intros <- Hn Hs H0.
  apply (zfor_inv (fun i s => I (i - lo) s)); auto; [lia|rewrite Z.sub_diag; auto|].
  intros i s' Hi HI. replace i with (lo + (i - lo)) at 1 by lia.
  replace (i + 1 - lo) with (i - lo + 1) by lia. apply Hs; auto; lia.
Qed.

(** clean-up loop followed by an unrolled loop *)
Lemma unrolled_inv {S} (I : Z -> S -> Prop) n u (step body : Z -> S -> res S) s :
  0 < u -> 0 < n ->
  (forall i s, 0 <= i < n -> I i s -> returns (step i s) (I (i + 1))) ->
  (forall i s, 0 <= i -> i + u <= n -> I i s -> returns (body i s) (I (i + u))) ->
  I 0 s ->
  returns (bind (zfor 0 (Z.rem n u) step s) (fun s =>
     if negb (Z.rem n u =? 0) && (n <? u) then Ok s else zforstep (Z.rem n u) n u body s)) (I n).
Proof.
  intros Hu Hn Hs Hb H0. rewrite Z.rem_mod_nonneg by lia.
  pose proof (Z.mod_pos_bound n u Hu) as Hm. pose proof (Z.div_mod n u ltac:(lia)) as Hd.
  pose proof (Z.div_pos n u ltac:(lia) Hu) as Hq.
  eapply returns_bind with (P := I (n mod u)).
  - apply zfor_inv; auto; [lia|]. intros; apply Hs; auto. nia.
  - intros s1 H1. destruct (negb _ && _) eqn:E.
    + apply andb_true_iff in E as [_ E]. apply Z.ltb_lt in E. rewrite Z.mod_small in H1 by lia. exact H1.
    + assert (En : n = n mod u + u * ((n - n mod u + u - 1) / u)).
      { replace (n - n mod u + u - 1) with ((u - 1) + (n / u) * u) by lia.
        rewrite Z.div_add, Z.div_small by lia. lia. }
      apply returns_mono with (P := I (n mod u + u * ((n - n mod u + u - 1) / u)));
        [|rewrite <- En; auto].
      apply (zforstep_inv (fun t => I (n mod u + u * t))); auto; [nia| |].
      { rewrite Z.mul_0_r, Z.add_0_r. exact H1. }
      { intros t s2 Ht Hlt H2. replace (n mod u + u * (t + 1)) with (n mod u + u * t + u) by lia.
        assert (t < n / u) by (apply (Z.mul_lt_mono_pos_l u); lia).
        assert (u * (t + 1) <= u * (n / u)) by (apply Z.mul_le_mono_nonneg_l; lia).
        apply Hb; auto; [|lia]. assert (0 <= u * t) by (apply Z.mul_nonneg_nonneg; lia). lia. }
Qed.

Lemma vpos_dec n inc p : inc <> 0 -> (exists i, 0 <= i < n /\ p = vpos n inc i) \/ (forall i, 0 <= i < n -> p <> vpos n inc i).
Proof.
  intros Hinc. destruct (Z.eq_dec p (vpos n inc ((p - vpos n inc 0) / inc))) as [E|E].
  - destruct (Z_le_gt_dec 0 ((p - vpos n inc 0) / inc)); [destruct (Z_lt_ge_dec ((p - vpos n inc 0) / inc) n)|].
    + left. eauto.
    + right. intros i Hi Hp. rewrite Hp in E at 1. apply vpos_inj in E; auto. lia.
    + right. intros i Hi Hp. rewrite Hp in E at 1. apply vpos_inj in E; auto. lia.
  - right. intros i Hi Hp. apply E. rewrite Hp at 1. f_equal. rewrite Hp, (vpos_lin n inc i).
    replace (vpos n inc 0 + i * inc - vpos n inc 0) with (i * inc) by lia. rewrite Z.div_mul; auto.
Qed.
Lemma vec_unique {A} (x x1 x2 : arr A) n inc w : inc <> 0 ->
  holds_vec x1 n inc w /\ same_but_vec x x1 n inc -> holds_vec x2 n inc w /\ same_but_vec x x2 n inc -> same x1 x2.
Proof.
  intros Hinc [H1 S1] [H2 S2] p. destruct (vpos_dec n inc p Hinc) as [(i & Hi & ->)|Hn].
  - rewrite H1, H2; auto.
  - rewrite S1, S2; auto.
Qed.
