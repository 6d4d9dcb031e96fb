(** Expansion and contraction: loop proofs. *)
From Coq Require Import ZArith Lia Bool Ascii Ring.
From Verif Require Import Num Res ResFacts Spec SpecFacts SpecExp VecFacts LoopFacts GemmLoops MQuat MForL1 MForL2 MForL3 MUtil.
Local Open Scope Z_scope.

(** cursor variables advanced once per iteration *)
Lemma cursor_elim {S} lo hi (body : Z -> Z -> S -> res S) s ix0 inc :
  bind (zfor lo hi (fun i '(s, ix) => bind (body i ix s) (fun s => Ok (s, ix + inc))) (s, ix0)) (fun '(s, _) => Ok s) =
  zfor lo hi (fun i s => body i (ix0 + (i - lo) * inc) s) s.
Proof.
  unfold zfor. generalize (Z.to_nat (hi - lo)); intros n.
  assert (G : forall n k s, 0 <= k -> bind (floop n (lo + k) (fun i '(s, ix) => bind (body i ix s) (fun s => Ok (s, ix + inc))) (s, ix0 + k * inc)) (fun '(s, _) => Ok s) =
     floop n (lo + k) (fun i s => body i (ix0 + (i - lo) * inc) s) s).
  { clear. induction n as [|n IH]; intros k s Hk; cbn [floop bind]; auto.
    replace (ix0 + (lo + k - lo) * inc) with (ix0 + k * inc) by lia.
    destruct (body (lo + k) (ix0 + k * inc) s) as [s'| |]; cbn [bind]; auto.
    specialize (IH (k + 1) s' ltac:(lia)). replace (lo + (k + 1)) with (lo + k + 1) in IH by lia.
    replace (ix0 + (k + 1) * inc) with (ix0 + k * inc + inc) in IH by lia. exact IH. }
  specialize (G n 0 s ltac:(lia)). rewrite !Z.add_0_r in G. exact G.
Qed.

(** blocks of stores *)
Section Scatter.
Context {A : Type}.
Variables (s m n : Z) (P : Z -> Z -> Z -> Z -> Z) (V : Z -> Z -> Z -> Z -> A).
Definition blockat (i j : Z) (b' : arr A) : Prop := forall d e, 0 <= d < s -> 0 <= e < s -> b' (P i j d e) = Some (V i j d e).
Definition outside (i j p : Z) : Prop := forall d e, 0 <= d < s -> 0 <= e < s -> p <> P i j d e.
Hypothesis Hdis : forall i j d e i' j' d' e', 0 <= i < m -> 0 <= j < n -> 0 <= i' < m -> 0 <= j' < n ->
  0 <= d < s -> 0 <= e < s -> 0 <= d' < s -> 0 <= e' < s -> P i j d e = P i' j' d' e' -> i = i' /\ j = j'.

Lemma scatter (b : arr A) (step : Z -> Z -> arr A -> res (arr A)) : 0 <= m -> 0 <= n ->
  (forall i j d e, 0 <= i < m -> 0 <= j < n -> 0 <= d < s -> 0 <= e < s -> b (P i j d e) <> None) ->
  (forall i j b, 0 <= i < m -> 0 <= j < n -> (forall d e, 0 <= d < s -> 0 <= e < s -> b (P i j d e) <> None) ->
     returns (step (1 + j) (1 + i) b) (fun b' => blockat i j b' /\ forall p, outside i j p -> b' p = b p)) ->
  returns (fdo 1 n (fun j b => fdo 1 m (step j) b) b) (fun b' =>
    (forall i j, 0 <= i < m -> 0 <= j < n -> blockat i j b') /\
    forall p, (forall i j, 0 <= i < m -> 0 <= j < n -> outside i j p) -> b' p = b p).
Proof.
  intros Hm Hn Hal Hs.
  set (Inv := fun j i (b' : arr A) =>
    (forall i' j', 0 <= i' < m -> 0 <= j' < n -> (j' < j \/ (j' = j /\ i' < i)) -> blockat i' j' b') /\
    (forall p, (forall i' j', 0 <= i' < m -> 0 <= j' < n -> (j' < j \/ (j' = j /\ i' < i)) -> outside i' j' p) -> b' p = b p)).
  unfold fdo. eapply returns_mono.
  - apply (plain_n (fun j b' => Inv j 0 b') _ n); [lia|lia| |].
    2:{ split; auto. intros; lia. }
    intros j b1 Hj HI. eapply returns_mono.
    + apply (plain_n (fun i b' => Inv j i b') (step (1 + j)) m); [lia|lia| |exact HI].
      intros i b2 Hi [B2 F2].
      assert (Hdis' : forall i' j', 0 <= i' < m -> 0 <= j' < n -> (i', j') <> (i, j) -> forall d e, 0 <= d < s -> 0 <= e < s -> outside i' j' (P i j d e)).
      { intros i' j' Hi' Hj' Hne d e Hd He d' e' Hd' He' E. apply Hdis in E; auto. destruct E; subst; congruence. }
      eapply returns_mono; [apply (Hs i j b2); auto|].
      * intros d e Hd He. rewrite F2; auto. intros i' j' Hi' Hj' Hdone. apply Hdis'; auto. intros E; injection E as -> ->; lia.
      * intros b3 [B3 F3]. split.
        -- intros i' j' Hi' Hj' Hdone. destruct (Z.eq_dec i' i) as [->|]; [destruct (Z.eq_dec j' j) as [->|]; [exact B3|]|].
           ++ intros d e Hd He. rewrite F3; [apply B2; auto; lia|]. intros d' e' Hd' He' E. apply Hdis in E; auto; lia.
           ++ intros d e Hd He. rewrite F3; [apply B2; auto; lia|]. intros d' e' Hd' He' E. apply Hdis in E; auto; lia.
        -- intros p Hp. rewrite F3; [apply F2|]; [intros; apply Hp; auto; lia|apply Hp; auto; lia].
    + intros b2 [B2 F2]. split.
      * intros i' j' Hi' Hj' Hdone. apply B2; auto. lia.
      * intros p Hp. apply F2. intros; apply Hp; auto; lia.
  - intros b' [B F]. split.
    + intros i j Hi Hj. apply B; auto; lia.
    + intros p Hp. apply F. intros; apply Hp; auto.
Qed.
End Scatter.

Lemma st_alloc {A} (m : arr A) i v : m i <> None -> st m i v = Ok (upd m i v).
Proof. unfold st. destruct (m i); congruence. Qed.
Lemma upd_alloc {A} (m : arr A) i v k : m k <> None -> upd m i v k <> None.
Proof. unfold upd. destruct (k =? i); congruence. Qed.

Section Put.
Context {K : num}.
(** four stores *)
Lemma hzexp_put_ok (q : quat K) (b : arr (cplx K)) ldb r1 r2 s1 s2 (P : Z -> Z -> Z) :
  (forall d e, 0 <= d < 2 -> 0 <= e < 2 -> P d e = fpos ldb (if d =? 0 then r1 else r2) (if e =? 0 then s1 else s2)) ->
  (forall d e d' e', 0 <= d < 2 -> 0 <= e < 2 -> 0 <= d' < 2 -> 0 <= e' < 2 -> P d e = P d' e' -> d = d' /\ e = e') ->
  (forall d e, 0 <= d < 2 -> 0 <= e < 2 -> b (P d e) <> None) ->
  returns (hzexp_put q r1 r2 s1 s2 b ldb) (fun b' =>
    (forall d e, 0 <= d < 2 -> 0 <= e < 2 -> b' (P d e) = Some (cblock q d e)) /\
    forall p, (forall d e, 0 <= d < 2 -> 0 <= e < 2 -> p <> P d e) -> b' p = b p).
Proof.
  intros HP Hinj Hal. unfold hzexp_put.
  pose proof (HP 0 0 ltac:(lia) ltac:(lia)) as E00. pose proof (HP 0 1 ltac:(lia) ltac:(lia)) as E01.
  pose proof (HP 1 0 ltac:(lia) ltac:(lia)) as E10. pose proof (HP 1 1 ltac:(lia) ltac:(lia)) as E11.
  cbn in E00, E01, E10, E11. rewrite <- E00, <- E01, <- E10, <- E11.
  assert (N : forall d e d' e', 0 <= d < 2 -> 0 <= e < 2 -> 0 <= d' < 2 -> 0 <= e' < 2 -> (d, e) <> (d', e') -> P d e <> P d' e').
  { intros d e d' e' H1 H2 H3 H4 Hne E. apply Hinj in E; auto. destruct E; subst; congruence. }
  rewrite (st_alloc b) by (apply Hal; lia). cbn [bind].
  rewrite st_alloc by (apply upd_alloc, Hal; lia). cbn [bind].
  rewrite st_alloc by (do 2 apply upd_alloc; apply Hal; lia). cbn [bind].
  rewrite st_alloc by (do 3 apply upd_alloc; apply Hal; lia). cbn [returns]. split.
  - intros d e Hd He. assert (d = 0 \/ d = 1) as [->| ->] by lia; assert (e = 0 \/ e = 1) as [->| ->] by lia;
      repeat (rewrite upd_diff by (apply N; try lia; discriminate)); rewrite ?upd_same; try reflexivity.
  - intros p Hp. rewrite !upd_diff by (apply Hp; lia). reflexivity.
Qed.
(** sixteen stores *)
Lemma hdexp_put_ok (q : quat K) (b : arr K) ldb ib jb (P : Z -> Z -> Z) :
  (forall d e, P d e = fpos ldb (ib + d) (jb + e)) ->
  (forall d e d' e', 0 <= d < 4 -> 0 <= e < 4 -> 0 <= d' < 4 -> 0 <= e' < 4 -> P d e = P d' e' -> d = d' /\ e = e') ->
  (forall d e, 0 <= d < 4 -> 0 <= e < 4 -> b (P d e) <> None) ->
  returns (hdexp_put q ib jb b ldb) (fun b' =>
    (forall d e, 0 <= d < 4 -> 0 <= e < 4 -> b' (P d e) = Some (rblock q d e)) /\
    forall p, (forall d e, 0 <= d < 4 -> 0 <= e < 4 -> p <> P d e) -> b' p = b p).
Proof.
  intros HP Hinj Hal. unfold hdexp_put. rewrite <- (Z.add_0_r ib), <- (Z.add_0_r jb).
  replace (ib + 0 + 1) with (ib + 1) by lia. replace (ib + 0 + 2) with (ib + 2) by lia. replace (ib + 0 + 3) with (ib + 3) by lia.
  replace (jb + 0 + 1) with (jb + 1) by lia. replace (jb + 0 + 2) with (jb + 2) by lia. replace (jb + 0 + 3) with (jb + 3) by lia.
  rewrite <- !HP.
  assert (N : forall d e d' e', 0 <= d < 4 -> 0 <= e < 4 -> 0 <= d' < 4 -> 0 <= e' < 4 -> (d, e) <> (d', e') -> P d e <> P d' e').
  { intros d e d' e' H1 H2 H3 H4 Hne E. apply Hinj in E; auto. destruct E; subst; congruence. }
  do 16 (rewrite st_alloc by (repeat apply upd_alloc; apply Hal; lia); cbn [bind]).
  cbn [returns]. split.
  - intros d e Hd He. assert (d = 0 \/ d = 1 \/ d = 2 \/ d = 3) as [->|[->|[->| ->]]] by lia;
      assert (e = 0 \/ e = 1 \/ e = 2 \/ e = 3) as [->|[->|[->| ->]]] by lia;
      repeat (rewrite upd_diff by (apply N; try lia; discriminate)); rewrite upd_same; destruct q; reflexivity.
  - intros p Hp. rewrite !upd_diff by (apply Hp; lia). reflexivity.
Qed.
End Put.

Lemma brow_range o m i d : 0 <= i < m -> 0 <= d < 2 -> 0 <= brow o m i d < 2 * m.
Proof. destruct o; cbn [brow]; nia. Qed.
Lemma brow_inj o m i d i' d' : 0 <= i < m -> 0 <= d < 2 -> 0 <= i' < m -> 0 <= d' < 2 -> brow o m i d = brow o m i' d' -> i = i' /\ d = d'.
Proof. destruct o; cbn [brow]; intros; [lia|]. assert (d = d') by nia. subst. lia. Qed.
(** inverse of [brow] *)
Definition bidx (o : border) (m r : Z) : Z := match o with BF => r / 2 | BS => r mod m end.
Definition bsub (o : border) (m r : Z) : Z := match o with BF => r mod 2 | BS => r / m end.
Lemma brow_surj o m r : 0 <= r < 2 * m -> brow o m (bidx o m r) (bsub o m r) = r /\ 0 <= bidx o m r < m /\ 0 <= bsub o m r < 2.
Proof.
  intros Hr. destruct o; cbn [brow bidx bsub].
  - pose proof (Z.div_mod r 2 ltac:(lia)). pose proof (Z.mod_pos_bound r 2 ltac:(lia)). lia.
  - pose proof (Z.div_mod r m ltac:(lia)). pose proof (Z.mod_pos_bound r m ltac:(lia)).
    assert (0 <= r / m) by (apply Z.div_pos; lia). assert (r / m < 2) by (apply Z.div_lt_upper_bound; lia).
    repeat split; try lia. 
Qed.
Lemma bidx_brow o m i d : 0 <= i < m -> 0 <= d < 2 -> bidx o m (brow o m i d) = i /\ bsub o m (brow o m i d) = d.
Proof.
  intros Hi Hd. pose proof (brow_range o m i d Hi Hd) as Hr. destruct (brow_surj o m _ Hr) as [E [R1 R2]].
  apply brow_inj in E; auto.
Qed.

Section E.
Context {K : num}.
Implicit Types (a : arr (quat K)) (b : arr (cplx K)).

(** the expanded matrix as a 2M x 2N function *)
Definition cexp (o : border) (m n : Z) (A : Z -> Z -> quat K) (r c : Z) : cplx K :=
  cblock (A (bidx o m r) (bidx o n c)) (bsub o m r) (bsub o n c).
Lemma cexp_mat o b ldb m n A : holds_cexp o b ldb m n A -> holds_mat b ldb (2 * m) (2 * n) (cexp o m n A).
Proof.
  intros Hb r c Hr Hc. destruct (brow_surj o m r Hr) as [Er [R1 R2]]. destruct (brow_surj o n c Hc) as [Ec [R3 R4]].
  specialize (Hb _ _ _ _ R1 R3 R2 R4). rewrite Er, Ec in Hb. exact Hb.
Qed.
Lemma cexp_brow o m n A i j d e : 0 <= i < m -> 0 <= j < n -> 0 <= d < 2 -> 0 <= e < 2 ->
  cexp o m n A (brow o m i d) (brow o n j e) = cblock (A i j) d e.
Proof. intros Hi Hj Hd He. unfold cexp. destruct (bidx_brow o m i d Hi Hd) as [-> ->]. destruct (bidx_brow o n j e Hj He) as [-> ->]. auto. Qed.


Lemma exp_loops o m n a lda b ldb A (step : Z -> Z -> arr (cplx K) -> res (arr (cplx K))) :
  0 <= m -> 0 <= n -> 2 * m <= ldb -> holds_mat a lda m n A -> alloc_mat b ldb (2 * m) (2 * n) ->
  (forall i j b, 0 <= i < m -> 0 <= j < n ->
     step (1 + j) (1 + i) b = bind (ld a (fpos lda (1 + i) (1 + j))) (fun q =>
       hzexp_put q (1 + brow o m i 0) (1 + brow o m i 1) (1 + brow o n j 0) (1 + brow o n j 1) b ldb)) ->
  returns (fdo 1 n (fun j b => fdo 1 m (step j) b) b) (fun b' => holds_cexp o b' ldb m n A /\ same_but_mat b b' ldb (2 * m) (2 * n)).
Proof.
  intros Hm Hn Hld HA Hal Hst.
  assert (Hpos : forall i j d e i' j' d' e', 0 <= i < m -> 0 <= j < n -> 0 <= i' < m -> 0 <= j' < n ->
     0 <= d < 2 -> 0 <= e < 2 -> 0 <= d' < 2 -> 0 <= e' < 2 ->
     brow o m i d + brow o n j e * ldb = brow o m i' d' + brow o n j' e' * ldb -> (i = i' /\ d = d') /\ (j = j' /\ e = e')).
  { intros. pose proof (brow_range o m i d). pose proof (brow_range o m i' d').
    apply (mpos_inj ldb (2 * m)) in H7; auto. destruct H7 as [E1 E2]. apply brow_inj in E1; auto. apply brow_inj in E2; auto. }
  eapply returns_mono.
  - apply (scatter 2 m n (fun i j d e => brow o m i d + brow o n j e * ldb) (fun i j d e => cblock (A i j) d e)); auto.
    + intros. destruct (Hpos _ _ _ _ _ _ _ _ H H0 H1 H2 H3 H4 H5 H6 H7) as [[-> _] [-> _]]. auto.
    + intros. apply Hal; apply brow_range; auto.
    + intros i j b1 Hi Hj Hal1. rewrite Hst by auto.
      assert (E : ld a (fpos lda (1 + i) (1 + j)) = Ok (A i j)).
      { apply ld_some. unfold fpos. replace (1 + i - 1 + (1 + j - 1) * lda) with (i + j * lda) by lia. apply HA; auto. }
      rewrite E. cbn [bind].
      eapply returns_mono; [apply (hzexp_put_ok (A i j) b1 ldb _ _ _ _ (fun d e => brow o m i d + brow o n j e * ldb))| ].
      * intros d e Hd He. unfold fpos. assert (d = 0 \/ d = 1) as [->| ->] by lia; assert (e = 0 \/ e = 1) as [->| ->] by lia; cbn [Z.eqb]; lia.
      * intros d e d' e' Hd He Hd' He' E1. apply Hpos in E1; auto. tauto.
      * intros; apply Hal1; auto.
      * intros b2 [B F]. split; auto.
  - intros b' [B F]. split.
    + intros i j d e Hi Hj Hd He. apply (B i j Hi Hj d e Hd He).
    + intros p Hp. apply F. intros i j Hi Hj d e Hd He. apply Hp; apply brow_range; auto.
Qed.

Lemma hzexp1_ok m n a lda b ldb A : 0 <= m -> 0 <= n -> 2 * m <= ldb -> holds_mat a lda m n A -> alloc_mat b ldb (2 * m) (2 * n) ->
  returns (hzexp1 m n a lda b ldb) (fun b' => holds_cexp BF b' ldb m n A /\ same_but_mat b b' ldb (2 * m) (2 * n)).
Proof.
  intros Hm Hn Hld HA Hal. unfold hzexp1, fdo.
  match goal with |- returns (bind (zfor 1 (n + 1) ?f (b, 1)) _) _ =>
    assert (E : forall s, zfor 1 (n + 1) f s = zfor 1 (n + 1) (fun j '(b, jb) => bind (zfor 1 (m + 1) (fun i b =>
      bind (ld a (fpos lda i j)) (fun q => hzexp_put q (1 + (i - 1) * 2) (1 + (i - 1) * 2 + 1) jb (jb + 1) b ldb)) b) (fun b => Ok (b, jb + 2))) s) end.
  { intros s. apply zfor_ext. intros j [b1 jb] _.
    rewrite <- (cursor_elim 1 (m + 1) (fun i ib b => bind (ld a (fpos lda i j)) (fun q => hzexp_put q ib (ib + 1) jb (jb + 1) b ldb)) b1 1 2).
    rewrite bind_assoc.
    rewrite (zfor_ext 1 (m + 1) _ (fun i '(b, ib) => bind (bind (ld a (fpos lda i j)) (fun q => hzexp_put q ib (ib + 1) jb (jb + 1) b ldb)) (fun s => Ok (s, ib + 2)))) by (intros i [b2 ib] _; symmetry; apply bind_assoc).
    match goal with |- bind ?x _ = bind ?y _ => destruct x as [[? ?]| |]; reflexivity end. }
  rewrite E. clear E.
  rewrite (cursor_elim 1 (n + 1) (fun j jb b => zfor 1 (m + 1) (fun i b =>
      bind (ld a (fpos lda i j)) (fun q => hzexp_put q (1 + (i - 1) * 2) (1 + (i - 1) * 2 + 1) jb (jb + 1) b ldb)) b) b 1 2).
  apply (exp_loops BF m n a lda b ldb A (fun j i b => bind (ld a (fpos lda i j)) (fun q => hzexp_put q (1 + (i - 1) * 2) (1 + (i - 1) * 2 + 1) (1 + (j - 1) * 2) (1 + (j - 1) * 2 + 1) b ldb))); auto.
  intros i j b1 Hi Hj. cbn [brow]. f_equal.
  replace (1 + (2 * i + 0)) with (1 + (1 + i - 1) * 2) by lia. replace (1 + (2 * i + 1)) with (1 + (1 + i - 1) * 2 + 1) by lia.
  replace (1 + (2 * j + 0)) with (1 + (1 + j - 1) * 2) by lia. replace (1 + (2 * j + 1)) with (1 + (1 + j - 1) * 2 + 1) by lia. reflexivity.
Qed.
Lemma hzexp2_ok m n a lda b ldb A : 0 <= m -> 0 <= n -> 2 * m <= ldb -> holds_mat a lda m n A -> alloc_mat b ldb (2 * m) (2 * n) ->
  returns (hzexp2 m n a lda b ldb) (fun b' => holds_cexp BS b' ldb m n A /\ same_but_mat b b' ldb (2 * m) (2 * n)).
Proof.
  intros Hm Hn Hld HA Hal. unfold hzexp2.
  apply (exp_loops BS m n a lda b ldb A (fun j i b => bind (ld a (fpos lda i j)) (fun q => hzexp_put q i (i + m) j (j + n) b ldb))); auto.
  intros i j b1 Hi Hj. cbn [brow].
  replace (1 + (i + 0 * m)) with (1 + i) by lia. replace (1 + (i + 1 * m)) with (1 + i + m) by lia.
  replace (1 + (j + 0 * n)) with (1 + j) by lia. replace (1 + (j + 1 * n)) with (1 + j + n) by lia. reflexivity.
Qed.
Lemma complex_expand_ok c o m n a lda b ldb A : order_char c = Some o ->
  0 <= m -> 0 <= n -> 2 * m <= ldb -> holds_mat a lda m n A -> alloc_mat b ldb (2 * m) (2 * n) ->
  returns (complex_expand c m n a lda b ldb) (fun b' => holds_cexp o b' ldb m n A /\ same_but_mat b b' ldb (2 * m) (2 * n)).
Proof.
  unfold order_char, complex_expand. destruct (Ascii.eqb_spec c "F") as [->|Hf].
  - intros E; injection E as <-. apply hzexp1_ok.
  - destruct (Ascii.eqb_spec c "S") as [->|Hs]; [|discriminate]. intros E; injection E as <-. apply hzexp2_ok.
Qed.

End E.

(** real expansion *)
Section ER.
Context {K : num}.
Implicit Types (a : arr (quat K)).
Lemma hdexp_ok m n a lda (b : arr K) ldb A : 0 <= m -> 0 <= n -> 4 * m <= ldb -> holds_mat a lda m n A -> alloc_mat b ldb (4 * m) (4 * n) ->
  returns (hdexp m n a lda b ldb) (fun b' => holds_rexp b' ldb m n A /\ same_but_mat b b' ldb (4 * m) (4 * n)).
Proof.
  intros Hm Hn Hld HA Hal. unfold hdexp, fdo.
  match goal with |- returns (bind (zfor 1 (n + 1) ?f (b, 1)) _) _ =>
    assert (E : forall s, zfor 1 (n + 1) f s = zfor 1 (n + 1) (fun j '(b, jb) => bind (zfor 1 (m + 1) (fun i b =>
      bind (ld a (fpos lda i j)) (fun q => hdexp_put q (1 + (i - 1) * 4) jb b ldb)) b) (fun b => Ok (b, jb + 4))) s) end.
  { intros s. apply zfor_ext. intros j [b1 jb] _.
    rewrite <- (cursor_elim 1 (m + 1) (fun i ib b => bind (ld a (fpos lda i j)) (fun q => hdexp_put q ib jb b ldb)) b1 1 4).
    rewrite bind_assoc.
    rewrite (zfor_ext 1 (m + 1) _ (fun i '(b, ib) => bind (bind (ld a (fpos lda i j)) (fun q => hdexp_put q ib jb b ldb)) (fun s => Ok (s, ib + 4)))) by (intros i [b2 ib] _; symmetry; apply bind_assoc).
    match goal with |- bind ?x _ = bind ?y _ => destruct x as [[? ?]| |]; reflexivity end. }
  rewrite E. clear E.
  rewrite (cursor_elim 1 (n + 1) (fun j jb b => zfor 1 (m + 1) (fun i b =>
      bind (ld a (fpos lda i j)) (fun q => hdexp_put q (1 + (i - 1) * 4) jb b ldb)) b) b 1 4).
  eapply returns_mono.
  - apply (scatter 4 m n (fun i j d e => (4 * i + d) + (4 * j + e) * ldb) (fun i j d e => rblock (A i j) d e)) with
      (step := fun j i b => bind (ld a (fpos lda i j)) (fun q => hdexp_put q (1 + (i - 1) * 4) (1 + (j - 1) * 4) b ldb)); auto.
    + intros. apply (mpos_inj ldb (4 * m)) in H7; lia.
    + intros. apply Hal; lia.
    + intros i j b1 Hi Hj Hal1.
      assert (E : ld a (fpos lda (1 + i) (1 + j)) = Ok (A i j)).
      { apply ld_some. unfold fpos. replace (1 + i - 1 + (1 + j - 1) * lda) with (i + j * lda) by lia. apply HA; auto. }
      rewrite E. cbn [bind].
      eapply returns_mono; [apply (hdexp_put_ok (A i j) b1 ldb _ _ (fun d e => (4 * i + d) + (4 * j + e) * ldb))| ].
      * intros d e. unfold fpos. nia.
      * intros d e d' e' Hd He Hd' He' E1. apply (mpos_inj ldb (4 * m)) in E1; lia.
      * intros; apply Hal1; auto.
      * intros b2 [B F]. split; auto.
  - intros b' [B F]. split.
    + intros i j d e Hi Hj Hd He. apply (B i j Hi Hj d e Hd He).
    + intros p Hp. apply F. intros i j Hi Hj d e Hd He. apply Hp; lia.
Qed.
End ER.
