(** Contraction, round trips and homomorphism laws. *)
From Coq Require Import ZArith Lia Bool Ascii Ring.
From Verif Require Import Num Res ResFacts Spec SpecFacts SpecExp VecFacts LoopFacts GemmLoops MQuat MForL1 MForL2 MForL3 MUtil UtilFacts.
Local Open Scope Z_scope.

Lemma lsame_U c : lsame c "U" = true <-> c = "U"%char \/ c = "u"%char.
Proof.
  destruct c as [[] [] [] [] [] [] [] []]; vm_compute; split; intros; try reflexivity; try discriminate; auto;
    match goal with H : _ \/ _ |- _ => destruct H; discriminate end.
Qed.

Section C.
Context {K : num}.
Implicit Types (a : arr (quat K)) (b : arr (cplx K)) (Zm : Z -> Z -> cplx K) (up : bool).

(** what contraction makes of a complex matrix [Zm] *)
Definition con_elt (o : border) (up : bool) (m n : Z) (Zm : Z -> Z -> cplx K) (i j : Z) : quat K :=
  let z := Zm (brow o m i 0) (brow o n j 0) in
  let w := if up then Zm (brow o m i 0) (brow o n j 1) else Zopp (Zconj (Zm (brow o m i 1) (brow o n j 0))) in
  Quat (re z) (im z) (re w) (im w).

Lemma get_ok o up m n b ldb Zm i j : 0 <= i < m -> 0 <= j < n ->
  (forall i j, 0 <= i < m -> 0 <= j < n -> b (brow o m i 0 + brow o n j 0 * ldb) = Some (Zm (brow o m i 0) (brow o n j 0))) ->
  (forall i j, 0 <= i < m -> 0 <= j < n -> if up then b (brow o m i 0 + brow o n j 1 * ldb) = Some (Zm (brow o m i 0) (brow o n j 1))
     else b (brow o m i 1 + brow o n j 0 * ldb) = Some (Zm (brow o m i 1) (brow o n j 0))) ->
  hzcon_get up b ldb (1 + brow o m i 0) (1 + brow o m i 1) (1 + brow o n j 0) (1 + brow o n j 1) = Ok (con_elt o up m n Zm i j).
Proof.
  intros Hi Hj H1 H2. unfold hzcon_get.
  assert (E : forall r c, fpos ldb (1 + r) (1 + c) = r + c * ldb) by (intros; unfold fpos; lia). rewrite !E.
  rewrite (ld_some _ _ _ (H1 i j Hi Hj)). cbn [bind]. specialize (H2 i j Hi Hj). unfold con_elt.
  destruct up; rewrite (ld_some _ _ _ H2); cbn [bind]; reflexivity.
Qed.

Lemma con_loops o up m n a lda b ldb Zm (step : Z -> Z -> arr (quat K) -> res (arr (quat K))) :
  0 <= m -> 0 <= n -> m <= lda -> alloc_mat a lda m n ->
  (forall i j, 0 <= i < m -> 0 <= j < n -> b (brow o m i 0 + brow o n j 0 * ldb) = Some (Zm (brow o m i 0) (brow o n j 0))) ->
  (forall i j, 0 <= i < m -> 0 <= j < n -> if up then b (brow o m i 0 + brow o n j 1 * ldb) = Some (Zm (brow o m i 0) (brow o n j 1))
     else b (brow o m i 1 + brow o n j 0 * ldb) = Some (Zm (brow o m i 1) (brow o n j 0))) ->
  (forall i j a, 0 <= i < m -> 0 <= j < n ->
     step (1 + j) (1 + i) a = bind (hzcon_get up b ldb (1 + brow o m i 0) (1 + brow o m i 1) (1 + brow o n j 0) (1 + brow o n j 1))
       (fun q => st a (fpos lda (1 + i) (1 + j)) q)) ->
  returns (fdo 1 n (fun j a => fdo 1 m (step j) a) a) (fun a' => holds_mat a' lda m n (con_elt o up m n Zm) /\ same_but_mat a a' lda m n).
Proof.
  intros Hm Hn Hld Hal H1 H2 Hst. eapply returns_mono.
  - apply (scatter 1 m n (fun i j d e => i + j * lda) (fun i j d e => con_elt o up m n Zm i j)); auto.
    + intros. apply (mpos_inj lda m) in H9; auto.
    + intros i j a1 Hi Hj Hal1. rewrite Hst by auto. rewrite (get_ok o up m n b ldb Zm) by auto. cbn [bind].
      replace (fpos lda (1 + i) (1 + j)) with (i + j * lda) by (unfold fpos; lia).
      rewrite st_alloc by (apply (Hal1 0 0); lia). cbn. split.
      * intros d e _ _. apply upd_same.
      * intros p Hp. apply upd_diff. apply (Hp 0 0); lia.
  - intros a' [B F]. split.
    + intros i j Hi Hj. apply (B i j Hi Hj 0 0); lia.
    + intros p Hp. apply F. intros i j Hi Hj d e _ _. apply Hp; auto.
Qed.

Lemma complex_contract_ok c u o m n a lda b ldb Zm : order_char c = Some o ->
  0 <= m -> 0 <= n -> m <= lda -> alloc_mat a lda m n ->
  (forall i j, 0 <= i < m -> 0 <= j < n -> b (brow o m i 0 + brow o n j 0 * ldb) = Some (Zm (brow o m i 0) (brow o n j 0))) ->
  (forall i j, 0 <= i < m -> 0 <= j < n -> if lsame u "U" then b (brow o m i 0 + brow o n j 1 * ldb) = Some (Zm (brow o m i 0) (brow o n j 1))
     else b (brow o m i 1 + brow o n j 0 * ldb) = Some (Zm (brow o m i 1) (brow o n j 0))) ->
  returns (complex_contract c u m n a lda b ldb) (fun a' => holds_mat a' lda m n (con_elt o (lsame u "U") m n Zm) /\ same_but_mat a a' lda m n).
Proof.
  unfold order_char, complex_contract. destruct (Ascii.eqb_spec c "F") as [->|Hf].
  - intros E Hm Hn Hld Hal H1 H2; injection E as <-. cbn [assertb orb bind]. change (Ascii.eqb "F" "F") with true. cbn [orb assertb bind].
    unfold hzcon1, fdo. set (up := lsame u "U") in *.
    match goal with |- returns (bind (zfor 1 (n + 1) ?f (a, 1)) _) _ =>
      assert (E : forall s, zfor 1 (n + 1) f s = zfor 1 (n + 1) (fun j '(a, jb) => bind (zfor 1 (m + 1) (fun i a =>
        bind (hzcon_get up b ldb (1 + (i - 1) * 2) (1 + (i - 1) * 2 + 1) jb (jb + 1)) (fun q => st a (fpos lda i j) q)) a) (fun a => Ok (a, jb + 2))) s) end.
    { intros s. apply zfor_ext. intros j [b1 jb] _.
      rewrite <- (cursor_elim 1 (m + 1) (fun i ib a => bind (hzcon_get up b ldb ib (ib + 1) jb (jb + 1)) (fun q => st a (fpos lda i j) q)) b1 1 2).
      rewrite bind_assoc.
      rewrite (zfor_ext 1 (m + 1) _ (fun i '(a, ib) => bind (bind (hzcon_get up b ldb ib (ib + 1) jb (jb + 1)) (fun q => st a (fpos lda i j) q)) (fun s => Ok (s, ib + 2)))) by (intros i [b2 ib] _; symmetry; apply bind_assoc).
      match goal with |- bind ?x _ = bind ?y _ => destruct x as [[? ?]| |]; reflexivity end. }
    rewrite E. clear E.
    rewrite (cursor_elim 1 (n + 1) (fun j jb a => zfor 1 (m + 1) (fun i a =>
        bind (hzcon_get up b ldb (1 + (i - 1) * 2) (1 + (i - 1) * 2 + 1) jb (jb + 1)) (fun q => st a (fpos lda i j) q)) a) a 1 2).
    apply (con_loops BF up m n a lda b ldb Zm (fun j i a => bind (hzcon_get up b ldb (1 + (i - 1) * 2) (1 + (i - 1) * 2 + 1) (1 + (j - 1) * 2) (1 + (j - 1) * 2 + 1)) (fun q => st a (fpos lda i j) q))); auto.
    intros i j a1 Hi Hj. cbn [brow].
    replace (1 + (2 * i + 0)) with (1 + (1 + i - 1) * 2) by lia. replace (1 + (2 * i + 1)) with (1 + (1 + i - 1) * 2 + 1) by lia.
    replace (1 + (2 * j + 0)) with (1 + (1 + j - 1) * 2) by lia. replace (1 + (2 * j + 1)) with (1 + (1 + j - 1) * 2 + 1) by lia. reflexivity.
  - destruct (Ascii.eqb_spec c "S") as [->|Hs]; [|discriminate]. intros E Hm Hn Hld Hal H1 H2; injection E as <-.
    change (Ascii.eqb "S" "S") with true. cbn [orb assertb bind]. unfold hzcon2. set (up := lsame u "U") in *.
    apply (con_loops BS up m n a lda b ldb Zm (fun j i a => bind (hzcon_get up b ldb i (i + m) j (j + n)) (fun q => st a (fpos lda i j) q))); auto.
    intros i j a1 Hi Hj. cbn [brow].
    replace (1 + (i + 0 * m)) with (1 + i) by lia. replace (1 + (i + 1 * m)) with (1 + i + m) by lia.
    replace (1 + (j + 0 * n)) with (1 + j) by lia. replace (1 + (j + 1 * n)) with (1 + j + n) by lia. reflexivity.
Qed.

Lemma contract_expanded c u o m n a lda b ldb A : order_char c = Some o ->
  (u = "U"%char \/ u = "u"%char \/ forall x : K, nopp (nopp x) = x) ->
  0 <= m -> 0 <= n -> m <= lda -> alloc_mat a lda m n -> holds_cexp o b ldb m n A ->
  returns (complex_contract c u m n a lda b ldb) (fun a' => holds_mat a' lda m n A /\ same_but_mat a a' lda m n).
Proof.
  intros Hc Hu Hm Hn Hld Hal Hb.
  eapply returns_mono; [apply (complex_contract_ok c u o m n a lda b ldb (cexp o m n A)); auto|].
  - intros i j Hi Hj. rewrite cexp_brow by lia. apply Hb; lia.
  - intros i j Hi Hj. destruct (lsame u "U"); rewrite cexp_brow by lia; apply Hb; lia.
  - intros a' [Ha F]. split; auto. intros i j Hi Hj. rewrite Ha by auto. f_equal. unfold con_elt.
    rewrite !cexp_brow by lia. destruct (A i j) as [q1 q2 q3 q4]. destruct (lsame u "U") eqn:Eu; [reflexivity|].
    destruct Hu as [->|[->|Hu]]; [discriminate|discriminate|]. cbn. rewrite !Hu. reflexivity.
Qed.

Lemma expand_contracted c u o m n a lda b ldb b2 ldb2 Zm : order_char c = Some o ->
  0 <= m -> 0 <= n -> m <= lda -> 2 * m <= ldb2 -> alloc_mat a lda m n -> alloc_mat b2 ldb2 (2 * m) (2 * n) ->
  holds_mat b ldb (2 * m) (2 * n) Zm ->
  (forall i j, 0 <= i < m -> 0 <= j < n ->
     Zm (brow o m i 1) (brow o n j 0) = Zopp (Zconj (Zm (brow o m i 0) (brow o n j 1))) /\
     Zm (brow o m i 1) (brow o n j 1) = Zconj (Zm (brow o m i 0) (brow o n j 0))) ->
  (u = "U"%char \/ u = "u"%char \/ forall x : K, nopp (nopp x) = x) ->
  returns (complex_contract c u m n a lda b ldb) (fun a' =>
  returns (complex_expand c m n a' lda b2 ldb2) (fun b' =>
    holds_mat b' ldb2 (2 * m) (2 * n) Zm /\ same_but_mat b2 b' ldb2 (2 * m) (2 * n))).
Proof.
  intros Hc Hm Hn Hld Hld2 Hal Hal2 Hb Hsym Hu.
  eapply returns_mono; [apply (complex_contract_ok c u o m n a lda b ldb Zm); auto|].
  - intros i j Hi Hj. apply Hb; apply brow_range; lia.
  - intros i j Hi Hj. destruct (lsame u "U"); apply Hb; apply brow_range; lia.
  - intros a' [Ha _]. eapply returns_mono; [apply (complex_expand_ok c o); eauto|].
    intros b' [Hb' F]. split; auto. intros r s Hr Hs.
    destruct (brow_surj o m r Hr) as [Er [R1 R2]]. destruct (brow_surj o n s Hs) as [Es [R3 R4]].
    set (i := bidx o m r) in *. set (j := bidx o n s) in *. set (d := bsub o m r) in *. set (e := bsub o n s) in *.
    rewrite <- Er, <- Es. rewrite Hb' by auto. f_equal. unfold con_elt. destruct (Hsym i j R1 R3) as [S1 S2].
    assert (W : (if lsame u "U" then Zm (brow o m i 0) (brow o n j 1) else Zopp (Zconj (Zm (brow o m i 1) (brow o n j 0)))) = Zm (brow o m i 0) (brow o n j 1)).
    { destruct (lsame u "U") eqn:Eu; auto. destruct Hu as [->|[->|Hu]]; [discriminate|discriminate|].
      rewrite S1. destruct (Zm (brow o m i 0) (brow o n j 1)) as [x y]. unfold Zopp, Zconj; cbn [re im]. rewrite !Hu. reflexivity. }
    rewrite W. assert (d = 0 \/ d = 1) as [->| ->] by lia; assert (e = 0 \/ e = 1) as [->| ->] by lia; cbn [cblock Z.eqb];
      rewrite ?S1, ?S2; destruct (Zm (brow o m i 0) (brow o n j 1)), (Zm (brow o m i 0) (brow o n j 0)); reflexivity.
Qed.
End C.

(** algebra *)
Section Alg.
Context {K : num} (L : laws K).
Add Ring Kr : (l_ring K L).

Lemma cplx_eq (x y : cplx K) : re x = re y -> im x = im y -> x = y.
Proof. destruct x, y; cbn; intros -> ->; auto. Qed.
Lemma Zadd_0_l (x : cplx K) : Zadd Z0 x = x. Proof. apply cplx_eq; cbn; ring. Qed.
Lemma Zadd_assoc (x y z : cplx K) : Zadd x (Zadd y z) = Zadd (Zadd x y) z. Proof. apply cplx_eq; cbn; ring. Qed.
Lemma Zsum_0 f : Zsum (K := K) 0 f = Z0. Proof. reflexivity. Qed.
Lemma Zsum_succ n f : 0 <= n -> Zsum (K := K) (n + 1) f = Zadd (Zsum n f) (f n).
Proof. intros Hn. unfold Zsum. replace (Z.to_nat (n + 1)) with (S (Z.to_nat n)) by lia. cbn [Zsum_nat]. rewrite Z2Nat.id by lia. auto. Qed.
Lemma Zsum_ext n f g : (forall i, 0 <= i < n -> f i = g i) -> Zsum (K := K) n f = Zsum n g.
Proof.
  intros Hfg. unfold Zsum. assert (G : forall k, (k <= Z.to_nat n)%nat -> Zsum_nat k f = Zsum_nat k g).
  { induction k as [|k IH]; intros Hk; cbn [Zsum_nat]; auto. rewrite IH by lia. rewrite Hfg by lia. auto. }
  apply G. lia.
Qed.
Lemma Zsum_split n m f : 0 <= n -> 0 <= m -> Zsum (K := K) (n + m) f = Zadd (Zsum n f) (Zsum m (fun i => f (n + i))).
Proof.
  intros Hn Hm. pattern m. apply natlike_ind; auto.
  - rewrite Z.add_0_r, Zsum_0. apply cplx_eq; cbn; ring.
  - intros p Hp IH. unfold Z.succ. rewrite Z.add_assoc, !Zsum_succ by lia. rewrite IH, Zadd_assoc. auto.
Qed.
Lemma Zsum_add n f g : Zsum (K := K) n (fun i => Zadd (f i) (g i)) = Zadd (Zsum n f) (Zsum n g).
Proof.
  unfold Zsum. induction (Z.to_nat n) as [|m IH]; cbn [Zsum_nat]; [apply cplx_eq; cbn; ring|].
  rewrite IH. apply cplx_eq; cbn; ring.
Qed.
(** a sum over expanded indices *)
Lemma Zsum_brow o k f : 0 <= k -> Zsum (K := K) (2 * k) f = Zsum k (fun l => Zadd (f (brow o k l 0)) (f (brow o k l 1))).
Proof.
  intros Hk. destruct o; cbn [brow].
  - pattern k. apply natlike_ind; auto. intros p Hp IH. unfold Z.succ.
    replace (2 * (p + 1)) with (2 * p + 1 + 1) by lia. rewrite !Zsum_succ by lia. rewrite IH.
    replace (2 * p + 0) with (2 * p) by lia. apply cplx_eq; cbn; ring.
  - replace (2 * k) with (k + k) by lia. rewrite Zsum_split, Zsum_add by auto. f_equal; apply Zsum_ext; intros; f_equal; lia.
Qed.
Lemma Ksum_succ n (f : Z -> K) : 0 <= n -> Ksum (n + 1) f = nadd (Ksum n f) (f n).
Proof. intros Hn. unfold Ksum. replace (Z.to_nat (n + 1)) with (S (Z.to_nat n)) by lia. cbn [Ksum_nat]. rewrite Z2Nat.id by lia. auto. Qed.
Lemma Ksum_ext n (f g : Z -> K) : (forall i, 0 <= i < n -> f i = g i) -> Ksum n f = Ksum n g.
Proof.
  intros Hfg. unfold Ksum. assert (G : forall k, (k <= Z.to_nat n)%nat -> Ksum_nat k f = Ksum_nat k g).
  { induction k as [|k IH]; intros Hk; cbn [Ksum_nat]; auto. rewrite IH by lia. rewrite Hfg by lia. auto. }
  apply G. lia.
Qed.
Lemma Ksum_4 k (f : Z -> K) : 0 <= k -> Ksum (4 * k) f = Ksum k (fun l => nadd (nadd (nadd (f (4 * l)) (f (4 * l + 1))) (f (4 * l + 2))) (f (4 * l + 3))).
Proof.
  intros Hk. pattern k. apply natlike_ind; auto. intros p Hp IH. unfold Z.succ.
  replace (4 * (p + 1)) with (4 * p + 1 + 1 + 1 + 1) by lia. rewrite !Ksum_succ by lia. rewrite IH.
  replace (4 * p + 1 + 1) with (4 * p + 2) by lia. replace (4 * p + 2 + 1) with (4 * p + 3) by lia. ring.
Qed.

Ltac bits d := assert (d = 0 \/ d = 1) as [-> | ->] by lia.
Ltac quads d := assert (d = 0 \/ d = 1 \/ d = 2 \/ d = 3) as [-> | [-> | [-> | ->]]] by lia.
Lemma cblock_mul (p q : quat K) d e : 0 <= d < 2 -> 0 <= e < 2 ->
  cblock (Hmul p q) d e = Zadd (Zmul (cblock p d 0) (cblock q 0 e)) (Zmul (cblock p d 1) (cblock q 1 e)).
Proof. intros Hd He. bits d; bits e; destruct p, q; apply cplx_eq; cbn; ring. Qed.
Lemma cblock_add (p q : quat K) d e : cblock (Hadd p q) d e = Zadd (cblock p d e) (cblock q d e).
Proof. unfold cblock. destruct (d =? 0), (e =? 0), p, q; apply cplx_eq; cbn; ring. Qed.
Lemma cblock_conj (p : quat K) d e : 0 <= d < 2 -> 0 <= e < 2 -> cblock (Hconj p) d e = Zconj (cblock p e d).
Proof. intros Hd He. bits d; bits e; destruct p; apply cplx_eq; cbn; ring. Qed.
Lemma cblock_0 d e : cblock (K := K) Spec.H0 d e = Z0.
Proof. unfold cblock. destruct (d =? 0), (e =? 0); apply cplx_eq; cbn; ring. Qed.
Lemma cblock_sum n f d e : cblock (K := K) (Hsum n f) d e = Zsum n (fun l => cblock (f l) d e).
Proof. unfold Hsum, Zsum. induction (Z.to_nat n) as [|m IH]; cbn [Hsum_nat Zsum_nat]; [apply cblock_0|]. rewrite cblock_add, IH. auto. Qed.
Lemma rblock_mul (p q : quat K) d e : 0 <= d < 4 -> 0 <= e < 4 ->
  rblock (Hmul p q) d e = nadd (nadd (nadd (nmul (rblock p d 0) (rblock q 0 e)) (nmul (rblock p d 1) (rblock q 1 e)))
    (nmul (rblock p d 2) (rblock q 2 e))) (nmul (rblock p d 3) (rblock q 3 e)).
Proof. intros Hd He. quads d; quads e; destruct p, q; cbn; ring. Qed.
Lemma rblock_add (p q : quat K) d e : 0 <= d < 4 -> 0 <= e < 4 -> rblock (Hadd p q) d e = nadd (rblock p d e) (rblock q d e).
Proof. intros Hd He. quads d; quads e; destruct p, q; cbn; ring. Qed.
Lemma rblock_conj (p : quat K) d e : 0 <= d < 4 -> 0 <= e < 4 -> rblock (Hconj p) d e = rblock p e d.
Proof. intros Hd He. quads d; quads e; destruct p; cbn; ring. Qed.
Lemma rblock_0 d e : 0 <= d < 4 -> 0 <= e < 4 -> rblock (K := K) Spec.H0 d e = n0.
Proof. intros Hd He. quads d; quads e; cbn; ring. Qed.
Lemma rblock_sum n f d e : 0 <= d < 4 -> 0 <= e < 4 -> rblock (K := K) (Hsum n f) d e = Ksum n (fun l => rblock (f l) d e).
Proof. intros Hd He. unfold Hsum, Ksum. induction (Z.to_nat n) as [|m IH]; cbn [Hsum_nat Ksum_nat]; [apply rblock_0; auto|]. rewrite rblock_add, IH; auto. Qed.

(** the expanded matrices *)
Lemma cexp_mul o m n k (A B : Z -> Z -> quat K) r c : 0 <= k -> 0 <= r < 2 * m -> 0 <= c < 2 * n ->
  cexp o m n (fun i j => Hsum k (fun l => Hmul (A i l) (B l j))) r c = Zsum (2 * k) (fun l => Zmul (cexp o m k A r l) (cexp o k n B l c)).
Proof.
  intros Hk Hr Hc. rewrite (Zsum_brow o) by auto.
  destruct (brow_surj o m r Hr) as [Er [R1 R2]]. destruct (brow_surj o n c Hc) as [Ec [R3 R4]].
  unfold cexp at 1. rewrite cblock_sum. apply Zsum_ext. intros l Hl. rewrite cblock_mul by auto.
  unfold cexp. destruct (bidx_brow o k l 0 Hl ltac:(lia)) as [-> ->]. destruct (bidx_brow o k l 1 Hl ltac:(lia)) as [-> ->]. reflexivity.
Qed.
Lemma cexp_add o m n (A B : Z -> Z -> quat K) r c : cexp o m n (fun i j => Hadd (A i j) (B i j)) r c = Zadd (cexp o m n A r c) (cexp o m n B r c).
Proof. unfold cexp. apply cblock_add. Qed.
Lemma cexp_conj o m n (A : Z -> Z -> quat K) r c : 0 <= r < 2 * m -> 0 <= c < 2 * n ->
  cexp o m n (fun i j => Hconj (A j i)) r c = Zconj (cexp o n m A c r).
Proof.
  intros Hr Hc. destruct (brow_surj o m r Hr) as [Er [R1 R2]]. destruct (brow_surj o n c Hc) as [Ec [R3 R4]].
  unfold cexp. apply cblock_conj; auto.
Qed.
Definition rexp (A : Z -> Z -> quat K) (r c : Z) : K := rblock (A (r / 4) (c / 4)) (r mod 4) (c mod 4).
Lemma rexp_mat (b : arr K) ldb m n A : holds_rexp b ldb m n A -> holds_mat b ldb (4 * m) (4 * n) (rexp A).
Proof.
  intros Hb r c Hr Hc. pose proof (Z.div_mod r 4 ltac:(lia)). pose proof (Z.mod_pos_bound r 4 ltac:(lia)).
  pose proof (Z.div_mod c 4 ltac:(lia)). pose proof (Z.mod_pos_bound c 4 ltac:(lia)).
  specialize (Hb (r / 4) (c / 4) (r mod 4) (c mod 4) ltac:(lia) ltac:(lia) ltac:(lia) ltac:(lia)).
  rewrite <- H, <- H1 in Hb. exact Hb.
Qed.
Lemma div4 i d : 0 <= d < 4 -> (4 * i + d) / 4 = i /\ (4 * i + d) mod 4 = d.
Proof.
  intros Hd. replace (4 * i + d) with (d + i * 4) by lia. rewrite Z.div_add, Z.mod_add, Z.div_small, Z.mod_small by lia. lia.
Qed.
Lemma rexp_mul m n k A B r c : 0 <= k -> 0 <= r < 4 * m -> 0 <= c < 4 * n ->
  rexp (fun i j => Hsum k (fun l => Hmul (A i l) (B l j))) r c = Ksum (4 * k) (fun l => nmul (rexp A r l) (rexp B l c)).
Proof.
  intros Hk Hr Hc. rewrite Ksum_4 by auto. pose proof (Z.mod_pos_bound r 4 ltac:(lia)). pose proof (Z.mod_pos_bound c 4 ltac:(lia)).
  unfold rexp at 1. rewrite rblock_sum by auto. apply Ksum_ext. intros l Hl. rewrite rblock_mul by auto. unfold rexp.
  destruct (div4 l 0 ltac:(lia)) as [D0 M0]. rewrite Z.add_0_r in D0, M0. rewrite D0, M0.
  destruct (div4 l 1 ltac:(lia)) as [-> ->]. destruct (div4 l 2 ltac:(lia)) as [-> ->]. destruct (div4 l 3 ltac:(lia)) as [-> ->]. reflexivity.
Qed.
Lemma rexp_add A B r c : rexp (fun i j => Hadd (A i j) (B i j)) r c = nadd (rexp A r c) (rexp B r c).
Proof. unfold rexp. apply rblock_add; apply Z.mod_pos_bound; lia. Qed.
Lemma rexp_conj A r c : rexp (fun i j => Hconj (A j i)) r c = rexp A c r.
Proof. unfold rexp. apply rblock_conj; apply Z.mod_pos_bound; lia. Qed.
End Alg.
