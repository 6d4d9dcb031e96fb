(** Algebra behind C52 and C53. *)
From Coq Require Import ZArith Lia Reals Lra Ring.
From Verif Require Import Num NumR Res ResFacts Spec SpecFacts VecFacts.
Local Open Scope Z_scope.

Section L.
Context {K : num} (L : laws K).
Add Ring Kr : (l_ring K L).
Local Notation H := (quat K).
Lemma Hside_comp s (a b x : H) : Hside s b (Hside s a x) = Hside s (Hside s b a) x.
Proof. destruct s; cbn [Hside]; [apply (Hmul_assoc L)|symmetry; apply (Hmul_assoc L)]. Qed.
Lemma Hside_1 s (x : H) : Hside s H1 x = x.
Proof. destruct s; cbn [Hside]; [apply (Hmul_1_l L)|apply (Hmul_1_r L)]. Qed.
Lemma Hside_undo s (a x w : H) : Hadd (Hadd w (Hside s a x)) (Hside s (Hopp a) x) = w.
Proof. destruct s; cbn [Hside]; destruct a, x, w; hunf; f_equal; ring. Qed.
Lemma Hsum_swap2 m n (f : Z -> Z -> H) : 0 <= m -> Hsum m (fun i => Hsum n (fun j => f i j)) = Hsum n (fun j => Hsum m (fun i => f i j)).
Proof.
  intros Hm. pattern m. apply natlike_ind; auto.
  - rewrite Hsum_0. symmetry. apply (Hsum_zero L). intros. apply Hsum_0.
  - intros p Hp IH. unfold Z.succ. rewrite Hsum_succ, IH, <- (Hsum_add L) by lia. apply Hsum_ext. intros j _. rewrite Hsum_succ by lia. reflexivity.
Qed.
Lemma adjoint_sum m n (A : Z -> Z -> H) x y : 0 <= m ->
  Hsum m (fun i => Hmul (Hconj (Hsum n (fun j => Hmul (A i j) (x j)))) (y i)) =
  Hsum n (fun j => Hmul (Hconj (x j)) (Hsum m (fun i => Hmul (Hconj (A i j)) (y i)))).
Proof.
  intros Hm. rewrite (Hsum_ext m _ (fun i => Hsum n (fun j => Hmul (Hmul (Hconj (x j)) (Hconj (A i j))) (y i)))).
  - rewrite Hsum_swap2 by auto. apply Hsum_ext. intros j _. rewrite (Hmul_sum_l L). apply Hsum_ext. intros i _. symmetry. apply (Hmul_assoc L).
  - intros i _. rewrite (Hconj_sum L), (Hmul_sum_r L). apply Hsum_ext. intros j _. rewrite (Hconj_mul L). reflexivity.
Qed.
Lemma rank1_sum n (a : H) (A : Z -> H) xi y z :
  Hsum n (fun j => Hmul (Hadd (A j) (Hmul a (Hmul xi (Hconj (y j))))) (z j)) =
  Hadd (Hsum n (fun j => Hmul (A j) (z j))) (Hmul a (Hmul xi (Hsum n (fun j => Hmul (Hconj (y j)) (z j))))).
Proof.
  rewrite !(Hmul_sum_l L), <- (Hsum_add L). apply Hsum_ext. intros j _. rewrite (Hmul_add_r L). f_equal. rewrite !(Hmul_assoc L). reflexivity.
Qed.
End L.

(** real arithmetic: Cauchy-Schwarz *)
Section R.
Local Open Scope R_scope.
Local Notation H := (quat Rnum).
Definition nsq (q : H) : R := qr q * qr q + qi q * qi q + qj q * qj q + qk q * qk q.
Lemma nsq_H (q : H) : Hnsq q = nsq q. Proof. destruct q; reflexivity. Qed.
Lemma nsq_pos q : 0 <= nsq q. Proof. unfold nsq. pose proof (Rle_0_sqr (qr q)). pose proof (Rle_0_sqr (qi q)). pose proof (Rle_0_sqr (qj q)). pose proof (Rle_0_sqr (qk q)). unfold Rsqr in *. lra. Qed.
Lemma nsq_0 q : nsq q = 0 -> q = H0.
Proof.
  destruct q as [a b c d]. unfold nsq. cbn [qr qi qj qk]. intros E.
  pose proof (Rle_0_sqr a). pose proof (Rle_0_sqr b). pose proof (Rle_0_sqr c). pose proof (Rle_0_sqr d). unfold Rsqr in *.
  assert (a = 0) by (apply Rsqr_0_uniq; unfold Rsqr; lra). assert (b = 0) by (apply Rsqr_0_uniq; unfold Rsqr; lra).
  assert (c = 0) by (apply Rsqr_0_uniq; unfold Rsqr; lra). assert (d = 0) by (apply Rsqr_0_uniq; unfold Rsqr; lra). subst. reflexivity.
Qed.
Lemma sum_re_step n (f : Z -> H) : (0 <= n)%Z -> qr (Hsum (n + 1) f) = qr (Hsum n f) + qr (f n).
Proof. intros Hn. rewrite Hsum_succ by lia. destruct (Hsum n f), (f n); reflexivity. Qed.
Lemma self_sum_pos n (x : Z -> H) : 0 <= qr (Hsum n (fun i => Hre (Hnsq (x i)))).
Proof.
  destruct (Z_lt_le_dec n 0) as [Hn|Hn]; [rewrite Hsum_neg by lia; cbn; lra|]. pattern n. apply natlike_ind; auto.
  - rewrite Hsum_0. cbn. lra.
  - intros p Hp IH. unfold Z.succ. rewrite sum_re_step by lia. cbn [Hre qr]. rewrite nsq_H. pose proof (nsq_pos (x p)). lra.
Qed.
Lemma self_sum_zero n (x : Z -> H) : qr (Hsum n (fun i => Hre (Hnsq (x i)))) = 0 -> forall i, (0 <= i < n)%Z -> x i = H0.
Proof.
  destruct (Z_lt_le_dec n 0) as [Hn|Hn]; [intros; lia|]. pattern n. apply natlike_ind; auto; [intros; lia|].
  intros p Hp IH. unfold Z.succ. rewrite sum_re_step by lia. cbn [Hre qr]. rewrite nsq_H. intros E i Hi.
  pose proof (nsq_pos (x p)). pose proof (self_sum_pos p x).
  destruct (Z.eq_dec i p) as [->|]; [apply nsq_0; lra|apply IH; [lra|lia]].
Qed.
(** sum |y_i a - x_i p|^2 = a^2 <y,y> + |p|^2 <x,x> - 2 a Re (conj(<x,y>) p) *)
Lemma cs_expand n (x y : Z -> H) (a : R) (p : H) :
  qr (Hsum n (fun i => Hre (Hnsq (Hsub (Hmul (y i) (Hre (a : Rnum))) (Hmul (x i) p))))) =
  a * a * qr (Hsum n (fun i => Hre (Hnsq (y i)))) + nsq p * qr (Hsum n (fun i => Hre (Hnsq (x i)))) -
  2 * a * qr (Hmul (Hconj (Hsum n (fun i => Hmul (Hconj (x i)) (y i)))) p).
Proof.
  destruct (Z_lt_le_dec n 0) as [Hn|Hn].
  { rewrite !Hsum_neg by lia. destruct p as [p1 p2 p3 p4]. cbn. ring. }
  pattern n. apply natlike_ind; auto.
  - rewrite !Hsum_0. destruct p as [p1 p2 p3 p4]. cbn. ring.
  - intros k Hk IH. unfold Z.succ. rewrite !sum_re_step by lia. rewrite IH. rewrite Hsum_succ by lia.
    generalize (Hsum k (fun i => Hmul (Hconj (x i)) (y i))). intros [s1 s2 s3 s4]. destruct (x k) as [x1 x2 x3 x4], (y k) as [y1 y2 y3 y4], p as [p1 p2 p3 p4].
    unfold nsq. cbn. ring.
Qed.
Lemma cauchy_schwarz n (x y : Z -> H) :
  nsq (Hsum n (fun i => Hmul (Hconj (x i)) (y i))) <= qr (Hsum n (fun i => Hre (Hnsq (x i)))) * qr (Hsum n (fun i => Hre (Hnsq (y i)))).
Proof.
  set (p := Hsum n (fun i => Hmul (Hconj (x i)) (y i))). set (a := qr (Hsum n (fun i => Hre (Hnsq (x i))))). set (b := qr (Hsum n (fun i => Hre (Hnsq (y i))))).
  pose proof (self_sum_pos n x) as Ha. fold a in Ha.
  destruct (Req_dec a 0) as [Ea|Na].
  - assert (Ep : p = H0).
    { unfold p. apply (Hsum_zero Rlaws). intros i Hi. rewrite (self_sum_zero n x Ea i Hi), (Hconj_0 Rlaws), (Hmul_0_l Rlaws). reflexivity. }
    rewrite Ep, Ea. unfold nsq. cbn. lra.
  - pose proof (cs_expand n x y a p) as E. fold a b p in E.
    pose proof (self_sum_pos n (fun i => Hsub (Hmul (y i) (Hre (a : Rnum))) (Hmul (x i) p))) as P. pose proof (Rle_trans _ _ _ P (Req_le _ _ E)) as P2. clear P. rename P2 into P.
    replace (qr (Hmul (Hconj p) p)) with (nsq p) in P by (rewrite (Hnsq_conj' Rlaws); cbn [Hre qr]; apply nsq_H).
    assert (P' : 0 <= a * (a * b - nsq p)) by lra.
    apply Rnot_lt_le. intros C. assert (0 < a * (nsq p - a * b)) by (apply Rmult_lt_0_compat; lra). lra.
Qed.
End R.
