(** norm / inv / versor over the reals. *)
From Coq Require Import Reals Lra Psatz.
From Verif Require Import Num NumR Spec SpecFacts MQuat QuatFacts.
Local Open Scope R_scope.

Notation HR := (quat Rnum).
Notation nrm := (@q_norm Rnum).

Lemma nsq_nonneg (q : HR) : 0 <= Hnsq q.
Proof. destruct q as [a b c d]; unfold Hnsq; cbn. nra. Qed.
Lemma norm_sqrt (q : HR) : nrm q = sqrt (Hnsq q).
Proof. reflexivity. Qed.
Lemma norm_nonneg (q : HR) : 0 <= nrm q.
Proof. rewrite norm_sqrt. apply sqrt_pos. Qed.
Lemma norm_sq (q : HR) : nrm q * nrm q = Hnsq q.
Proof. rewrite norm_sqrt. apply sqrt_sqrt, nsq_nonneg. Qed.
Lemma nsq_zero (q : HR) : Hnsq q = 0 <-> q = H0.
Proof.
  destruct q as [a b c d]; unfold Hnsq, H0; cbn. split.
  - intros H. assert (a = 0 /\ b = 0 /\ c = 0 /\ d = 0) as (-> & -> & -> & ->); auto.
    assert (a * a = 0 /\ b * b = 0 /\ c * c = 0 /\ d * d = 0) by (repeat split; nra).
    repeat split; nra.
  - intros H; injection H; intros; subst; ring.
Qed.
Lemma norm_zero (q : HR) : nrm q = 0 <-> q = H0.
Proof.
  rewrite norm_sqrt, <- nsq_zero. split; intros H.
  - apply sqrt_eq_0; [apply nsq_nonneg|exact H].
  - rewrite H; apply sqrt_0.
Qed.
Lemma norm_mul (p q : HR) : nrm (q_mul p q) = nrm p * nrm q.
Proof.
  rewrite !norm_sqrt, (q_mul_H Rlaws), (Hnsq_mul Rlaws). apply sqrt_mult; apply nsq_nonneg.
Qed.
Lemma norm_conj (q : HR) : nrm (q_conj q) = nrm q.
Proof. rewrite !norm_sqrt. f_equal. destruct q; unfold Hnsq; cbn; ring. Qed.
Lemma norm_conj_mul (q : HR) : q_mul q (q_conj q) = Hre (nrm q * nrm q : Rnum).
Proof. rewrite norm_sq. apply (conj_laws Rlaws). Qed.
Lemma norm_real (a : Rnum) : nrm (Hre a) = Rabs a.
Proof.
  rewrite norm_sqrt. rewrite <- sqrt_Rsqr_abs. f_equal. unfold Hnsq, Rsqr; cbn; ring.
Qed.
Definition ip (p q : HR) : R := qr p * qr q + qi p * qi q + qj p * qj q + qk p * qk q.
Lemma cauchy_schwarz (p q : HR) : ip p q <= nrm p * nrm q.
Proof.
  destruct (Rle_dec (ip p q) 0) as [Hn|Hn].
  - pose proof (norm_nonneg p); pose proof (norm_nonneg q). nra.
  - apply Rnot_le_lt in Hn. apply Rsqr_incr_0_var;
      [|apply Rmult_le_pos; apply norm_nonneg].
    unfold Rsqr. replace (nrm p * nrm q * (nrm p * nrm q)) with (Hnsq p * Hnsq q)
      by (rewrite <- !norm_sq; ring).
    destruct p as [a b c d], q as [e f g h]. unfold ip, Hnsq; cbn.
    enough (0 <= (a*f-b*e)*(a*f-b*e) + (a*g-c*e)*(a*g-c*e) + (a*h-d*e)*(a*h-d*e)
             + (b*g-c*f)*(b*g-c*f) + (b*h-d*f)*(b*h-d*f) + (c*h-d*g)*(c*h-d*g)) by lra.
    repeat apply Rplus_le_le_0_compat; apply Rle_0_sqr.
Qed.
Lemma norm_triangle (p q : HR) : nrm (q_add p q) <= nrm p + nrm q.
Proof.
  apply Rsqr_incr_0_var; [|apply Rplus_le_le_0_compat; apply norm_nonneg].
  unfold Rsqr. rewrite norm_sq.
  replace (Hnsq (q_add p q)) with (Hnsq p + Hnsq q + 2 * ip p q : R).
  - rewrite <- !norm_sq. pose proof (cauchy_schwarz p q). cbn in *. lra.
  - destruct p, q; unfold Hnsq, ip; cbn; ring.
Qed.

Lemma norm_neq0 (q : HR) : q <> H0 -> nrm q <> 0.
Proof. intros H Hn; apply H, norm_zero; auto. Qed.

Lemma inv_explicit (q : HR) : q <> H0 -> q_inv q = Hmul (Hconj q) (Hre (/ Hnsq q : Rnum)).
Proof.
  intros H. unfold q_inv. pose proof (norm_neq0 q H) as Hn. pose proof (norm_sq q) as Hs.
  rewrite <- Hs. set (n := nrm q) in *. clearbody n.
  destruct q as [a b c d]; unfold q_div_r, q_diveq_r, q_conj; hunf; cbn.
  f_equal; field; auto.
Qed.
Lemma inv_right (q : HR) : q <> H0 -> q_mul q (q_inv q) = H1.
Proof.
  intros H. rewrite inv_explicit by auto. rewrite (q_mul_H Rlaws), (Hmul_assoc Rlaws), (Hnsq_conj Rlaws).
  assert (Hnsq q <> 0) by (rewrite nsq_zero; auto).
  rewrite (Hre_mul Rlaws). cbn. rewrite Rinv_r by auto. reflexivity.
Qed.
Lemma inv_left (q : HR) : q <> H0 -> q_mul (q_inv q) q = H1.
Proof.
  intros H. rewrite inv_explicit by auto. rewrite (q_mul_H Rlaws).
  rewrite <- (Hre_comm Rlaws), <- (Hmul_assoc Rlaws), (Hnsq_conj' Rlaws).
  assert (Hnsq q <> 0) by (rewrite nsq_zero; auto).
  rewrite (Hre_mul Rlaws). cbn. rewrite Rinv_l by auto. reflexivity.
Qed.
Lemma mul_nonzero (p q : HR) : p <> H0 -> q <> H0 -> q_mul p q <> H0.
Proof.
  intros Hp Hq He. apply norm_zero in He. rewrite norm_mul in He.
  apply Rmult_integral in He as [He|He]; apply norm_zero in He; auto.
Qed.
Lemma inv_unique (q r : HR) : q_mul q r = H1 -> r = q_inv q.
Proof.
  intros He. assert (Hq : q <> H0).
  { intros ->. rewrite (q_mul_H Rlaws), (Hmul_0_l Rlaws) in He. injection He. lra. }
  rewrite <- (Hmul_1_l Rlaws r), <- (inv_left q Hq), (q_mul_H Rlaws), <- (Hmul_assoc Rlaws).
  rewrite (q_mul_H Rlaws) in He. rewrite He, (Hmul_1_r Rlaws). reflexivity.
Qed.
Lemma inv_mul (p q : HR) : p <> H0 -> q <> H0 -> q_inv (q_mul p q) = q_mul (q_inv q) (q_inv p).
Proof.
  intros Hp Hq. symmetry. apply inv_unique.
  rewrite <- (q_mul_assoc Rlaws p q). rewrite (q_mul_assoc Rlaws q), (inv_right q Hq).
  rewrite (q_mul_H Rlaws), (q_mul_H Rlaws), (Hmul_1_l Rlaws), <- (q_mul_H Rlaws). apply inv_right; auto.
Qed.
Lemma inv_inv (q : HR) : q <> H0 -> q_inv (q_inv q) = q.
Proof. intros Hq. symmetry. apply inv_unique, inv_left, Hq. Qed.
Lemma div_real (q : HR) (a : R) : a <> 0 -> q_mul_r (q_div_r q a) a = q.
Proof.
  intros Ha. destruct q; unfold q_mul_r, q_muleq_r, q_div_r, q_diveq_r; cbn. f_equal; field; auto.
Qed.
Lemma div_real_emb (q : HR) (a : R) : a <> 0 -> q_div_r q a = q_mul q (q_inv (Hre (a : Rnum))).
Proof.
  intros Ha. assert (Hn : Hre (a : Rnum) <> H0) by (intros E; injection E; auto).
  rewrite (inv_explicit _ Hn), (q_mul_H Rlaws).
  destruct q; unfold q_div_r, q_diveq_r; hunf; cbn. f_equal; field; auto.
Qed.
Lemma r_div_q_spec (x : R) (y : HR) : r_div_q (x : Rnum) y = q_mul (Hre (x : Rnum)) (q_inv y).
Proof. unfold r_div_q. rewrite (q_mul_H Rlaws), <- (r_mul_q_H Rlaws). reflexivity. Qed.

Lemma versor_norm (q : HR) : q <> H0 -> nrm (q_versor q) = 1.
Proof.
  intros Hq. pose proof (norm_neq0 q Hq) as Hn. unfold q_versor.
  rewrite div_real_emb by auto.
  rewrite norm_mul.
  assert (Hr : Hre (nrm q : Rnum) <> H0) by (intros E; injection E; auto).
  assert (E : nrm (q_mul (Hre (nrm q)) (q_inv (Hre (nrm q)))) = 1).
  { rewrite (inv_right _ Hr). change (@H1 Rnum) with (@Hre Rnum 1). rewrite norm_real. apply Rabs_R1. }
  rewrite norm_mul, norm_real, Rabs_pos_eq in E by apply norm_nonneg. exact E.
Qed.
Lemma versor_dir (q : HR) : q <> H0 -> r_mul_q (nrm q) (q_versor q) = q.
Proof. intros Hq. apply div_real, norm_neq0, Hq. Qed.
Lemma versor_mul (p q : HR) : p <> H0 -> q <> H0 -> q_versor (q_mul p q) = q_mul (q_versor p) (q_versor q).
Proof.
  intros Hp Hq. unfold q_versor. rewrite norm_mul.
  pose proof (norm_neq0 p Hp) as Hp'. pose proof (norm_neq0 q Hq) as Hq'.
  set (a := nrm p) in *. set (b := nrm q) in *. clearbody a b.
  destruct p, q; unfold q_div_r, q_diveq_r, q_mul; cbn. f_equal; field; auto.
Qed.
(** the degenerate case: in the model the norm divisor is 0 exactly for q = 0, so the C++ code
    divides by zero there and only there *)
Lemma inv_divisor_zero (q : HR) : nrm q = 0 <-> q = H0.
Proof. apply norm_zero. Qed.
