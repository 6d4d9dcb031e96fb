(** Lemmas on the operator model. *)
From Coq Require Import ZArith Lia Ring Bool.
From Verif Require Import Num Res ResFacts Spec SpecFacts MQuat.
Local Open Scope Z_scope.

Ltac qunf := unfold q_comm_cq in *; unfold q_comm, q_comm_qc, q_comm_rq, q_comm_qr, smartconj_q, smartconj_c, smartconj_r,
  q_add_r, r_add_q, q_sub_r, r_sub_q, q_mul_r, r_mul_q, q_add_c, c_add_q, q_sub_c, c_sub_q, q_of_cplx, q_add, q_sub in *;
  unfold q_mul, q_addeq, q_subeq, q_neg, q_conj, q_of_real, q_of_cplx2,
  q_set_real, q_addeq_r, q_subeq_r, q_muleq_r, q_set_cplx, q_addeq_c, q_subeq_c, q_mul_c, c_mul_q in *.

Section F.
Context {K : num} (L : laws K).
Add Ring Kr : (l_ring K L).
Local Notation H := (quat K).
Ltac hring := hdes; qunf; hunf; try (f_equal; ring).

Lemma q_mul_H (p q : H) : q_mul p q = Hmul p q. Proof. hring. Qed.
Lemma q_add_H (p q : H) : q_add p q = Hadd p q. Proof. hring. Qed.
Lemma q_addeq_H (p q : H) : q_addeq p q = Hadd p q. Proof. hring. Qed.
Lemma q_sub_H (p q : H) : q_sub p q = Hsub p q. Proof. hring. Qed.
Lemma q_subeq_H (p q : H) : q_subeq p q = Hsub p q. Proof. hring. Qed.
Lemma q_neg_H (p : H) : q_neg p = Hopp p. Proof. hring. Qed.
Lemma q_conj_H (p : H) : q_conj p = Hconj p. Proof. hring. Qed.

Lemma q_mul_assoc (p q r : H) : q_mul p (q_mul q r) = q_mul (q_mul p q) r. Proof. hring. Qed.
Lemma q_mul_add_l (p q r : H) : q_mul p (q_add q r) = q_add (q_mul p q) (q_mul p r). Proof. hring. Qed.
Lemma q_mul_add_r (p q r : H) : q_mul (q_add p q) r = q_add (q_mul p r) (q_mul q r). Proof. hring. Qed.
Lemma q_mul_sub_l (p q r : H) : q_mul p (q_sub q r) = q_sub (q_mul p q) (q_mul p r). Proof. hring. Qed.
Lemma q_mul_sub_r (p q r : H) : q_mul (q_sub p q) r = q_sub (q_mul p r) (q_mul q r). Proof. hring. Qed.
Lemma q_mul_units : let one := H1 : H in
  (forall q : H, q_mul one q = q /\ q_mul q one = q) /\
  q_mul Hi Hi = q_neg one /\ q_mul Hj Hj = q_neg one /\ q_mul Hk Hk = q_neg one /\
  q_mul (q_mul Hi Hj) Hk = q_neg one /\ q_mul Hi Hj = Hk (K:=K) /\ q_mul Hj Hi = q_neg (Hk (K:=K)).
Proof. cbv zeta. repeat split; hring. Qed.

Lemma q_add_group : (forall p q : H, q_add p q = q_add q p) /\
  (forall p q r : H, q_add p (q_add q r) = q_add (q_add p q) r) /\
  (forall p : H, q_add p H0 = p) /\ (forall p : H, q_add p (q_neg p) = H0) /\
  (forall p q : H, q_sub p q = q_add p (q_neg q)) /\
  (forall p q : H, q_addeq p q = q_add p q /\ q_subeq p q = q_sub p q) /\
  (forall p q : H, q_subeq (q_addeq p q) q = p).
Proof. repeat split; hring. Qed.

Lemma real_embed (q : H) (a : K) :
  q_set_real q a = Hre a /\ q_of_real a = Hre a /\
  q_addeq_r q a = Hadd q (Hre a) /\ q_subeq_r q a = Hsub q (Hre a) /\ q_muleq_r q a = Hmul q (Hre a) /\
  q_add_r q a = Hadd q (Hre a) /\ r_add_q a q = Hadd (Hre a) q /\
  q_sub_r q a = Hsub q (Hre a) /\ r_sub_q a q = Hsub (Hre a) q /\
  q_mul_r q a = Hmul q (Hre a) /\ r_mul_q a q = Hmul (Hre a) q.
Proof. repeat split; hring. Qed.

Lemma q_mul_r_H (q : H) a : q_mul_r q a = Hmul q (Hre a). Proof. hring. Qed.
Lemma r_mul_q_H (q : H) a : r_mul_q a q = Hmul (Hre a) q. Proof. hring. Qed.
Lemma q_mul_c_H (q : H) a : q_mul_c q a = Hmul q (Hc a). Proof. hring. Qed.
Lemma c_mul_q_H (q : H) a : c_mul_q a q = Hmul (Hc a) q. Proof. hring. Qed.

Lemma cplx_embed (q : H) (z : cplx K) :
  q_set_cplx q z = Hc z /\ q_of_cplx z = Hc z /\
  q_addeq_c q z = Hadd q (Hc z) /\ q_subeq_c q z = Hsub q (Hc z) /\
  q_add_c q z = Hadd q (Hc z) /\ c_add_q z q = Hadd (Hc z) q /\
  q_sub_c q z = Hsub q (Hc z) /\ c_sub_q z q = Hsub (Hc z) q /\
  q_mul_c q z = Hmul q (Hc z) /\ c_mul_q z q = Hmul (Hc z) q.
Proof. repeat split; hring. Qed.

(** Cayley-Dickson: the two-complex constructor builds a + b j *)
Lemma cayley_dickson (a b : cplx K) : q_of_cplx2 a b = Hadd (Hc a) (Hmul (Hc b) Hj).
Proof. hring. Qed.

Lemma conj_laws : (forall q : H, q_conj (q_conj q) = q) /\
  (forall p q : H, q_conj (q_add p q) = q_add (q_conj p) (q_conj q)) /\
  (forall p q : H, q_conj (q_mul p q) = q_mul (q_conj q) (q_conj p)) /\
  (forall q : H, q_mul q (q_conj q) = Hre (Hnsq q) /\ q_mul (q_conj q) q = Hre (Hnsq q)) /\
  (forall a : K, Hre (smartconj_r a) = Hconj (Hre a)) /\
  (forall z : cplx K, Hc (smartconj_c z) = Hconj (Hc z)) /\
  (forall q : H, smartconj_q q = Hconj q).
Proof. repeat split; hring. Qed.

Lemma comm_laws :
  (forall p q : H, q_comm p q = Hsub (Hmul p q) (Hmul q p)) /\
  (forall (p : H) z, q_comm_qc p z = Hsub (Hmul p (Hc z)) (Hmul (Hc z) p)) /\
  (forall z (q : H), q_comm_cq z q = Hsub (Hmul (Hc z) q) (Hmul q (Hc z))) /\
  (forall a (q : H), q_comm_rq a q = Hsub (Hmul (Hre a) q) (Hmul q (Hre a))) /\
  (forall a (q : H), q_comm_qr q a = Hsub (Hmul q (Hre a)) (Hmul (Hre a) q)).
Proof. repeat split; hring. Qed.

Lemma comm_antisym (p q : H) : q_comm p q = q_neg (q_comm q p). Proof. hring. Qed.
Lemma comm_explicit (p q : H) : q_comm p q =
  let two := nadd n1 n1 in
  Quat n0 (nmul two (nsub (nmul (qj p) (qk q)) (nmul (qk p) (qj q))))
          (nmul two (nsub (nmul (qk p) (qi q)) (nmul (qi p) (qk q))))
          (nmul two (nsub (nmul (qi p) (qj q)) (nmul (qj p) (qi q)))).
Proof. hring. Qed.
Lemma comm_jacobi (p q r : H) :
  q_add (q_add (q_comm p (q_comm q r)) (q_comm q (q_comm r p))) (q_comm r (q_comm p q)) = H0.
Proof. rewrite !comm_explicit. cbv zeta. cbn [qr qi qj qk]. unfold q_add, q_addeq, H0. cbn [qr qi qj qk]. f_equal; ring. Qed.
Lemma comm_zero (p q : H) : q_comm p q = H0 <-> Hmul p q = Hmul q p.
Proof.
  destruct (comm_laws) as (Hcm & _). rewrite Hcm. clear Hcm. split; intros He.
  - assert (E : Hadd (Hsub (Hmul p q) (Hmul q p)) (Hmul q p) = Hadd H0 (Hmul q p)) by (rewrite He; auto).
    rewrite (Hadd_0_l L) in E.
    rewrite <- E. clear He E. hring.
  - rewrite He. clear He. hring.
Qed.

(** equality *)
Lemma q_eqb_spec (p q : H) : q_eqb p q = true <-> (qr p = qr q /\ qi p = qi q /\ qj p = qj q).
Proof.
  unfold q_eqb. rewrite !andb_true_iff, !(l_eqb K L). tauto.
Qed.
Lemma q_eqb_complete (p q : H) : p = q -> q_eqb p q = true.
Proof. intros ->. apply q_eqb_spec. auto. Qed.
Lemma q_eqb_sound_same_k (p q : H) : qk p = qk q -> q_eqb p q = true -> p = q.
Proof. intros Hk He. apply q_eqb_spec in He. destruct p, q; cbn in *. destruct He as (? & ? & ?). congruence. Qed.
End F.
