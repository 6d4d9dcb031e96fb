(** C01-C11, C39: quaternion algebra and SIMD primitives. *)
From Coq Require Import ZArith Reals.
From Verif Require Import Num NumR Spec MQuat QuatFacts MSimd SimdFacts RealFacts.

(** the hypothesis [laws K] is met by the integers and the reals *)
Example laws_Z : laws Znum. Proof. exact Zlaws. Qed.
Example laws_R : laws Rnum. Proof. exact Rlaws. Qed.

(** C01 *)
Theorem C01_product_is_hamilton : forall (K : num), laws K -> forall p q : quat K, q_mul p q = Hmul p q.
Proof. exact @q_mul_H. Qed.
Print Assumptions C01_product_is_hamilton.
Theorem C01_product_assoc : forall (K : num), laws K -> forall p q r : quat K,
  q_mul p (q_mul q r) = q_mul (q_mul p q) r.
Proof. exact @q_mul_assoc. Qed.
Theorem C01_product_distr_l : forall (K : num), laws K -> forall p q r : quat K,
  q_mul p (q_add q r) = q_add (q_mul p q) (q_mul p r).
Proof. exact @q_mul_add_l. Qed.
Theorem C01_product_distr_r : forall (K : num), laws K -> forall p q r : quat K,
  q_mul (q_add p q) r = q_add (q_mul p r) (q_mul q r).
Proof. exact @q_mul_add_r. Qed.
Theorem C01_product_distr_sub_l : forall (K : num), laws K -> forall p q r : quat K,
  q_mul p (q_sub q r) = q_sub (q_mul p q) (q_mul p r).
Proof. exact @q_mul_sub_l. Qed.
Theorem C01_product_distr_sub_r : forall (K : num), laws K -> forall p q r : quat K,
  q_mul (q_sub p q) r = q_sub (q_mul p r) (q_mul q r).
Proof. exact @q_mul_sub_r. Qed.
Theorem C01_units : forall (K : num), laws K ->
  (forall q : quat K, q_mul H1 q = q /\ q_mul q H1 = q) /\
  q_mul Hi Hi = q_neg (H1 (K:=K)) /\ q_mul Hj Hj = q_neg (H1 (K:=K)) /\ q_mul Hk Hk = q_neg (H1 (K:=K)) /\
  q_mul (q_mul Hi Hj) Hk = q_neg (H1 (K:=K)) /\ q_mul Hi Hj = Hk (K:=K) /\ q_mul Hj Hi = q_neg (Hk (K:=K)).
Proof. exact @q_mul_units. Qed.
Print Assumptions C01_units.
Example C01_concrete : q_mul (K:=Znum) (zq 1 2 3 4)%Z (zq 5 6 7 8)%Z = (zq (-60) 12 30 24)%Z
  /\ Hmul (K:=Znum) (zq 5 6 7 8)%Z (zq 1 2 3 4)%Z = (zq (-60) 20 14 32)%Z.
Proof. split; reflexivity. Qed.

(** C02 *)
Theorem C02_simd_product : forall (K : num), laws K -> forall p q : quat K,
  q_mul_avx p q = q_mul p q.
Proof. intros K L p q. exact (eq_trans (q_mul_avx_H L p q) (eq_sym (q_mul_H L p q))). Qed.
Print Assumptions C02_simd_product.
Theorem C02_simd_conj_product : forall (K : num), laws K -> forall x y : quat K,
  q_of_v (MULDQ_CN (v_of_q x) (v_of_q y)) = Hmul (Hconj x) y.
Proof. intros K L x y. rewrite (MULDQ_CN_H L), !q_of_v_of_q. reflexivity. Qed.
Print Assumptions C02_simd_conj_product.
(** sign-bit conjugation is the portable conj, for every scalar type (no laws: also floats) *)
Theorem C02_simd_conj : forall (K : num) (x : quat K), q_of_v (QCONJ_256D (v_of_q x)) = q_conj x.
Proof. intros K [a b c d]. reflexivity. Qed.
Print Assumptions C02_simd_conj.
Example C02_concrete : q_mul_avx (K:=Znum) (zq 1 2 3 4)%Z (zq 5 6 7 8)%Z = (zq (-60) 12 30 24)%Z.
Proof. reflexivity. Qed.

(** C03 *)
Theorem C03_additive_group : forall (K : num), laws K ->
  (forall p q : quat K, q_add p q = q_add q p) /\
  (forall p q r : quat K, q_add p (q_add q r) = q_add (q_add p q) r) /\
  (forall p : quat K, q_add p H0 = p) /\ (forall p : quat K, q_add p (q_neg p) = H0) /\
  (forall p q : quat K, q_sub p q = q_add p (q_neg q)) /\
  (forall p q : quat K, q_addeq p q = q_add p q /\ q_subeq p q = q_sub p q) /\
  (forall p q : quat K, q_subeq (q_addeq p q) q = p).
Proof. exact @q_add_group. Qed.
Print Assumptions C03_additive_group.
(** componentwise, for any scalar type (no laws) *)
Theorem C03_componentwise : forall (K : num) (p q : quat K),
  q_add p q = Hadd p q /\ q_sub p q = Hsub p q /\ q_neg p = Hopp p /\ q_addeq p q = Hadd p q /\ q_subeq p q = Hsub p q.
Proof. intros K p q. repeat split. Qed.
Print Assumptions C03_componentwise.

(** C04 *)
Theorem C04_mixed_real : forall (K : num), laws K -> forall (q : quat K) (a : K),
  q_set_real q a = Hre a /\ q_of_real a = Hre a /\
  q_addeq_r q a = Hadd q (Hre a) /\ q_subeq_r q a = Hsub q (Hre a) /\ q_muleq_r q a = Hmul q (Hre a) /\
  q_add_r q a = Hadd q (Hre a) /\ r_add_q a q = Hadd (Hre a) q /\
  q_sub_r q a = Hsub q (Hre a) /\ r_sub_q a q = Hsub (Hre a) q /\
  q_mul_r q a = Hmul q (Hre a) /\ r_mul_q a q = Hmul (Hre a) q.
Proof. exact @real_embed. Qed.
Print Assumptions C04_mixed_real.
Theorem C04_division : forall (q : quat Rnum) (a : R),
  (a <> 0%R -> q_mul_r (q_div_r q a) a = q /\ q_div_r q a = q_mul q (q_inv (Hre (a : Rnum)))) /\
  r_div_q (a : Rnum) q = q_mul (Hre (a : Rnum)) (q_inv q).
Proof.
  intros q a. split; [intros Ha; split; [exact (div_real q a Ha)|exact (div_real_emb q a Ha)]|exact (r_div_q_spec a q)].
Qed.
Print Assumptions C04_division.

(** C05 *)
Theorem C05_mixed_complex : forall (K : num), laws K -> forall (q : quat K) (z : cplx K),
  q_set_cplx q z = Hc z /\ q_of_cplx z = Hc z /\
  q_addeq_c q z = Hadd q (Hc z) /\ q_subeq_c q z = Hsub q (Hc z) /\
  q_add_c q z = Hadd q (Hc z) /\ c_add_q z q = Hadd (Hc z) q /\
  q_sub_c q z = Hsub q (Hc z) /\ c_sub_q z q = Hsub (Hc z) q /\
  q_mul_c q z = Hmul q (Hc z) /\ c_mul_q z q = Hmul (Hc z) q.
Proof. exact @cplx_embed. Qed.
Print Assumptions C05_mixed_complex.
Theorem C05_cayley_dickson : forall (K : num), laws K -> forall a b : cplx K,
  q_of_cplx2 a b = Hadd (Hc a) (Hmul (Hc b) Hj).
Proof. exact @cayley_dickson. Qed.
Print Assumptions C05_cayley_dickson.
Example C05_sides_differ : c_mul_q (K:=Znum) (zc 0 1)%Z Hj <> q_mul_c (K:=Znum) Hj (zc 0 1)%Z.
Proof. discriminate. Qed.

(** C06 *)
Theorem C06_conj : forall (K : num), laws K ->
  (forall q : quat K, q_conj (q_conj q) = q) /\
  (forall p q : quat K, q_conj (q_add p q) = q_add (q_conj p) (q_conj q)) /\
  (forall p q : quat K, q_conj (q_mul p q) = q_mul (q_conj q) (q_conj p)) /\
  (forall q : quat K, q_mul q (q_conj q) = Hre (Hnsq q) /\ q_mul (q_conj q) q = Hre (Hnsq q)) /\
  (forall a : K, Hre (smartconj_r a) = Hconj (Hre a)) /\
  (forall z : cplx K, Hc (smartconj_c z) = Hconj (Hc z)) /\
  (forall q : quat K, smartconj_q q = Hconj q).
Proof. exact @conj_laws. Qed.
Print Assumptions C06_conj.

(** C07 *)
Theorem C07_norm : forall p q : quat Rnum,
  (0 <= q_norm q)%R /\ (q_norm q = 0%R <-> q = H0) /\
  q_mul q (q_conj q) = Hre (q_norm q * q_norm q : Rnum)%R /\
  (q_norm q * q_norm q = qr q * qr q + qi q * qi q + qj q * qj q + qk q * qk q)%R /\
  q_norm (q_mul p q) = (q_norm p * q_norm q)%R /\ q_norm (q_conj q) = q_norm q /\
  (q_norm (q_add p q) <= q_norm p + q_norm q)%R.
Proof.
  intros p q.
  exact (conj (norm_nonneg q) (conj (norm_zero q) (conj (norm_conj_mul q) (conj (norm_sq q)
        (conj (norm_mul p q) (conj (norm_conj q) (norm_triangle p q))))))).
Qed.
Print Assumptions C07_norm.
Theorem C07_norm_real : forall a : R, q_norm (Hre (a : Rnum)) = Rabs a.
Proof. exact norm_real. Qed.
Print Assumptions C07_norm_real.

(** C08 *)
Theorem C08_inv : forall q : quat Rnum, q <> H0 -> q_mul q (q_inv q) = H1 /\ q_mul (q_inv q) q = H1.
Proof. intros q Hq. exact (conj (inv_right q Hq) (inv_left q Hq)). Qed.
Print Assumptions C08_inv.
Theorem C08_inv_mul : forall p q : quat Rnum, p <> H0 -> q <> H0 ->
  q_inv (q_mul p q) = q_mul (q_inv q) (q_inv p) /\ q_mul p q <> H0.
Proof. intros p q Hp Hq. exact (conj (inv_mul p q Hp Hq) (mul_nonzero p q Hp Hq)). Qed.
Print Assumptions C08_inv_mul.
Theorem C08_inv_unique : forall q r : quat Rnum, q_mul q r = H1 -> r = q_inv q.
Proof. exact inv_unique. Qed.
Theorem C08_inv_inv : forall q : quat Rnum, q <> H0 -> q_inv (q_inv q) = q.
Proof. exact inv_inv. Qed.
(** the divisor used by inv and versor vanishes exactly at q = 0 *)
Theorem C08_divisor_zero_iff : forall q : quat Rnum, q_norm q = 0%R <-> q = H0.
Proof. exact inv_divisor_zero. Qed.
Example C08_nonzero : (Quat (K:=Rnum) 0 0 0 1)%R <> H0.
Proof. intros E. injection E. exact R1_neq_R0. Qed.

(** C09 *)
Theorem C09_versor : forall q : quat Rnum, q <> H0 ->
  q_norm (q_versor q) = 1%R /\ r_mul_q (q_norm q) (q_versor q) = q.
Proof. intros q Hq. exact (conj (versor_norm q Hq) (versor_dir q Hq)). Qed.
Print Assumptions C09_versor.
Theorem C09_versor_mul : forall p q : quat Rnum, p <> H0 -> q <> H0 ->
  q_versor (q_mul p q) = q_mul (q_versor p) (q_versor q).
Proof. exact versor_mul. Qed.
Print Assumptions C09_versor_mul.

(** C10 *)
Theorem C10_comm : forall (K : num), laws K ->
  (forall p q : quat K, q_comm p q = Hsub (Hmul p q) (Hmul q p)) /\
  (forall (p : quat K) z, q_comm_qc p z = Hsub (Hmul p (Hc z)) (Hmul (Hc z) p)) /\
  (forall z (q : quat K), q_comm_cq z q = Hsub (Hmul (Hc z) q) (Hmul q (Hc z))) /\
  (forall a (q : quat K), q_comm_rq a q = Hsub (Hmul (Hre a) q) (Hmul q (Hre a))) /\
  (forall a (q : quat K), q_comm_qr q a = Hsub (Hmul q (Hre a)) (Hmul (Hre a) q)).
Proof. exact @comm_laws. Qed.
Print Assumptions C10_comm.
Theorem C10_antisymmetric : forall (K : num), laws K -> forall p q : quat K, q_comm p q = q_neg (q_comm q p).
Proof. exact @comm_antisym. Qed.
Theorem C10_jacobi : forall (K : num), laws K -> forall p q r : quat K,
  q_add (q_add (q_comm p (q_comm q r)) (q_comm q (q_comm r p))) (q_comm r (q_comm p q)) = H0.
Proof. exact @comm_jacobi. Qed.
Print Assumptions C10_jacobi.
Theorem C10_zero_iff_commute : forall (K : num), laws K -> forall p q : quat K,
  q_comm p q = H0 <-> Hmul p q = Hmul q p.
Proof. exact @comm_zero. Qed.
Print Assumptions C10_zero_iff_commute.
Example C10_nonzero : q_comm (K:=Znum) Hi Hj = (zq 0 0 0 2)%Z.
Proof. reflexivity. Qed.

(** C11: the full statement
      forall p q, q_eqb p q = true <-> p = q
    is false: operator== compares q's k component with itself. *)
Theorem C11_eq_refuted : exists p q : quat Znum, q_eqb p q = true /\ q_neqb p q = false /\ p <> q.
Proof. exists (zq 0 0 0 1)%Z, (zq 0 0 0 0)%Z. repeat split. discriminate. Qed.
Print Assumptions C11_eq_refuted.
Theorem C11_eq_exact_meaning : forall (K : num), laws K -> forall p q : quat K,
  q_eqb p q = true <-> (qr p = qr q /\ qi p = qi q /\ qj p = qj q).
Proof. exact @q_eqb_spec. Qed.
Print Assumptions C11_eq_exact_meaning.
(** what remains true: equal quaternions compare equal; quaternions with the same k component are
    decided correctly; != is the negation *)
Theorem C11_eq_partial : forall (K : num), laws K -> forall p q : quat K,
  (p = q -> q_eqb p q = true) /\ (qk p = qk q -> q_eqb p q = true -> p = q) /\ q_neqb p q = negb (q_eqb p q).
Proof.
  intros K L p q.
  exact (conj (q_eqb_complete L p q) (conj (q_eqb_sound_same_k L p q) eq_refl)).
Qed.
Print Assumptions C11_eq_partial.

(** C39 *)
Theorem C39_batched_products : forall (K : num), laws K -> forall (x y r : m4 K) (t : Z), (0 <= t < 4)%Z ->
  soa (INC_MULD4Q_NN x y r) t = Hadd (soa r t) (Hmul (soa x t) (soa y t)) /\
  soa (INC_MULD4Q_CN x y r) t = Hadd (soa r t) (Hmul (Hconj (soa x t)) (soa y t)) /\
  soa (MULD4Q_NN x y) t = Hmul (soa x t) (soa y t) /\
  soa (MULD4Q_CN x y) t = Hmul (Hconj (soa x t)) (soa y t).
Proof.
  intros K L x y r t Ht.
  exact (conj (INC_MULD4Q_NN_H L x y r t Ht) (conj (INC_MULD4Q_CN_H L x y r t Ht)
        (conj (MULD4Q_NN_H L x y t Ht) (MULD4Q_CN_H L x y t Ht)))).
Qed.
Print Assumptions C39_batched_products.
Theorem C39_transpose : forall (K : num) (m : m4 K),
  TRANSPOSE_4x4 (TRANSPOSE_4x4 m) = m /\
  forall t, (0 <= t < 4)%Z -> soa (TRANSPOSE_4x4 m) t = aos m t /\ aos (TRANSPOSE_4x4 m) t = soa m t.
Proof.
  intros K m. exact (conj (transpose_invol m) (fun t Ht => conj (transpose_soa m t Ht) (transpose_aos m t Ht))).
Qed.
Print Assumptions C39_transpose.
