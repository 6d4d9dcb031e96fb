(** Property theorems C49: norm, versor and inverse in double precision.  [nrm], [nrm2], [moderate], [qnear]: SpecNorm.v. *)
From Coq Require Import ZArith Reals Lra Lia Bool.
From Flocq Require Import Core.Raux Core.Zaux Core.Defs Core.Float_prop IEEE754.BinarySingleNaN.
From Verif Require Import Num NumR Spec MQuat MSimd F64 SpecErr SpecNorm MNormC NormFacts.
Local Open Scope R_scope.

(** the norm is accurate to four units of roundoff, the versor componentwise to six, the inverse to eleven relative to its norm *)
Theorem C49_norm_err : forall fused (q : quat (F64 fused)), moderate q -> is_finite (q_norm q) = true /\ Rabs (B2R (q_norm q) - nrm q) <= 4 * uro * nrm q.
Proof. exact norm_main. Qed.
Print Assumptions C49_norm_err.
Theorem C49_versor_err : forall fused (q : quat (F64 fused)), moderate q ->
  qnear (q_versor q) (@Quat Rnum (B2R (qr q) / nrm q) (B2R (qi q) / nrm q) (B2R (qj q) / nrm q) (B2R (qk q) / nrm q)) (6 * uro).
Proof. intros fused q M. exact (versor_core fused q (q_norm q) M (proj2 (norm_main fused q M))). Qed.
Print Assumptions C49_versor_err.
Theorem C49_inv_err : forall fused (q : quat (F64 fused)), moderate q ->
  qnear (q_inv q) (@Quat Rnum (B2R (qr q) / nrm2 q) (- B2R (qi q) / nrm2 q) (- B2R (qj q) / nrm2 q) (- B2R (qk q) / nrm2 q)) (11 * uro * / nrm q).
Proof. intros fused q M. exact (inv_core fused q (q_norm q) M (proj2 (norm_main fused q M))). Qed.
Print Assumptions C49_inv_err.
(** q times its inverse, with the library's product, is 1 up to 32 units of roundoff in each component *)
Theorem C49_inv_mul : forall fused (q : quat (F64 fused)), moderate q -> qnear (q_mul_avx q (q_inv q)) (H1 (K := Rnum)) (32 * uro).
Proof. intros fused q M. exact (inv_mul_core fused q (q_inv q) M (C49_inv_err fused q M)). Qed.
Print Assumptions C49_inv_mul.
(** the same when the compiler contracts "nmsq += x * x" into fused multiply-adds *)
Theorem C49_contracted : forall fused (q : quat (F64 fused)), moderate q ->
  (is_finite (q_norm_contracted q) = true /\ Rabs (B2R (q_norm_contracted q) - nrm q) <= 4 * uro * nrm q) /\
  qnear (q_versor_contracted q) (@Quat Rnum (B2R (qr q) / nrm q) (B2R (qi q) / nrm q) (B2R (qj q) / nrm q) (B2R (qk q) / nrm q)) (6 * uro) /\
  qnear (q_inv_contracted q) (@Quat Rnum (B2R (qr q) / nrm2 q) (- B2R (qi q) / nrm2 q) (- B2R (qj q) / nrm2 q) (- B2R (qk q) / nrm2 q)) (11 * uro * / nrm q) /\
  qnear (q_mul_avx q (q_inv_contracted q)) (H1 (K := Rnum)) (32 * uro).
Proof.
  intros fused q M. pose proof (norm_main_c fused q M) as N. pose proof (inv_core fused q (q_norm_contracted q) M (proj2 N)) as I.
  exact (conj N (conj (versor_core fused q (q_norm_contracted q) M (proj2 N)) (conj I (inv_mul_core fused q (q_inv_contracted q) M I)))).
Qed.
Print Assumptions C49_contracted.

(** outside that range the property fails: 2^600 and 2^-600 are ordinary doubles, the norm of the quaternion is that double *)
Definition two600 : f64 := @B754_finite 53 1024 false 4503599627370496 548 eq_refl.
Definition twom600 : f64 := @B754_finite 53 1024 false 4503599627370496 (-652) eq_refl.
Lemma nrm_real fused x : 0 <= B2R x -> nrm (@Quat (F64 fused) x f_zero f_zero f_zero) = B2R x.
Proof. intros Hx. unfold nrm, nrm2. cbn [qr qi qj qk]. cbn [B2R f_zero]. rewrite !Rmult_0_l, !Rplus_0_r. apply sqrt_square. exact Hx. Qed.
(** overflow of the squares: the norm is infinite, the versor is 0 instead of 1, and the inverse is 0 *)
Theorem C49_overflow_refuted : forall fused, let q := @Quat (F64 fused) two600 f_zero f_zero f_zero in
  fin q /\ nrm q = bpow radix2 600 /\ q_norm q = f_inf /\ q_versor q = H0 /\ qr (q_inv q) = f_zero.
Proof.
  intros fused q. assert (E : B2R two600 = bpow radix2 600).
  { unfold two600, B2R, F2R. cbn [Fnum Fexp cond_Zopp]. change (IZR 4503599627370496) with (IZR (radix2 ^ 52)). rewrite IZR_Zpower by lia. rewrite <- bpow_plus. reflexivity. }
  split; [repeat split|]. split; [unfold q; rewrite nrm_real; rewrite E; [reflexivity|apply bpow_ge_0]|].
  split; [vm_compute; reflexivity|]. split; [|vm_compute; reflexivity].
  assert (X : forall a b : quat (F64 fused), qr a = qr b -> qi a = qi b -> qj a = qj b -> qk a = qk b -> a = b).
  { intros [ar ai aj ak] [br bi bj bk]. cbn [qr qi qj qk]. intros; subst; reflexivity. }
  apply X; vm_compute; reflexivity.
Qed.
Print Assumptions C49_overflow_refuted.
(** underflow of the squares: the norm is 0, versor and inverse have an infinite real part and NaN elsewhere *)
Theorem C49_underflow_refuted : forall fused, let q := @Quat (F64 fused) twom600 f_zero f_zero f_zero in
  fin q /\ nrm q = bpow radix2 (-600) /\ q_norm q = f_zero /\ qr (q_versor q) = f_inf /\ qi (q_versor q) = f_nan /\ qr (q_inv q) = f_inf /\ qi (q_inv q) = f_nan.
Proof.
  intros fused q. assert (E : B2R twom600 = bpow radix2 (-600)).
  { unfold twom600, B2R, F2R. cbn [Fnum Fexp cond_Zopp]. change (IZR 4503599627370496) with (IZR (radix2 ^ 52)). rewrite IZR_Zpower by lia. rewrite <- bpow_plus. reflexivity. }
  split; [repeat split|]. split; [unfold q; rewrite nrm_real; rewrite E; [reflexivity|apply bpow_ge_0]|].
  repeat split; vm_compute; reflexivity.
Qed.
Print Assumptions C49_underflow_refuted.
(** the quaternion (1,1,1,1), of norm 2, is in the range *)
Example C49_concrete : forall fused, let q := @Quat (F64 fused) f_one f_one f_one f_one in moderate q /\ nrm q = 2 /\
  Rabs (B2R (q_norm q) - 2) <= 8 * uro /\ qnear (q_mul_avx q (q_inv q)) (H1 (K := Rnum)) (32 * uro).
Proof.
  intros fused q. assert (B1 : @B2R 53 1024 f_one = 1) by (apply Bone_correct).
  assert (E : nrm2 q = 4) by (unfold nrm2, q; cbn [qr qi qj qk]; rewrite B1; lra).
  assert (M : moderate q).
  { split; [repeat split|]. rewrite E. split.
    - apply Rle_trans with (bpow radix2 0); [apply bpow_le; lia|cbn; lra].
    - apply Rle_trans with (bpow radix2 2); [cbn; lra|apply bpow_le; lia]. }
  assert (EN : nrm q = 2) by (unfold nrm; rewrite E; replace 4 with (2 * 2) by lra; apply sqrt_square; lra).
  split; [exact M|]. split; [exact EN|]. split; [|apply C49_inv_mul; exact M].
  destruct (C49_norm_err fused q M) as [_ N]. rewrite EN in N. lra.
Qed.
