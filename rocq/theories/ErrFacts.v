(** Rounding-error bounds for quaternion expressions. *)
From Coq Require Import ZArith Reals Lra Lia Psatz Bool.
From Flocq Require Import Core.Core IEEE754.BinarySingleNaN.
From Verif Require Import Num NumR Spec SpecFacts MQuat MSimd F64 SpecErr RoundFacts.
Local Open Scope R_scope.

Section Q.
Variables (fused : bool) (P : Prop).
Local Notation K := (F64 fused).
Local Notation FQ := (quat (F64 fused)).
Local Notation apx := (apx P).

Lemma apx_nadd (f1 : K) r1 m1 d1 E1 (f2 : K) r2 m2 d2 E2 : apx f1 r1 m1 d1 E1 -> apx f2 r2 m2 d2 E2 ->
  apx (nadd f1 f2) (r1 + r2) (m1 + m2) (S (Nat.max d1 d2)) (E1 + E2 + 1).
Proof.
  intros A1 A2. apply (apx_add P f1 r1 m1 E1 f2 r2 m2 E2).
  - eapply apx_weaken; [exact A1|reflexivity|apply Rle_refl|lia|apply Rle_refl].
  - eapply apx_weaken; [exact A2|reflexivity|apply Rle_refl|lia|apply Rle_refl].
Qed.
Lemma apx_nsub (f1 : K) r1 m1 d1 E1 (f2 : K) r2 m2 d2 E2 : apx f1 r1 m1 d1 E1 -> apx f2 r2 m2 d2 E2 ->
  apx (nsub f1 f2) (r1 - r2) (m1 + m2) (S (Nat.max d1 d2)) (E1 + E2 + 1).
Proof.
  intros A1 A2. apply (apx_sub P f1 r1 m1 E1 f2 r2 m2 E2).
  - eapply apx_weaken; [exact A1|reflexivity|apply Rle_refl|lia|apply Rle_refl].
  - eapply apx_weaken; [exact A2|reflexivity|apply Rle_refl|lia|apply Rle_refl].
Qed.
Lemma apx_nopp (f : K) r m d E : apx f r m d E -> apx (nopp f) (- r) m d E.
Proof. apply (apx_opp P f). Qed.
Lemma apx_nmul (f1 : K) r1 m1 d1 E1 (f2 : K) r2 m2 d2 E2 : apx f1 r1 m1 d1 E1 -> apx f2 r2 m2 d2 E2 ->
  (P -> is_finite (f1 : f64) = true) -> (P -> is_finite (f2 : f64) = true) ->
  apx (nmul f1 f2) (r1 * r2) (m1 * m2) (S (d1 + d2)) (E1 * m2 + m1 * E2 + eta * E1 * E2 + 1).
Proof. intros. apply (apx_mul P f1 r1 m1 d1 E1 f2 r2 m2 d2 E2); auto. Qed.
Lemma apx_nfma (f1 : K) r1 m1 d1 E1 (f2 : K) r2 m2 d2 E2 (f3 : K) r3 m3 d3 E3 :
  apx f1 r1 m1 d1 E1 -> apx f2 r2 m2 d2 E2 -> apx f3 r3 m3 d3 E3 ->
  (P -> is_finite (f1 : f64) = true) -> (P -> is_finite (f2 : f64) = true) ->
  apx (nfma f1 f2 f3) (r1 * r2 + r3) (m1 * m2 + m3) (S (Nat.max (S (d1 + d2)) d3)) (E1 * m2 + m1 * E2 + eta * E1 * E2 + E3 + 2).
Proof.
  intros A1 A2 A3 ? ?. eapply (apx_fma P fused f1 r1 m1 d1 E1 f2 r2 m2 d2 E2 f3); eauto; [|lia].
  eapply apx_weaken; [exact A3|reflexivity|apply Rle_refl|lia|apply Rle_refl].
Qed.
Lemma apx_nfnma (f1 : K) r1 m1 d1 E1 (f2 : K) r2 m2 d2 E2 (f3 : K) r3 m3 d3 E3 :
  apx f1 r1 m1 d1 E1 -> apx f2 r2 m2 d2 E2 -> apx f3 r3 m3 d3 E3 ->
  (P -> is_finite (f1 : f64) = true) -> (P -> is_finite (f2 : f64) = true) ->
  apx (nfnma f1 f2 f3) (r3 - r1 * r2) (m1 * m2 + m3) (S (Nat.max (S (d1 + d2)) d3)) (E1 * m2 + m1 * E2 + eta * E1 * E2 + E3 + 2).
Proof.
  intros A1 A2 A3 ? ?. eapply (apx_fnma P fused f1 r1 m1 d1 E1 f2 r2 m2 d2 E2 f3); eauto; [|lia].
  eapply apx_weaken; [exact A3|reflexivity|apply Rle_refl|lia|apply Rle_refl].
Qed.
Lemma apx_nfms (f1 : K) r1 m1 d1 E1 (f2 : K) r2 m2 d2 E2 (f3 : K) r3 m3 d3 E3 :
  apx f1 r1 m1 d1 E1 -> apx f2 r2 m2 d2 E2 -> apx f3 r3 m3 d3 E3 ->
  (P -> is_finite (f1 : f64) = true) -> (P -> is_finite (f2 : f64) = true) ->
  apx (nfms f1 f2 f3) (r1 * r2 - r3) (m1 * m2 + m3) (S (Nat.max (S (d1 + d2)) d3)) (E1 * m2 + m1 * E2 + eta * E1 * E2 + E3 + 2).
Proof.
  intros A1 A2 A3 ? ?. eapply (apx_fms P fused f1 r1 m1 d1 E1 f2 r2 m2 d2 E2 f3); eauto; [|lia].
  eapply apx_weaken; [exact A3|reflexivity|apply Rle_refl|lia|apply Rle_refl].
Qed.
Lemma apx_zero : apx (n0 : K) 0 0 0 0.
Proof.
  refine (conj _ (conj (Rle_refl _) (conj _ _))).
  - rewrite Rabs_R0. apply Rle_refl.
  - intros _. change (B2R (n0 : K)) with 0. unfold err_bound. cbn. rewrite Rminus_0_r, Rabs_R0. lra.
  - reflexivity.
Qed.

Definition qapx (v : FQ) (x m : quat Rnum) (d : nat) (E : R) : Prop :=
  apx (qr v) (qr x) (qr m) d E /\ apx (qi v) (qi x) (qi m) d E /\ apx (qj v) (qj x) (qj m) d E /\ apx (qk v) (qk x) (qk m) d E.

Lemma qapx_close v x m d E : qapx v x m d E -> close d E v x m.
Proof. intros (A1 & A2 & A3 & A4). repeat split; [apply A1|apply A2|apply A3|apply A4]. Qed.
Lemma apx_below f r m d E : apx f r m d E -> P -> m + err_bound d m E < bpow radix2 1024 -> is_finite f = true.
Proof. intros (_ & _ & _ & H) HP B. apply H; auto. rewrite err_top in B. lra. Qed.
Lemma qapx_fin v x m d E : qapx v x m d E -> P -> below d E m -> fin v.
Proof. intros (A1 & A2 & A3 & A4) HP (B1 & B2 & B3 & B4). repeat split; eapply apx_below; eauto. Qed.
Lemma qapx_weaken v (x m : quat Rnum) d E (x' m' : quat Rnum) d' E' : qapx v x m d E -> x = x' ->
  qr m <= qr m' -> qi m <= qi m' -> qj m <= qj m' -> qk m <= qk m' -> (d <= d')%nat -> E <= E' -> qapx v x' m' d' E'.
Proof. intros (A1 & A2 & A3 & A4) <- ? ? ? ? ? ?. refine (conj _ (conj _ (conj _ _))); eapply apx_weaken; eauto. Qed.
Lemma qapx_ext v x m d E m' : qapx v x m d E -> m = m' -> qapx v x m' d E. Proof. intros ? <-. auto. Qed.
Lemma qapx_leaf (q : FQ) : (P -> fin q) -> qapx q (QR q) (Qabs (QR q)) 0 0.
Proof. intros F. refine (conj _ (conj _ (conj _ _))); apply apx_leaf; intros HP; apply F in HP; apply HP. Qed.
Lemma qapx_conj (q : FQ) x m d E : qapx q x m d E -> qapx (Hconj q) (Hconj (K := Rnum) x) m d E.
Proof. intros (A1 & A2 & A3 & A4). refine (conj _ (conj _ (conj _ _))); cbn [qr qi qj qk Hconj]; auto using apx_nopp. Qed.
Lemma qapx_zero : qapx H0 (H0 (K := Rnum)) (H0 (K := Rnum)) 0 0.
Proof. refine (conj _ (conj _ (conj _ _))); apply apx_zero. Qed.
Lemma fin_conj (q : FQ) : fin q -> fin (Hconj q).
Proof.
  intros (F1 & F2 & F3 & F4). repeat split; cbn [qr qi qj qk Hconj]; auto;
    match goal with |- is_finite (nopp ?a) = true => change (is_finite (fopp a) = true); rewrite fopp_fin; auto end.
Qed.
End Q.
Lemma QR_conj {f} (q : quat (F64 f)) : QR (Hconj q) = Hconj (K := Rnum) (QR q).
Proof. destruct q as [a b c d]. unfold QR, Hconj; cbn [qr qi qj qk]. f_equal; apply B2R_Bopp. Qed.
Lemma Qabs_conj q : Qabs (Hconj (K := Rnum) q) = Qabs q.
Proof. destruct q as [a b c d]. unfold Qabs, Hconj; cbn. f_equal; apply Rabs_Ropp. Qed.

Ltac apxt := lazymatch goal with
  | |- apx _ (nadd _ _) _ _ _ _ => eapply apx_nadd; apxt
  | |- apx _ (nsub _ _) _ _ _ _ => eapply apx_nsub; apxt
  | |- apx _ (nopp _) _ _ _ _ => eapply apx_nopp; apxt
  | |- apx _ (nmul _ _) _ _ _ _ => eapply apx_nmul; [apxt|apxt|apxf|apxf]
  | |- apx _ (nfma _ _ _) _ _ _ _ => eapply apx_nfma; [apxt|apxt|apxt|apxf|apxf]
  | |- apx _ (nfnma _ _ _) _ _ _ _ => eapply apx_nfnma; [apxt|apxt|apxt|apxf|apxf]
  | |- apx _ (nfms _ _ _) _ _ _ _ => eapply apx_nfms; [apxt|apxt|apxt|apxf|apxf]
  | |- apx _ _ _ _ _ _ => eassumption
  end
with apxf := lazymatch goal with
  | |- _ -> is_finite _ = true => first [assumption | let HP := fresh in intros HP; match goal with |- is_finite (nopp ?a) = true => change (is_finite (fopp a) = true); rewrite fopp_fin; auto end]
  end.
(** derive an [apx] for an expression and weaken it to the goal *)
Ltac apxw := eapply apx_weaken; [apxt| | | | ].

Section O.
Variables (fused : bool) (P : Prop).
Local Notation FQ := (quat (F64 fused)).
Local Notation qapx := (qapx fused P).
(** product by the SIMD primitive, plain factors *)
Lemma qapx_muldq (p q : FQ) xp xq mp mq : qapx p xp mp 0 0 -> qapx q xq mq 0 0 -> (P -> fin p) -> (P -> fin q) ->
  qapx (q_of_v (MULDQ_NN (v_of_q p) (v_of_q q))) (Hmul xp xq) (Qmaj mp mq) 4 7.
Proof.
  intros (A1 & A2 & A3 & A4) (B1 & B2 & B3 & B4) Fp Fq.
  assert (P -> is_finite (qr p : f64) = true) by (intros h; apply (Fp h)). assert (P -> is_finite (qi p : f64) = true) by (intros h; apply (Fp h)).
  assert (P -> is_finite (qj p : f64) = true) by (intros h; apply (Fp h)). assert (P -> is_finite (qk p : f64) = true) by (intros h; apply (Fp h)).
  assert (P -> is_finite (qr q : f64) = true) by (intros h; apply (Fq h)). assert (P -> is_finite (qi q : f64) = true) by (intros h; apply (Fq h)).
  assert (P -> is_finite (qj q : f64) = true) by (intros h; apply (Fq h)). assert (P -> is_finite (qk q : f64) = true) by (intros h; apply (Fq h)).
  destruct p as [p0 p1 p2 p3], q as [q0 q1 q2 q3], xp as [x0 x1 x2 x3], xq as [y0 y1 y2 y3], mp as [a0 a1 a2 a3], mq as [b0 b1 b2 b3].
  cbn [qr qi qj qk] in *.
  unfold MULDQ_NN, q_of_v, v_of_q, mm256_add, mm256_mul, FMS_256D, FMA_256D, mm256_xorsign, flip, mm256_permute, mm_shuffle, set256, lo, hi, sel.
  cbn [l0 l1 l2 l3 d0 d1 qr qi qj qk Z.testbit Pos.testbit Pos.pred_N N.testbit Pos.Nsucc_double].
  refine (conj _ (conj _ (conj _ _))); cbn [qr qi qj qk Qmaj]; (apxw; [hunf; cbn; ring|apply Req_le; cbn; ring|cbn; lia|lra]).
Qed.
End O.
