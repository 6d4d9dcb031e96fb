(** Rounding-error bounds of the optimised SCAL, AXPY, dot products and GEMM. *)
From Coq Require Import ZArith Reals Lra Lia Psatz Bool Ascii.
From Flocq Require Import Core.Core IEEE754.BinarySingleNaN.
From Verif Require Import Num NumR Res ResFacts Spec SpecFacts VecFacts LoopFacts MQuat MSimd SimdFacts MOptL1 L1Facts L1Facts2 L1Facts3 MPack PackFacts
  MOptGemm OptGemmFacts OptGemmTop F64 SpecErr RoundFacts ErrFacts.
Local Open Scope R_scope.

Lemma QR_r {f} (q : quat (F64 f)) : qr (QR q) = B2R (qr q). Proof. reflexivity. Qed.

Section O.
Variables (fused : bool) (P : Prop).
Local Notation K := (F64 fused).
Local Notation FQ := (quat (F64 fused)).
Local Notation qapx := (qapx fused P).

Lemma fin_parts (q : FQ) : (P -> fin q) -> (P -> is_finite (qr q : f64) = true) /\ (P -> is_finite (qi q : f64) = true) /\
  (P -> is_finite (qj q : f64) = true) /\ (P -> is_finite (qk q : f64) = true).
Proof. intros F. repeat split; intros HP; apply (F HP). Qed.
Ltac fins F := destruct (fin_parts _ F) as (? & ? & ? & ?).
Ltac lanes := unfold scalq, scal_step, axpy_step, alpha_cplx, load_cplx, q_of_v, v_of_q, mm256_mul, mm256_add, mm256_hsub, mm256_broadcast, mm256_xorsign, flip,
      mm256_permute, set256, sel, FMA_256D;
    cbn [l0 l1 l2 l3 d0 d1 re im qr qi qj qk Z.testbit Pos.testbit Pos.pred_N Pos.pred_double Z.odd N.testbit Pos.Nsucc_double].
Ltac fin4 := refine (conj _ (conj _ (conj _ _))); cbn [qr qi qj qk];
      (apxw; [cbn; ring|apply Req_le; cbn; rewrite ?Rabs_R0; ring|cbn; lia|lra]).

(** SCAL: real and complex scalars *)
Lemma qapx_scalq b (alpha : scal K) (q : FQ) x m : (forall h, alpha <> SH h) -> qapx q x m 0 0 -> (P -> sfin alpha) -> (P -> fin q) ->
  qapx (scalq b alpha q) (Hside (sd b) (emb (SR_of alpha)) x) (Qmaj (Qabs (emb (SR_of alpha))) m) 2 3.
Proof.
  intros Hh (B1 & B2 & B3 & B4) Fa Fq. fins Fq.
  destruct alpha as [a|[a c]|h]; [| |destruct (Hh h eq_refl)]; cbn [sfin re im] in Fa.
  - pose proof (apx_leaf P a Fa) as A. destruct q as [q0 q1 q2 q3], x as [x0 x1 x2 x3], m as [m0 m1 m2 m3].
    cbn [qr qi qj qk] in *. destruct b; lanes; fin4.
  - assert (Fr : P -> is_finite (a : f64) = true) by (intros h; apply (Fa h)). assert (Fi : P -> is_finite (c : f64) = true) by (intros h; apply (Fa h)).
    pose proof (apx_leaf P a Fr) as A. pose proof (apx_leaf P c Fi) as C. destruct q as [q0 q1 q2 q3], x as [x0 x1 x2 x3], m as [m0 m1 m2 m3].
    cbn [qr qi qj qk] in *. destruct b; lanes; fin4.
Qed.
Lemma Qmaj_comm p q : Qmaj p q = Qmaj q p.
Proof. unfold Qmaj. f_equal; cbn; ring. Qed.
(** SCAL: any scalar *)
Lemma qapx_scalq_any b (alpha : scal K) (q : FQ) x m : qapx q x m 0 0 -> (P -> sfin alpha) -> (P -> fin q) ->
  qapx (scalq b alpha q) (Hside (sd b) (emb (SR_of alpha)) x) (Qmaj (Qabs (emb (SR_of alpha))) m) 4 7.
Proof.
  intros Q Fa Fq. destruct alpha as [a|z|h].
  1,2: eapply qapx_weaken; [apply qapx_scalq; [intros ? Ee; discriminate Ee|exact Q|exact Fa|exact Fq]|reflexivity|apply Rle_refl|apply Rle_refl|apply Rle_refl|apply Rle_refl|lia|lra].
  destruct b.
  - apply (qapx_muldq fused P h q (QR h) x (Qabs (QR h)) m); auto. apply qapx_leaf; auto.
  - rewrite Qmaj_comm. apply (qapx_muldq fused P q h x (QR h) m (Qabs (QR h))); auto. apply qapx_leaf; auto.
Qed.
Definition axpyq (b : bool) (alpha : scal K) (q r : FQ) : FQ := q_of_v (axpy_step b alpha (v_of_q q) (v_of_q r)).
Lemma qapx_add (p q : FQ) xp xq mp mq dp dq Ep Eq : qapx p xp mp dp Ep -> qapx q xq mq dq Eq ->
  qapx (Hadd p q) (Hadd (K := Rnum) xp xq) (Hadd (K := Rnum) mp mq) (S (Nat.max dp dq)) (Ep + Eq + 1).
Proof. intros (A1 & A2 & A3 & A4) (B1 & B2 & B3 & B4). refine (conj _ (conj _ (conj _ _))); cbn [qr qi qj qk Hadd]; apply apx_nadd; auto. Qed.
(** AXPY: any scalar *)
Lemma qapx_axpyq b (alpha : scal K) (q r : FQ) : (P -> sfin alpha) -> (P -> fin q) -> (P -> fin r) ->
  qapx (axpyq b alpha q r) (Hadd (K := Rnum) (QR r) (Hside (sd b) (emb (SR_of alpha)) (QR q)))
    (Hadd (K := Rnum) (Qabs (QR r)) (Qmaj (Qabs (emb (SR_of alpha))) (Qabs (QR q)))) 5 8.
Proof.
  intros Fa Fq Fr.
  destruct alpha as [a|z|h].
  - pose proof (qapx_leaf fused P q Fq) as (B1 & B2 & B3 & B4). pose proof (qapx_leaf fused P r Fr) as (C1 & C2 & C3 & C4). fins Fq. cbn [sfin] in Fa.
    pose proof (apx_leaf P a Fa) as A. cbn [QR Qabs qr qi qj qk] in B1, B2, B3, B4, C1, C2, C3, C4.
    destruct q as [q0 q1 q2 q3], r as [r0 r1 r2 r3]. cbn [qr qi qj qk] in *. unfold axpyq. destruct b; lanes; fin4.
  - replace (axpyq b (SC z) q r) with (Hadd r (scalq b (SC z) q)) by (unfold axpyq, scalq, axpy_step, scal_step; destruct (alpha_cplx b z); reflexivity).
    eapply qapx_weaken; [apply qapx_add; [apply qapx_leaf; auto|apply qapx_scalq_any; [apply qapx_leaf; auto| |]; auto]|reflexivity|apply Rle_refl|apply Rle_refl|apply Rle_refl|apply Rle_refl|cbn; lia|lra].
  - replace (axpyq b (SH h) q r) with (Hadd r (scalq b (SH h) q)) by (unfold axpyq, scalq, axpy_step, scal_step; destruct b; reflexivity).
    eapply qapx_weaken; [apply qapx_add; [apply qapx_leaf; auto|apply qapx_scalq_any; [apply qapx_leaf; auto| |]; auto]|reflexivity|apply Rle_refl|apply Rle_refl|apply Rle_refl|apply Rle_refl|cbn; lia|lra].
Qed.

(** one multiply-accumulate of the GEMM kernel and of the unconjugated dot product *)
Lemma apx_Epos f r m d E : apx P f r m d E -> 0 <= E. Proof. intros A. apply A. Qed.
Lemma Emul E b : 0 <= E -> E * b <= E * Rabs b.
Proof. intros HE. apply Rmult_le_compat_l; [auto|apply RRle_abs]. Qed.
Lemma qapx_qinc (x y r : FQ) xx xy xr mx my mr dx Ex d Er : qapx x xx mx dx Ex -> qapx y xy my 0 0 -> qapx r xr mr d Er ->
  (P -> fin x) -> (P -> fin y) -> (S dx <= d)%nat ->
  qapx (qinc x y r) (Hadd (K := Rnum) xr (Hmul (K := Rnum) xx xy)) (Hadd (K := Rnum) mr (Qmaj mx my)) (4 + d) (Er + (Ex * Q1 my + 8)).
Proof.
  intros (A1 & A2 & A3 & A4) (B1 & B2 & B3 & B4) (C1 & C2 & C3 & C4) Fx Fy Hd. fins Fx. fins Fy.
  pose proof (apx_Epos _ _ _ _ _ A1) as HE. pose proof (Emul Ex (qr my) HE). pose proof (Emul Ex (qi my) HE). pose proof (Emul Ex (qj my) HE). pose proof (Emul Ex (qk my) HE).
  destruct x as [x0 x1 x2 x3], y as [y0 y1 y2 y3], r as [r0 r1 r2 r3], xx as [a0 a1 a2 a3], xy as [b0 b1 b2 b3], xr as [c0 c1 c2 c3],
    mx as [m0 m1 m2 m3], my as [n0 n1 n2 n3], mr as [o0 o1 o2 o3]. unfold Q1. cbn [qr qi qj qk] in *.
  unfold qinc; cbn [qr qi qj qk].
  refine (conj _ (conj _ (conj _ _))); cbn [qr qi qj qk Qmaj Hadd Hmul];
    (apxw; [cbn; ring|apply Req_le; cbn; ring|lia|lra]).
Qed.
End O.
