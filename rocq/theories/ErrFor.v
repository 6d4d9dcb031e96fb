(** Rounding-error calculus for COMPLEX*16 expressions and the element updates of the Fortran kernels. *)
From Coq Require Import ZArith Reals Lra Lia Psatz Bool Ascii.
From Flocq Require Import Core.Core IEEE754.BinarySingleNaN.
From Verif Require Import Num NumR Res Spec SpecFacts MQuat MForL1 MForL2 MForL3 F64 SpecErr RoundFacts ErrFacts ErrFacts2.
Local Open Scope R_scope.

Section C.
Variables (fused : bool) (P : Prop).
Local Notation K := (F64 fused).
Local Notation FQ := (quat (F64 fused)).
Local Notation FC := (cplx (F64 fused)).
Local Notation RC := (cplx Rnum).
Local Notation apx := (apx P).
Local Notation qapx := (qapx fused P).

Definition capx (z : FC) (x m : RC) (d : nat) (E : R) : Prop := apx (re z) (re x) (re m) d E /\ apx (im z) (im x) (im m) d E.
Definition cfin (z : FC) : Prop := is_finite (re z : f64) = true /\ is_finite (im z : f64) = true.
Definition cmaj (p q : RC) : RC := @Cplx Rnum (re p * re q + im p * im q) (re p * im q + im p * re q).
Definition cle (p q : RC) : Prop := re p <= re q /\ im p <= im q.

Lemma capx_weaken z x m d E m' d' E' : capx z x m d E -> cle m m' -> (d <= d')%nat -> E <= E' -> capx z x m' d' E'.
Proof. intros [A1 A2] [? ?] ? ?. split; eapply apx_weaken; eauto. Qed.
Lemma capx_add z1 x1 m1 d1 E1 z2 x2 m2 d2 E2 : capx z1 x1 m1 d1 E1 -> capx z2 x2 m2 d2 E2 ->
  capx (cadd z1 z2) (cadd (K := Rnum) x1 x2) (cadd (K := Rnum) m1 m2) (S (Nat.max d1 d2)) (E1 + E2 + 1).
Proof. intros [? ?] [? ?]. split; apply apx_nadd; auto. Qed.
Lemma capx_sub z1 x1 m1 d1 E1 z2 x2 m2 d2 E2 : capx z1 x1 m1 d1 E1 -> capx z2 x2 m2 d2 E2 ->
  capx (csub z1 z2) (csub (K := Rnum) x1 x2) (cadd (K := Rnum) m1 m2) (S (Nat.max d1 d2)) (E1 + E2 + 1).
Proof. intros [? ?] [? ?]. split; apply apx_nsub; auto. Qed.
Lemma capx_neg z x m d E : capx z x m d E -> capx (cneg z) (cneg (K := Rnum) x) m d E.
Proof. intros [? ?]. split; apply apx_nopp; auto. Qed.
Lemma capx_conj z x m d E : capx z x m d E -> capx (conjg z) (conjg (K := Rnum) x) m d E.
Proof. intros [? ?]. split; auto. apply apx_nopp; auto. Qed.
Lemma capx_mul z1 x1 m1 z2 x2 m2 d E : capx z1 x1 m1 0 0 -> capx z2 x2 m2 d E -> (P -> cfin z1) -> (P -> cfin z2) ->
  capx (cmul z1 z2) (cmul (K := Rnum) x1 x2) (cmaj m1 m2) (S (S d)) (E * (re m1 + im m1) + 3).
Proof.
  intros [A1 A2] [B1 B2] F1 F2.
  assert (P -> is_finite (re z1 : f64) = true) by (intros h; apply (F1 h)). assert (P -> is_finite (im z1 : f64) = true) by (intros h; apply (F1 h)).
  assert (P -> is_finite (re z2 : f64) = true) by (intros h; apply (F2 h)). assert (P -> is_finite (im z2 : f64) = true) by (intros h; apply (F2 h)).
  split; unfold cmul, cmaj; cbn [re im]; (apxw; [reflexivity|cbn; lra|cbn; lia|lra]).
Qed.
Lemma capx_rmul (a : K) xa ma z x m d E : apx a xa ma 0 0 -> capx z x m d E -> (P -> is_finite (a : f64) = true) -> (P -> cfin z) ->
  capx (crmul a z) (crmul (K := Rnum) xa x) (@Cplx Rnum (ma * re m) (ma * im m)) (S d) (E * ma + 1).
Proof.
  intros A [B1 B2] F1 F2.
  assert (P -> is_finite (re z : f64) = true) by (intros h; apply (F2 h)). assert (P -> is_finite (im z : f64) = true) by (intros h; apply (F2 h)).
  split; unfold crmul; cbn [re im]; (apxw; [reflexivity|cbn; lra|cbn; lia|lra]).
Qed.
Lemma capx_zero : capx c0 (c0 (K := Rnum)) (c0 (K := Rnum)) 0 0. Proof. split; apply apx_zero. Qed.
Lemma capx_h1 q x m d E : qapx q x m d E -> capx (h1 q) (h1 (K := Rnum) x) (h1 (K := Rnum) m) d E. Proof. intros (?&?&?&?). split; auto. Qed.
Lemma capx_h2 q x m d E : qapx q x m d E -> capx (h2 q) (h2 (K := Rnum) x) (h2 (K := Rnum) m) d E. Proof. intros (?&?&?&?). split; auto. Qed.
Lemma cfin_h1 q : (P -> fin q) -> P -> cfin (h1 q). Proof. intros F h. destruct (F h) as (?&?&?&?). split; auto. Qed.
Lemma cfin_h2 q : (P -> fin q) -> P -> cfin (h2 q). Proof. intros F h. destruct (F h) as (?&?&?&?). split; auto. Qed.
Lemma cfin_conj z : (P -> cfin z) -> P -> cfin (conjg z).
Proof. intros F h. destruct (F h) as [F1 F2]. split; auto. change (is_finite (fopp (im z)) = true). rewrite fopp_fin. auto. Qed.
Lemma cfin_neg z : (P -> cfin z) -> P -> cfin (cneg z).
Proof.
  intros F h. destruct (F h) as [F1 F2]. split.
  - change (is_finite (fopp (re z)) = true). rewrite fopp_fin. auto.
  - change (is_finite (fopp (im z)) = true). rewrite fopp_fin. auto.
Qed.
(** magnitudes below the overflow threshold *)
Definition csafe (d : nat) (E : R) (m : RC) : Prop := re m + err_bound d (re m) E < bpow radix2 1024 /\ im m + err_bound d (im m) E < bpow radix2 1024.
Lemma cfin_of z x m d E : capx z x m d E -> (P -> csafe d E m) -> P -> cfin z.
Proof. intros [A1 A2] S h. destruct (S h) as [S1 S2]. split; eapply apx_below; eauto. Qed.
Lemma below_le d E m M d' E' : 0 <= m -> 0 <= E -> m <= M -> (d <= d')%nat -> E <= E' -> M + err_bound d' M E' < bpow radix2 1024 -> m + err_bound d m E < bpow radix2 1024.
Proof.
  intros Hm HE HM Hd HEE B. rewrite err_top in *. replace (M + (top d' M E' - M)) with (top d' M E') in B by ring.
  replace (m + (top d m E - m)) with (top d m E) by ring. eapply Rle_lt_trans; [|exact B]. apply top_mono; auto.
Qed.
(** a quaternion from its halves *)
Lemma qapx_hq z1 x1 m1 d1 E1 z2 x2 m2 d2 E2 (x m : quat Rnum) d E : capx z1 x1 m1 d1 E1 -> capx z2 x2 m2 d2 E2 ->
  hq (K := Rnum) x1 x2 = x -> hq (K := Rnum) m1 m2 = m -> (d1 <= d)%nat -> (d2 <= d)%nat -> E1 <= E -> E2 <= E -> qapx (hq z1 z2) x m d E.
Proof.
  intros [A1 A2] [B1 B2] <- <- ? ? ? ?. refine (conj _ (conj _ (conj _ _))); cbn [hq qr qi qj qk];
    (eapply apx_weaken; [eassumption|reflexivity|apply Rle_refl|assumption|assumption]).
Qed.
End C.

(** derive a [capx] for an expression built from leaves *)
Ltac capt := lazymatch goal with
  | |- capx _ _ (cadd _ _) _ _ _ _ => eapply capx_add; capt
  | |- capx _ _ (csub _ _) _ _ _ _ => eapply capx_sub; capt
  | |- capx _ _ (cneg _) _ _ _ _ => eapply capx_neg; capt
  | |- capx _ _ (conjg _) _ _ _ _ => eapply capx_conj; capt
  | |- capx _ _ (cmul _ _) _ _ _ _ => eapply capx_mul; [capt|capt|capf|capf]
  | |- capx _ _ (crmul _ _) _ _ _ _ => eapply capx_rmul; [eassumption|capt|assumption|capf]
  | |- capx _ _ _ _ _ _ _ => eassumption
  end
with capf := lazymatch goal with
  | |- _ -> cfin _ (conjg _) => apply cfin_conj; capf
  | |- _ -> cfin _ (cneg _) => apply cfin_neg; capf
  | |- _ => assumption
  end.
Ltac rr := cbn -[Rabs Rmult Rplus Ropp Rminus]; rewrite ?Rabs_R0.

Section E.
Variables (fused : bool) (P : Prop).
Local Notation K := (F64 fused).
Local Notation FQ := (quat (F64 fused)).
Local Notation FC := (cplx (F64 fused)).
Local Notation qapx := (qapx fused P).
Local Notation capx := (capx fused P).
Local Notation RH := (quat Rnum).

Lemma QR_abs_pos (q : FQ) : 0 <= qr (Qabs (QR q)) /\ 0 <= qi (Qabs (QR q)) /\ 0 <= qj (Qabs (QR q)) /\ 0 <= qk (Qabs (QR q)).
Proof. unfold Qabs; cbn. repeat split; apply Rabs_pos. Qed.

(** BETA*y *)
Lemma qapx_hbeta (beta : scal K) (y : FQ) : (P -> sfin beta) -> (P -> fin y) ->
  qapx (hbeta_elt beta y) (Hmul (K := Rnum) (emb (SR_of beta)) (QR y)) (Qmaj (Qabs (emb (SR_of beta))) (Qabs (QR y))) 3 7.
Proof.
  intros Fb Fy. pose proof (qapx_leaf fused P y Fy) as Y. pose proof (capx_h1 _ _ _ _ _ _ _ Y) as Y1. pose proof (capx_h2 _ _ _ _ _ _ _ Y) as Y2.
  pose proof (cfin_h1 _ _ _ Fy) as FY1. pose proof (cfin_h2 _ _ _ Fy) as FY2.
  destruct beta as [b|z|q]; cbn [sfin] in Fb; unfold hbeta_elt.
  - pose proof (apx_leaf P b Fb) as Bb.
    eapply qapx_hq; [capt|capt|..]; [|unfold hq, Qmaj; rr; f_equal; ring|lia|lia|lra|lra]. unfold hq, Hmul, mkH; rr; f_equal; ring.
  - assert (Bz : capx z (@Cplx Rnum (B2R (re z)) (B2R (im z))) (@Cplx Rnum (Rabs (B2R (re z))) (Rabs (B2R (im z)))) 0 0)
      by (split; apply apx_leaf; intros h; apply (Fb h)).
    assert (FZ : P -> cfin fused z) by (intros h; apply (Fb h)).
    eapply qapx_hq; [capt|capt|..]; [|unfold hq, Qmaj; rr; f_equal; ring|lia|lia|lra|lra]. unfold hq, Hmul, mkH; rr; f_equal; ring.
  - pose proof (qapx_leaf fused P q Fb) as B. pose proof (capx_h1 _ _ _ _ _ _ _ B) as B1. pose proof (capx_h2 _ _ _ _ _ _ _ B) as B2.
    pose proof (cfin_h1 _ _ _ Fb) as FB1. pose proof (cfin_h2 _ _ _ Fb) as FB2.
    eapply qapx_hq; [capt|capt|..]; [|unfold hq, Qmaj; rr; f_equal; ring|lia|lia|lra|lra]. unfold hq, Hmul, mkH; rr; f_equal; ring.
Qed.

(** overflow threshold for the products of halves *)
Definition nonneg (p : RH) : Prop := 0 <= qr p /\ 0 <= qi p /\ 0 <= qj p /\ 0 <= qk p.
Lemma nonneg_abs (p : RH) : nonneg (Qabs p). Proof. repeat split; apply Rabs_pos. Qed.
Lemma temps_safe (p q : RH) : nonneg p -> nonneg q -> below 2 3 (Qmaj p q) ->
  (csafe 2 3 (cmaj (h1 (K := Rnum) p) (h1 (K := Rnum) q)) /\ csafe 2 3 (cmaj (h1 (K := Rnum) p) (h2 (K := Rnum) q))) /\
  (csafe 2 3 (cmaj (h2 (K := Rnum) p) (h1 (K := Rnum) q)) /\ csafe 2 3 (cmaj (h2 (K := Rnum) p) (h2 (K := Rnum) q))).
Proof.
  intros (P0 & P1 & P2 & P3) (Q0 & Q1 & Q2 & Q3) (B0 & B1 & B2 & B3).
  destruct p as [p0 p1 p2 p3], q as [q0 q1 q2 q3]. unfold Qmaj, h1, h2, cmaj, csafe in *. cbn [qr qi qj qk re im] in *.
  pose proof (Rmult_le_pos _ _ P0 Q0). pose proof (Rmult_le_pos _ _ P0 Q1). pose proof (Rmult_le_pos _ _ P0 Q2). pose proof (Rmult_le_pos _ _ P0 Q3).
  pose proof (Rmult_le_pos _ _ P1 Q0). pose proof (Rmult_le_pos _ _ P1 Q1). pose proof (Rmult_le_pos _ _ P1 Q2). pose proof (Rmult_le_pos _ _ P1 Q3).
  pose proof (Rmult_le_pos _ _ P2 Q0). pose proof (Rmult_le_pos _ _ P2 Q1). pose proof (Rmult_le_pos _ _ P2 Q2). pose proof (Rmult_le_pos _ _ P2 Q3).
  pose proof (Rmult_le_pos _ _ P3 Q0). pose proof (Rmult_le_pos _ _ P3 Q1). pose proof (Rmult_le_pos _ _ P3 Q2). pose proof (Rmult_le_pos _ _ P3 Q3).
  assert (Hn3 : 0 <= 3) by lra. pose proof (Rle_refl 3).
  repeat split.
  - eapply below_le; [| | | | |exact B0]; auto; lra.
  - eapply below_le; [| | | | |exact B1]; auto; lra.
  - eapply below_le; [| | | | |exact B2]; auto; lra.
  - eapply below_le; [| | | | |exact B3]; auto; lra.
  - eapply below_le; [| | | | |exact B2]; auto; lra.
  - eapply below_le; [| | | | |exact B3]; auto; lra.
  - eapply below_le; [| | | | |exact B0]; auto; lra.
  - eapply below_le; [| | | | |exact B1]; auto; lra.
Qed.
Lemma cfin_leafmul (a b : FC) xa ma xb mb : capx a xa ma 0 0 -> capx b xb mb 0 0 -> (P -> cfin fused a) -> (P -> cfin fused b) ->
  (P -> csafe 2 3 (cmaj ma mb)) -> P -> cfin fused (cmul a b).
Proof.
  intros A B FA FB S. eapply cfin_of; [eapply capx_weaken; [apply (capx_mul _ _ _ _ _ _ _ _ _ _ A B FA FB)|split; apply Rle_refl|apply Nat.le_refl|]|exact S]. lra.
Qed.
Lemma cfin_leafrmul (a : K) (b : FC) xa ma xb mb : apx P a xa ma 0 0 -> capx b xb mb 0 0 -> (P -> is_finite (a : f64) = true) -> (P -> cfin fused b) ->
  (P -> csafe 2 3 (@Cplx Rnum (ma * re mb) (ma * im mb))) -> P -> cfin fused (crmul a b).
Proof.
  intros A B FA FB S. eapply cfin_of; [eapply capx_weaken; [apply (capx_rmul _ _ _ _ _ _ _ _ _ _ A B FA FB)|split; apply Rle_refl|apply (Nat.le_succ_diag_r 1)|]|exact S]. lra.
Qed.
End E.

(** split a scalar leaf into the facts the tactics use *)
Ltac leafq Q F := let L := fresh "L" in pose proof (qapx_leaf _ _ Q F) as L; pose proof (capx_h1 _ _ _ _ _ _ _ L); pose proof (capx_h2 _ _ _ _ _ _ _ L);
  pose proof (cfin_h1 _ _ _ F); pose proof (cfin_h2 _ _ _ F).
Ltac hqeq := unfold hq, Hmul, Hadd, mkH; rr; f_equal; ring.
Ltac hmeq := unfold hq, Hadd, Qmaj; rr; f_equal; ring.

Section U.
Variables (fused : bool) (P : Prop).
Local Notation K := (F64 fused).
Local Notation FQ := (quat (F64 fused)).
Local Notation FC := (cplx (F64 fused)).
Local Notation qapx := (qapx fused P).
Local Notation capx := (capx fused P).
Local Notation cfin := (cfin fused).
Local Notation RH := (quat Rnum).

(** finiteness of ALPHA times a half of x *)
Lemma alx_fin (alpha : scal K) (x : FQ) : (P -> sfin alpha) -> (P -> fin x) -> (P -> below 2 3 (Qmaj (Qabs (emb (SR_of alpha))) (Qabs (QR x)))) ->
  match alpha with
  | SR a => (P -> cfin (crmul a (h1 x))) /\ (P -> cfin (crmul a (conjg (h1 x)))) /\ (P -> cfin (crmul a (h2 x))) /\ (P -> cfin (crmul a (conjg (h2 x))))
  | SC a => (P -> cfin (cmul a (h1 x))) /\ (P -> cfin (cmul a (conjg (h1 x)))) /\ (P -> cfin (cmul a (h2 x))) /\ (P -> cfin (cmul a (conjg (h2 x))))
  | SH a => ((P -> cfin (cmul (h1 a) (h1 x))) /\ (P -> cfin (cmul (h1 a) (conjg (h1 x)))) /\ (P -> cfin (cmul (h1 a) (h2 x))) /\ (P -> cfin (cmul (h1 a) (conjg (h2 x))))) /\
            ((P -> cfin (cmul (h2 a) (h1 x))) /\ (P -> cfin (cmul (h2 a) (conjg (h1 x)))) /\ (P -> cfin (cmul (h2 a) (h2 x))) /\ (P -> cfin (cmul (h2 a) (conjg (h2 x)))))
  end.
Proof.
  intros Fa Fx Bd. leafq x Fx.
  assert (TS : P -> _) by (intros h; exact (temps_safe (Qabs (emb (SR_of alpha))) (Qabs (QR x)) (nonneg_abs _) (nonneg_abs _) (Bd h))).
  assert (TS1 : P -> _) by (intros h; exact (proj1 (proj1 (TS h)))). assert (TS2 : P -> _) by (intros h; exact (proj2 (proj1 (TS h)))).
  assert (TS3 : P -> _) by (intros h; exact (proj1 (proj2 (TS h)))). assert (TS4 : P -> _) by (intros h; exact (proj2 (proj2 (TS h)))).
  destruct alpha as [a|a|a]; cbn [sfin] in Fa.
  - pose proof (apx_leaf P a Fa) as LA.
    assert (S1 : P -> csafe 2 3 (@Cplx Rnum (Rabs (B2R a) * re (h1 (K := Rnum) (Qabs (QR x)))) (Rabs (B2R a) * im (h1 (K := Rnum) (Qabs (QR x)))))).
    { intros h. specialize (TS1 h). unfold csafe, cmaj, h1 in *. cbn -[Rabs Rmult Rplus bpow err_bound QR] in *. rewrite Rabs_R0, !Rmult_0_l, !Rplus_0_r in TS1. exact TS1. }
    assert (S2 : P -> csafe 2 3 (@Cplx Rnum (Rabs (B2R a) * re (h2 (K := Rnum) (Qabs (QR x)))) (Rabs (B2R a) * im (h2 (K := Rnum) (Qabs (QR x)))))).
    { intros h. specialize (TS2 h). unfold csafe, cmaj, h1, h2 in *. cbn -[Rabs Rmult Rplus bpow err_bound QR] in *. rewrite Rabs_R0, !Rmult_0_l, !Rplus_0_r in TS2. exact TS2. }
    refine (conj _ (conj _ (conj _ _))); eapply cfin_leafrmul; eauto using capx_conj, cfin_conj.
  - assert (LA : capx a (@Cplx Rnum (B2R (re a)) (B2R (im a))) (@Cplx Rnum (Rabs (B2R (re a))) (Rabs (B2R (im a)))) 0 0)
      by (split; apply apx_leaf; intros h; apply (Fa h)).
    assert (FA : P -> cfin a) by (intros h; apply (Fa h)).
    refine (conj _ (conj _ (conj _ _))); eapply cfin_leafmul; eauto using capx_conj, cfin_conj.
  - leafq a Fa. refine (conj (conj _ (conj _ (conj _ _))) (conj _ (conj _ (conj _ _)))); eapply cfin_leafmul; eauto using capx_conj, cfin_conj.
Qed.

Definition amaj (alpha : scal K) (a x : FQ) : RH := Qmaj (Qmaj (Qabs (emb (SR_of alpha))) (Qabs (QR a))) (Qabs (QR x)).
Ltac scal_cases alpha Fa Fx Bd :=
  let T := fresh "T" in pose proof (alx_fin alpha _ Fa Fx Bd) as T;
  destruct alpha as [?al|?al|?al]; cbn [sfin] in Fa;
  [let L := fresh "LA" in pose proof (apx_leaf P al Fa) as L; destruct T as (? & ? & ? & ?)
  |assert (capx al (@Cplx Rnum (B2R (re al)) (B2R (im al))) (@Cplx Rnum (Rabs (B2R (re al))) (Rabs (B2R (im al)))) 0 0)
      by (split; apply apx_leaf; intros ?h; apply (Fa h));
   assert (P -> cfin al) by (intros ?h; apply (Fa h)); destruct T as (? & ? & ? & ?)
  |leafq al Fa; destruct T as ((? & ? & ? & ?) & ? & ? & ? & ?)].

(** y + ALPHA*a*x *)
Lemma qapx_hn (alpha : scal K) (a x y : FQ) xy my d Ey : (P -> sfin alpha) -> (P -> fin a) -> (P -> fin x) ->
  (P -> below 2 3 (Qmaj (Qabs (emb (SR_of alpha))) (Qabs (QR x)))) -> qapx y xy my d Ey -> (4 <= d)%nat ->
  qapx (hn_elt alpha a x y) (Hadd (K := Rnum) xy (Hmul (K := Rnum) (Hmul (K := Rnum) (emb (SR_of alpha)) (QR a)) (QR x)))
    (Hadd (K := Rnum) my (amaj alpha a x)) (4 + d) (Ey + (6 * Q1 (QR a) + 16)).
Proof.
  intros Fa FA Fx Bd Y Hd. leafq a FA. leafq x Fx. pose proof (capx_h1 _ _ _ _ _ _ _ Y). pose proof (capx_h2 _ _ _ _ _ _ _ Y).
  pose proof (nonneg_abs (QR a)) as (N0 & N1 & N2 & N3). cbn -[Rabs] in N0, N1, N2, N3. unfold amaj, Q1.
  scal_cases alpha Fa Fx Bd; unfold hn_elt.
  - eapply qapx_hq; [capt|capt|hqeq|hmeq|clear -Hd; lia|clear -Hd; lia|rr; lra|rr; lra].
  - eapply qapx_hq; [capt|capt|hqeq|hmeq|clear -Hd; lia|clear -Hd; lia|rr; lra|rr; lra].
  - eapply qapx_hq; [capt|capt|hqeq|hmeq|clear -Hd; lia|clear -Hd; lia|rr; lra|rr; lra].
Qed.
(** c + ALPHA*a*conj(b) *)
Lemma qapx_hnc (alpha : scal K) (a x y : FQ) xy my d Ey : (P -> sfin alpha) -> (P -> fin a) -> (P -> fin x) ->
  (P -> below 2 3 (Qmaj (Qabs (emb (SR_of alpha))) (Qabs (QR x)))) -> qapx y xy my d Ey -> (4 <= d)%nat ->
  qapx (hnc_elt alpha a x y) (Hadd (K := Rnum) xy (Hmul (K := Rnum) (Hmul (K := Rnum) (emb (SR_of alpha)) (QR a)) (Hconj (K := Rnum) (QR x))))
    (Hadd (K := Rnum) my (amaj alpha a x)) (4 + d) (Ey + (6 * Q1 (QR a) + 16)).
Proof.
  intros Fa FA Fx Bd Y Hd. leafq a FA. leafq x Fx. pose proof (capx_h1 _ _ _ _ _ _ _ Y). pose proof (capx_h2 _ _ _ _ _ _ _ Y).
  pose proof (nonneg_abs (QR a)) as (N0 & N1 & N2 & N3). cbn -[Rabs] in N0, N1, N2, N3. unfold amaj, Q1.
  scal_cases alpha Fa Fx Bd; unfold hnc_elt.
  - eapply qapx_hq; [capt|capt|hqeq|hmeq|clear -Hd; lia|clear -Hd; lia|rr; lra|rr; lra].
  - eapply qapx_hq; [capt|capt|hqeq|hmeq|clear -Hd; lia|clear -Hd; lia|rr; lra|rr; lra].
  - eapply qapx_hq; [capt|capt|hqeq|hmeq|clear -Hd; lia|clear -Hd; lia|rr; lra|rr; lra].
Qed.
(** a + ALPHA*x*y or a + ALPHA*x*conj(y) *)
Lemma qapx_hger cnj (alpha : scal K) (x y a : FQ) : (P -> sfin alpha) -> (P -> fin x) -> (P -> fin y) -> (P -> fin a) ->
  (P -> below 2 3 (Qmaj (Qabs (emb (SR_of alpha))) (Qabs (QR y)))) ->
  qapx (hger_elt cnj alpha x y a) (Hadd (K := Rnum) (QR a) (Hmul (K := Rnum) (Hmul (K := Rnum) (emb (SR_of alpha)) (QR x)) (if cnj then Hconj (K := Rnum) (QR y) else QR y)))
    (Hadd (K := Rnum) (Qabs (QR a)) (amaj alpha x y)) 8 (6 * Q1 (QR x) + 16).
Proof.
  intros Fa FX Fy FA Bd. leafq a FA. leafq y Fy. leafq x FX.
  pose proof (nonneg_abs (QR x)) as (N0 & N1 & N2 & N3). cbn -[Rabs] in N0, N1, N2, N3. unfold amaj, Q1.
  destruct cnj.
  - scal_cases alpha Fa Fy Bd; unfold hger_elt; (eapply qapx_hq; [capt|capt|hqeq|hmeq|clear; lia|clear; lia|rr; lra|rr; lra]).
  - scal_cases alpha Fa Fy Bd; unfold hger_elt; (eapply qapx_hq; [capt|capt|hqeq|hmeq|clear; lia|clear; lia|rr; lra|rr; lra]).
Qed.
(** h + opA(a)*opB(b) *)
Definition cjq (c : bool) (q : RH) : RH := if c then Hconj (K := Rnum) q else q.
Lemma qapx_hgdot ca cb (a b h : FQ) xh mh d Eh : (P -> fin a) -> (P -> fin b) -> qapx h xh mh d Eh -> (2 <= d)%nat ->
  qapx (hgdot_elt ca cb a b h) (Hadd (K := Rnum) xh (Hmul (K := Rnum) (cjq ca (QR a)) (cjq cb (QR b)))) (Hadd (K := Rnum) mh (Qmaj (Qabs (QR a)) (Qabs (QR b)))) (2 + d) (Eh + 8).
Proof.
  intros FA FB Y Hd. leafq a FA. leafq b FB. pose proof (capx_h1 _ _ _ _ _ _ _ Y). pose proof (capx_h2 _ _ _ _ _ _ _ Y).
  destruct ca, cb; unfold hgdot_elt, cjq; (eapply qapx_hq; [capt|capt|hqeq|hmeq|clear -Hd; lia|clear -Hd; lia|rr; lra|rr; lra]).
Qed.
Lemma qapx_hdotT nc (a b h : FQ) xh mh d Eh : (P -> fin a) -> (P -> fin b) -> qapx h xh mh d Eh -> (2 <= d)%nat ->
  qapx (hdotT_elt nc a b h) (Hadd (K := Rnum) xh (Hmul (K := Rnum) (cjq (negb nc) (QR a)) (QR b))) (Hadd (K := Rnum) mh (Qmaj (Qabs (QR a)) (Qabs (QR b)))) (2 + d) (Eh + 8).
Proof. intros. destruct nc; [apply (qapx_hgdot false false)|apply (qapx_hgdot true false)]; auto. Qed.
(** ALPHA*h *)
Lemma qapx_halpha (alpha : scal K) (h : FQ) xh mh d Eh : (P -> sfin alpha) -> (P -> fin h) -> qapx h xh mh d Eh ->
  qapx (halpha_elt alpha h) (Hmul (K := Rnum) (emb (SR_of alpha)) xh) (Qmaj (Qabs (emb (SR_of alpha))) mh) (3 + d) (Eh * Q1 (emb (SR_of alpha)) + 7).
Proof.
  intros Fa Fh Y. pose proof (capx_h1 _ _ _ _ _ _ _ Y). pose proof (capx_h2 _ _ _ _ _ _ _ Y).
  pose proof (cfin_h1 _ _ _ Fh). pose proof (cfin_h2 _ _ _ Fh).
  assert (HE : 0 <= Eh) by (destruct Y as ((_ & ? & _) & _); assumption).
  destruct xh as [xh0 xh1 xh2 xh3], mh as [mh0 mh1 mh2 mh3].
  destruct alpha as [al|al|al]; cbn [sfin] in Fa; unfold Q1, halpha_elt.
  - pose proof (apx_leaf P al Fa) as LA.
    eapply qapx_hq; [capt|capt|hqeq|hmeq|clear; lia|clear; lia|rr; lra|rr; lra].
  - assert (capx al (@Cplx Rnum (B2R (re al)) (B2R (im al))) (@Cplx Rnum (Rabs (B2R (re al))) (Rabs (B2R (im al)))) 0 0)
      by (split; apply apx_leaf; intros hh; apply (Fa hh)).
    assert (P -> cfin al) by (intros hh; apply (Fa hh)).
    eapply qapx_hq; [capt|capt|hqeq|hmeq|clear; lia|clear; lia|rr; lra|rr; lra].
  - leafq al Fa. eapply qapx_hq; [capt|capt|hqeq|hmeq|clear; lia|clear; lia|rr; lra|rr; lra].
Qed.
(** y + ALPHA*h *)
Lemma qapx_haxpyT (alpha : scal K) (h y : FQ) xh mh d Eh xy my Ey : (P -> sfin alpha) -> (P -> fin h) -> qapx h xh mh d Eh -> qapx y xy my (2 + d) Ey ->
  qapx (haxpyT_elt alpha h y) (Hadd (K := Rnum) xy (Hmul (K := Rnum) (emb (SR_of alpha)) xh)) (Hadd (K := Rnum) my (Qmaj (Qabs (emb (SR_of alpha))) mh)) (4 + d) (Ey + (Eh * Q1 (emb (SR_of alpha)) + 8)).
Proof.
  intros Fa Fh Y W. pose proof (capx_h1 _ _ _ _ _ _ _ Y). pose proof (capx_h2 _ _ _ _ _ _ _ Y). pose proof (capx_h1 _ _ _ _ _ _ _ W). pose proof (capx_h2 _ _ _ _ _ _ _ W).
  pose proof (cfin_h1 _ _ _ Fh). pose proof (cfin_h2 _ _ _ Fh).
  assert (HE : 0 <= Eh) by (destruct Y as ((_ & ? & _) & _); assumption).
  destruct xh as [xh0 xh1 xh2 xh3], mh as [mh0 mh1 mh2 mh3].
  destruct alpha as [al|al|al]; cbn [sfin] in Fa; unfold Q1, haxpyT_elt.
  - pose proof (apx_leaf P al Fa) as LA.
    eapply qapx_hq; [capt|capt|hqeq|hmeq|clear; lia|clear; lia|rr; lra|rr; lra].
  - assert (capx al (@Cplx Rnum (B2R (re al)) (B2R (im al))) (@Cplx Rnum (Rabs (B2R (re al))) (Rabs (B2R (im al)))) 0 0)
      by (split; apply apx_leaf; intros hh; apply (Fa hh)).
    assert (P -> cfin al) by (intros hh; apply (Fa hh)).
    eapply qapx_hq; [capt|capt|hqeq|hmeq|clear; lia|clear; lia|rr; lra|rr; lra].
  - leafq al Fa. eapply qapx_hq; [capt|capt|hqeq|hmeq|clear; lia|clear; lia|rr; lra|rr; lra].
Qed.
(** ALPHA*h + BETA*c *)
Lemma qapx_halphabeta (alpha beta : scal K) (h c : FQ) xh mh d Eh : (P -> sfin alpha) -> (P -> sfin beta) -> (P -> fin h) -> (P -> fin c) -> qapx h xh mh d Eh ->
  qapx (halphabeta_elt alpha beta h c) (Hadd (K := Rnum) (Hmul (K := Rnum) (emb (SR_of alpha)) xh) (Hmul (K := Rnum) (emb (SR_of beta)) (QR c)))
    (Hadd (K := Rnum) (Qmaj (Qabs (emb (SR_of alpha))) mh) (Qmaj (Qabs (emb (SR_of beta))) (Qabs (QR c)))) (5 + d) (Eh * Q1 (emb (SR_of alpha)) + 15).
Proof.
  intros Fa Fb Fh Fc Y. pose proof (qapx_halpha alpha h _ _ _ _ Fa Fh Y) as T. unfold halphabeta_elt. revert T. generalize (halpha_elt alpha h). intros t T.
  pose proof (capx_h1 _ _ _ _ _ _ _ T) as T1. pose proof (capx_h2 _ _ _ _ _ _ _ T) as T2. leafq c Fc. clear Y.
  replace (Eh * Q1 (emb (SR_of alpha)) + 15) with (Eh * Q1 (emb (SR_of alpha)) + 7 + 8) by ring.
  revert T1 T2. generalize (Eh * Q1 (emb (SR_of alpha)) + 7) as Et. generalize (Hmul (K := Rnum) (emb (SR_of alpha)) xh) as xt. generalize (Qmaj (Qabs (emb (SR_of alpha))) mh) as mt.
  intros mt xt Et T1 T2.
  assert (Goal' : qapx (match beta with
    | SR be => hq (cadd (h1 t) (crmul be (h1 c))) (cadd (h2 t) (crmul be (h2 c)))
    | SC be => hq (cadd (h1 t) (cmul be (h1 c))) (cadd (h2 t) (cmul be (h2 c)))
    | SH be => hq (csub (cadd (h1 t) (cmul (h1 be) (h1 c))) (cmul (h2 be) (conjg (h2 c)))) (cadd (cadd (h2 t) (cmul (h1 be) (h2 c))) (cmul (h2 be) (conjg (h1 c)))) end)
    (Hadd (K := Rnum) xt (Hmul (K := Rnum) (emb (SR_of beta)) (QR c))) (Hadd (K := Rnum) mt (Qmaj (Qabs (emb (SR_of beta))) (Qabs (QR c)))) (5 + d) (Et + 8)).
  { destruct beta as [al|al|al]; cbn [sfin] in Fb.
    - pose proof (apx_leaf P al Fb) as LA.
      eapply qapx_hq; [capt|capt|hqeq|hmeq|clear; lia|clear; lia|rr; lra|rr; lra].
    - assert (capx al (@Cplx Rnum (B2R (re al)) (B2R (im al))) (@Cplx Rnum (Rabs (B2R (re al))) (Rabs (B2R (im al)))) 0 0)
        by (split; apply apx_leaf; intros hh; apply (Fb hh)).
      assert (P -> cfin al) by (intros hh; apply (Fb hh)).
      eapply qapx_hq; [capt|capt|hqeq|hmeq|clear; lia|clear; lia|rr; lra|rr; lra].
    - leafq al Fb. eapply qapx_hq; [capt|capt|hqeq|hmeq|clear; lia|clear; lia|rr; lra|rr; lra]. }
  exact Goal'.
Qed.
End U.
