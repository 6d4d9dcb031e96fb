(** DOTCV of a vector with itself in double precision. *)
From Coq Require Import ZArith Reals Lra Lia Psatz Bool Ascii.
From Flocq Require Import Core.Core IEEE754.BinarySingleNaN.
From Verif Require Import Num NumR Res ResFacts Spec SpecFacts VecFacts MQuat MSimd SimdFacts MOptL1 F64 SpecErr RoundFacts ErrFacts OptGemmFacts ErrFacts3 RawL1.
Local Open Scope R_scope.

(** 0 <= f as the processor compares *)
Notation nn f := (@Bleb 53 1024 f_zero f = true).
Lemma nn_iff (f : f64) : nn f <-> f = f_inf \/ (is_finite f = true /\ 0 <= B2R f).
Proof.
  split.
  - destruct (is_finite f) eqn:F.
    + rewrite Bleb_correct by auto. intros L. right. split; auto. change (B2R f_zero) with 0 in L.
      destruct (Rle_bool_spec 0 (B2R f)); [auto|discriminate].
    + destruct f as [s|[]| |]; try discriminate F; intros L; try discriminate L. left; reflexivity.
  - intros [->|[F L]]; [reflexivity|]. rewrite Bleb_correct by auto. change (B2R f_zero) with 0. apply Rle_bool_true; auto.
Qed.
Lemma sf_inf (x : f64) s : B2SF x = binary_overflow 53 1024 mode_NE s -> x = B754_infinity s.
Proof. destruct x as [s'|s'| |s' m e B]; cbn; intros E; try discriminate. congruence. Qed.
Global Instance pg53 : Prec_gt_0 53 := prec64.
Lemma frnd_le r s : r <= s -> frnd r <= frnd s. Proof. apply round_le; typeclasses eauto. Qed.
Lemma frnd_0 : frnd 0 = 0. Proof. apply round_0; typeclasses eauto. Qed.
Lemma frnd_pos r : 0 <= r -> 0 <= frnd r. Proof. intros Hr. rewrite <- frnd_0. apply frnd_le; auto. Qed.
Lemma frnd_neg r : r <= 0 -> frnd r <= 0. Proof. intros Hr. rewrite <- frnd_0. apply frnd_le; auto. Qed.
Lemma frnd_opp r : frnd (- r) = - frnd r. Proof. apply round_NE_opp. Qed.
Lemma frnd_B2R (x : f64) : frnd (B2R x) = B2R x. Proof. apply round_generic; [typeclasses eauto|]. exact (generic_format_B2R 53 1024 x). Qed.
Lemma frnd_big_0 : Rlt_bool (Rabs (frnd 0)) (bpow radix2 1024) = true.
Proof. rewrite frnd_0, Rabs_R0. apply Rlt_bool_true, bpow_gt_0. Qed.
Lemma sign_pos (x : f64) : is_finite x = true -> 0 < B2R x -> Bsign x = false.
Proof.
  destruct x as [s|s| |s m e B]; cbn [is_finite]; intros F L; try discriminate F; cbn [B2R] in L; try lra.
  destruct s; auto. exfalso. cbn [cond_Zopp] in L. assert (B2R (B754_finite true m e B : f64) < 0) by (apply F2R_lt_0; reflexivity).
  cbn [B2R cond_Zopp] in *. change (cond_Zopp true (Z.pos m)) with (Z.neg m) in *. lra.
Qed.
Lemma nn_add a b : nn a -> nn b -> nn (fadd a b).
Proof.
  rewrite !nn_iff. intros [->|[Fa La]] [->|[Fb Lb]].
  - left; reflexivity.
  - destruct b as [s|s| |s m e B]; try discriminate; left; reflexivity.
  - destruct a as [s|s| |s m e B]; try discriminate; left; reflexivity.
  - pose proof (Bplus_correct 53 1024 prec64 emax64 mode_NE a b Fa Fb) as C. fold (fadd a b) in C. destruct Rlt_bool eqn:E.
    + destruct C as (C1 & C2 & _). right. split; auto. rewrite C1. apply frnd_pos. lra.
    + destruct C as (C1 & C2). apply sf_inf in C1. rewrite C1. destruct (Rle_lt_or_eq_dec _ _ La) as [L|Z0].
      * left. rewrite (sign_pos a Fa L). reflexivity.
      * destruct (Rle_lt_or_eq_dec _ _ Lb) as [L|Z1]; [left; rewrite C2, (sign_pos b Fb L); reflexivity|].
        exfalso. rewrite <- Z0, <- Z1, Rplus_0_r in E. change (Rlt_bool (Rabs (frnd 0)) (bpow radix2 1024) = false) in E; rewrite frnd_big_0 in E; discriminate.
Qed.
Definition notnan (f : f64) : Prop := is_nan f = false.
Lemma nn_sq a : notnan a -> nn (fmul a a).
Proof.
  intros Ha. rewrite nn_iff. destruct (is_finite a) eqn:Fa.
  - pose proof (Bmult_correct 53 1024 prec64 emax64 mode_NE a a) as C. fold (fmul a a) in C. destruct Rlt_bool eqn:E.
    + destruct C as (C1 & C2 & _). rewrite Fa in C2. right. split; auto. rewrite C1. apply frnd_pos. nra.
    + apply sf_inf in C. left. rewrite C. destruct (Bsign a); reflexivity.
  - destruct a as [s|[]| |]; try discriminate Fa; try discriminate Ha; left; reflexivity.
Qed.
Lemma nn_fma a c : notnan a -> nn c -> nn (ffma a a c).
Proof.
  intros Ha Hc. rewrite nn_iff in *. destruct (is_finite a) eqn:Fa.
  - destruct Hc as [->|[Fc Lc]].
    + destruct a as [s|s| |s m e B]; try discriminate Fa; left; reflexivity.
    + pose proof (Bfma_correct 53 1024 prec64 emax64 mode_NE a a c Fa Fa Fc) as C. fold (ffma a a c) in C. cbn zeta in C.
      assert (N : 0 <= B2R a * B2R a + B2R c) by nra. destruct Rlt_bool eqn:E.
      * destruct C as (C1 & C2 & _). right. split; auto. rewrite C1. apply frnd_pos. auto.
      * left. rewrite (Rlt_bool_false _ _ N) in C. apply sf_inf in C. exact C.
  - destruct a as [s|[]| |]; try discriminate Fa; try discriminate Ha; destruct Hc as [->|[Fc Lc]]; try (left; reflexivity);
      destruct c as [s'|s'| |s' m' e' B']; try discriminate Fc; left; reflexivity.
Qed.
Lemma fopp_opp x : fopp (fopp x) = x. Proof. apply Bopp_involutive. Qed.
Lemma fopp_notnan x : notnan x -> notnan (fopp x). Proof. destruct x; cbn; auto. Qed.
(** negating a factor negates the product *)
Lemma fmul_opp_l x y : fmul (fopp x) y = fopp (fmul x y).
Proof.
  apply B2SF_inj. destruct x as [s|s| |s m e B], y as [s'|s'| |s' m' e' B']; try (try destruct s; try destruct s'; reflexivity).
  pose proof (Bmult_correct 53 1024 prec64 emax64 mode_NE (B754_finite s m e B) (B754_finite s' m' e' B')) as C.
  pose proof (Bmult_correct 53 1024 prec64 emax64 mode_NE (fopp (B754_finite s m e B)) (B754_finite s' m' e' B')) as D.
  unfold fopp in *. rewrite B2R_Bopp in D. unfold round_mode in *.
  rewrite Ropp_mult_distr_l_reverse, round_NE_opp, Rabs_Ropp in D.
  change (Bmult mode_NE) with fmul in *.
  destruct Rlt_bool.
  - destruct C as (C1 & C2 & C3), D as (D1 & D2 & D3). rewrite is_finite_Bopp in D2. cbn [is_finite andb] in *.
    f_equal. apply B2R_Bsign_inj; auto; [rewrite is_finite_Bopp; auto|rewrite B2R_Bopp; lra|].
    assert (N1 : forall u : f64, is_finite u = true -> is_nan u = false) by (intros []; auto).
    rewrite D3 by auto. rewrite (Bsign_Bopp _ _ (fmul _ _)) by auto. rewrite C3 by auto. cbn. destruct s, s'; reflexivity.
  - apply sf_inf in C, D. rewrite C, D. cbn. destruct s, s'; reflexivity.
Qed.
Lemma nfma_nn (fused : bool) (a c : f64) : notnan a -> nn c -> nn (@nfma (F64 fused) a a c).
Proof. intros Ha Hc. destruct fused; [exact (nn_fma a c Ha Hc)|exact (nn_add _ _ (nn_sq a Ha) Hc)]. Qed.

Section S.
Variable fused : bool.
Local Notation K := (F64 fused).
Local Notation FQ := (quat (F64 fused)).
Definition qnotnan (q : FQ) : Prop := notnan (qr q) /\ notnan (qi q) /\ notnan (qj q) /\ notnan (qk q).
Lemma nn_qincc (x r : FQ) : qnotnan x -> nn (qr r) -> nn (qr (qincc x x r)).
Proof. intros (A & B & C & D) E. unfold qincc; cbn [qr]. repeat apply nfma_nn; auto. Qed.
Definition np (f : f64) : Prop := nn (fopp f).
Lemma np_iff f : np f <-> f = B754_infinity true \/ (is_finite f = true /\ B2R f <= 0).
Proof.
  unfold np. rewrite nn_iff, fopp_fin, fopp_R. split; intros [E|[F L]].
  - left. rewrite <- (fopp_opp f), E. reflexivity.
  - right; split; auto; lra.
  - left. rewrite E. reflexivity.
  - right; split; auto; lra.
Qed.
Lemma sign_neg (x : f64) : is_finite x = true -> B2R x < 0 -> Bsign x = true.
Proof.
  intros F L. pose proof (sign_pos (fopp x)) as S. rewrite fopp_fin, fopp_R in S. specialize (S F ltac:(lra)).
  unfold fopp in S. rewrite Bsign_Bopp in S; [destruct (Bsign x); auto; discriminate|destruct x; auto; discriminate].
Qed.
Lemma np_add a b : np a -> np b -> np (fadd a b).
Proof.
  rewrite !np_iff. intros [->|[Fa La]] [->|[Fb Lb]].
  - left; reflexivity.
  - destruct b as [s|s| |s m e B]; try discriminate; left; reflexivity.
  - destruct a as [s|s| |s m e B]; try discriminate; left; reflexivity.
  - pose proof (Bplus_correct 53 1024 prec64 emax64 mode_NE a b Fa Fb) as C. fold (fadd a b) in C. destruct Rlt_bool eqn:E.
    + destruct C as (C1 & C2 & _). right. split; auto. rewrite C1. apply frnd_neg. lra.
    + destruct C as (C1 & C2). apply sf_inf in C1. rewrite C1. destruct (Rle_lt_or_eq_dec _ _ La) as [L|Z0].
      * left. rewrite (sign_neg a Fa L). reflexivity.
      * destruct (Rle_lt_or_eq_dec _ _ Lb) as [L|Z1]; [left; rewrite C2, (sign_neg b Fb L); reflexivity|].
        exfalso. rewrite Z0, Z1, Rplus_0_r in E. change (Rlt_bool (Rabs (frnd 0)) (bpow radix2 1024) = false) in E; rewrite frnd_big_0 in E; discriminate.
Qed.
Lemma np_sq a : notnan a -> np (fmul (fopp a) a).
Proof. intros Ha. unfold np. rewrite fmul_opp_l, fopp_opp. apply nn_sq; auto. Qed.
Lemma np_fma a c : notnan a -> np c -> np (ffma (fopp a) a c).
Proof.
  intros Ha Hc. rewrite np_iff in *. destruct (is_finite a) eqn:Fa.
  - destruct Hc as [->|[Fc Lc]].
    + destruct a as [s|s| |s m e B]; try discriminate Fa; left; reflexivity.
    + pose proof (Bfma_correct 53 1024 prec64 emax64 mode_NE (fopp a) a c) as C. rewrite fopp_fin in C. specialize (C Fa Fa Fc). fold (ffma (fopp a) a c) in C.
      rewrite fopp_R in C. cbn zeta in C.
      assert (N : - B2R a * B2R a + B2R c <= 0) by nra. destruct Rlt_bool eqn:E.
      * destruct C as (C1 & C2 & _). right. split; auto. rewrite C1. apply frnd_neg. auto.
      * left. destruct (Rle_lt_or_eq_dec _ _ N) as [L|Z0].
        -- rewrite (Rlt_bool_true _ _ L) in C. apply sf_inf in C. exact C.
        -- exfalso. rewrite Z0 in E. change (Rlt_bool (Rabs (frnd 0)) (bpow radix2 1024) = false) in E; rewrite frnd_big_0 in E; discriminate.
  - destruct a as [s|[]| |]; try discriminate Fa; try discriminate Ha; destruct Hc as [->|[Fc Lc]]; try (left; reflexivity);
      destruct c as [s'|s'| |s' m' e' B']; try discriminate Fc; left; reflexivity.
Qed.
Lemma nfma_np (a c : f64) : notnan a -> np c -> np (@nfma (F64 fused) (fopp a) a c).
Proof. intros Ha Hc. destruct fused; [exact (np_fma a c Ha Hc)|exact (np_add _ _ (np_sq a Ha) Hc)]. Qed.
Lemma nn_notnan f : nn f -> notnan f. Proof. rewrite nn_iff. intros [->|[F _]]; [reflexivity|]. destruct f; cbn in *; auto; try discriminate; reflexivity. Qed.
Lemma nfms_nn (a c : f64) : notnan a -> np c -> nn (@nfms (F64 fused) a a c).
Proof.
  intros Ha Hc. destruct fused; [exact (nn_fma a (fopp c) Ha Hc)|]. change (nn (fsub (fmul a a) c)). rewrite fsub_fadd. apply nn_add; auto. apply nn_sq; auto.
Qed.
Lemma nn_dprod (x : FQ) : qnotnan x -> nn (qr (dprod true x x)).
Proof.
  destruct x as [a b c d]. intros (A & B & C & D). cbn [qr qi qj qk] in *.
  change (nn (fadd (@nfms (F64 fused) a a (fmul (fopp d) d)) (fopp (@nfma (F64 fused) (fopp c) c (fmul (fopp b) b))))).
  apply nn_add; [apply nfms_nn; auto; apply np_sq; auto|]. change (np (@nfma (F64 fused) (fopp c) c (fmul (fopp b) b))). apply nfma_np; auto. apply np_sq; auto.
Qed.
Lemma nn_dlane b t (v : Z -> FQ) n : (0 <= b)%Z -> (0 <= t < 4)%Z -> (4 * b <= n)%Z -> (forall i, (0 <= i < n)%Z -> qnotnan (v i)) -> nn (qr (dlane true b t v v)).
Proof.
  intros Hb Ht. pattern b. apply natlike_ind; auto.
  clear b Hb. intros b Hb IH Hbn E. unfold Z.succ in *. rewrite dlane_succ by lia. apply nn_qincc; [apply E; lia|apply IH; auto; lia].
Qed.
Lemma nn_Hadd (p q : FQ) : nn (qr p) -> nn (qr q) -> nn (qr (Hadd p q)). Proof. intros A B. exact (nn_add _ _ A B). Qed.
Lemma nn_dot n (v : Z -> FQ) : (0 <= n)%Z -> (forall i, (0 <= i < n)%Z -> qnotnan (v i)) -> nn (qr (dot_val true n v v)).
Proof.
  intros Hn E. unfold dot_val. pose proof (Z.div_mod n 4 ltac:(lia)) as Hd. pose proof (Z.mod_pos_bound n 4 ltac:(lia)) as Hm.
  pose proof (Z.div_pos n 4 ltac:(lia) ltac:(lia)) as Hnb.
  set (r0 := Hadd _ _). assert (R0 : nn (qr r0)).
  { unfold r0. repeat apply nn_Hadd; (eapply nn_dlane with (n := n); auto; lia). }
  clearbody r0. assert (G : (n mod 4 <= n mod 4)%Z) by lia. revert G.
  generalize (n mod 4)%Z at 1 3. intros i. destruct (Z_lt_le_dec i 0) as [Hi|Hi].
  { intros _. unfold drest. destruct i; try lia. exact R0. }
  pattern i. apply natlike_ind; auto. clear i Hi. intros i Hi IH Hb. unfold Z.succ in *. rewrite drest_succ by lia.
  apply nn_Hadd; [apply IH; lia|]. apply nn_dprod, E. lia.
Qed.
End S.

(** ** the imaginary parts, without hardware FMA *)
Section I.
Local Notation FQ := (quat (F64 false)).
(** finite and zero *)
Definition fz (f : f64) : Prop := is_finite f = true /\ B2R f = 0.
Definition big (x : R) := Rabs (frnd x) < bpow radix2 1024.
Lemma fin_lt (x : f64) : is_finite x = true -> Rabs (B2R x) < bpow radix2 1024.
Proof. intros _. exact (abs_B2R_lt_emax 53 1024 x). Qed.
Lemma sq_abs z : Rabs z * Rabs z = z * z. Proof. rewrite <- Rabs_mult. apply Rabs_pos_eq. nra. Qed.
Lemma prod_le x y : exists z, (z = x \/ z = y) /\ Rabs (frnd (x * y)) <= frnd (z * z).
Proof.
  assert (M : exists z, (z = x \/ z = y) /\ Rabs (x * y) <= z * z).
  { pose proof (Rabs_pos x). pose proof (Rabs_pos y).
    destruct (Rle_dec (Rabs x) (Rabs y)) as [L|L]; [exists y|exists x]; (split; [auto|]); rewrite Rabs_mult, <- sq_abs; nra. }
  destruct M as (z & Lz & M). exists z. split; auto. apply Rabs_le. apply Rabs_le_inv in M.
  split; [|apply frnd_le; lra]. rewrite <- frnd_opp. apply frnd_le. lra.
Qed.
(** if the squares of a and b are finite, so is a*b *)
Lemma cross_fin a b : is_finite (fmul a a) = true -> is_finite (fmul b b) = true ->
  is_finite (fmul a b) = true /\ B2R (fmul a b) = frnd (B2R a * B2R b).
Proof.
  intros Fa Fb. destruct (fmul_fin _ _ Fa) as (A1 & _ & A2). destruct (fmul_fin _ _ Fb) as (B1 & _ & B2).
  pose proof (fin_lt _ Fa) as La. pose proof (fin_lt _ Fb) as Lb. rewrite A2 in La. rewrite B2 in Lb.
  assert (F : is_finite (fmul a b) = true).
  { apply fmul_ok; auto. revert La Lb. generalize (B2R a) (B2R b). clear. intros x y La Lb.
    rewrite Rabs_pos_eq in La by (apply frnd_pos; nra). rewrite Rabs_pos_eq in Lb by (apply frnd_pos; nra).
    destruct (prod_le x y) as (z & Hz & M). apply Rle_lt_trans with (1 := M). destruct Hz as [-> | ->]; auto. }
  split; auto. apply fmul_fin in F. apply F.
Qed.
Lemma fadd_val a b r : is_finite a = true -> is_finite b = true -> B2R a + B2R b = r -> Rabs (frnd r) < bpow radix2 1024 -> is_finite (fadd a b) = true /\ B2R (fadd a b) = frnd r.
Proof.
  intros Fa Fb <- L. pose proof (fadd_ok a b Fa Fb L) as F. split; auto. apply fadd_fin in F. apply F.
Qed.
Lemma frnd0_lt : Rabs (frnd 0) < bpow radix2 1024. Proof. rewrite frnd_0, Rabs_R0. apply bpow_gt_0. Qed.
Lemma fadd_zr a z : is_finite a = true -> fz z -> is_finite (fadd a z) = true /\ B2R (fadd a z) = B2R a.
Proof.
  intros Fa [Fz Ez]. destruct (fadd_val a z (B2R a) Fa Fz) as [A B]; [lra| |].
  - rewrite frnd_B2R. apply fin_lt; auto.
  - split; auto. rewrite B. apply frnd_B2R.
Qed.
Lemma fadd_cancel a b : is_finite a = true -> is_finite b = true -> B2R b = - B2R a -> fz (fadd a b).
Proof.
  intros Fa Fb E. destruct (fadd_val a b 0 Fa Fb) as [A B]; [lra|apply frnd0_lt|]. split; auto. rewrite B. apply frnd_0.
Qed.
Lemma fz_add a b : fz a -> fz b -> fz (fadd a b).
Proof. intros [Fa Ea] [Fb Eb]. apply fadd_cancel; auto; lra. Qed.
Lemma fopp_parts a : is_finite a = true -> is_finite (fopp a) = true /\ B2R (fopp a) = - B2R a.
Proof. intros F. rewrite fopp_fin, fopp_R. auto. Qed.
(** k*j + ((r*i + z - i*r) - j*k) = 0 *)
Lemma i_chain r i j k z : is_finite (fmul r r) = true -> is_finite (fmul i i) = true -> is_finite (fmul j j) = true -> is_finite (fmul k k) = true ->
  fz z -> fz (fadd (fmul k j) (fsub (fsub (fadd (fmul r i) z) (fmul i r)) (fmul j k))).
Proof.
  intros Fr Fi Fj Fk Hz.
  destruct (cross_fin r i Fr Fi) as [A1 A2]. destruct (cross_fin i r Fi Fr) as [A3 A4].
  destruct (cross_fin j k Fj Fk) as [B1 B2]. destruct (cross_fin k j Fk Fj) as [B3 B4].
  rewrite !fsub_fadd. destruct (fadd_zr _ z A1 Hz) as [C1 C2].
  destruct (fopp_parts _ A3) as [D1 D2].
  assert (Z1 : fz (fadd (fadd (fmul r i) z) (fopp (fmul i r)))).
  { apply fadd_cancel; auto. rewrite D2, C2, A2, A4, (Rmult_comm (B2R i)). reflexivity. }
  destruct (fopp_parts _ B1) as [E1 E2].
  destruct Z1 as [Z1 Z2].
  destruct (fadd_val _ (fopp (fmul j k)) (B2R (fopp (fmul j k))) Z1 E1) as [G1 G2]; [lra|rewrite frnd_B2R; apply fin_lt; auto|].
  rewrite frnd_B2R in G2. apply fadd_cancel; auto. rewrite G2, E2, B2, B4, (Rmult_comm (B2R k)). lra.
Qed.
(** the sum of squares is finite only if every square is *)
Lemma qincc_fin (x r : FQ) : is_finite (qr (qincc x x r)) = true ->
  is_finite (qr r) = true /\ is_finite (fmul (qr x) (qr x)) = true /\ is_finite (fmul (qi x) (qi x)) = true /\
  is_finite (fmul (qj x) (qj x)) = true /\ is_finite (fmul (qk x) (qk x)) = true.
Proof.
  unfold qincc; cbn [qr]. intros F.
  change (is_finite (fadd (fmul (qk x) (qk x)) (fadd (fmul (qj x) (qj x)) (fadd (fmul (qi x) (qi x)) (fadd (fmul (qr x) (qr x)) (qr r))))) = true) in F.
  destruct (fadd_fin _ _ F) as (F1 & F2 & _). destruct (fadd_fin _ _ F2) as (F3 & F4 & _). destruct (fadd_fin _ _ F4) as (F5 & F6 & _).
  destruct (fadd_fin _ _ F6) as (F7 & F8 & _). repeat split; auto.
Qed.
Lemma qincc_i (x r : FQ) : is_finite (qr (qincc x x r)) = true -> (is_finite (qr r) = true -> fz (qi r)) -> fz (qi (qincc x x r)).
Proof.
  intros F Hr. destruct (qincc_fin _ _ F) as (F0 & F1 & F2 & F3 & F4). exact (i_chain _ _ _ _ _ F1 F2 F3 F4 (Hr F0)).
Qed.
(** the remainder product *)
Lemma fadd_fin_iff a b : is_finite (fadd a b) = true -> is_finite a = true /\ is_finite b = true.
Proof. intros F. destruct (fadd_fin _ _ F) as (A & B & _). auto. Qed.
Lemma dprod_fin (x : FQ) : is_finite (qr (dprod true x x)) = true ->
  is_finite (fmul (qr x) (qr x)) = true /\ is_finite (fmul (qi x) (qi x)) = true /\
  is_finite (fmul (qj x) (qj x)) = true /\ is_finite (fmul (qk x) (qk x)) = true.
Proof.
  destruct x as [a b c d]. cbn [qr qi qj qk]. intros F.
  change (is_finite (fadd (fsub (fmul a a) (fmul (fopp d) d)) (fopp (fadd (fmul (fopp c) c) (fmul (fopp b) b)))) = true) in F.
  apply fadd_fin_iff in F. destruct F as [F1 F2]. rewrite fsub_fadd in F1. apply fadd_fin_iff in F1. destruct F1 as [F1 F3].
  rewrite fopp_fin in F2, F3. apply fadd_fin_iff in F2. destruct F2 as [F2 F4]. rewrite fmul_opp_l, fopp_fin in F2, F3, F4. auto.
Qed.
(** fl(p - (-q)) + fl((-q') + (-p')) = 0 with p = p', q = q' as reals, when the sum does not overflow *)
Lemma pair_cancel p q q' p' : is_finite p = true -> is_finite q = true -> is_finite q' = true -> is_finite p' = true -> B2R p' = B2R p -> B2R q' = B2R q ->
  Rabs (frnd (B2R p + B2R q)) < bpow radix2 1024 -> fz (fadd (fadd p q) (fadd (fopp q') (fopp p'))).
Proof.
  intros Fp Fq Fq' Fp' Ep Eq L. destruct (fadd_val p q _ Fp Fq eq_refl L) as [A1 A2].
  destruct (fopp_parts _ Fq') as [B1 B2]. destruct (fopp_parts _ Fp') as [C1 C2].
  destruct (fadd_val (fopp q') (fopp p') (- (B2R p + B2R q)) B1 C1) as [D1 D2]; [lra|rewrite frnd_opp, Rabs_Ropp; auto|].
  apply fadd_cancel; auto. rewrite A2, D2, frnd_opp. reflexivity.
Qed.
(** rounded squares A,B,C,D whose rounded sum is finite: every sum of two of them is small *)
Lemma two_small A B C D : frnd A = A -> frnd B = B -> frnd C = C -> frnd D = D -> 0 <= A -> 0 <= B -> 0 <= C -> 0 <= D ->
  frnd (frnd (A + D) + frnd (C + B)) < bpow radix2 1024 ->
  frnd (A + C) < bpow radix2 1024 /\ frnd (A + B) < bpow radix2 1024 /\ frnd (D + C) < bpow radix2 1024 /\ frnd (D + B) < bpow radix2 1024 /\
  frnd (A + D) < bpow radix2 1024 /\ frnd (C + B) < bpow radix2 1024.
Proof.
  intros EA EB EC ED PA PB PC PD L.
  assert (P1 : A <= frnd (A + D)) by (rewrite <- EA at 1; apply frnd_le; lra).
  assert (P2 : D <= frnd (A + D)) by (rewrite <- ED at 1; apply frnd_le; lra).
  assert (P3 : C <= frnd (C + B)) by (rewrite <- EC at 1; apply frnd_le; lra).
  assert (P4 : B <= frnd (C + B)) by (rewrite <- EB at 1; apply frnd_le; lra).
  assert (ff : forall x, frnd (frnd x) = frnd x) by (intros x; unfold frnd; apply round_generic; [typeclasses eauto|apply generic_format_round; typeclasses eauto]).
  repeat split; (apply Rle_lt_trans with (2 := L)); try (apply frnd_le; lra).
  - apply Rle_trans with (frnd (frnd (A + D))); [right; symmetry; apply ff|apply frnd_le; lra].
  - apply Rle_trans with (frnd (frnd (C + B))); [right; symmetry; apply ff|apply frnd_le; lra].
Qed.
Lemma frnd_abs_lt x M : Rabs x <= M -> frnd M < bpow radix2 1024 -> Rabs (frnd x) < bpow radix2 1024.
Proof. intros L H. apply Rle_lt_trans with (2 := H). apply Rabs_le. apply Rabs_le_inv in L. split; [rewrite <- frnd_opp|]; apply frnd_le; lra. Qed.
Lemma dprod_imag (x : FQ) : is_finite (qr (dprod true x x)) = true -> fz (qi (dprod true x x)) /\ fz (qj (dprod true x x)) /\ fz (qk (dprod true x x)).
Proof.
  intros F. pose proof (dprod_fin x F) as (Fa & Fb & Fc & Fd). destruct x as [a b c d]. cbn [qr qi qj qk] in *.
  change (is_finite (fadd (fsub (fmul a a) (fmul (fopp d) d)) (fopp (fadd (fmul (fopp c) c) (fmul (fopp b) b)))) = true) in F.
  change (fz (fadd (fsub (fmul a b) (fmul (fopp d) c)) (fadd (fmul (fopp c) d) (fmul (fopp b) a))) /\
    fz (fadd (fsub (fmul a c) (fmul (fopp b) d)) (fadd (fmul (fopp d) b) (fmul (fopp c) a))) /\
    fz (fadd (fsub (fmul a d) (fmul (fopp c) b)) (fadd (fmul (fopp b) c) (fmul (fopp d) a)))).
  rewrite !fsub_fadd, !fmul_opp_l, !fopp_opp in *.
  assert (S : forall u, is_finite (fmul u u) = true -> B2R (fmul u u) = frnd (B2R u * B2R u) /\ 0 <= B2R (fmul u u) /\ frnd (B2R (fmul u u)) = B2R (fmul u u)).
  { intros u Fu. destruct (fmul_fin _ _ Fu) as (_ & _ & E). rewrite E. split; auto. split; [apply frnd_pos; nra|]. rewrite <- E. apply frnd_B2R. }
  destruct (S a Fa) as (Sa & Pa & Ga), (S b Fb) as (Sb & Pb & Gb), (S c Fc) as (Sc & Pc & Gc), (S d Fd) as (Sd & Pd & Gd).
  pose proof (fin_lt _ F) as L. destruct (fadd_fin _ _ F) as (F1 & F2 & E). rewrite fopp_fin in F2.
  destruct (fadd_fin _ _ F1) as (_ & _ & E1). destruct (fadd_fin _ _ F2) as (_ & _ & E2).
  rewrite E, fopp_R, E1, E2, !fopp_R in L.
  assert (TS : frnd (frnd (B2R (fmul a a) + B2R (fmul d d)) + frnd (B2R (fmul c c) + B2R (fmul b b))) < bpow radix2 1024).
  { apply Rabs_lt_inv in L. replace (- frnd (- B2R (fmul c c) + - B2R (fmul b b))) with (frnd (B2R (fmul c c) + B2R (fmul b b))) in L; [lra|].
    rewrite <- frnd_opp. f_equal. ring. }
  destruct (two_small _ _ _ _ Ga Gb Gc Gd Pa Pb Pc Pd TS) as (T1 & T2 & T3 & T4 & T5 & T6).
  rewrite Sa, Sb, Sc, Sd in *. clear E E1 E2 L TS S F F1 F2.
  assert (P : forall u v s t, is_finite (fmul u u) = true -> is_finite (fmul v v) = true -> is_finite (fmul s s) = true -> is_finite (fmul t t) = true ->
    (forall z z', (z = B2R u \/ z = B2R v) -> (z' = B2R s \/ z' = B2R t) -> frnd (frnd (z * z) + frnd (z' * z')) < bpow radix2 1024) ->
    fz (fadd (fadd (fmul u v) (fmul s t)) (fadd (fopp (fmul t s)) (fopp (fmul v u))))).
  { clear. intros u v s t Fu Fv Fs Ft Hs. destruct (cross_fin u v Fu Fv) as [A1 A2]. destruct (cross_fin v u Fv Fu) as [A3 A4].
    destruct (cross_fin s t Fs Ft) as [B1 B2]. destruct (cross_fin t s Ft Fs) as [B3 B4].
    apply pair_cancel; auto; [rewrite A2, A4, Rmult_comm; reflexivity|rewrite B2, B4, Rmult_comm; reflexivity|].
    rewrite A2, B2. destruct (prod_le (B2R u) (B2R v)) as (z & Hz & Lz). destruct (prod_le (B2R s) (B2R t)) as (z' & Hz' & Lz').
    eapply frnd_abs_lt; [|apply (Hs z z' Hz Hz')]. eapply Rle_trans; [apply Rabs_triang|]. lra. }
  refine (conj _ (conj _ _)); apply P; auto; intros z z' [-> | ->] [-> | ->]; auto; rewrite Rplus_comm; auto.
Qed.
Lemma dlane_i b t (v : Z -> FQ) : (0 <= b)%Z -> is_finite (qr (dlane true b t v v)) = true -> fz (qi (dlane true b t v v)).
Proof.
  intros Hb. pattern b. apply natlike_ind; auto; [intros _; split; reflexivity|].
  clear b Hb. intros b Hb IH. unfold Z.succ in *. rewrite dlane_succ by lia. intros F. apply qincc_i; auto.
Qed.
Lemma dot_i n (v : Z -> FQ) : (0 <= n)%Z -> is_finite (qr (dot_val true n v v)) = true ->
  fz (qi (dot_val true n v v)) /\ ((n < 4)%Z -> fz (qj (dot_val true n v v)) /\ fz (qk (dot_val true n v v))).
Proof.
  intros Hn. unfold dot_val. pose proof (Z.div_mod n 4 ltac:(lia)) as Hd. pose proof (Z.mod_pos_bound n 4 ltac:(lia)) as Hm.
  pose proof (Z.div_pos n 4 ltac:(lia) ltac:(lia)) as Hnb.
  set (r0 := Hadd _ _). assert (R0 : is_finite (qr r0) = true -> fz (qi r0) /\ ((n < 4)%Z -> fz (qj r0) /\ fz (qk r0))).
  { intros F. unfold r0 in *. cbn [Hadd qr] in F. destruct (fadd_fin_iff _ _ F) as [F1 F2]. destruct (fadd_fin_iff _ _ F1) as [F3 F4]. destruct (fadd_fin_iff _ _ F3) as [F5 F6].
    split; [cbn [Hadd qi]; repeat apply fz_add; apply dlane_i; auto|]. intros L. rewrite Z.div_small by lia. split; split; reflexivity. }
  clearbody r0. generalize (4 * (n / 4))%Z as s. intros s. destruct (Z_lt_le_dec (n mod 4) 0) as [Hi|Hi]; [lia|].
  generalize (n mod 4)%Z Hi. intros i Hi'.
  pattern i. apply natlike_ind; auto. clear i Hi'. intros i Hi' IH. unfold Z.succ in *. rewrite drest_succ by lia.
  intros F. cbn [Hadd qr] in F. destruct (fadd_fin_iff _ _ F) as [F1 F2]. destruct (IH F1) as [I1 I2]. destruct (dprod_imag _ F2) as (D1 & D2 & D3).
  cbn [Hadd qi qj qk]. split; [apply fz_add; auto|]. intros L. destruct (I2 L). split; apply fz_add; auto.
Qed.
End I.
