(** Rounding-error calculus for binary64 (Flocq): a value computed with d roundings in sequence deviates from the exact
    value by at most ((1+u)^d - 1) * m + eta * (1+u)^d * E, m bounding the exact value with all signs made positive. *)
From Coq Require Import ZArith Reals Lra Lia Psatz Bool.
From Flocq Require Import Core.Core Relative IEEE754.BinarySingleNaN.
From Verif Require Import Num F64 SpecErr.
Local Open Scope R_scope.

Definition frnd (x : R) : R := round radix2 (FLT_exp (-1074) 53) ZnearestE x.
Lemma u_pos : 0 <= uro. Proof. apply bpow_ge_0. Qed.
Lemma eta_pos : 0 <= eta. Proof. apply bpow_ge_0. Qed.
Lemma frnd_err x : Rabs (frnd x - x) <= uro * Rabs x + eta.
Proof.
  destruct (error_N_FLT radix2 (-1074) 53 ltac:(lia) (fun x => negb (Z.even x)) x) as (ep & et & He & Ht & _ & E).
  unfold frnd. rewrite E. replace (x * (1 + ep) + et - x) with (x * ep + et) by ring.
  assert (U : / 2 * bpow radix2 (Z.opp 53 + 1) = uro).
  { unfold uro. change (Z.opp 53 + 1)%Z with (1 + -53)%Z. rewrite bpow_plus. change (bpow radix2 1) with 2. field. }
  assert (V : / 2 * bpow radix2 (-1074) = eta).
  { unfold eta. change (-1074)%Z with (1 + -1075)%Z. rewrite bpow_plus. change (bpow radix2 1) with 2. field. }
  rewrite U in He. rewrite V in Ht. eapply Rle_trans; [apply Rabs_triang|]. rewrite Rabs_mult.
  pose proof (Rabs_pos x). nra.
Qed.

(** operations: a finite result has finite operands and is the rounded exact result *)
Lemma overflow_not_finite (x : f64) s : B2SF x = binary_overflow 53 1024 mode_NE s -> is_finite x = false.
Proof. destruct x; cbn; unfold binary_overflow; cbn; try discriminate; auto. Qed.
Ltac op_correct C :=
  let H := fresh in pose proof C as H; cbv zeta in H;
  match type of H with context [Rlt_bool ?a ?b] => destruct (Rlt_bool_spec a b) end.

Lemma fadd_fin x y : is_finite (fadd x y) = true -> is_finite x = true /\ is_finite y = true /\ B2R (fadd x y) = frnd (B2R x + B2R y).
Proof.
  intros F. assert (Fx : is_finite x = true /\ is_finite y = true).
  { destruct x as [sx|sx| |sx mx ex Hx], y as [sy|sy| |sy my ey Hy]; cbn in F; try discriminate; auto; destruct sx, sy; cbn in F; try discriminate; auto. }
  destruct Fx as [Fx Fy]. refine (conj Fx (conj Fy _)).
  op_correct (@Bplus_correct 53 1024 prec64 emax64 mode_NE x y Fx Fy); [tauto|]. destruct H as [H _]. apply overflow_not_finite in H. unfold fadd in F. congruence.
Qed.
Lemma fadd_ok x y : is_finite x = true -> is_finite y = true -> Rabs (frnd (B2R x + B2R y)) < bpow radix2 1024 -> is_finite (fadd x y) = true.
Proof.
  intros Fx Fy B. op_correct (@Bplus_correct 53 1024 prec64 emax64 mode_NE x y Fx Fy); [tauto|]. unfold frnd in B. exfalso.
  match goal with h : bpow _ _ <= _ |- _ => apply (Rlt_irrefl (bpow radix2 1024)); eapply Rle_lt_trans; [exact h|exact B] end.
Qed.
Lemma fsub_fadd x y : fsub x y = fadd x (fopp y).
Proof. destruct x as [sx|sx| |sx mx ex Hx], y as [sy|sy| |sy my ey Hy]; try reflexivity. Qed.
Lemma fopp_fin x : is_finite (fopp x) = is_finite x. Proof. apply is_finite_Bopp. Qed.
Lemma fopp_R x : B2R (fopp x) = - B2R x. Proof. apply B2R_Bopp. Qed.
Lemma fmul_fin x y : is_finite (fmul x y) = true -> is_finite x = true /\ is_finite y = true /\ B2R (fmul x y) = frnd (B2R x * B2R y).
Proof.
  intros F. op_correct (@Bmult_correct 53 1024 prec64 emax64 mode_NE x y).
  - destruct H as (E & Fe & _). unfold fmul in F. rewrite Fe in F. apply andb_prop in F as [? ?]. auto.
  - apply overflow_not_finite in H. unfold fmul in F. congruence.
Qed.
Lemma fmul_ok x y : is_finite x = true -> is_finite y = true -> Rabs (frnd (B2R x * B2R y)) < bpow radix2 1024 -> is_finite (fmul x y) = true.
Proof.
  intros Fx Fy B. op_correct (@Bmult_correct 53 1024 prec64 emax64 mode_NE x y).
  - destruct H as (_ & E & _). unfold fmul. rewrite E, Fx, Fy. reflexivity.
  - exfalso. unfold frnd in B.
    match goal with h : bpow _ _ <= _ |- _ => apply (Rlt_irrefl (bpow radix2 1024)); eapply Rle_lt_trans; [exact h|exact B] end.
Qed.
Lemma ffma_fin x y z : is_finite (ffma x y z) = true ->
  is_finite x = true /\ is_finite y = true /\ is_finite z = true /\ B2R (ffma x y z) = frnd (B2R x * B2R y + B2R z).
Proof.
  intros F. assert (Fx : is_finite x = true /\ is_finite y = true /\ is_finite z = true).
  { destruct x as [sx|sx| |sx mx ex Hx], y as [sy|sy| |sy my ey Hy], z as [sz|sz| |sz mz ez Hz]; try (cbn in F; discriminate F); auto;
      try (exfalso; cbn in F; destruct sx, sy; try destruct sz; cbn in F; discriminate F). }
  destruct Fx as (Fx & Fy & Fz). refine (conj Fx (conj Fy (conj Fz _))).
  op_correct (@Bfma_correct 53 1024 prec64 emax64 mode_NE x y z Fx Fy Fz); [tauto|]. apply overflow_not_finite in H. unfold ffma in F. congruence.
Qed.
Lemma ffma_ok x y z : is_finite x = true -> is_finite y = true -> is_finite z = true ->
  Rabs (frnd (B2R x * B2R y + B2R z)) < bpow radix2 1024 -> is_finite (ffma x y z) = true.
Proof.
  intros Fx Fy Fz B. op_correct (@Bfma_correct 53 1024 prec64 emax64 mode_NE x y z Fx Fy Fz); [tauto|]. unfold frnd in B. exfalso.
  match goal with h : bpow _ _ <= _ |- _ => apply (Rlt_irrefl (bpow radix2 1024)); eapply Rle_lt_trans; [exact h|exact B] end.
Qed.

(** ** the calculus *)
Definition G (d : nat) : R := (1 + uro) ^ d.
Lemma G_ge1 d : 1 <= G d. Proof. unfold G. apply pow_R1_Rle. pose proof u_pos; lra. Qed.
Lemma G_mono d d' : (d <= d')%nat -> G d <= G d'.
Proof. intros. unfold G. apply Rle_pow; auto. pose proof u_pos; lra. Qed.
Lemma G_S d : G (S d) = (1 + uro) * G d. Proof. reflexivity. Qed.
Lemma G_add d d' : G (d + d') = G d * G d'. Proof. apply pow_add. Qed.
Lemma G_0 : G 0 = 1. Proof. reflexivity. Qed.

(** what [d] roundings may produce from exact magnitude m, with E underflow units *)
Definition top (d : nat) (m E : R) : R := G d * m + eta * G d * E.
Lemma top_mono d d' m m' E E' : (d <= d')%nat -> 0 <= m <= m' -> 0 <= E <= E' -> top d m E <= top d' m' E'.
Proof.
  intros Hd Hm HE. unfold top. pose proof (G_ge1 d). pose proof (G_mono d d' Hd). pose proof eta_pos.
  apply Rplus_le_compat; [apply Rmult_le_compat; lra|]. apply Rmult_le_compat; try lra; try (apply Rmult_le_pos; lra). apply Rmult_le_compat; lra.
Qed.

Section A.
(** side condition under which leaves are finite *)
Variable P : Prop.
Definition apx (f : f64) (r m : R) (d : nat) (E : R) : Prop :=
  Rabs r <= m /\ 0 <= E /\ (is_finite f = true -> Rabs (B2R f - r) <= err_bound d m E) /\
  (P -> top d m E < bpow radix2 1024 -> is_finite f = true).

Lemma err_top d m E : err_bound d m E = top d m E - m.
Proof. unfold err_bound, top, G. ring. Qed.

Lemma apx_weaken f r m d E r' m' d' E' : apx f r m d E -> r = r' -> m <= m' -> (d <= d')%nat -> E <= E' -> apx f r' m' d' E'.
Proof.
  intros (Hm & HE & He & Hf) <- Hmm Hd HEE. assert (0 <= m) by (eapply Rle_trans; [apply Rabs_pos|exact Hm]).
  assert (T : top d m E <= top d' m' E') by (apply top_mono; lra || auto).
  refine (conj _ (conj _ (conj _ _))); try lra.
  - intros F. eapply Rle_trans; [apply He, F|]. unfold err_bound. fold (G d) (G d').
    pose proof (G_ge1 d). pose proof (G_mono d d' Hd). pose proof eta_pos.
    apply Rplus_le_compat; [apply Rmult_le_compat; lra|]. apply Rmult_le_compat; try lra; try (apply Rmult_le_pos; lra). apply Rmult_le_compat; lra.
  - intros HP Ht. apply Hf; auto. lra.
Qed.
Lemma apx_leaf (x : f64) : (P -> is_finite x = true) -> apx x (B2R x) (Rabs (B2R x)) 0 0.
Proof.
  intros Hx. refine (conj (Rle_refl _) (conj (Rle_refl _) (conj _ (fun HP _ => Hx HP)))).
  intros _. replace (B2R x - B2R x) with 0 by ring. rewrite Rabs_R0. unfold err_bound. cbn. lra.
Qed.
Lemma apx_opp f r m d E : apx f r m d E -> apx (fopp f) (- r) m d E.
Proof.
  intros (Hm & HE & He & Hf). refine (conj _ (conj HE (conj _ _))).
  - rewrite Rabs_Ropp; auto.
  - rewrite fopp_fin, fopp_R. intros F. replace (- B2R f - - r) with (- (B2R f - r)) by ring. rewrite Rabs_Ropp. auto.
  - rewrite fopp_fin. auto.
Qed.
(** magnitude of the computed value *)
Lemma apx_mag f r m d E : apx f r m d E -> is_finite f = true -> Rabs (B2R f) <= top d m E.
Proof.
  intros (Hm & HE & He & Hf) F. specialize (He F). rewrite err_top in He.
  replace (B2R f) with ((B2R f - r) + r) by ring. eapply Rle_trans; [apply Rabs_triang|]. lra.
Qed.
(** rounding a value known up to (top d m E - m) *)
Lemma rnd_step v r m d E : Rabs r <= m -> 0 <= E -> Rabs (v - r) <= err_bound d m E -> Rabs (frnd v - r) <= err_bound (S d) m (E + 1).
Proof.
  intros Hm HE He. rewrite err_top in *. pose proof (frnd_err v) as B. pose proof u_pos. pose proof eta_pos. pose proof (G_ge1 d).
  assert (V : Rabs v <= top d m E).
  { replace v with ((v - r) + r) by ring. eapply Rle_trans; [apply Rabs_triang|]. lra. }
  replace (frnd v - r) with ((frnd v - v) + (v - r)) by ring. eapply Rle_trans; [apply Rabs_triang|].
  apply Rle_trans with (uro * top d m E + eta + (top d m E - m)); [nra|].
  unfold top in *. rewrite G_S.
  assert (0 <= eta * ((1 + uro) * G d - 1)) by (apply Rmult_le_pos; nra). nra.
Qed.
Lemma rnd_small v r m d E : Rabs r <= m -> 0 <= E -> Rabs (v - r) <= err_bound d m E -> top (S d) m (E + 1) < bpow radix2 1024 ->
  Rabs (frnd v) < bpow radix2 1024.
Proof.
  intros Hm HE He Ht. pose proof (rnd_step v r m d E Hm HE He) as B. rewrite err_top in B.
  replace (frnd v) with ((frnd v - r) + r) by ring. eapply Rle_lt_trans; [apply Rabs_triang|]. lra.
Qed.

Lemma apx_add f1 r1 m1 E1 f2 r2 m2 E2 d : apx f1 r1 m1 d E1 -> apx f2 r2 m2 d E2 ->
  apx (fadd f1 f2) (r1 + r2) (m1 + m2) (S d) (E1 + E2 + 1).
Proof.
  intros (Hm1 & HE1 & He1 & Hf1) (Hm2 & HE2 & He2 & Hf2).
  assert (P1 : 0 <= m1) by (eapply Rle_trans; [apply Rabs_pos|exact Hm1]).
  assert (P2 : 0 <= m2) by (eapply Rle_trans; [apply Rabs_pos|exact Hm2]).
  assert (M : Rabs (r1 + r2) <= m1 + m2) by (eapply Rle_trans; [apply Rabs_triang|lra]).
  assert (S : is_finite f1 = true -> is_finite f2 = true -> Rabs (B2R f1 + B2R f2 - (r1 + r2)) <= err_bound d (m1 + m2) (E1 + E2)).
  { intros F1 F2. specialize (He1 F1). specialize (He2 F2). replace (B2R f1 + B2R f2 - (r1 + r2)) with ((B2R f1 - r1) + (B2R f2 - r2)) by ring.
    eapply Rle_trans; [apply Rabs_triang|]. unfold err_bound in *. lra. }
  refine (conj M (conj _ (conj _ _))); try lra.
  - intros F. apply fadd_fin in F as (F1 & F2 & ->). apply rnd_step; auto; lra.
  - intros HP Ht. assert (F1 : is_finite f1 = true).
    { apply Hf1; auto. eapply Rle_lt_trans; [|exact Ht]. apply top_mono; lra || lia. }
    assert (F2 : is_finite f2 = true).
    { apply Hf2; auto. eapply Rle_lt_trans; [|exact Ht]. apply top_mono; lra || lia. }
    apply fadd_ok; auto. apply (rnd_small _ (r1 + r2) (m1 + m2) d (E1 + E2)); auto; lra.
Qed.
Lemma apx_sub f1 r1 m1 E1 f2 r2 m2 E2 d : apx f1 r1 m1 d E1 -> apx f2 r2 m2 d E2 ->
  apx (fsub f1 f2) (r1 - r2) (m1 + m2) (S d) (E1 + E2 + 1).
Proof. intros A1 A2. rewrite fsub_fadd. unfold Rminus. apply apx_add; auto. apply apx_opp; auto. Qed.

Lemma prod_err f1 r1 m1 d1 E1 f2 r2 m2 d2 E2 : apx f1 r1 m1 d1 E1 -> apx f2 r2 m2 d2 E2 -> is_finite f1 = true -> is_finite f2 = true ->
  Rabs (B2R f1 * B2R f2 - r1 * r2) <= err_bound (d1 + d2) (m1 * m2) (E1 * m2 + m1 * E2 + eta * E1 * E2).
Proof.
  intros A1 A2 F1 F2. pose proof (apx_mag _ _ _ _ _ A1 F1) as M1. pose proof (apx_mag _ _ _ _ _ A2 F2) as M2.
  destruct A1 as (Hm1 & HE1 & He1 & _), A2 as (Hm2 & HE2 & He2 & _). specialize (He1 F1). specialize (He2 F2). rewrite err_top in *.
  assert (P1 : 0 <= m1) by (eapply Rle_trans; [apply Rabs_pos|exact Hm1]).
  assert (P2 : 0 <= m2) by (eapply Rle_trans; [apply Rabs_pos|exact Hm2]).
  replace (B2R f1 * B2R f2 - r1 * r2) with ((B2R f1 - r1) * B2R f2 + r1 * (B2R f2 - r2)) by ring.
  eapply Rle_trans; [apply Rabs_triang|]. rewrite !Rabs_mult.
  apply Rle_trans with ((top d1 m1 E1 - m1) * top d2 m2 E2 + m1 * (top d2 m2 E2 - m2)).
  - apply Rplus_le_compat; apply Rmult_le_compat; auto using Rabs_pos.
  - unfold top. rewrite G_add. apply Req_le. ring.
Qed.
Lemma prod_mag r1 m1 r2 m2 : Rabs r1 <= m1 -> Rabs r2 <= m2 -> Rabs (r1 * r2) <= m1 * m2.
Proof. intros. rewrite Rabs_mult. apply Rmult_le_compat; auto using Rabs_pos. Qed.
Lemma prod_E m1 E1 m2 E2 : 0 <= m1 -> 0 <= m2 -> 0 <= E1 -> 0 <= E2 -> 0 <= E1 * m2 + m1 * E2 + eta * E1 * E2.
Proof. intros. pose proof eta_pos. repeat apply Rplus_le_le_0_compat; repeat apply Rmult_le_pos; auto. Qed.

Lemma apx_mul f1 r1 m1 d1 E1 f2 r2 m2 d2 E2 : apx f1 r1 m1 d1 E1 -> apx f2 r2 m2 d2 E2 ->
  (P -> is_finite f1 = true) -> (P -> is_finite f2 = true) ->
  apx (fmul f1 f2) (r1 * r2) (m1 * m2) (S (d1 + d2)) (E1 * m2 + m1 * E2 + eta * E1 * E2 + 1).
Proof.
  intros A1 A2 K1 K2. pose proof A1 as (Hm1 & HE1 & _). pose proof A2 as (Hm2 & HE2 & _).
  assert (P1 : 0 <= m1) by (eapply Rle_trans; [apply Rabs_pos|exact Hm1]).
  assert (P2 : 0 <= m2) by (eapply Rle_trans; [apply Rabs_pos|exact Hm2]).
  pose proof (prod_E m1 E1 m2 E2 P1 P2 HE1 HE2) as HE. pose proof (prod_mag _ _ _ _ Hm1 Hm2) as HM.
  refine (conj HM (conj _ (conj _ _))); try lra.
  - intros F. apply fmul_fin in F as (F1 & F2 & ->). apply rnd_step; auto. apply prod_err; auto.
  - intros HP Ht. apply fmul_ok; auto. apply (rnd_small _ (r1 * r2) (m1 * m2) (d1 + d2) (E1 * m2 + m1 * E2 + eta * E1 * E2)); auto. apply prod_err; auto.
Qed.
(** both definitions of the FMA macro *)
Lemma apx_fma fused f1 r1 m1 d1 E1 f2 r2 m2 d2 E2 f3 r3 m3 E3 d :
  apx f1 r1 m1 d1 E1 -> apx f2 r2 m2 d2 E2 -> apx f3 r3 m3 d E3 ->
  (P -> is_finite f1 = true) -> (P -> is_finite f2 = true) -> (S (d1 + d2) <= d)%nat ->
  apx (nfma (n := F64 fused) f1 f2 f3) (r1 * r2 + r3) (m1 * m2 + m3) (S d) (E1 * m2 + m1 * E2 + eta * E1 * E2 + E3 + 2).
Proof.
  intros A1 A2 A3 K1 K2 Hd. destruct fused.
  - change (nfma (n := F64 true) f1 f2 f3) with (ffma f1 f2 f3). pose proof A1 as (Hm1 & HE1 & _). pose proof A2 as (Hm2 & HE2 & _). pose proof A3 as (Hm3 & HE3 & He3 & Hf3).
    assert (P1 : 0 <= m1) by (eapply Rle_trans; [apply Rabs_pos|exact Hm1]).
    assert (P2 : 0 <= m2) by (eapply Rle_trans; [apply Rabs_pos|exact Hm2]).
    assert (P3 : 0 <= m3) by (eapply Rle_trans; [apply Rabs_pos|exact Hm3]).
    pose proof (prod_E m1 E1 m2 E2 P1 P2 HE1 HE2) as HE. pose proof (prod_mag _ _ _ _ Hm1 Hm2) as HM.
    assert (PM : 0 <= m1 * m2) by (apply Rmult_le_pos; auto).
    set (Ep := E1 * m2 + m1 * E2 + eta * E1 * E2) in *.
    assert (S1 : is_finite f1 = true -> is_finite f2 = true -> is_finite f3 = true ->
       Rabs (B2R f1 * B2R f2 + B2R f3 - (r1 * r2 + r3)) <= err_bound d (m1 * m2 + m3) (Ep + E3)).
    { intros F1 F2 F3. pose proof (prod_err _ _ _ _ _ _ _ _ _ _ A1 A2 F1 F2) as B. fold Ep in B. specialize (He3 F3).
      replace (B2R f1 * B2R f2 + B2R f3 - (r1 * r2 + r3)) with ((B2R f1 * B2R f2 - r1 * r2) + (B2R f3 - r3)) by ring.
      eapply Rle_trans; [apply Rabs_triang|].
      assert (err_bound (d1 + d2) (m1 * m2) Ep <= err_bound d (m1 * m2) Ep).
      { rewrite !err_top. apply Rplus_le_compat_r. apply top_mono; lra || lia. }
      apply Rle_trans with (err_bound d (m1 * m2) Ep + err_bound d m3 E3); [lra|]. unfold err_bound. lra. }
    assert (M : Rabs (r1 * r2 + r3) <= m1 * m2 + m3) by (eapply Rle_trans; [apply Rabs_triang|lra]).
    assert (W : apx (ffma f1 f2 f3) (r1 * r2 + r3) (m1 * m2 + m3) (S d) (Ep + E3 + 1)).
    { refine (conj M (conj _ (conj _ _))); try lra.
      - intros F. apply ffma_fin in F as (F1 & F2 & F3 & ->). apply rnd_step; auto; lra.
      - intros HP Ht. assert (F3 : is_finite f3 = true).
        { apply Hf3; auto. eapply Rle_lt_trans; [|exact Ht]. apply top_mono; lra || lia. }
        apply ffma_ok; auto. apply (rnd_small _ (r1 * r2 + r3) (m1 * m2 + m3) d (Ep + E3)); auto; lra. }
    eapply apx_weaken; [exact W|reflexivity|lra|lia|lra].
  - change (nfma (n := F64 false) f1 f2 f3) with (fadd (fmul f1 f2) f3).
    eapply apx_weaken; [apply apx_add; [eapply apx_weaken; [apply (apx_mul f1 r1 m1 d1 E1 f2 r2 m2 d2 E2); auto|reflexivity|apply Rle_refl|exact Hd|apply Rle_refl]|exact A3]|reflexivity|lra|lia|lra].
Qed.
Lemma apx_fnma fused f1 r1 m1 d1 E1 f2 r2 m2 d2 E2 f3 r3 m3 E3 d :
  apx f1 r1 m1 d1 E1 -> apx f2 r2 m2 d2 E2 -> apx f3 r3 m3 d E3 ->
  (P -> is_finite f1 = true) -> (P -> is_finite f2 = true) -> (S (d1 + d2) <= d)%nat ->
  apx (nfnma (n := F64 fused) f1 f2 f3) (r3 - r1 * r2) (m1 * m2 + m3) (S d) (E1 * m2 + m1 * E2 + eta * E1 * E2 + E3 + 2).
Proof.
  intros A1 A2 A3 K1 K2 Hd. destruct fused.
  - change (nfnma (n := F64 true) f1 f2 f3) with (nfma (n := F64 true) (fopp f1) f2 f3).
    eapply apx_weaken; [eapply (apx_fma true (fopp f1) (- r1) m1 d1 E1 f2 r2 m2 d2 E2 f3 r3 m3 E3 d); auto using apx_opp|ring|lra|lia|lra].
    rewrite fopp_fin; auto.
  - change (nfnma (n := F64 false) f1 f2 f3) with (fsub f3 (fmul f1 f2)).
    eapply apx_weaken; [apply (apx_sub f3 r3 m3 E3 (fmul f1 f2) (r1 * r2) (m1 * m2) (E1 * m2 + m1 * E2 + eta * E1 * E2 + 1) d A3); eapply apx_weaken; [apply (apx_mul f1 r1 m1 d1 E1 f2 r2 m2 d2 E2); auto|reflexivity|apply Rle_refl|exact Hd|apply Rle_refl]|reflexivity|lra|lia|lra].
Qed.
Lemma apx_fms fused f1 r1 m1 d1 E1 f2 r2 m2 d2 E2 f3 r3 m3 E3 d :
  apx f1 r1 m1 d1 E1 -> apx f2 r2 m2 d2 E2 -> apx f3 r3 m3 d E3 ->
  (P -> is_finite f1 = true) -> (P -> is_finite f2 = true) -> (S (d1 + d2) <= d)%nat ->
  apx (nfms (n := F64 fused) f1 f2 f3) (r1 * r2 - r3) (m1 * m2 + m3) (S d) (E1 * m2 + m1 * E2 + eta * E1 * E2 + E3 + 2).
Proof.
  intros A1 A2 A3 K1 K2 Hd. destruct fused.
  - change (nfms (n := F64 true) f1 f2 f3) with (nfma (n := F64 true) f1 f2 (fopp f3)).
    eapply apx_weaken; [eapply (apx_fma true f1 r1 m1 d1 E1 f2 r2 m2 d2 E2 (fopp f3) (- r3) m3 E3 d); auto using apx_opp|ring|lra|lia|lra].
  - change (nfms (n := F64 false) f1 f2 f3) with (fsub (fmul f1 f2) f3).
    eapply apx_weaken; [apply (apx_sub (fmul f1 f2) (r1 * r2) (m1 * m2) (E1 * m2 + m1 * E2 + eta * E1 * E2 + 1) f3 r3 m3 E3 d); [|exact A3]; eapply apx_weaken; [apply (apx_mul f1 r1 m1 d1 E1 f2 r2 m2 d2 E2); auto|reflexivity|apply Rle_refl|exact Hd|apply Rle_refl]|reflexivity|lra|lia|lra].
Qed.
End A.
