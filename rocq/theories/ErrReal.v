(** Rounding errors of the real-matrix GEMV and GEMM: every component of a quaternion is a real sum of products. *)
From Coq Require Import ZArith Reals Lra Lia Psatz Bool.
From Flocq Require Import Core.Core IEEE754.BinarySingleNaN.
From Verif Require Import Num NumR Spec SpecFacts MQuat MGenL1 MGenL2 RawL3 RawL2g F64 SpecErr SpecErrR RoundFacts ErrFacts ErrFacts2 ErrFacts3 ErrFor2.
Local Open Scope R_scope.

(** ** scalar level *)
Section S.
Variables (fused : bool) (P : Prop).
Local Notation K := (F64 fused).
Local Notation apx := (apx P).
Variables (al be : K) (a b : Z -> K) (w : K).

Definition s_pre : K := if neqb be n0 then n0 else if negb (neqb be n1) then nmul w be else w.
Definition s_pre' : K := if neqb be n1 then w else if neqb be n0 then n0 else nmul w be.
Definition s_dot (k : Z) : K := ziter k (fun l h => nadd h (nmul (b l) (a l))) n0.
Definition s_gemm (tr : bool) (k : Z) : K :=
  if (neqb al n0 || (k =? 0)%Z) && neqb be n1 then w else
  if neqb al n0 then (if neqb be n0 then n0 else nmul w be) else
  if tr then (if neqb be n0 then nmul (s_dot k) al else nadd (nmul (s_dot k) al) (nmul w be))
  else ziter k (fun l acc => nadd acc (nmul (b l) (nmul al (a l)))) s_pre.
Definition s_gemv (tr : bool) (k : Z) : K :=
  if neqb al n0 && neqb be n1 then w else
  if neqb al n0 then s_pre' else
  if tr then nadd s_pre' (nmul (s_dot k) al)
  else ziter k (fun l acc => nadd (nadd acc (nmul (nmul (b l) al) (a l))) (nmul (b l) (nsub (nmul al (a l)) (nmul (a l) al)))) s_pre'.

Local Notation V x := (B2R (x : f64)).
Definition s_val (k : Z) : R := V al * Rsum k (fun l => V (a l) * V (b l)) + V be * V w.
Definition s_mag (k : Z) : R := Rabs (V be) * Rabs (V w) + Rsum k (fun l => Rabs (V al) * Rabs (V (a l)) * Rabs (V (b l))).

Hypothesis Fal : P -> is_finite (al : f64) = true.
Hypothesis Fbe : P -> is_finite (be : f64) = true.
Hypothesis Fw : P -> is_finite (w : f64) = true.
Variable k : Z.
Hypothesis Hk : (0 <= k)%Z.
Hypothesis Fa : forall l, (0 <= l < k)%Z -> P -> is_finite (a l : f64) = true.
Hypothesis Fb : forall l, (0 <= l < k)%Z -> P -> is_finite (b l : f64) = true.
Hypothesis Faa : forall l, (0 <= l < k)%Z -> P -> Rabs (V al * V (a l)) + err_bound 1 (Rabs (V al * V (a l))) 1 < bpow radix2 1024.

Lemma Vabs (x : K) : 0 <= Rabs (V x). Proof. apply Rabs_pos. Qed.
Lemma apx_fin (f : K) r m d E : apx f r m d E -> (P -> m + err_bound d m E < bpow radix2 1024) -> P -> is_finite (f : f64) = true.
Proof. intros A B h. exact (apx_below P f r m d E A h (B h)). Qed.
Lemma apx_prod (x y : K) : (P -> is_finite (x : f64) = true) -> (P -> is_finite (y : f64) = true) ->
  apx (nmul x y) (V x * V y) (Rabs (V x) * Rabs (V y)) 1 1.
Proof.
  intros Fx Fy. eapply apx_weaken; [apply (apx_nmul fused P x _ _ 0 0 y _ _ 0 0 (apx_leaf P x Fx) (apx_leaf P y Fy)); auto|reflexivity|apply Rle_refl|lia|].
  rewrite !Rmult_0_l, !Rmult_0_r. lra.
Qed.
Lemma eq1_fin (x : K) : neqb x n1 = true -> V x = 1. Proof. apply eq1_R. Qed.
Lemma eq0_fin (x : K) : neqb x n0 = true -> V x = 0. Proof. apply eq0_R. Qed.
Lemma apx_bw : apx (nmul w be) (V be * V w) (Rabs (V be) * Rabs (V w)) 1 1.
Proof. eapply apx_weaken; [apply (apx_prod w be); auto|ring|lra|lia|lra]. Qed.
Lemma apx_pre : apx s_pre (V be * V w) (Rabs (V be) * Rabs (V w)) 1 1.
Proof.
  unfold s_pre. destruct (neqb be n0) eqn:E0.
  { apply eq0_fin in E0. rewrite E0. eapply apx_weaken; [apply apx_zero|ring|rewrite Rabs_R0; lra|lia|lra]. }
  destruct (neqb be n1) eqn:E1; cbn [negb]; [|exact apx_bw].
  apply eq1_fin in E1. rewrite E1, Rabs_R1. eapply apx_weaken; [apply (apx_leaf P w); auto|ring|lra|lia|lra].
Qed.
Lemma apx_pre' : apx s_pre' (V be * V w) (Rabs (V be) * Rabs (V w)) 1 1.
Proof.
  unfold s_pre'. destruct (neqb be n1) eqn:E1.
  { apply eq1_fin in E1. rewrite E1, Rabs_R1. eapply apx_weaken; [apply (apx_leaf P w); auto|ring|lra|lia|lra]. }
  destruct (neqb be n0) eqn:E0; [|exact apx_bw].
  apply eq0_fin in E0. rewrite E0. eapply apx_weaken; [apply apx_zero|ring|rewrite Rabs_R0; lra|lia|lra].
Qed.
Lemma apx_dot : apx (s_dot k) (Rsum k (fun l => V (a l) * V (b l))) (Rsum k (fun l => Rabs (V (a l)) * Rabs (V (b l)))) (Z.to_nat (k + 1)) (2 * IZR k).
Proof.
  assert (G : forall p, (0 <= p)%Z -> (p <= k)%Z -> apx (s_dot p) (Rsum p (fun l => V (a l) * V (b l))) (Rsum p (fun l => Rabs (V (a l)) * Rabs (V (b l)))) (Z.to_nat (p + 1)) (2 * IZR p)); [|apply G; lia].
  intros p Hp. pattern p. apply natlike_ind; auto.
  - intros _. unfold s_dot. rewrite ziter_0, !Rsum_0. eapply apx_weaken; [apply apx_zero|reflexivity|lra|lia|lra].
  - clear p Hp. intros p Hp IH Hpk. unfold Z.succ in *. specialize (IH ltac:(lia)). unfold s_dot in *. rewrite ziter_succ, !Rsum_succ by lia.
    eapply apx_weaken; [eapply (apx_nadd fused P _ _ _ _ _ _ _ _ _ _ IH); apply apx_prod; [apply Fb|apply Fa]; lia|ring|lra|lia|].
    rewrite plus_IZR. lra.
Qed.
(** adding (ALPHA*a - a*ALPHA)*x: exactly zero, or not finite *)
Lemma apx_addz (f : K) r m d E (x c : K) : apx f r m d E -> (P -> is_finite (x : f64) = true) -> (P -> is_finite (nmul al c : f64) = true) -> (P -> is_finite (nmul c al : f64) = true) ->
  apx (nadd f (nmul x (nsub (nmul al c) (nmul c al)))) r m d E.
Proof.
  intros (Hm & HE & He & Hf) Fx F1 F2. cbn in *.
  assert (Z0 : is_finite (fmul x (fsub (fmul al c) (fmul c al))) = true -> B2R (fmul x (fsub (fmul al c) (fmul c al))) = 0).
  { intros Fz. apply fmul_fin in Fz as (Gx & Gs & ->). rewrite fsub_fadd in Gs |- *. apply fadd_fin in Gs as (G1 & G2 & ->).
    rewrite fopp_fin in G2. rewrite fopp_R. apply fmul_fin in G1 as (_ & _ & ->). apply fmul_fin in G2 as (_ & _ & ->).
    rewrite (Rmult_comm (B2R c)). replace (frnd (B2R al * B2R c) + - frnd (B2R al * B2R c)) with 0 by ring.
    unfold frnd at 2. rewrite round_0; [|apply valid_rnd_N]. rewrite Rmult_0_r. unfold frnd. apply round_0, valid_rnd_N. }
  assert (RF : forall g : f64, frnd (B2R g + 0) = B2R g).
  { intros g. rewrite Rplus_0_r. unfold frnd. apply round_generic; [apply valid_rnd_N|]. apply (generic_format_B2R 53 1024 g). }
  refine (conj Hm (conj HE (conj _ _))).
  - intros Ff. apply fadd_fin in Ff as (Gf & Gz & ->). rewrite (Z0 Gz), RF. auto.
  - intros h Ht. specialize (Hf h Ht).
    assert (Gz : is_finite (fmul x (fsub (fmul al c) (fmul c al))) = true).
    { specialize (F1 h). specialize (F2 h). specialize (Fx h).
      assert (Gs : is_finite (fsub (fmul al c) (fmul c al)) = true /\ B2R (fsub (fmul al c) (fmul c al)) = 0).
      { rewrite fsub_fadd. assert (S0 : B2R (fmul al c) + B2R (fopp (fmul c al)) = 0).
        { rewrite fopp_R. apply fmul_fin in F1 as (_ & _ & ->). apply fmul_fin in F2 as (_ & _ & ->). rewrite (Rmult_comm (B2R c)). ring. }
        assert (Gs : is_finite (fadd (fmul al c) (fopp (fmul c al))) = true).
        { apply fadd_ok; [exact F1|rewrite fopp_fin; exact F2|]. rewrite S0. unfold frnd. rewrite round_0; [|apply valid_rnd_N]. rewrite Rabs_R0. apply bpow_gt_0. }
        split; [exact Gs|]. apply fadd_fin in Gs as (_ & _ & ->). rewrite S0. unfold frnd. apply round_0, valid_rnd_N. }
      destruct Gs as [Gs S0]. apply fmul_ok; auto. rewrite S0, Rmult_0_r. unfold frnd. rewrite round_0; [|apply valid_rnd_N]. rewrite Rabs_R0. apply bpow_gt_0. }
    apply fadd_ok; auto. rewrite (Z0 Gz), RF. apply abs_B2R_lt_emax.
Qed.

Hypothesis Fba : forall l, (0 <= l < k)%Z -> P -> Rabs (V al) * Rabs (V (b l)) + err_bound 1 (Rabs (V al) * Rabs (V (b l))) 1 < bpow radix2 1024.
Hypothesis Fdot : P -> Rsum k (fun l => Rabs (V (a l)) * Rabs (V (b l))) + err_bound (Z.to_nat (k + 1)) (Rsum k (fun l => Rabs (V (a l)) * Rabs (V (b l)))) (2 * IZR k) < bpow radix2 1024.

Lemma aa_fin l : (0 <= l < k)%Z -> P -> is_finite (nmul al (a l) : f64) = true /\ is_finite (nmul (a l) al : f64) = true.
Proof.
  intros Hl h. specialize (Faa l Hl). rewrite Rabs_mult in Faa. split.
  - eapply apx_fin; [apply (apx_prod al (a l)); auto|exact Faa|exact h].
  - eapply apx_fin; [apply (apx_prod (a l) al); auto|rewrite Rmult_comm; exact Faa|exact h].
Qed.
Lemma ba_fin l : (0 <= l < k)%Z -> P -> is_finite (nmul (b l) al : f64) = true.
Proof.
  intros Hl h. eapply apx_fin; [apply (apx_prod (b l) al); auto|rewrite Rmult_comm; exact (Fba l Hl)|exact h].
Qed.
Lemma apx_nota (c : Z -> R) : (forall l, Rabs (V (b l)) <= c l) ->
  apx (ziter k (fun l acc => nadd acc (nmul (b l) (nmul al (a l)))) s_pre) (s_val k) (s_mag k) (Z.to_nat (k + 2)) (1 + Rsum k (fun l => c l + 2)).
Proof.
  intros Hc. assert (G : forall p, (0 <= p)%Z -> (p <= k)%Z -> apx (ziter p (fun l acc => nadd acc (nmul (b l) (nmul al (a l)))) s_pre) (s_val p) (s_mag p) (Z.to_nat (p + 2)) (1 + Rsum p (fun l => c l + 2))); [|apply (G k); lia].
  intros p Hp. pattern p. apply natlike_ind; auto.
  - intros _. unfold s_val, s_mag. rewrite ziter_0, !Rsum_0. eapply apx_weaken; [exact apx_pre|ring|lra|lia|lra].
  - clear p Hp. intros p Hp IH Hpk. unfold Z.succ in *. specialize (IH ltac:(lia)). unfold s_val, s_mag in *. rewrite ziter_succ, !Rsum_succ by lia.
    eapply apx_weaken; [eapply (apx_nadd fused P _ _ _ _ _ _ _ _ _ _ IH)|..].
    + eapply (apx_nmul fused P (b p) (V (b p)) (Rabs (V (b p))) 0 0 (nmul al (a p)) _ _ 1 1); [apply apx_leaf; intros h; apply Fb; auto; lia|apply apx_prod; auto; apply Fa; lia|apply Fb; lia|intros h; apply aa_fin; auto; lia].
    + ring.
    + lra.
    + lia.
    + specialize (Hc p). pose proof (Rabs_pos (V (b p))). lra.
Qed.
Lemma apx_nota_v (c : Z -> R) : (forall l, Rabs (V (a l)) <= c l) ->
  apx (ziter k (fun l acc => nadd (nadd acc (nmul (nmul (b l) al) (a l))) (nmul (b l) (nsub (nmul al (a l)) (nmul (a l) al)))) s_pre') (s_val k) (s_mag k) (Z.to_nat (k + 2)) (1 + Rsum k (fun l => c l + 2)).
Proof.
  intros Hc. assert (G : forall p, (0 <= p)%Z -> (p <= k)%Z -> apx (ziter p (fun l acc => nadd (nadd acc (nmul (nmul (b l) al) (a l))) (nmul (b l) (nsub (nmul al (a l)) (nmul (a l) al)))) s_pre') (s_val p) (s_mag p) (Z.to_nat (p + 2)) (1 + Rsum p (fun l => c l + 2))); [|apply (G k); lia].
  intros p Hp. pattern p. apply natlike_ind; auto.
  - intros _. unfold s_val, s_mag. rewrite ziter_0, !Rsum_0. eapply apx_weaken; [exact apx_pre'|ring|lra|lia|lra].
  - clear p Hp. intros p Hp IH Hpk. unfold Z.succ in *. specialize (IH ltac:(lia)). unfold s_val, s_mag in *. rewrite ziter_succ, !Rsum_succ by lia.
    apply apx_addz; [|apply Fb; lia|intros h; apply aa_fin; auto; lia|intros h; apply aa_fin; auto; lia].
    eapply apx_weaken; [eapply (apx_nadd fused P _ _ _ _ _ _ _ _ _ _ IH)|..].
    + eapply (apx_nmul fused P (nmul (b p) al) _ _ 1 1 (a p) (V (a p)) (Rabs (V (a p))) 0 0); [apply apx_prod; auto; apply Fb; lia|apply apx_leaf; intros h; apply Fa; auto; lia|intros h; apply ba_fin; auto; lia|apply Fa; lia].
    + ring.
    + lra.
    + lia.
    + specialize (Hc p). pose proof (Rabs_pos (V (a p))). lra.
Qed.
Lemma s_mag_dot : s_mag k = Rsum k (fun l => Rabs (V (a l)) * Rabs (V (b l))) * Rabs (V al) + Rabs (V be) * Rabs (V w).
Proof.
  unfold s_mag. rewrite Rplus_comm. f_equal. pattern k. apply natlike_ind; auto.
  - rewrite !Rsum_0. ring.
  - intros p Hp IH. unfold Z.succ. rewrite !Rsum_succ, IH by lia. ring.
Qed.
Lemma apx_dal : apx (nmul (s_dot k) al) (V al * Rsum k (fun l => V (a l) * V (b l))) (Rsum k (fun l => Rabs (V (a l)) * Rabs (V (b l))) * Rabs (V al)) (Z.to_nat (k + 2)) (2 * IZR k * Rabs (V al) + 1).
Proof.
  eapply apx_weaken; [eapply (apx_nmul fused P (s_dot k) _ _ _ _ al (V al) (Rabs (V al)) 0 0 apx_dot); [apply apx_leaf; auto|exact (apx_fin _ _ _ _ _ apx_dot Fdot)|auto]|ring|lra|lia|].
  rewrite !Rmult_0_r. lra.
Qed.
Lemma units_ge (c : Z -> R) : (forall l, 0 <= c l) -> 3 <= real_units k (V al) c /\ 2 * IZR k * Rabs (V al) + 3 <= real_units k (V al) c /\ 1 + Rsum k (fun l => c l + 2) <= real_units k (V al) c.
Proof.
  intros Hc. unfold real_units. assert (0 <= 2 * IZR k * Rabs (V al)) by (apply IZR_le in Hk; apply Rmult_le_pos; [lra|apply Rabs_pos]).
  assert (0 <= Rsum k (fun l => c l + 2)) by (apply Rsum_pos; intros l; specialize (Hc l); lra). lra.
Qed.
Lemma al0_val : neqb al n0 = true -> s_val k = V be * V w /\ s_mag k = Rabs (V be) * Rabs (V w).
Proof.
  intros E. apply eq0_R in E. rewrite s_mag_dot. unfold s_val. rewrite E, Rabs_R0. split; ring.
Qed.
Lemma k0_val : k = 0%Z -> s_val k = V be * V w /\ s_mag k = Rabs (V be) * Rabs (V w).
Proof. intros ->. unfold s_val, s_mag. rewrite !Rsum_0. split; ring. Qed.
Lemma mag0_eq : s_mag k = Rabs (V be) * Rabs (V w) -> s_val k = V be * V w -> neqb be n1 = true -> apx w (s_val k) (s_mag k) 0 0.
Proof.
  intros E1 E2 E. apply eq1_R in E. rewrite E1, E2, E, Rabs_R1. eapply apx_weaken; [apply (apx_leaf P w); auto|ring|lra|lia|lra].
Qed.
Lemma apx_gemm (tr : bool) (c : Z -> R) : (forall l, Rabs (V (b l)) <= c l) -> apx (s_gemm tr k) (s_val k) (s_mag k) (Z.to_nat (k + 3)) (real_units k (V al) c).
Proof.
  intros Hc. destruct (units_ge c) as (U3 & Ud & Un); [intros l; eapply Rle_trans; [apply Rabs_pos|apply Hc]|]. unfold s_gemm.
  destruct ((neqb al n0 || (k =? 0)%Z) && neqb be n1) eqn:EQ.
  { apply andb_prop in EQ as [E1 E2]. assert (W : s_val k = V be * V w /\ s_mag k = Rabs (V be) * Rabs (V w)).
    { apply orb_prop in E1 as [E1|E1]; [apply al0_val; auto|apply k0_val; lia]. }
    destruct W. eapply apx_weaken; [apply mag0_eq; auto|reflexivity|lra|lia|lra]. }
  destruct (neqb al n0) eqn:E0.
  { destruct (al0_val E0) as [W1 W2]. rewrite W1, W2. destruct (neqb be n0) eqn:B0; [|eapply apx_weaken; [exact apx_bw|reflexivity|lra|lia|lra]].
    apply eq0_fin in B0. rewrite B0. eapply apx_weaken; [apply apx_zero|ring|rewrite Rabs_R0; lra|lia|lra]. }
  destruct tr.
  - rewrite s_mag_dot. unfold s_val. destruct (neqb be n0) eqn:B0.
    + apply eq0_fin in B0. rewrite B0. eapply apx_weaken; [exact apx_dal|ring|rewrite Rabs_R0; lra|lia|lra].
    + eapply apx_weaken; [eapply (apx_nadd fused P _ _ _ _ _ _ _ _ _ _ apx_dal apx_bw)|ring|lra|lia|lra].
  - eapply apx_weaken; [apply (apx_nota c Hc)|reflexivity|lra|lia|lra].
Qed.
Lemma apx_gemv (tr : bool) (c : Z -> R) : (forall l, Rabs (V (a l)) <= c l) -> apx (s_gemv tr k) (s_val k) (s_mag k) (Z.to_nat (k + 3)) (real_units k (V al) c).
Proof.
  intros Hc. destruct (units_ge c) as (U3 & Ud & Un); [intros l; eapply Rle_trans; [apply Rabs_pos|apply Hc]|]. unfold s_gemv.
  destruct (neqb al n0 && neqb be n1) eqn:EQ.
  { apply andb_prop in EQ as [E1 E2]. destruct (al0_val E1). eapply apx_weaken; [apply mag0_eq; auto|reflexivity|lra|lia|lra]. }
  destruct (neqb al n0) eqn:E0.
  { destruct (al0_val E0) as [W1 W2]. rewrite W1, W2. eapply apx_weaken; [exact apx_pre'|reflexivity|lra|lia|lra]. }
  destruct tr.
  - rewrite s_mag_dot. unfold s_val. eapply apx_weaken; [eapply (apx_nadd fused P _ _ _ _ _ _ _ _ _ _ apx_pre' apx_dal)|ring|lra|lia|lra].
  - eapply apx_weaken; [apply (apx_nota_v c Hc)|reflexivity|lra|lia|lra].
Qed.
End S.
