(** Arithmetic on integer-valued doubles is exact up to 2^53. *)
From Coq Require Import ZArith Reals Lra Lia Psatz Bool.
From Flocq Require Import Core.Core IEEE754.BinarySingleNaN.
From Verif Require Import Num Spec MQuat MForL1 F64 SpecErr RoundFacts SpecInt.
Local Open Scope Z_scope.

Lemma exact_max_val : exact_max = 9007199254740992. Proof. reflexivity. Qed.
Lemma frnd_int z : Z.abs z <= exact_max -> frnd (IZR z) = IZR z.
Proof.
  intros Hz. apply round_generic; [apply valid_rnd_N|]. destruct (Z.eq_dec (Z.abs z) exact_max) as [E|E].
  - assert (Hb : generic_format radix2 (FLT_exp (-1074) 53) (bpow radix2 53)) by (apply generic_format_bpow; unfold FLT_exp; lia).
    assert (E2 : bpow radix2 53 = IZR exact_max) by (rewrite <- IZR_Zpower by lia; reflexivity). rewrite E2 in Hb.
    destruct (Z.abs_spec z) as [[_ Ea]|[_ Ea]]; rewrite Ea in E.
    + rewrite E. exact Hb.
    + replace z with (- exact_max) by lia. rewrite opp_IZR. apply generic_format_opp. exact Hb.
  - apply generic_format_FLT. apply FLT_spec with (Float radix2 z 0); cbn [Fnum Fexp]; [unfold F2R; cbn; ring| |lia].
    change (radix2 ^ 53) with exact_max. lia.
Qed.
Lemma int_small z : Z.abs z <= exact_max -> (Rabs (IZR z) < bpow radix2 1024)%R.
Proof.
  intros Hz. rewrite <- abs_IZR. apply Rle_lt_trans with (IZR exact_max); [apply IZR_le; auto|].
  apply Rle_lt_trans with (bpow radix2 53); [rewrite <- IZR_Zpower by lia; apply Rle_refl|apply bpow_lt; lia].
Qed.
Lemma isZ_add x y a b : isZ x a -> isZ y b -> Z.abs (a + b) <= exact_max -> isZ (fadd x y) (a + b).
Proof.
  intros [Fx Ex] [Fy Ey] Hb. assert (R : frnd (B2R x + B2R y) = IZR (a + b)) by (rewrite Ex, Ey, <- plus_IZR; apply frnd_int; auto).
  assert (F : is_finite (fadd x y) = true) by (apply fadd_ok; auto; rewrite R; apply int_small; auto).
  split; auto. destruct (fadd_fin x y F) as (_ & _ & E). rewrite E. exact R.
Qed.
Lemma isZ_opp x a : isZ x a -> isZ (fopp x) (- a).
Proof. intros [Fx Ex]. split; [rewrite fopp_fin; auto|rewrite fopp_R, Ex, opp_IZR; auto]. Qed.
Lemma isZ_sub x y a b : isZ x a -> isZ y b -> Z.abs (a - b) <= exact_max -> isZ (fsub x y) (a - b).
Proof. intros Hx Hy Hb. rewrite fsub_fadd. apply isZ_add; auto. apply isZ_opp; auto. Qed.
Lemma isZ_mul x y a b : isZ x a -> isZ y b -> Z.abs (a * b) <= exact_max -> isZ (fmul x y) (a * b).
Proof.
  intros [Fx Ex] [Fy Ey] Hb. assert (R : frnd (B2R x * B2R y) = IZR (a * b)) by (rewrite Ex, Ey, <- mult_IZR; apply frnd_int; auto).
  assert (F : is_finite (fmul x y) = true) by (apply fmul_ok; auto; rewrite R; apply int_small; auto).
  split; auto. destruct (fmul_fin x y F) as (_ & _ & E). rewrite E. exact R.
Qed.
Lemma isZ_ffma x y z a b c : isZ x a -> isZ y b -> isZ z c -> Z.abs (a * b + c) <= exact_max -> isZ (ffma x y z) (a * b + c).
Proof.
  intros [Fx Ex] [Fy Ey] [Fz Ez] Hb.
  assert (R : frnd (B2R x * B2R y + B2R z) = IZR (a * b + c)) by (rewrite Ex, Ey, Ez, <- mult_IZR, <- plus_IZR; apply frnd_int; auto).
  assert (F : is_finite (ffma x y z) = true) by (apply ffma_ok; auto; rewrite R; apply int_small; auto).
  split; auto. destruct (ffma_fin x y z F) as (_ & _ & _ & E). rewrite E. exact R.
Qed.
Lemma isZ_zero : isZ f_zero 0. Proof. split; reflexivity. Qed.
Lemma isZ_one : isZ f_one 1. Proof. split; [reflexivity|apply Bone_correct]. Qed.
Lemma isZ_eqb x y a b : isZ x a -> isZ y b -> @Beqb 53 1024 x y = (a =? b).
Proof.
  intros [Fx Ex] [Fy Ey]. rewrite Beqb_correct by auto. rewrite Ex, Ey. destruct (Z.eqb_spec a b) as [->|N].
  - apply Req_bool_true. reflexivity.
  - apply Req_bool_false. intros E. apply N, eq_IZR, E.
Qed.

(** ** with a bound on the magnitude *)
Section X.
Variable fused : bool.
Local Notation K := (F64 fused).
Definition ex (x : K) (z m : Z) : Prop := isZ (x : f64) z /\ Z.abs z <= m.
Lemma ex_nadd (x y : K) a b m1 m2 : ex x a m1 -> ex y b m2 -> m1 + m2 <= exact_max -> ex (nadd x y) (a + b) (m1 + m2).
Proof. intros [X Mx] [Y My] Hb. split; [apply isZ_add; auto; lia|lia]. Qed.
Lemma ex_nsub (x y : K) a b m1 m2 : ex x a m1 -> ex y b m2 -> m1 + m2 <= exact_max -> ex (nsub x y) (a - b) (m1 + m2).
Proof. intros [X Mx] [Y My] Hb. split; [apply isZ_sub; auto; lia|lia]. Qed.
Lemma ex_nopp (x : K) a m : ex x a m -> ex (nopp x) (- a) m.
Proof. intros [X Mx]. split; [apply isZ_opp; auto|lia]. Qed.
Lemma abs_mul a b m1 m2 : Z.abs a <= m1 -> Z.abs b <= m2 -> Z.abs (a * b) <= m1 * m2.
Proof. intros. rewrite Z.abs_mul. apply Z.mul_le_mono_nonneg; lia. Qed.
Lemma ex_nmul (x y : K) a b m1 m2 : ex x a m1 -> ex y b m2 -> m1 * m2 <= exact_max -> ex (nmul x y) (a * b) (m1 * m2).
Proof. intros [X Mx] [Y My] Hb. pose proof (abs_mul a b m1 m2 Mx My). split; [apply isZ_mul; auto; lia|lia]. Qed.
Lemma ex_nfma (x y z : K) a b c m1 m2 m3 : ex x a m1 -> ex y b m2 -> ex z c m3 -> m1 * m2 + m3 <= exact_max ->
  ex (nfma x y z) (a * b + c) (m1 * m2 + m3).
Proof.
  intros [X Mx] [Y My] [W Mz] Hb. pose proof (abs_mul a b m1 m2 Mx My). split; [|lia].
  change (isZ (if fused then ffma x y z else fadd (fmul x y) z) (a * b + c)). destruct fused; [apply isZ_ffma; auto; lia|].
  apply isZ_add; auto; [|lia]. apply isZ_mul; auto; lia.
Qed.
Lemma ex_nfms (x y z : K) a b c m1 m2 m3 : ex x a m1 -> ex y b m2 -> ex z c m3 -> m1 * m2 + m3 <= exact_max ->
  ex (nfms x y z) (a * b - c) (m1 * m2 + m3).
Proof.
  intros [X Mx] [Y My] [W Mz] Hb. pose proof (abs_mul a b m1 m2 Mx My). split; [|lia].
  change (isZ (if fused then ffma x y (fopp z) else fsub (fmul x y) z) (a * b - c)). destruct fused.
  - replace (a * b - c) with (a * b + - c) by lia. apply isZ_ffma; auto using isZ_opp. lia.
  - apply isZ_sub; auto; [|lia]. apply isZ_mul; auto; lia.
Qed.
Lemma ex_nfnma (x y z : K) a b c m1 m2 m3 : ex x a m1 -> ex y b m2 -> ex z c m3 -> m1 * m2 + m3 <= exact_max ->
  ex (nfnma x y z) (c - a * b) (m1 * m2 + m3).
Proof.
  intros [X Mx] [Y My] [W Mz] Hb. pose proof (abs_mul a b m1 m2 Mx My). split; [|lia].
  change (isZ (if fused then ffma (fopp x) y z else fsub z (fmul x y)) (c - a * b)). destruct fused.
  - replace (c - a * b) with (- a * b + c) by lia. apply isZ_ffma; auto using isZ_opp. lia.
  - apply isZ_sub; auto; [|lia]. apply isZ_mul; auto; lia.
Qed.
Lemma ex_leaf (x : K) z : isZ (x : f64) z -> ex x z (Z.abs z). Proof. intros H; split; auto; lia. Qed.
Lemma ex_0 : ex (n0 : K) 0 0. Proof. split; [apply isZ_zero|cbn; lia]. Qed.
Lemma ex_cast (x : K) z m z' : ex x z m -> z = z' -> isZ (x : f64) z'. Proof. intros [X _] <-. exact X. Qed.
End X.
