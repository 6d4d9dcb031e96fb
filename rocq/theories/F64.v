(** IEEE-754 binary64 instance of [num] (Flocq's formalisation, round to nearest even, one NaN).
    [fused] selects the two definitions of the FMA macros, include/util/simd/intrin_alias.hpp:74-88. *)
From Coq Require Import ZArith Reals Bool Lia.
From Flocq Require Import Core.FLX IEEE754.BinarySingleNaN.
From Verif Require Import Num Res Spec MQuat MSimd MOptL1 L1Facts2 MPack PackFacts MOptGemm OptGemmFacts OptGemmTop.
Local Open Scope Z_scope.

Lemma prec64 : Prec_gt_0 53. Proof. reflexivity. Qed.
Lemma emax64 : Prec_lt_emax 53 1024. Proof. reflexivity. Qed.
Definition f64 : Type := binary_float 53 1024.
Definition fadd : f64 -> f64 -> f64 := @Bplus 53 1024 prec64 emax64 mode_NE.
Definition fsub : f64 -> f64 -> f64 := @Bminus 53 1024 prec64 emax64 mode_NE.
Definition fmul : f64 -> f64 -> f64 := @Bmult 53 1024 prec64 emax64 mode_NE.
Definition ffma : f64 -> f64 -> f64 -> f64 := @Bfma 53 1024 prec64 emax64 mode_NE.
Definition fopp : f64 -> f64 := @Bopp 53 1024.
Definition f_zero : f64 := B754_zero false.
Definition f_one : f64 := @Bone 53 1024 prec64 emax64.
Definition f_nan : f64 := B754_nan.
Definition f_inf : f64 := B754_infinity false.

Definition F64 (fused : bool) : num :=
  {| car := f64; n0 := f_zero; n1 := f_one; nadd := fadd; nsub := fsub; nmul := fmul; nopp := fopp;
     nfma := fun a b c => if fused then ffma a b c else fadd (fmul a b) c;
     nfms := fun a b c => if fused then ffma a b (fopp c) else fsub (fmul a b) c;
     nfnma := fun a b c => if fused then ffma (fopp a) b c else fsub c (fmul a b);
     ndiv := @Bdiv 53 1024 prec64 emax64 mode_NE; nsqrt := @Bsqrt 53 1024 prec64 emax64 mode_NE;
     neqb := @Beqb 53 1024 |}.

(** 0 and 1 are told apart by the comparison *)
Lemma F64_zero_one fused (x : F64 fused) : neqb x n0 = true -> neqb x n1 = false.
Proof.
  change (@Beqb 53 1024 x f_zero = true -> @Beqb 53 1024 x f_one = false).
  destruct x as [s|s| |s m e H].
  - intros _. destruct s; vm_compute; reflexivity.
  - destruct s; discriminate.
  - discriminate.
  - destruct s; discriminate.
Qed.
Lemma F64_zero_zero fused : @neqb (F64 fused) n0 n0 = true. Proof. reflexivity. Qed.

(** ** NaN is contagious *)
Lemma fadd_nan_l x : fadd f_nan x = f_nan. Proof. destruct x; reflexivity. Qed.
Lemma fadd_nan_r x : fadd x f_nan = f_nan. Proof. destruct x; reflexivity. Qed.
Lemma fsub_nan_l x : fsub f_nan x = f_nan. Proof. destruct x; reflexivity. Qed.
Lemma fsub_nan_r x : fsub x f_nan = f_nan. Proof. destruct x; reflexivity. Qed.
Lemma fmul_nan_l x : fmul f_nan x = f_nan. Proof. destruct x; reflexivity. Qed.
Lemma fmul_nan_r x : fmul x f_nan = f_nan. Proof. destruct x; reflexivity. Qed.
Lemma ffma_nan x y : ffma x y f_nan = f_nan.
Proof. destruct x as [s|s| |s m e H], y as [s'|s'| |s' m' e' H']; try destruct s; try destruct s'; reflexivity. Qed.

Section N.
Variable fused : bool.
Local Notation K := (F64 fused).
Lemma nfma_nan (x y : K) : nfma x y (f_nan : K) = f_nan.
Proof. destruct fused; [exact (ffma_nan x y)|exact (fadd_nan_r (fmul x y))]. Qed.
Lemma nfnma_nan (x y : K) : nfnma x y (f_nan : K) = f_nan.
Proof. destruct fused; [exact (ffma_nan (fopp x) y)|exact (fsub_nan_l (fmul x y))]. Qed.
Lemma qinc_nan (x y r : quat K) : qr r = f_nan -> qr (qinc x y r) = f_nan.
Proof. intros E. unfold qinc; cbn [qr]. rewrite E, nfma_nan, !nfnma_nan. reflexivity. Qed.
Lemma facc_nan n x y (r : quat K) : qr r = f_nan -> qr (facc n x y r) = f_nan.
Proof. intros E. unfold facc. induction (Z.to_nat n); cbn [facc_nat]; auto. apply qinc_nan; auto. Qed.
Lemma scalq_nan beta (w : quat K) : (forall q, beta <> SH q) -> qr w = f_nan -> qr (scalq true beta w) = f_nan.
Proof.
  intros Hb E. destruct w as [w0 w1 w2 w3]. cbn in E. subst w0. destruct beta as [b|[b c]|q]; [| |destruct (Hb q eq_refl)].
  - exact (fmul_nan_r b).
  - change (fsub (fmul f_nan b) (fmul w1 c) = f_nan). rewrite fmul_nan_l. apply fsub_nan_l.
Qed.
Lemma gemm_val_nan oa ob k (alpha beta : scal K) (A B w : Z -> Z -> quat K) i j : (forall q, beta <> SH q) -> qr (w i j) = f_nan ->
  qr (gemm_val (K:=K) oa ob k alpha beta A B w i j) = f_nan.
Proof. intros Hb E. unfold gemm_val, pprod. apply facc_nan. apply scalq_nan; auto. Qed.
End N.
