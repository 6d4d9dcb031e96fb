(** Property theorems C58, C59: double precision rounding and integer exactness of the real-matrix GEMV and GEMM. *)
From Coq Require Import ZArith Reals Lra Lia Bool Ascii List.
From Flocq Require Import Core.Raux Core.Zaux Core.Defs IEEE754.BinarySingleNaN.
From Verif Require Import Num NumR Res ResFacts Spec MQuat MSimd MGenL2 F64 SpecErr SpecErrF SpecErrR SpecInt SpecIntF IntFacts ErrFacts3 ErrTop ErrReal2 IntReal PropsErr.
Import ListNotations.
Local Open Scope Z_scope.

(** ** C58.  Arithmetic is IEEE binary64, one rounding per operation.  [close d E v x m]: every finite component of the computed [v]
    differs from the exact real value [x] by at most ((1+2^-53)^d - 1) * m + 2^-1075 (1+2^-53)^d E.  K+3 roundings here, against
    4K+7 for quaternion matrices (C54). *)
Theorem C58_gemm_real_err : forall fused qmul ca cb oa ob m n k (alpha beta : F64 fused) (a : arr (F64 fused)) lda (b : arr (quat (F64 fused))) ldb (c : arr (quat (F64 fused))) ldc A B w,
  trans_char ca = Some oa -> trans_char cb = Some ob -> 0 <= m -> 0 <= n -> 0 <= k -> m <= ldc ->
  holds_mat a lda (op_rows oa m k) (op_cols oa m k) A -> holds_mat b ldb (op_rows ob k n) (op_cols ob k n) B -> holds_mat c ldc m n w ->
  returns (gemm_real qmul ca cb m n k alpha a lda b ldb beta c ldc) (fun c' => same_but_mat c c' ldc m n /\
    forall i j, 0 <= i < m -> 0 <= j < n -> exists q, c' (i + j * ldc) = Some q /\
      let RB := fun i j => QR (B i j) in let RC := fun i j => QR (w i j) in
      let ra := Hre (K := Rnum) (B2R (alpha : f64)) in let rb := Hre (K := Rnum) (B2R (beta : f64)) in
      let d := Z.to_nat (k + 3) in let E := real_units k (B2R (alpha : f64)) (fun l => Q1 (opm (K := Rnum) ob RB l j)) in let mg := gemm_mag oa ob k ra (Rmat A) RB rb RC i j in
      close d E q (gemm_elt (K := Rnum) oa ob k ra (Rmat A) RB rb RC i j) mg /\
      (is_finite (alpha : f64) = true -> is_finite (beta : f64) = true -> fin (w i j) ->
       real_room k (B2R (alpha : f64)) (fun l => ropm oa A i l) (fun l => opm ob B l j) -> below d E mg -> fin q)).
Proof. exact gemm_real_err. Qed.
Print Assumptions C58_gemm_real_err.
Theorem C58_gemv_real_err : forall fused qmul c o m n (alpha beta : F64 fused) (a : arr (F64 fused)) lda (x : arr (quat (F64 fused))) incx (y : arr (quat (F64 fused))) incy A v w,
  trans_char c = Some o -> 0 < m -> 0 < n -> 0 < incx -> 0 < incy ->
  holds_mat a lda m n A -> holds_vec x (op_cols o m n) incx v -> holds_vec y (op_rows o m n) incy w ->
  returns (gemv_real qmul c m n alpha a lda x incx beta y incy) (fun y' => same_but_vec y y' (op_rows o m n) incy /\
    forall i, 0 <= i < op_rows o m n -> exists q, y' (vpos (op_rows o m n) incy i) = Some q /\
      let k := op_cols o m n in let Rx := fun j => QR (v j) in let Ry := fun i => QR (w i) in
      let ra := Hre (K := Rnum) (B2R (alpha : f64)) in let rb := Hre (K := Rnum) (B2R (beta : f64)) in
      let d := Z.to_nat (k + 3) in let E := real_units k (B2R (alpha : f64)) (fun l => Rabs (B2R (ropm o A i l : f64))) in let mg := gemv_mag o k ra (Rmat A) Rx rb Ry i in
      close d E q (gemv_elt (K := Rnum) o k ra (Rmat A) Rx rb Ry i) mg /\
      (is_finite (alpha : f64) = true -> is_finite (beta : f64) = true -> fin (w i) ->
       real_room k (B2R (alpha : f64)) (fun l => ropm o A i l) v -> below d E mg -> fin q)).
Proof. exact gemv_real_err. Qed.
Print Assumptions C58_gemv_real_err.

(** The condition on ALPHA*A cannot be dropped: ALPHA = A = 2^600, x = 2^-600, so ALPHA*x = 1 and the exact result 2^600 are ordinary
    doubles; GEMV 'N' returns NaN (it adds (ALPHA*A - A*ALPHA)*x, here infinity minus infinity) and GEMM returns infinity. *)
Definition t600 : f64 := @B754_finite 53 1024 false 4503599627370496 548 eq_refl.
Definition tm600 : f64 := @B754_finite 53 1024 false 4503599627370496 (-652) eq_refl.
Lemma chk {f} (x : res (arr (quat (F64 f)))) (p : f64 -> bool) v : match x with Ok y => match y 0 with Some q => p (qr q) | _ => false end | _ => false end = true ->
  (forall u, p u = true -> u = v) -> returns x (fun y => exists q, y 0 = Some q /\ qr q = v).
Proof. destruct x as [y| |]; try discriminate. cbn [returns]. destruct (y 0) as [q|]; try discriminate. intros E H. exists q. auto. Qed.
Theorem C58_alpha_a_overflow_refuted : forall fused, let K := F64 fused in let x := @Quat K tm600 f_zero f_zero f_zero in let z := @Quat K f_zero f_zero f_zero f_zero in
  (B2R t600 * (B2R t600 * B2R tm600) = bpow radix2 600)%R /\ nmul (n := K) tm600 t600 = f_one /\
  returns (gemv_real (K := K) q_mul_avx "N" 1 1 t600 (arr_list [t600] : arr K) 1 (arr_list [x]) 1 f_zero (arr_list [z]) 1) (fun y' => exists q, y' 0 = Some q /\ qr q = f_nan) /\
  returns (gemm_real (K := K) q_mul_avx "N" "N" 1 1 1 t600 (arr_list [t600] : arr K) 1 (arr_list [x]) 1 f_zero (arr_list [z]) 1) (fun c' => exists q, c' 0 = Some q /\ qr q = f_inf).
Proof.
  intros fused K x z.
  assert (E : B2R t600 = bpow radix2 600).
  { unfold t600, B2R, F2R. cbn [Fnum Fexp cond_Zopp]. change (IZR 4503599627370496) with (IZR (radix2 ^ 52)). rewrite IZR_Zpower by lia. rewrite <- bpow_plus. reflexivity. }
  assert (E' : B2R tm600 = bpow radix2 (-600)).
  { unfold tm600, B2R, F2R. cbn [Fnum Fexp cond_Zopp]. change (IZR 4503599627370496) with (IZR (radix2 ^ 52)). rewrite IZR_Zpower by lia. rewrite <- bpow_plus. reflexivity. }
  split; [rewrite E, E', <- !bpow_plus; reflexivity|]. split; [apply B2SF_inj; vm_compute; reflexivity|].
  split.
  - apply (chk _ is_nan); [destruct fused; vm_compute; reflexivity|]. intros [s|s| |s m e h]; try discriminate. reflexivity.
  - apply (chk _ (fun u => match u with B754_infinity false => true | _ => false end)); [destruct fused; vm_compute; reflexivity|].
    intros [s|[]| |s m e h]; try discriminate. reflexivity.
Qed.
Print Assumptions C58_alpha_a_overflow_refuted.
(** the hypotheses are met: GEMV 'N', A = [1 1 1], x = three quaternions (1,1,1,1), ALPHA = BETA = 1 *)
Example C58_concrete : forall fused : bool, exists y' q, gemv_real (K := F64 fused) q_mul_avx "N" 1 3 f_one (fun _ => Some f_one) 1 (fun _ => Some (@ones fused)) 1 f_one (fun _ => Some ones) 1 = Ok y' /\
  y' 0 = Some q /\ fin q /\ (Rabs (B2R (qk q) - 4) <= err_bound 6 4 18)%R.
Proof.
  intros fused.
  assert (B1 : @B2R 53 1024 f_one = 1%R) by (apply Bone_correct).
  assert (E1 : QR (@ones fused) = @Quat Rnum 1%R 1%R 1%R 1%R) by (unfold QR, ones; cbn [qr qi qj qk]; rewrite B1; reflexivity).
  assert (Big : (1024 <= bpow radix2 1022)%R) by (change 1024%R with (bpow radix2 10); apply bpow_le; lia).
  pose proof (C58_gemv_real_err fused q_mul_avx "N" OpN 1 3 f_one f_one (fun _ => Some f_one) 1 (fun _ => Some ones) 1 (fun _ => Some ones) 1 (fun _ _ => f_one) (fun _ => ones) (fun _ => ones)
    eq_refl ltac:(lia) ltac:(lia) ltac:(lia) ltac:(lia) (fun i j _ _ => eq_refl) (fun i _ => eq_refl) (fun i _ => eq_refl)) as D.
  destruct (gemv_real _ "N" 1 3 _ _ 1 _ 1 _ _ 1) as [y'| |]; cbn [returns] in D; try contradiction.
  exists y'. destruct D as [_ D]. cbn [op_rows op_cols] in D. specialize (D 0 ltac:(lia)). destruct D as (q & Eq & D). cbv zeta in D. exists q. split; [reflexivity|]. split; [exact Eq|].
  destruct D as [D1 D2]. unfold Rmat in D1, D2. cbn [ropm] in D1, D2.
  change (B2R (f_one : car (F64 fused))) with (@B2R 53 1024 f_one) in D1, D2. rewrite B1, E1 in D1, D2.
  assert (F : fin q).
  { apply D2; [reflexivity|reflexivity|repeat split; reflexivity| |].
    - split; [intros l _; split; [reflexivity|]; split; [repeat split; reflexivity|]; split|].
      + rewrite B1, Rmult_1_r, Rabs_R1. unfold err_bound. rewrite !pow_1. assert (U : (uro <= 1)%R) by (rewrite uro_val; change (2 ^ 53)%Z with 9007199254740992%Z; lra).
        assert (U0 : (0 <= uro)%R) by (unfold uro; apply bpow_ge_0). assert (et : (eta <= 1)%R) by (unfold eta; change 1%R with (bpow radix2 0); apply bpow_le; lia).
        assert (et0 : (0 <= eta)%R) by (unfold eta; apply bpow_ge_0). assert (X : (bpow radix2 1022 <= bpow radix2 1024)%R) by (apply bpow_le; lia).
        assert (eta * (1 + uro) <= 2)%R by (apply Rle_trans with (1 * 2)%R; [apply Rmult_le_compat; lra|lra]).
        generalize dependent (bpow radix2 1024). generalize dependent (bpow radix2 1022). intros; lra.
      + apply C43_no_overflow.
        1: rewrite uro_val; change (2 ^ 53)%Z with 9007199254740992%Z; cbn [INR]; lra.
        all: generalize dependent (bpow radix2 1022); intros X Big; rewrite ?E1; unfold Qmaj, Qabs; cbn; rewrite ?Rabs_R1, ?Rabs_R0; lra.
      + apply C43_no_overflow.
        1: rewrite uro_val; change (2 ^ 53)%Z with 9007199254740992%Z; change (Z.to_nat (3 + 1)) with 4%nat; cbn [INR]; lra.
        all: generalize dependent (bpow radix2 1022); intros X Big; rewrite ?E1, ?B1; unfold Qmaj, Qabs, Hsum; change (Z.to_nat 3) with 3%nat; cbn; rewrite ?B1, ?Rabs_R1, ?Rabs_R0; lra.
    - apply C43_no_overflow.
      1: rewrite uro_val; change (2 ^ 53)%Z with 9007199254740992%Z; change (Z.to_nat (3 + 3)) with 6%nat; cbn [INR]; lra.
      all: generalize dependent (bpow radix2 1022); intros X Big; unfold real_units, gemv_mag, opm, Qmaj, Qabs, Hsum, Rsum; change (Z.to_nat 3) with 3%nat; cbn; rewrite ?B1, ?Rabs_R1, ?Rabs_R0; lra. }
  split; [exact F|]. destruct D1 as (_ & _ & _ & D1). specialize (D1 (proj2 (proj2 (proj2 F)))).
  unfold real_units, gemv_mag, gemv_elt, opm, Qmaj, Qabs, Hsum, Rsum in D1; change (Z.to_nat 3) with 3%nat in D1; change (Z.to_nat (3 + 3)) with 6%nat in D1; cbn in D1. rewrite ?B1, ?Rabs_R1, ?Rabs_R0 in D1.
  match type of D1 with (Rabs (_ - ?x) <= err_bound ?d ?m ?e)%R => replace x with 4%R in D1 by lra; replace m with 4%R in D1 by lra; replace e with 18%R in D1 by lra end. exact D1.
Qed.

(** ** C59.  Integer data: when every entry is an integer and the magnitudes named by [gemm_small] / [gemv_small] (SpecInt.v, SpecIntF.v)
    stay within 2^53, the stored doubles are exactly the integer results. *)
Theorem C59_gemm_real_int : forall fused qmul ca cb oa ob m n k (alpha beta : F64 fused) al be (a : arr (F64 fused)) lda (b : arr (quat (F64 fused))) ldb (c : arr (quat (F64 fused))) ldc A B w ZA ZB zw,
  trans_char ca = Some oa -> trans_char cb = Some ob -> 0 <= m -> 0 <= n -> 0 <= k -> m <= ldc ->
  holds_mat a lda (op_rows oa m k) (op_cols oa m k) A -> holds_mat b ldb (op_rows ob k n) (op_cols ob k n) B -> holds_mat c ldc m n w ->
  isZ (alpha : f64) al -> isZ (beta : f64) be ->
  (forall i j, 0 <= i < op_rows oa m k -> 0 <= j < op_cols oa m k -> isZ (A i j : f64) (ZA i j)) ->
  (forall i j, 0 <= i < op_rows ob k n -> 0 <= j < op_cols ob k n -> qisZ (B i j) (ZB i j)) ->
  (forall i j, 0 <= i < m -> 0 <= j < n -> qisZ (w i j) (zw i j) /\
     gemm_small oa ob k (@SR Znum al) (fun i j => Hre (K := Znum) (ZA i j)) ZB (@SR Znum be) zw i j) ->
  returns (gemm_real qmul ca cb m n k alpha a lda b ldb beta c ldc) (fun c' => same_but_mat c c' ldc m n /\
    forall i j, 0 <= i < m -> 0 <= j < n -> exists q, c' (i + j * ldc) = Some q /\
      qisZ q (gemm_elt oa ob k (Hre (K := Znum) al) (fun i j => Hre (K := Znum) (ZA i j)) ZB (Hre (K := Znum) be) zw i j)).
Proof. exact gemm_real_int. Qed.
Print Assumptions C59_gemm_real_int.
Theorem C59_gemv_real_int : forall fused qmul c o m n (alpha beta : F64 fused) al be (a : arr (F64 fused)) lda (x : arr (quat (F64 fused))) incx (y : arr (quat (F64 fused))) incy A v w ZA zx zw,
  trans_char c = Some o -> 0 < m -> 0 < n -> 0 < incx -> 0 < incy ->
  holds_mat a lda m n A -> holds_vec x (op_cols o m n) incx v -> holds_vec y (op_rows o m n) incy w ->
  isZ (alpha : f64) al -> isZ (beta : f64) be ->
  (forall i j, 0 <= i < m -> 0 <= j < n -> isZ (A i j : f64) (ZA i j) /\ Z.abs al * Z.abs (ZA i j) <= exact_max) ->
  (forall j, 0 <= j < op_cols o m n -> qisZ (v j) (zx j)) ->
  (forall i, 0 <= i < op_rows o m n -> qisZ (w i) (zw i) /\
     gemv_small o (op_cols o m n) (@SR Znum al) (fun i j => Hre (K := Znum) (ZA i j)) zx (@SR Znum be) zw i) ->
  returns (gemv_real qmul c m n alpha a lda x incx beta y incy) (fun y' => same_but_vec y y' (op_rows o m n) incy /\
    forall i, 0 <= i < op_rows o m n -> exists q, y' (vpos (op_rows o m n) incy i) = Some q /\
      qisZ q (gemv_elt o (op_cols o m n) (Hre (K := Znum) al) (fun i j => Hre (K := Znum) (ZA i j)) zx (Hre (K := Znum) be) zw i)).
Proof. exact gemv_real_int. Qed.
Print Assumptions C59_gemv_real_int.
(** 1 x 2 real A = [1 1] times the quaternions (1,1,1,1), added to C = 1: (3,2,2,2) exactly *)
Example C59_concrete : forall fused, let K := F64 fused in let o1 := @Quat K f_one f_one f_one f_one in
  returns (gemm_real (K := K) q_mul_avx "N" "C" 1 1 2 f_one (arr_list [f_one; f_one] : arr K) 1 (arr_list [o1; o1]) 1 f_one (arr_list [@Quat K f_one f_zero f_zero f_zero]) 1)
  (fun c' => exists q, c' 0 = Some q /\ qisZ q (@Quat Znum 3 (-2) (-2) (-2))).
Proof.
  intros fused K o1. pose proof isZ_one as I1. pose proof isZ_zero as I0.
  assert (Q1 : qisZ o1 (@Quat Znum 1 1 1 1)) by (repeat split; apply I1).
  assert (T : forall l, 0 <= l < 2 -> l = 0 \/ l = 1) by (intros; lia).
  eapply returns_mono.
  { apply (C59_gemm_real_int fused q_mul_avx "N" "C" OpN OpC 1 1 2 f_one f_one 1 1 _ 1 _ 1 _ 1
      (fun _ _ => f_one) (fun _ _ => o1) (fun _ _ => @Quat K f_one f_zero f_zero f_zero)
      (fun _ _ => 1) (fun _ _ => @Quat Znum 1 1 1 1) (fun _ _ => @Quat Znum 1 0 0 0)); try lia; auto.
    - intros i j Hi Hj. cbn [op_rows op_cols] in *. assert (i = 0) as -> by lia. destruct (T j Hj) as [-> | ->]; reflexivity.
    - intros i j Hi Hj. cbn [op_rows op_cols] in *. assert (i = 0) as -> by lia. destruct (T j Hj) as [-> | ->]; reflexivity.
    - intros i j Hi Hj. assert (i = 0) as -> by lia. assert (j = 0) as -> by lia. reflexivity.
    - intros i j _ _. split; [repeat split; auto; try apply I0; apply I1|]. refine (conj _ (conj _ _)); [intros l Hl; split|..]; vm_compute; discriminate. }
  intros c' [_ R]. destruct (R 0 0 ltac:(lia) ltac:(lia)) as (q & E & Hq). exists q. split; [exact E|]. exact Hq.
Qed.
