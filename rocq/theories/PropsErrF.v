(** Property theorems C54: floating-point error of the Fortran level-2 and level-3 kernels. *)
From Coq Require Import ZArith Reals Lra Lia Bool Ascii.
From Flocq Require Import Core.Raux Core.Zaux IEEE754.BinarySingleNaN.
From Verif Require Import Num NumR Res Spec MQuat MForL2 MForL3 F64 SpecErr SpecErrF ErrFacts3 ErrTop ErrFor3 PropsErr.
Local Open Scope Z_scope.

(** ** C54.  Arithmetic is IEEE binary64, each Fortran operation rounded once (the Fortran code never uses the FMA operation, so
    [fused] is irrelevant to it).  [close d E v x m]: every finite component of the computed [v] differs from the exact real value
    [x] by at most ((1+2^-53)^d - 1) * m + 2^-1075 (1+2^-53)^d E. *)
(** GEMM, all nine ALPHA/BETA kinds *)
Theorem C54_hgemm_err : forall fused ca cb oa ob m n k (alpha beta : scal (F64 fused)) (a : arr (quat (F64 fused))) lda (b : arr (quat (F64 fused))) ldb (c : arr (quat (F64 fused))) ldc A B w,
  trans_char ca = Some oa -> trans_char cb = Some ob -> 0 <= m -> 0 <= n -> 0 <= k -> m <= ldc ->
  holds_mat a lda (op_rows oa m k) (op_cols oa m k) A -> holds_mat b ldb (op_rows ob k n) (op_cols ob k n) B -> holds_mat c ldc m n w ->
  returns (hgemm ca cb m n k alpha a lda b ldb beta c ldc) (fun c' => same_but_mat c c' ldc m n /\
    forall i j, 0 <= i < m -> 0 <= j < n -> exists q, c' (i + j * ldc) = Some q /\
      let RA := fun i j => QR (A i j) in let RB := fun i j => QR (B i j) in let RC := fun i j => QR (w i j) in
      let ra := emb (SR_of alpha) in let rb := emb (SR_of beta) in
      let d := Z.to_nat (4 * k + 7) in let E := row_units k ra (fun l => opm (K := Rnum) oa RA i l) in let mg := gemm_mag oa ob k ra RA RB rb RC i j in
      close d E q (gemm_elt (K := Rnum) oa ob k ra RA RB rb RC i j) mg /\
      (sfin alpha -> sfin beta -> fin (w i j) -> row_room k ra (fun l => opm oa A i l) (fun l => opm ob B l j) -> below d E mg -> fin q)).
Proof. exact hgemm_err. Qed.
Print Assumptions C54_hgemm_err.
(** GEMV, all nine kinds.  Partial: the shape and stride combinations on which the routines are wrong (C23) are excluded. *)
Theorem C54_hgemv_err_partial : forall fused c o m n (alpha beta : scal (F64 fused)) (a : arr (quat (F64 fused))) lda (x : arr (quat (F64 fused))) incx (y : arr (quat (F64 fused))) incy A v w,
  trans_char c = Some o -> 0 < m -> 0 < n -> incx <> 0 -> incy <> 0 ->
  (m = n \/ c = "C"%char \/ exists r s, alpha = SR r /\ beta = SR s) ->
  (incy = 1 \/ ~ (exists r q, alpha = SR r /\ beta = SH q) /\ ~ (c = "N"%char /\ exists q, alpha = SH q)) ->
  holds_mat a lda m n A -> holds_vec x (op_cols o m n) incx v -> holds_vec y (op_rows o m n) incy w ->
  returns (hgemv c m n alpha a lda x incx beta y incy) (fun y' => same_but_vec y y' (op_rows o m n) incy /\
    forall i, 0 <= i < op_rows o m n -> exists q, y' (vpos (op_rows o m n) incy i) = Some q /\
      let k := op_cols o m n in let RA := fun i j => QR (A i j) in let Rx := fun j => QR (v j) in let Ry := fun i => QR (w i) in
      let ra := emb (SR_of alpha) in let rb := emb (SR_of beta) in
      let d := Z.to_nat (4 * k + 7) in let E := row_units k ra (fun l => opm (K := Rnum) o RA i l) in let mg := gemv_mag o k ra RA Rx rb Ry i in
      close d E q (gemv_elt (K := Rnum) o k ra RA Rx rb Ry i) mg /\
      (sfin alpha -> sfin beta -> fin (w i) -> row_room k ra (fun l => opm o A i l) v -> below d E mg -> fin q)).
Proof. exact hgemv_err. Qed.
Print Assumptions C54_hgemv_err_partial.
(** GERU (cnj = false) and GERC (cnj = true).  Partial: real ALPHA with INCX <> 1 is undefined behaviour (C24). *)
Theorem C54_hger_err_partial : forall fused (cnj : bool) m n (alpha : scal (F64 fused)) (x : arr (quat (F64 fused))) incx (y : arr (quat (F64 fused))) incy (a : arr (quat (F64 fused))) lda v w A,
  0 <= m -> 0 <= n -> incx <> 0 -> incy <> 0 -> m <= lda -> (incx = 1 \/ forall r, alpha <> SR r) ->
  holds_vec x m incx v -> holds_vec y n incy w -> holds_mat a lda m n A ->
  returns (hger cnj m n alpha x incx y incy a lda) (fun a' => same_but_mat a a' lda m n /\
    forall i j, 0 <= i < m -> 0 <= j < n -> exists q, a' (i + j * lda) = Some q /\
      let RA := fun i j => QR (A i j) in let Rx := fun i => QR (v i) in let Ry := fun j => QR (w j) in
      let ra := emb (SR_of alpha) in let E := (6 * Q1 (Rx i) + 16)%R in let mg := ger_mag ra Rx Ry RA i j in
      close 8 E q ((if cnj then gerc_elt else geru_elt) ra Rx Ry RA i j) mg /\
      (sfin alpha -> fin (v i) -> fin (w j) -> fin (A i j) -> below 2 3 (Qmaj (Qabs ra) (Qabs (Ry j))) -> below 8 E mg -> fin q)).
Proof. exact hger_err. Qed.
Print Assumptions C54_hger_err_partial.
(** the hypotheses are met: GEMM 'C','N' with K = 3, every element (1,1,1,1), ALPHA = BETA = 1 real *)
Example C54_concrete : forall fused : bool, exists c' q, hgemm "C" "N" 2 2 3 (@SR (F64 fused) f_one) (fun _ => Some (@ones fused)) 3 (fun _ => Some ones) 3 (@SR (F64 fused) f_one) (fun _ => Some ones) 2 = Ok c' /\
  c' 3 = Some q /\ fin q /\ (Rabs (B2R (qr q) - 13) <= err_bound 19 13 159)%R.
Proof.
  intros fused.
  assert (B1 : @B2R 53 1024 f_one = 1%R) by (apply Bone_correct).
  assert (E1 : QR (@ones fused) = @Quat Rnum 1%R 1%R 1%R 1%R) by (unfold QR, ones; cbn [qr qi qj qk]; rewrite B1; reflexivity).
  assert (Big : (1024 <= bpow radix2 1022)%R) by (change 1024%R with (bpow radix2 10); apply bpow_le; lia).
  pose proof (C54_hgemm_err fused "C" "N" OpC OpN 2 2 3 (@SR (F64 fused) f_one) (@SR (F64 fused) f_one) (fun _ => Some ones) 3 (fun _ => Some ones) 3 (fun _ => Some ones) 2 (fun _ _ => ones) (fun _ _ => ones) (fun _ _ => ones)
    eq_refl eq_refl ltac:(lia) ltac:(lia) ltac:(lia) ltac:(lia) (fun i j _ _ => eq_refl) (fun i j _ _ => eq_refl) (fun i j _ _ => eq_refl)) as D.
  destruct (hgemm "C" "N" 2 2 3 _ _ 3 _ 3 _ _ 2) as [c'| |]; cbn [returns] in D; try contradiction.
  exists c'. destruct D as [_ D]. specialize (D 1 1 ltac:(lia) ltac:(lia)). destruct D as (q & Eq & D). cbv zeta in D. exists q. split; [reflexivity|]. split; [exact Eq|].
  destruct D as [D1 D2].
  assert (ER : emb (SR_of (@SR (F64 fused) f_one)) = @Quat Rnum 1%R 0%R 0%R 0%R) by (unfold SR_of, emb; change (B2R (f_one : car (F64 fused))) with (@B2R 53 1024 f_one); rewrite B1; reflexivity).
  rewrite ER in D1, D2. cbn [opm] in D1, D2. rewrite E1 in D1, D2.
  pose proof (QR_opm fused OpC (fun _ _ => @ones fused) 0 0) as EC. cbn [opm] in EC. rewrite E1 in EC.
  assert (F : fin q).
  { apply D2; [reflexivity|reflexivity|repeat split; reflexivity| |].
    - split; [intros l _; split; [repeat split; reflexivity|]; split; [repeat split; reflexivity|]|]; apply C43_no_overflow.
      1,7: rewrite uro_val; change (2 ^ 53)%Z with 9007199254740992%Z; change (Z.to_nat (2 * 3 + 2)) with 8%nat; change (Z.to_nat (4 * 3 + 7)) with 19%nat; cbn [INR]; lra.
      all: generalize dependent (bpow radix2 1022); intros X Big; rewrite ?EC, ?E1; unfold opm, Qmaj, Qabs, Hconj, Hsum; change (Z.to_nat 3) with 3%nat; cbn; rewrite ?Rabs_Ropp, ?Rabs_R1, ?Rabs_R0; lra.
    - apply C43_no_overflow.
      1: rewrite uro_val; change (2 ^ 53)%Z with 9007199254740992%Z; change (Z.to_nat (2 * 3 + 2)) with 8%nat; change (Z.to_nat (4 * 3 + 7)) with 19%nat; cbn [INR]; lra.
      all: generalize dependent (bpow radix2 1022); intros X Big; unfold row_units, Q1, gemm_mag, opm, Qmaj, Qabs, Hconj, Hsum, Rsum; change (Z.to_nat 3) with 3%nat; cbn; rewrite ?Rabs_Ropp, ?Rabs_R1, ?Rabs_R0; lra. }
  split; [exact F|]. destruct D1 as [D1 _]. specialize (D1 (proj1 F)).
  unfold row_units, Q1, gemm_mag, gemm_elt, opm, Qmaj, Qabs, Hconj, Hsum, Rsum in D1; change (Z.to_nat 3) with 3%nat in D1; change (Z.to_nat (4 * 3 + 7)) with 19%nat in D1; cbn in D1. rewrite ?Rabs_Ropp, ?Rabs_R1, ?Rabs_R0 in D1.
  match type of D1 with (Rabs (_ - ?x) <= err_bound ?d ?m ?e)%R => replace x with 13%R in D1 by lra; replace m with 13%R in D1 by lra; replace e with 159%R in D1 by lra end. exact D1.
Qed.
