(** Property theorems C60: the inner product of a vector with itself in double precision (DOTCV of the AVX build). *)
From Coq Require Import ZArith Reals Lra Lia Bool Ascii List.
From Flocq Require Import Core.Raux Core.Zaux Core.Defs IEEE754.BinarySingleNaN.
From Verif Require Import Num NumR Res ResFacts Spec MQuat MSimd MOptL1 F64 SpecErr RawL1 SelfFacts.
Import ListNotations.
Local Open Scope Z_scope.

(** ** C60.  IEEE binary64, with ([fused] = true) or without hardware FMA.  x and y are any two vectors with the same N elements, e.g. the
    same pointer passed twice; [Bleb f_zero r] is the processor's comparison 0 <= r, false for NaN. *)
Theorem C60_self_nonneg : forall fused n xa (x : arr (quat (F64 fused))) incx ya y incy v,
  0 <= n -> 0 < incx -> 0 < incy -> holds_vec x n incx v -> holds_vec y n incy v ->
  (forall i, 0 <= i < n -> is_nan (qr (v i) : f64) = false /\ is_nan (qi (v i) : f64) = false /\ is_nan (qj (v i) : f64) = false /\ is_nan (qk (v i) : f64) = false) ->
  returns (dotcv_opt n xa x incx ya y incy) (fun r => Bleb f_zero (qr r : f64) = true).
Proof.
  intros fused n xa x incx ya y incy v Hn Hx Hy Vx Vy N. unfold dotcv_opt. rewrite (dot_opt_raw true n xa x incx ya y incy v v Hn Hx Hy Vx Vy).
  cbn [returns]. apply nn_dot; auto.
Qed.
Print Assumptions C60_self_nonneg.
(** Missing from the full property (all three imaginary parts are 0): the j and k parts for N >= 4, and the FMA build. *)
Theorem C60_self_imag_partial : forall n xa (x : arr (quat (F64 false))) incx ya y incy v,
  0 <= n -> 0 < incx -> 0 < incy -> holds_vec x n incx v -> holds_vec y n incy v ->
  returns (dotcv_opt n xa x incx ya y incy) (fun r => is_finite (qr r : f64) = true ->
    (is_finite (qi r : f64) = true /\ B2R (qi r : f64) = 0%R) /\
    (n < 4 -> (is_finite (qj r : f64) = true /\ B2R (qj r : f64) = 0%R) /\ (is_finite (qk r : f64) = true /\ B2R (qk r : f64) = 0%R))).
Proof.
  intros n xa x incx ya y incy v Hn Hx Hy Vx Vy. unfold dotcv_opt. rewrite (dot_opt_raw true n xa x incx ya y incy v v Hn Hx Hy Vx Vy).
  cbn [returns]. exact (dot_i n v Hn).
Qed.
Print Assumptions C60_self_imag_partial.

(** one component differs from 0: a finite nonzero double *)
Definition nonzero (f : f64) : bool := match f with B754_finite _ _ _ _ => true | _ => false end.
Lemma chkd {f} (x : res (quat (F64 f))) (p : quat (F64 f) -> bool) : match x with Ok r => p r | _ => false end = true -> returns x (fun r => p r = true).
Proof. destruct x; try discriminate. auto. Qed.
Definition tm30 : f64 := @B754_finite 53 1024 false 4503599627370496 (-82) eq_refl.
Definition one_ulp : f64 := @B754_finite 53 1024 false 4503599627370497 (-52) eq_refl.
Definition one_less : f64 := @B754_finite 53 1024 false 9007199254740990 (-53) eq_refl.
(** without FMA, N = 4: x = ((1, 2^-30, 1, 2^-30), 0, 0, 0) has a finite inner product with itself whose j part is not 0;
    with FMA, N = 1: the i part of the inner product of (1+2^-52, 1+2^-52, 1-2^-52, 1) with itself is not 0 *)
Theorem C60_self_imag_refuted :
  (let z := @Quat (F64 false) f_zero f_zero f_zero f_zero in let x := arr_list [@Quat (F64 false) f_one tm30 f_one tm30; z; z; z] in
   returns (dotcv_opt 4 0 x 1 0 x 1) (fun r => is_finite (qr r : f64) && nonzero (qj r) = true)) /\
  (let x := arr_list [@Quat (F64 true) one_ulp one_ulp one_less f_one] in
   returns (dotcv_opt 1 0 x 1 0 x 1) (fun r => is_finite (qr r : f64) && nonzero (qi r) = true)).
Proof.
  split; apply (chkd (f := _)); vm_compute; reflexivity.
Qed.
Print Assumptions C60_self_imag_refuted.
(** a nonzero vector of ordinary doubles whose inner product with itself is 0: the squares underflow *)
Definition tm600' : f64 := @B754_finite 53 1024 false 4503599627370496 (-652) eq_refl.
Theorem C60_definite_refuted : forall fused, let x := arr_list [@Quat (F64 fused) tm600' tm600' f_zero f_zero] in
  B2R tm600' = bpow radix2 (-600) /\
  returns (dotcv_opt 1 0 x 1 0 x 1) (fun r => Beqb (qr r : f64) f_zero && Beqb (qi r : f64) f_zero && Beqb (qj r : f64) f_zero && Beqb (qk r : f64) f_zero = true).
Proof.
  intros fused x. split.
  - unfold tm600', B2R, F2R. cbn [Fnum Fexp cond_Zopp]. change (IZR 4503599627370496) with (IZR (radix2 ^ 52)). rewrite IZR_Zpower by lia. rewrite <- bpow_plus. reflexivity.
  - apply (chkd (f := _)). destruct fused; vm_compute; reflexivity.
Qed.
Print Assumptions C60_definite_refuted.
(** the hypotheses are met: the vector ((1,1,2,1), (2,1,1,1), (1,1,1,1)), N = 3, where the result is 7+7+4 = 18 *)
Definition f_two : f64 := @B754_finite 53 1024 false 4503599627370496 (-51) eq_refl.
Example C60_concrete : let K := F64 false in let v := [@Quat K f_one f_one f_two f_one; @Quat K f_two f_one f_one f_one; @Quat K f_one f_one f_one f_one] in
  let x := arr_list v in
  (exists f, holds_vec x 3 1 f /\ forall i, 0 <= i < 3 -> is_nan (qr (f i) : f64) = false /\ is_nan (qi (f i) : f64) = false /\ is_nan (qj (f i) : f64) = false /\ is_nan (qk (f i) : f64) = false) /\
  returns (dotcv_opt 3 0 x 1 0 x 1) (fun r => Beqb (qr r : f64) (@B754_finite 53 1024 false 5066549580791808 (-48) eq_refl) && Beqb (qj r : f64) f_zero = true).
Proof.
  intros K v x. split; [|apply (chkd (f := _)); vm_compute; reflexivity].
  exists (fun i => nth (Z.to_nat i) v H0). split.
  - intros i Hi. assert (i = 0 \/ i = 1 \/ i = 2) as [->|[->| ->]] by lia; reflexivity.
  - intros i Hi. assert (i = 0 \/ i = 1 \/ i = 2) as [->|[->| ->]] by lia; repeat split; reflexivity.
Qed.
