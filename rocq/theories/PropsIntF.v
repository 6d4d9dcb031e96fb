(** Property theorems C55: integer-valued double precision data in the Fortran GEMV and GER.  [isZ], [qisZ], [sisZ], [Z1], [Zsum],
    [exact_max] = 2^53: SpecInt.v; [gemv_small], [ger_small]: SpecIntF.v. *)
From Coq Require Import ZArith Lia Bool Ascii List.
From Flocq Require Import IEEE754.BinarySingleNaN.
From Verif Require Import Num Res Spec MQuat MForL2 F64 SpecInt SpecIntF IntFacts IntFor.
Import ListNotations.
Local Open Scope Z_scope.

(** GEMV, all nine kinds.  Partial: the shape and stride combinations on which the routines are wrong (C23) are excluded. *)
Theorem C55_hgemv_int_partial : forall fused c o m n (alpha beta : scal (F64 fused)) al be (a : arr (quat (F64 fused))) lda (x : arr (quat (F64 fused))) incx (y : arr (quat (F64 fused))) incy A v w ZA zv zw,
  trans_char c = Some o -> 0 < m -> 0 < n -> incx <> 0 -> incy <> 0 ->
  (m = n \/ c = "C"%char \/ exists r s, alpha = SR r /\ beta = SR s) ->
  (incy = 1 \/ ~ (exists r q, alpha = SR r /\ beta = SH q) /\ ~ (c = "N"%char /\ exists q, alpha = SH q)) ->
  holds_mat a lda m n A -> holds_vec x (op_cols o m n) incx v -> holds_vec y (op_rows o m n) incy w ->
  sisZ alpha al -> sisZ beta be ->
  (forall i j, 0 <= i < m -> 0 <= j < n -> qisZ (A i j) (ZA i j)) -> (forall j, 0 <= j < op_cols o m n -> qisZ (v j) (zv j)) ->
  (forall i, 0 <= i < op_rows o m n -> qisZ (w i) (zw i) /\ gemv_small o (op_cols o m n) al ZA zv be zw i) ->
  returns (hgemv c m n alpha a lda x incx beta y incy) (fun y' => same_but_vec y y' (op_rows o m n) incy /\
    forall i, 0 <= i < op_rows o m n -> exists q, y' (vpos (op_rows o m n) incy i) = Some q /\ qisZ q (gemv_elt o (op_cols o m n) (emb al) ZA zv (emb be) zw i)).
Proof. exact hgemv_int. Qed.
Print Assumptions C55_hgemv_int_partial.
(** GERU (cnj = false) and GERC (cnj = true).  Partial: real ALPHA with INCX <> 1 is undefined behaviour (C25). *)
Theorem C55_hger_int_partial : forall fused (cnj : bool) m n (alpha : scal (F64 fused)) al (x : arr (quat (F64 fused))) incx (y : arr (quat (F64 fused))) incy (a : arr (quat (F64 fused))) lda v w A zv zw ZA,
  0 <= m -> 0 <= n -> incx <> 0 -> incy <> 0 -> m <= lda -> (incx = 1 \/ forall r, alpha <> SR r) ->
  holds_vec x m incx v -> holds_vec y n incy w -> holds_mat a lda m n A ->
  sisZ alpha al -> (forall i, 0 <= i < m -> qisZ (v i) (zv i)) -> (forall j, 0 <= j < n -> qisZ (w j) (zw j)) ->
  (forall i j, 0 <= i < m -> 0 <= j < n -> qisZ (A i j) (ZA i j) /\ ger_small al zv zw ZA i j) ->
  returns (hger cnj m n alpha x incx y incy a lda) (fun a' => same_but_mat a a' lda m n /\
    forall i j, 0 <= i < m -> 0 <= j < n -> exists q, a' (i + j * lda) = Some q /\ qisZ q ((if cnj then gerc_elt else geru_elt) (emb al) zv zw ZA i j)).
Proof. exact hger_int. Qed.
Print Assumptions C55_hger_int_partial.

(** A := A + i * x * conj(y)' in doubles, 1 x 1, x = y = (1,1,1,1), A = 1: exactly (1, 4, 0, 0) *)
Example C55_concrete : forall fused,
  let K := F64 fused in let o1 := @Quat K f_one f_one f_one f_one in
  returns (hger true 1 1 (SC (@Cplx K f_zero f_one)) (arr_list [o1]) 2 (arr_list [o1]) (-1) (arr_list [@Quat K f_one f_zero f_zero f_zero]) 1)
  (fun a' => exists q, a' 0 = Some q /\ qisZ q (@Quat Znum 1 4 0 0)).
Proof.
  intros fused K o1. pose proof isZ_one as I1. pose proof isZ_zero as I0.
  assert (Q1 : qisZ o1 (@Quat Znum 1 1 1 1)) by (repeat split; apply I1).
  eapply ResFacts.returns_mono.
  { apply (C55_hger_int_partial fused true 1 1 _ (SC (@Cplx Znum 0 1)) _ 2 _ (-1) _ 1
      (fun _ => o1) (fun _ => o1) (fun _ _ => @Quat K f_one f_zero f_zero f_zero)
      (fun _ => @Quat Znum 1 1 1 1) (fun _ => @Quat Znum 1 1 1 1) (fun _ _ => @Quat Znum 1 0 0 0)); try lia; auto.
    - right. intros r. discriminate.
    - intros i Hi. assert (i = 0) as -> by lia. reflexivity.
    - intros i Hi. assert (i = 0) as -> by lia. reflexivity.
    - intros i j Hi Hj. assert (i = 0) as -> by lia. assert (j = 0) as -> by lia. reflexivity.
    - split; auto.
    - intros i j _ _. split; [repeat split; auto; try apply I0; apply I1|]. split; vm_compute; discriminate. }
  intros a' [_ R]. destruct (R 0 0 ltac:(lia) ltac:(lia)) as (q & E & Hq). exists q. split; [exact E|]. exact Hq.
Qed.
