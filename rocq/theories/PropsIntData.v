(** Property theorems C48: integer-valued double precision data is processed exactly.  [isZ], [qisZ], [sisZ], [Z1], [Zsum],
    [gemm_small], [exact_max] = 2^53: SpecInt.v.  The results are integers computed in Z, so they do not depend on FMA, on the
    summation order of the kernel, or on which kernel runs. *)
From Coq Require Import ZArith Lia Bool Ascii List.
From Flocq Require Import IEEE754.BinarySingleNaN.
From Verif Require Import Num Res Spec MQuat MSimd MOptL1 MDispatch F64 SpecInt IntFacts IntTop.
Import ListNotations.
Local Open Scope Z_scope.

Theorem C48_mul_int : forall fused (p q : quat (F64 fused)) zp zq, qisZ p zp -> qisZ q zq -> Z1 zp * Z1 zq <= exact_max -> qisZ (q_mul_avx p q) (Hmul zp zq).
Proof. exact mul_int. Qed.
Print Assumptions C48_mul_int.
Theorem C48_scalv_int : forall fused s c n (alpha : scal (F64 fused)) al xa (x : arr (quat (F64 fused))) inc v zv,
  side_char c = Some s -> 0 < inc -> holds_vec x n inc v ->
  sisZ alpha al -> (forall i, 0 <= i < n -> qisZ (v i) (zv i) /\ Z1 (emb al) * Z1 (zv i) <= exact_max) ->
  returns (scalv_opt c n alpha xa x inc) (fun x' => same_but_vec x x' n inc /\
    forall i, 0 <= i < n -> exists q, x' (vpos n inc i) = Some q /\ qisZ q (Hside s (emb al) (zv i))).
Proof. exact scalv_int. Qed.
Print Assumptions C48_scalv_int.
Theorem C48_axpyv_int : forall fused s c n (alpha : scal (F64 fused)) al xa (x : arr (quat (F64 fused))) incx ya y incy v w zv zw,
  side_char c = Some s -> 0 < incx -> 0 < incy -> holds_vec x n incx v -> holds_vec y n incy w ->
  sisZ alpha al -> (forall i, 0 <= i < n -> qisZ (v i) (zv i) /\ qisZ (w i) (zw i) /\ Z1 (zw i) + Z1 (emb al) * Z1 (zv i) <= exact_max) ->
  returns (axpyv_opt c n alpha xa x incx ya y incy) (fun y' => same_but_vec y y' n incy /\
    forall i, 0 <= i < n -> exists q, y' (vpos n incy i) = Some q /\ qisZ q (Hadd (zw i) (Hside s (emb al) (zv i)))).
Proof. exact axpyv_int. Qed.
Print Assumptions C48_axpyv_int.
(** DOTUV (cnj = false), DOTCV (cnj = true) *)
Theorem C48_dot_int : forall fused cnj n xa (x : arr (quat (F64 fused))) incx ya y incy (v w : Z -> quat (F64 fused)) zv zw,
  0 <= n -> 0 < incx -> 0 < incy -> holds_vec x n incx v -> holds_vec y n incy w ->
  (forall i, 0 <= i < n -> qisZ (v i) (zv i) /\ qisZ (w i) (zw i)) -> Zsum n (fun i => Z1 (zv i) * Z1 (zw i)) <= exact_max ->
  returns (dot_opt cnj n xa x incx ya y incy) (fun r => qisZ r (Hsum n (fun i => Hmul (if cnj then Hconj (zv i) else zv i) (zw i)))).
Proof. exact dot_int. Qed.
Print Assumptions C48_dot_int.
(** the public GEMM, all nine scalar type combinations (vectorised and Fortran kernels) *)
Theorem C48_gemm_int : forall fused (e : genv (F64 fused)) ca cb oa ob m n k alpha al (a : arr (quat (F64 fused))) lda (b : arr (quat (F64 fused))) ldb beta be (c : arr (quat (F64 fused))) ldc A B w ZA ZB zw,
  good_env e -> trans_char ca = Some oa -> trans_char cb = Some ob -> 0 <= m -> 0 <= n -> 0 <= k -> m <= ldc ->
  holds_mat a lda (op_rows oa m k) (op_cols oa m k) A -> holds_mat b ldb (op_rows ob k n) (op_cols ob k n) B -> holds_mat c ldc m n w ->
  sisZ alpha al -> sisZ beta be ->
  (forall i j, 0 <= i < op_rows oa m k -> 0 <= j < op_cols oa m k -> qisZ (A i j) (ZA i j)) ->
  (forall i j, 0 <= i < op_rows ob k n -> 0 <= j < op_cols ob k n -> qisZ (B i j) (ZB i j)) ->
  (forall i j, 0 <= i < m -> 0 <= j < n -> qisZ (w i j) (zw i j)) ->
  (forall i j, 0 <= i < m -> 0 <= j < n -> gemm_small oa ob k al ZA ZB be zw i j) ->
  returns (HBLAS_GEMM e ca cb m n k alpha a lda b ldb beta c ldc) (fun c' => same_but_mat c c' ldc m n /\
    forall i j, 0 <= i < m -> 0 <= j < n -> exists q, c' (i + j * ldc) = Some q /\ qisZ q (gemm_elt oa ob k (emb al) ZA ZB (emb be) zw i j)).
Proof. exact gemm_int. Qed.
Print Assumptions C48_gemm_int.

(** C := i * A * B + k * C in doubles, 1 x 1, with A = (1,1,1,1), B = (1,1,1,1), C = 1: exactly (-2, -2, -2, 3) *)
Example C48_concrete : forall fused,
  let K := F64 fused in let o1 := @Quat K f_one f_one f_one f_one in
  let e := GEnv (K := K) 32 64 (fun _ => o1) (fun _ => o1) 8 in
  returns (HBLAS_GEMM e "N" "N" 1 1 1 (SC (@Cplx K f_zero f_one)) (arr_list [o1]) 1 (arr_list [o1]) 1
    (SH (@Quat K f_zero f_zero f_zero f_one)) (arr_list [@Quat K f_one f_zero f_zero f_zero]) 1)
  (fun c' => exists q, c' 0 = Some q /\ qisZ q (@Quat Znum (-2) (-2) (-2) 3)).
Proof.
  intros fused K o1 e. pose proof isZ_one as I1. pose proof isZ_zero as I0.
  assert (Q1 : qisZ o1 (@Quat Znum 1 1 1 1)) by (repeat split; apply I1).
  eapply ResFacts.returns_mono.
  { apply (C48_gemm_int fused e "N" "N" OpN OpN 1 1 1 _ (SC (@Cplx Znum 0 1)) _ 1 _ 1 _ (SH (@Quat Znum 0 0 0 1)) _ 1
      (fun _ _ => o1) (fun _ _ => o1) (fun _ _ => @Quat K f_one f_zero f_zero f_zero)
      (fun _ _ => @Quat Znum 1 1 1 1) (fun _ _ => @Quat Znum 1 1 1 1) (fun _ _ => @Quat Znum 1 0 0 0)); try lia; try reflexivity; auto.
    - split; reflexivity.
    - intros i j Hi Hj. cbn [op_rows op_cols] in *. assert (i = 0) as -> by lia. assert (j = 0) as -> by lia. reflexivity.
    - intros i j Hi Hj. cbn [op_rows op_cols] in *. assert (i = 0) as -> by lia. assert (j = 0) as -> by lia. reflexivity.
    - intros i j Hi Hj. assert (i = 0) as -> by lia. assert (j = 0) as -> by lia. reflexivity.
    - split; auto.
    - repeat split; auto; try apply I0; apply I1.
    - intros i j _ _. repeat split; auto; try apply I0; apply I1.
    - intros i j _ _. refine (conj _ (conj _ _)); [intros l _; split|..]; vm_compute; discriminate. }
  intros c' [_ R]. destruct (R 0 0 ltac:(lia) ltac:(lia)) as (q & E & Hq). exists q. split; [exact E|]. exact Hq.
Qed.
