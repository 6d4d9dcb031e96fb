(** C44 (real matrices) and C64 (GEMV, GERU, GERC): the other public entry points of MDispatch.v. *)
From Coq Require Import ZArith Bool Ascii List Lia.
From Verif Require Import Num Res ResFacts Spec MQuat MSimd MForL2 MForL3 MGenL2 MDispatch PropsL1 PropsL2.
Import ListNotations.
Local Open Scope Z_scope.
Theorem C64_gemv_dd_public : forall (K : num), laws K -> forall (alpha beta : K) c o m n (a : arr (quat K)) lda x incx y incy A v w,
  trans_char c = Some o -> 0 < m -> 0 < n -> incx <> 0 -> incy <> 0 ->
  holds_mat a lda m n A -> holds_vec x (op_cols o m n) incx v -> holds_vec y (op_rows o m n) incy w ->
  returns (HBLAS_GEMV c m n (SR alpha) a lda x incx (SR beta) y incy) (fun y' =>
    holds_vec y' (op_rows o m n) incy (gemv_elt o (op_cols o m n) (Hre alpha) A v (Hre beta) w) /\
    same_but_vec y y' (op_rows o m n) incy).
Proof. exact C23_gemv_dd. Qed.
Print Assumptions C64_gemv_dd_public.
(** missing: the calls refuted in C23 *)
Theorem C64_gemv_public_partial : forall (K : num), laws K -> forall alpha beta c o m n (a : arr (quat K)) lda x incx y incy A v w,
  trans_char c = Some o -> 0 < m -> 0 < n -> incx <> 0 -> incy <> 0 ->
  (m = n \/ c = "C"%char \/ (emb beta = H1 /\ 0 < incx /\ 0 < incy)) ->
  (incy = 1 \/ emb beta = H0 \/ emb beta = H1 \/ ~ exists r q, alpha = SR r /\ beta = SH q) ->
  (incy = 1 \/ c <> "N"%char \/ ~ exists q, alpha = SH q) ->
  holds_mat a lda m n A -> holds_vec x (op_cols o m n) incx v -> holds_vec y (op_rows o m n) incy w ->
  returns (HBLAS_GEMV c m n alpha a lda x incx beta y incy) (fun y' =>
    holds_vec y' (op_rows o m n) incy (gemv_elt o (op_cols o m n) (emb alpha) A v (emb beta) w) /\
    same_but_vec y y' (op_rows o m n) incy).
Proof. exact C23_gemv_partial. Qed.
Print Assumptions C64_gemv_public_partial.
Theorem C44_gemv_real_public : forall (K : num), laws K -> forall c o m n (alpha : K) (a : arr K) lda (x : arr (quat K)) incx beta y incy A v w,
  trans_char c = Some o -> 0 < m -> 0 < n -> 0 < incx -> 0 < incy ->
  holds_mat a lda m n A -> holds_vec x (op_cols o m n) incx v -> holds_vec y (op_rows o m n) incy w ->
  returns (HBLAS_GEMV_real c m n alpha a lda x incx beta y incy) (fun y' =>
    holds_vec y' (op_rows o m n) incy (gemv_elt o (op_cols o m n) (Hre alpha) (fun i j => Hre (A i j)) v (Hre beta) w) /\
    same_but_vec y y' (op_rows o m n) incy).
Proof. intros K L. exact (C24_gemv_real K L q_mul_avx (or_intror eq_refl)). Qed.
Print Assumptions C44_gemv_real_public.
Theorem C64_ger_public : forall (K : num), laws K -> forall m n alpha (x : arr (quat K)) incx y incy a lda v w A,
  0 <= m -> 0 <= n -> incx <> 0 -> incy <> 0 -> m <= lda -> (forall r, alpha <> SR r) ->
  holds_vec x m incx v -> holds_vec y n incy w -> holds_mat a lda m n A ->
  returns (HBLAS_GERU m n alpha x incx y incy a lda) (fun a' => holds_mat a' lda m n (geru_elt (emb alpha) v w A) /\ same_but_mat a a' lda m n) /\
  returns (HBLAS_GERC m n alpha x incx y incy a lda) (fun a' => holds_mat a' lda m n (gerc_elt (emb alpha) v w A) /\ same_but_mat a a' lda m n).
Proof.
  intros K L m n al x incx y incy a lda v w A H1 H2 H3 H4 H5 H6 Hx Hy HA.
  exact (conj (C25_geru_zh K L m n al x incx y incy a lda v w A H1 H2 H3 H4 H5 H6 Hx Hy HA) (C26_gerc_zh K L m n al x incx y incy a lda v w A H1 H2 H3 H4 H5 H6 Hx Hy HA)).
Qed.
Print Assumptions C64_ger_public.
(** missing: INCX <> 1 (C25_ger_d_strided_refuted) *)
Theorem C64_ger_d_public_partial : forall (K : num), laws K -> forall m n (alpha : K) (x : arr (quat K)) y incy a lda v w A,
  0 <= m -> 0 <= n -> incy <> 0 -> m <= lda ->
  holds_vec x m 1 v -> holds_vec y n incy w -> holds_mat a lda m n A ->
  returns (HBLAS_GERU m n (SR alpha) x 1 y incy a lda) (fun a' => holds_mat a' lda m n (geru_elt (Hre alpha) v w A) /\ same_but_mat a a' lda m n) /\
  returns (HBLAS_GERC m n (SR alpha) x 1 y incy a lda) (fun a' => holds_mat a' lda m n (gerc_elt (Hre alpha) v w A) /\ same_but_mat a a' lda m n).
Proof.
  intros K L m n al x y incy a lda v w A H1 H2 H3 H4 Hx Hy HA.
  exact (conj (C25_geru_d_partial K L m n al x y incy a lda v w A H1 H2 H3 H4 Hx Hy HA) (C26_gerc_d_partial K L m n al x y incy a lda v w A H1 H2 H3 H4 Hx Hy HA)).
Qed.
Print Assumptions C64_ger_d_public_partial.
Theorem C44_gemm_real_public : forall (K : num), laws K ->
  forall ca cb oa ob m n k (alpha : K) (a : arr K) lda (b : arr (quat K)) ldb beta c ldc A B w,
  trans_char ca = Some oa -> trans_char cb = Some ob -> 0 <= m -> 0 <= n -> 0 <= k -> m <= ldc ->
  holds_mat a lda (op_rows oa m k) (op_cols oa m k) A -> holds_mat b ldb (op_rows ob k n) (op_cols ob k n) B ->
  holds_mat c ldc m n w ->
  returns (HBLAS_GEMM_real ca cb m n k alpha a lda b ldb beta c ldc) (fun c' =>
    holds_mat c' ldc m n (gemm_elt oa ob k (Hre alpha) (fun i j => Hre (A i j)) B (Hre beta) w) /\ same_but_mat c c' ldc m n).
Proof. intros K L. exact (C28_gemm_real K L q_mul_avx (or_intror eq_refl)). Qed.
Print Assumptions C44_gemm_real_public.
Example C44_concrete_public :
  match HBLAS_GERC 1 2 (SH (zq 0 0 1 0)) (vZ [1;7]) 2 (vZ [1;2]) 1 (vZ [0;0]) 1 with
  | Ok a' => map a' [0;1] = map Some [zq 0 0 2 0; zq 0 0 4 0] | _ => False end /\
  match HBLAS_GEMV_real (K := Znum) "T" 2 1 2 (arr_list [3; 4]) 2 (vZ [1;0;5]) 2 0 (vZ [7]) 1 with
  | Ok y' => y' 0 = Some (zq 46 0 0 (-46)) | _ => False end.
Proof. split; vm_compute; reflexivity. Qed.
