(** C38: 32-bit index arithmetic.  MInt32.v repeats the kernels with every HAXX_INT (int32_t) product, sum and increment
    made explicit: outside [-2^31, 2^31) the outcome is UB. *)
From Coq Require Import ZArith Bool Ascii List Lia.
From Verif Require Import Num NumR Res ResFacts Spec MQuat MSimd MOptL1 MGenL2 MOptGemm MInt32 Int32Facts OptGemmTop PropsL1 PropsL2 PropsL3.
Import ListNotations.
Local Open Scope Z_scope.

(** ** What is guaranteed *)
(** real-matrix GEMM: fine while the column offsets (n-1)*ld of the three matrices are below 2^31 *)
Theorem C38_gemm_real_partial : forall (K : num), laws K -> forall qmul, cxx_mul qmul ->
  forall ca cb oa ob m n k (alpha : K) (a : arr K) lda (b : arr (quat K)) ldb beta c ldc A B w,
  trans_char ca = Some oa -> trans_char cb = Some ob -> 0 <= m -> 0 <= n -> 0 <= k -> m <= ldc ->
  0 <= lda -> 0 <= ldb -> (n - 1) * ldc < 2 ^ 31 ->
  (op_cols oa m k - 1) * lda < 2 ^ 31 -> (op_cols ob k n - 1) * ldb < 2 ^ 31 ->
  holds_mat a lda (op_rows oa m k) (op_cols oa m k) A -> holds_mat b ldb (op_rows ob k n) (op_cols ob k n) B ->
  holds_mat c ldc m n w ->
  returns (gemm_real32 qmul ca cb m n k alpha a lda b ldb beta c ldc) (fun c' =>
    holds_mat c' ldc m n (gemm_elt oa ob k (Hre alpha) (fun i j => Hre (A i j)) B (Hre beta) w) /\ same_but_mat c c' ldc m n).
Proof.
  intros K L qmul Hq ca cb oa ob m n k al a lda b ldb be c ldc A B w Ca Cb Hm Hn Hk Hld LA LB BC BA BB HA HB HC.
  unfold gemm_real32. rewrite gemm_gen32_eq; try lia.
  - exact (C28_gemm_real K L qmul Hq ca cb oa ob m n k al a lda b ldb be c ldc A B w Ca Cb Hm Hn Hk Hld HA HB HC).
  - destruct (Ascii.eqb_spec ca "N"); [subst; cbn in Ca; inversion Ca; subst; exact BA|].
    unfold trans_char in Ca. destruct (Ascii.eqb_spec ca "N"); [contradiction|].
    destruct (Ascii.eqb ca "T"); [|destruct (Ascii.eqb ca "C")]; inversion Ca; subst; exact BA.
  - destruct (Ascii.eqb_spec cb "N"); [subst; cbn in Cb; inversion Cb; subst; exact BB|].
    unfold trans_char in Cb. destruct (Ascii.eqb_spec cb "N"); [contradiction|].
    destruct (Ascii.eqb cb "T"); [|destruct (Ascii.eqb cb "C")]; inversion Cb; subst; exact BB.
Qed.
Print Assumptions C38_gemm_real_partial.
(** real-matrix GEMV *)
Theorem C38_gemv_real_partial : forall (K : num), laws K -> forall qmul, cxx_mul qmul ->
  forall c o m n (alpha : K) (a : arr K) lda (x : arr (quat K)) incx beta y incy A v w,
  trans_char c = Some o -> 0 < m -> 0 < n -> 0 < incx -> 0 < incy -> 0 <= lda ->
  (m - 1) + (n - 1) * lda < 2 ^ 31 -> op_cols o m n * incx < 2 ^ 31 -> op_rows o m n * incy < 2 ^ 31 ->
  holds_mat a lda m n A -> holds_vec x (op_cols o m n) incx v -> holds_vec y (op_rows o m n) incy w ->
  returns (gemv_real32 qmul c m n alpha a lda x incx beta y incy) (fun y' =>
    holds_vec y' (op_rows o m n) incy (gemv_elt o (op_cols o m n) (Hre alpha) (fun i j => Hre (A i j)) v (Hre beta) w) /\
    same_but_vec y y' (op_rows o m n) incy).
Proof.
  intros K L qmul Hq c o m n al a lda x incx be y incy A v w Hc Hm Hn Hix Hiy LA BA BX BY HA HX HY.
  unfold gemv_real32. rewrite gemv_gen32_eq; try lia.
  - exact (C24_gemv_real K L qmul Hq c o m n al a lda x incx be y incy A v w Hc Hm Hn Hix Hiy HA HX HY).
  - destruct (Ascii.eqb_spec c "N"); [subst; cbn in Hc; inversion Hc; subst; exact BX|].
    unfold trans_char in Hc. destruct (Ascii.eqb_spec c "N"); [contradiction|].
    destruct (Ascii.eqb c "T"); [|destruct (Ascii.eqb c "C")]; inversion Hc; subst; exact BX.
  - destruct (Ascii.eqb_spec c "N"); [subst; cbn in Hc; inversion Hc; subst; exact BY|].
    unfold trans_char in Hc. destruct (Ascii.eqb_spec c "N"); [contradiction|].
    destruct (Ascii.eqb c "T"); [|destruct (Ascii.eqb c "C")]; inversion Hc; subst; exact BY.
Qed.
Print Assumptions C38_gemv_real_partial.
(** optimised GEMM with the shipped blocking: the offsets are computed block by block, so only the leading dimensions
    (below 2^22) and the sizes (at most 2^31 - 512) are limited, not the number of elements of A, B, C *)
Theorem C38_gemm_opt_default_partial : forall (K : num), laws K ->
  forall aa ba ga gb ca cb oa ob m n k alpha (a : arr (quat K)) lda (b : arr (quat K)) ldb beta cadr (c : arr (quat K)) ldc A B w,
  aa mod 32 = 0 -> ba mod 32 = 0 ->
  trans_char_r ca = Some oa -> trans_char_r cb = Some ob -> 0 <= m -> 0 <= n -> 0 <= k -> m <= ldc ->
  m <= 2 ^ 31 - 512 -> n <= 2 ^ 31 - 512 -> k <= 2 ^ 31 - 512 -> 0 <= lda < 2 ^ 22 -> 0 <= ldb < 2 ^ 22 -> ldc < 2 ^ 22 ->
  holds_mat a lda (op_rows oa m k) (op_cols oa m k) A -> holds_mat b ldb (op_rows ob k n) (op_cols ob k n) B ->
  holds_mat c ldc m n w ->
  returns (gemm_opt32 64 512 64 aa ba ga gb ca cb m n k alpha a lda b ldb beta cadr c ldc) (fun c' =>
    holds_mat c' ldc m n (gemm_elt oa ob k (emb alpha) A B (emb beta) w) /\ same_but_mat c c' ldc m n).
Proof.
  intros. rewrite gemm_opt32_eq; try lia. apply C29_gemm_opt_default; auto.
Qed.
Print Assumptions C38_gemm_opt_default_partial.
(** any blocking *)
Theorem C38_gemm_opt_partial : forall (K : num), laws K ->
  forall mc nc kc aa ba ga gb ca cb oa ob m n k alpha (a : arr (quat K)) lda (b : arr (quat K)) ldb beta cadr (c : arr (quat K)) ldc A B w,
  0 < mc -> Z.even mc = true -> 0 < nc -> Z.even nc = true -> 0 < kc -> aa mod 32 = 0 -> ba mod 32 = 0 ->
  trans_char_r ca = Some oa -> trans_char_r cb = Some ob -> 0 <= m -> 0 <= n -> 0 <= k -> m <= ldc ->
  m + mc <= 2 ^ 31 -> n + nc <= 2 ^ 31 -> k + kc <= 2 ^ 31 -> mc < 2 ^ 31 -> nc < 2 ^ 31 -> 2 * kc < 2 ^ 31 ->
  0 <= lda -> 0 <= ldb -> Z.max mc kc * lda < 2 ^ 31 -> Z.max nc kc * ldb < 2 ^ 31 -> nc * ldc < 2 ^ 31 ->
  holds_mat a lda (op_rows oa m k) (op_cols oa m k) A -> holds_mat b ldb (op_rows ob k n) (op_cols ob k n) B ->
  holds_mat c ldc m n w ->
  returns (gemm_opt32 mc nc kc aa ba ga gb ca cb m n k alpha a lda b ldb beta cadr c ldc) (fun c' =>
    holds_mat c' ldc m n (gemm_elt oa ob k (emb alpha) A B (emb beta) w) /\ same_but_mat c c' ldc m n).
Proof.
  intros K L mc nc kc aa ba ga gb ca cb oa ob m n k alpha a lda b ldb beta cadr c ldc A B w
    Pm Em Pn En Pk Aa Ab Ca Cb Hm Hn Hk Hld BM BN BK BMC BNC BKC LA LB BA BB BC HA HB HC.
  apply Z.even_spec in Em as Em'. apply Z.even_spec in En as En'. destruct Em' as [mc2 ?], En' as [nc2 ?].
  assert (X1 : mc * lda <= Z.max mc kc * lda) by (apply Z.mul_le_mono_nonneg_r; lia).
  assert (X2 : kc * lda <= Z.max mc kc * lda) by (apply Z.mul_le_mono_nonneg_r; lia).
  assert (X3 : kc * ldb <= Z.max nc kc * ldb) by (apply Z.mul_le_mono_nonneg_r; lia).
  assert (X4 : nc * ldb <= Z.max nc kc * ldb) by (apply Z.mul_le_mono_nonneg_r; lia).
  assert (X5 : 2 * ldc <= nc * ldc) by (apply Z.mul_le_mono_nonneg_r; lia).
  rewrite gemm_opt32_eq by lia.
  apply C29_gemm_opt; auto.
Qed.
Print Assumptions C38_gemm_opt_partial.
(** optimised dot products: four times the stride must be representable, nothing else *)
Theorem C38_dotuv_opt_partial : forall (K : num), laws K -> forall n xa (x : arr (quat K)) incx ya y incy v w,
  0 < incx -> 0 < incy -> 4 * incx < 2 ^ 31 -> 4 * incy < 2 ^ 31 -> holds_vec x n incx v -> holds_vec y n incy w ->
  dot_opt32 false n xa x incx ya y incy = Ok (Hsum n (fun i => Hmul (v i) (w i))).
Proof. intros. rewrite dot_opt32_eq by lia. apply C16_dotuv_opt; auto. Qed.
Print Assumptions C38_dotuv_opt_partial.
Theorem C38_dotcv_opt_partial : forall (K : num), laws K -> forall n xa (x : arr (quat K)) incx ya y incy v w,
  0 < incx -> 0 < incy -> 4 * incx < 2 ^ 31 -> 4 * incy < 2 ^ 31 -> holds_vec x n incx v -> holds_vec y n incy w ->
  dot_opt32 true n xa x incx ya y incy = Ok (Hsum n (fun i => Hmul (Hconj (v i)) (w i))).
Proof. intros. rewrite dot_opt32_eq by lia. apply C17_dotcv_opt; auto. Qed.
Print Assumptions C38_dotcv_opt_partial.
(** the hypotheses can be met by a product whose result has more than 2^31 elements: a 1 x 1000 block of a C with leading
    dimension 4000000, run on the first and last columns *)
Definition ex38_run : res (arr (quat Znum)) :=
  gemm_opt32 64 512 64 0 0 (fun _ => zq 7 7 7 7) (fun _ => zq 7 7 7 7) "N" "N" 1 1000 1 (SR (2 : Znum))
    (arr_list [zq 0 1 0 0]) 1 (fun _ => Some (zq 3 0 1 0)) 1 (SR (1 : Znum)) 0 (fun p => Some (zq p 0 0 0)) 4000000.
Example C38_concrete :
  (1000 - 1) * 4000000 > 2 ^ 31 /\ 4000000 < 2 ^ 22 /\ 1000 <= 2 ^ 31 - 512 /\
  returns ex38_run (fun c' => c' (999 * 4000000) = Some (zq (999 * 4000000) 6 0 2) /\ c' 1 = Some (zq 1 0 0 0)).
Proof. vm_compute. repeat split. all: discriminate. Qed.

(** ** Where the property fails *)
(** optimised GEMM: once the first NC panel of C spans 2^31 elements the pointer increment nJ*LDC overflows - even when it is
    the last panel and the incremented pointer is never used *)
Theorem C38_gemm_opt_overflow : forall (K : num) mc nc kc aa ba ga gb ca cb m n k alpha (a : arr (quat K)) lda b ldb beta cadr c ldc c',
  0 < nc -> 0 < n -> 2 ^ 31 <= Z.min n nc * ldc ->
  gemm_opt32 mc nc kc aa ba ga gb ca cb m n k alpha a lda b ldb beta cadr c ldc <> Ok c'.
Proof. exact @gemm_opt32_overflow. Qed.
Print Assumptions C38_gemm_opt_overflow.
Theorem C38_gemm_opt_refuted : exists m n k lda ldb ldc (a b c : arr (quat Znum)) A B w,
  0 <= m < 2 ^ 31 /\ 0 <= n < 2 ^ 31 /\ 0 <= k < 2 ^ 31 /\ 0 < lda < 2 ^ 31 /\ 0 < ldb < 2 ^ 31 /\ m <= ldc < 2 ^ 31 /\
  (n - 1) * ldc + m <= 2 ^ 31 /\
  holds_mat a lda m k A /\ holds_mat b ldb k n B /\ holds_mat c ldc m n w /\
  forall c', gemm_opt32 64 512 64 0 0 (fun _ => H0) (fun _ => H0) "N" "N" m n k (SR (1 : Znum)) a lda b ldb (SR (1 : Znum)) 0 c ldc <> Ok c'.
Proof.
  exists 1, 512, 1, 1, 1, (2 ^ 22), (fun _ => Some H0), (fun _ => Some H0), (fun _ => Some H0), (fun _ _ => H0), (fun _ _ => H0), (fun _ _ => H0).
  repeat match goal with |- _ /\ _ => split end; try lia; try (intros i j _ _; reflexivity).
  intros c'. apply gemm_opt32_overflow; lia.
Qed.
Print Assumptions C38_gemm_opt_refuted.
(** real-matrix GEMM: never returns when (N-1)*LDC is not representable, although C has that many elements *)
Theorem C38_gemm_real_overflow : forall (K : num) qmul ca cb m n k (alpha : K) (a : arr K) lda (b : arr (quat K)) ldb (beta : K) c ldc c',
  m <> 0 -> 0 < n -> 2 ^ 31 <= (n - 1) * ldc -> (neqb alpha n0 || (k =? 0)) && neqb beta n1 = false ->
  gemm_real32 qmul ca cb m n k alpha a lda b ldb beta c ldc <> Ok c'.
Proof. intros K qmul ca cb m n k al a lda b ldb be c ldc c' Hm Hn Hb Hq. apply gemm_gen32_overflow; auto. Qed.
Print Assumptions C38_gemm_real_overflow.
Theorem C38_gemm_real_refuted : exists m n k lda ldb ldc (a : arr Znum) (b c : arr (quat Znum)) A B w,
  0 <= m < 2 ^ 31 /\ 0 <= n < 2 ^ 31 /\ 0 <= k < 2 ^ 31 /\ 0 < lda < 2 ^ 31 /\ 0 < ldb < 2 ^ 31 /\ m <= ldc < 2 ^ 31 /\
  holds_mat a lda m k A /\ holds_mat b ldb k n B /\ holds_mat c ldc m n w /\
  forall c', gemm_real32 q_mul_avx "N" "N" m n k (1 : Znum) a lda b ldb (1 : Znum) c ldc <> Ok c'.
Proof.
  exists 1, 3, 1, 1, 1, (2 ^ 30), (fun _ => Some 0), (fun _ => Some H0), (fun _ => Some H0), (fun _ _ => 0), (fun _ _ => H0), (fun _ _ => H0).
  repeat match goal with |- _ /\ _ => split end; try lia; try (intros i j _ _; reflexivity).
  intros c'. apply C38_gemm_real_overflow; try lia. reflexivity.
Qed.
Print Assumptions C38_gemm_real_refuted.
(** GEMV: the matrix offset, or the cursor incremented once past the last element *)
Theorem C38_gemv_real_overflow : forall (K : num) qmul c m n (alpha : K) (a : arr K) lda (x : arr (quat K)) incx (beta : K) y incy y',
  0 < m -> 0 < n -> neqb alpha n0 = false ->
  2 ^ 31 <= (n - 1) * lda \/ 2 ^ 31 <= n * (if Ascii.eqb c "N" then incx else incy) ->
  gemv_real32 qmul c m n alpha a lda x incx beta y incy <> Ok y'.
Proof. intros K qmul c m n al a lda x incx be y incy y' Hm Hn Ha Hb. apply gemv_gen32_overflow; auto. Qed.
Print Assumptions C38_gemv_real_overflow.
Theorem C38_gemv_real_refuted : exists m n lda incx incy (a : arr Znum) (x y : arr (quat Znum)) A v w,
  0 < m < 2 ^ 31 /\ 0 < n < 2 ^ 31 /\ m <= lda < 2 ^ 31 /\ 0 < incx < 2 ^ 31 /\ 0 < incy < 2 ^ 31 /\
  (n - 1) * incx < 2 ^ 31 - 1 /\
  holds_mat a lda m n A /\ holds_vec x n incx v /\ holds_vec y m incy w /\
  forall y', gemv_real32 q_mul_avx "N" m n (1 : Znum) a lda x incx (1 : Znum) y incy <> Ok y'.
Proof.
  exists 1, 2, 1, (2 ^ 30), 1, (fun _ => Some 0), (fun _ => Some H0), (fun _ => Some H0), (fun _ _ => 0), (fun _ => H0), (fun _ => H0).
  repeat match goal with |- _ /\ _ => split end; try lia; try (intros i j _ _; reflexivity); try (intros i _; reflexivity).
  intros y'. apply C38_gemv_real_overflow; try lia; try reflexivity. right. cbn. lia.
Qed.
Print Assumptions C38_gemv_real_refuted.
(** dot products: 4*INCX overflows although the last element read is at (N-1)*INCX *)
Theorem C38_dot_overflow : forall (K : num) cnj n xa (x : arr (quat K)) incx ya y incy r,
  4 <= n -> 2 ^ 31 <= 4 * incx \/ 2 ^ 31 <= 4 * incy -> dot_opt32 cnj n xa x incx ya y incy <> Ok r.
Proof. exact @dot_opt32_overflow. Qed.
Print Assumptions C38_dot_overflow.
Theorem C38_dot_refuted : exists n incx incy (x y : arr (quat Znum)) v w,
  0 < n < 2 ^ 31 /\ 0 < incx < 2 ^ 31 /\ 0 < incy < 2 ^ 31 /\ (n - 1) * incx < 2 ^ 31 - 1 /\
  holds_vec x n incx v /\ holds_vec y n incy w /\ forall r, dot_opt32 false n 0 x incx 0 y incy <> Ok r.
Proof.
  exists 4, (2 ^ 29), 1, (fun _ => Some H0), (fun _ => Some H0), (fun _ => H0), (fun _ => H0).
  repeat match goal with |- _ /\ _ => split end; try lia; try (intros i _; reflexivity).
  intros r. apply dot_opt32_overflow; lia.
Qed.
Print Assumptions C38_dot_refuted.
