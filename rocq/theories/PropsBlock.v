(** Property theorems C46 (locality of GEMM) and C47 (blocking by the caller).  [stored], [op_offset], [shifted]: SpecBlock.v.
    [good_env]: the pack buffers are 32-byte aligned. *)
From Coq Require Import ZArith Lia Bool Ascii List.
From Verif Require Import Num NumR Res ResFacts Spec SpecBlock SpecFacts MQuat MSimd MOptL1 MForL3 MPack MOptGemm MDispatch F64 BlockFacts OptGemmTop PropsApi.
Import ListNotations.
Local Open Scope Z_scope.

(** ** C46: no law of arithmetic is assumed, so this is bit for bit in floating point (NaN, signed zeros and all) *)
Theorem C46_gemm_local : forall (K : num) (e e' : genv K) ca cb oa ob k alpha beta
  m n (a : arr (quat K)) lda (b : arr (quat K)) ldb (c : arr (quat K)) ldc A B w
  m' n' (a' : arr (quat K)) lda' (b' : arr (quat K)) ldb' (c' : arr (quat K)) ldc' A' B' w' i j i' j',
  good_env e -> good_env e' -> trans_char ca = Some oa -> trans_char cb = Some ob -> 0 <= k -> m <= ldc -> m' <= ldc' ->
  holds_mat a lda (op_rows oa m k) (op_cols oa m k) A -> holds_mat b ldb (op_rows ob k n) (op_cols ob k n) B -> holds_mat c ldc m n w ->
  holds_mat a' lda' (op_rows oa m' k) (op_cols oa m' k) A' -> holds_mat b' ldb' (op_rows ob k n') (op_cols ob k n') B' -> holds_mat c' ldc' m' n' w' ->
  0 <= i < m -> 0 <= j < n -> 0 <= i' < m' -> 0 <= j' < n' ->
  (forall l, 0 <= l < k -> stored oa A i l = stored oa A' i' l) ->
  (forall l, 0 <= l < k -> stored ob B l j = stored ob B' l j') -> w i j = w' i' j' ->
  returns (HBLAS_GEMM e ca cb m n k alpha a lda b ldb beta c ldc) (fun r =>
  returns (HBLAS_GEMM e' ca cb m' n' k alpha a' lda' b' ldb' beta c' ldc') (fun r' =>
    exists q, r (i + j * ldc) = Some q /\ r' (i' + j' * ldc') = Some q)).
Proof. exact @gemm_local. Qed.
Print Assumptions C46_gemm_local.
(** in particular a NaN in another row of A or another column of B cannot reach C(i,j): the 2 x 1 product with a NaN in row 1
    has in row 0 what the 1 x 1 product has *)
Example C46_concrete : forall fused,
  let q1 := @Quat (F64 fused) f_one f_zero f_zero f_zero in let qn := @Quat (F64 fused) f_nan f_nan f_nan f_nan in
  let e := GEnv (K := F64 fused) 32 64 (fun _ => qn) (fun _ => qn) 8 in
  returns (HBLAS_GEMM e "N" "N" 2 1 1 (SR (f_one : F64 fused)) (arr_list [q1; qn]) 2 (arr_list [q1]) 1 (SR (f_one : F64 fused)) (arr_list [q1; q1]) 2) (fun r =>
  returns (HBLAS_GEMM e "N" "N" 1 1 1 (SR (f_one : F64 fused)) (arr_list [q1]) 1 (arr_list [q1]) 1 (SR (f_one : F64 fused)) (arr_list [q1]) 1) (fun r' =>
    exists q, r 0 = Some q /\ r' 0 = Some q)).
Proof.
  intros fused q1 qn e.
  apply (C46_gemm_local (F64 fused) e e "N" "N" OpN OpN 1 (SR (f_one : F64 fused)) (SR (f_one : F64 fused))
    2 1 (arr_list [q1; qn]) 2 (arr_list [q1]) 1 (arr_list [q1; q1]) 2 (fun i _ => if i =? 0 then q1 else qn) (fun _ _ => q1) (fun _ _ => q1)
    1 1 (arr_list [q1]) 1 (arr_list [q1]) 1 (arr_list [q1]) 1 (fun _ _ => q1) (fun _ _ => q1) (fun _ _ => q1) 0 0 0 0);
  try lia; try reflexivity; try (split; reflexivity).
  all: cbn [op_rows op_cols]; intros i j Hi Hj; assert (j = 0) as -> by lia; try (assert (i = 0 \/ i = 1) as [-> | ->] by lia; reflexivity);
    assert (i = 0) as -> by lia; reflexivity.
Qed.

(** ** C47: a caller may cut C into column or row blocks, or the inner dimension into two accumulating calls *)
Theorem C47_split_columns : forall (K : num) (e e1 e2 : genv K) ca cb oa ob k alpha beta,
  good_env e -> good_env e1 -> good_env e2 -> trans_char ca = Some oa -> trans_char cb = Some ob -> 0 <= k ->
  forall m n1 n2 (a : arr (quat K)) lda (b : arr (quat K)) ldb (c : arr (quat K)) ldc A B w, 0 <= m -> 0 <= n1 -> 0 <= n2 -> m <= ldc ->
  holds_mat a lda (op_rows oa m k) (op_cols oa m k) A -> holds_mat b ldb (op_rows ob k (n1 + n2)) (op_cols ob k (n1 + n2)) B -> holds_mat c ldc m (n1 + n2) w ->
  returns (HBLAS_GEMM e ca cb m (n1 + n2) k alpha a lda b ldb beta c ldc) (fun r =>
  returns (HBLAS_GEMM e1 ca cb m n1 k alpha a lda b ldb beta c ldc) (fun c1 =>
  returns (HBLAS_GEMM e2 ca cb m n2 k alpha a lda (shifted b (op_offset ob ldb 0 n1)) ldb beta (shifted c1 (n1 * ldc)) ldc) (fun c2 =>
    forall p, c2 (p - n1 * ldc) = r p))).
Proof. exact @gemm_split_cols. Qed.
Print Assumptions C47_split_columns.
Theorem C47_split_rows : forall (K : num) (e e1 e2 : genv K) ca cb oa ob k alpha beta,
  good_env e -> good_env e1 -> good_env e2 -> trans_char ca = Some oa -> trans_char cb = Some ob -> 0 <= k ->
  forall m1 m2 n (a : arr (quat K)) lda (b : arr (quat K)) ldb (c : arr (quat K)) ldc A B w, 0 <= m1 -> 0 <= m2 -> 0 <= n -> m1 + m2 <= ldc ->
  holds_mat a lda (op_rows oa (m1 + m2) k) (op_cols oa (m1 + m2) k) A -> holds_mat b ldb (op_rows ob k n) (op_cols ob k n) B -> holds_mat c ldc (m1 + m2) n w ->
  returns (HBLAS_GEMM e ca cb (m1 + m2) n k alpha a lda b ldb beta c ldc) (fun r =>
  returns (HBLAS_GEMM e1 ca cb m1 n k alpha a lda b ldb beta c ldc) (fun c1 =>
  returns (HBLAS_GEMM e2 ca cb m2 n k alpha (shifted a (op_offset oa lda m1 0)) lda b ldb beta (shifted c1 m1) ldc) (fun c2 =>
    forall p, c2 (p - m1) = r p))).
Proof. exact @gemm_split_rows. Qed.
Print Assumptions C47_split_rows.
(** inner dimension, IEEE double precision, real or complex ALPHA and BETA: bit for bit the same *)
Theorem C47_split_inner_double : forall fused (e e1 e2 : genv (F64 fused)) ca cb oa ob alpha beta,
  good_env e -> good_env e1 -> good_env e2 -> trans_char ca = Some oa -> trans_char cb = Some ob ->
  forall m n k1 k2 (a : arr (quat (F64 fused))) lda (b : arr (quat (F64 fused))) ldb (c : arr (quat (F64 fused))) ldc A B w,
  (forall h, alpha <> SH h) -> (forall h, beta <> SH h) -> 0 <= m -> 0 <= n -> 0 <= k1 -> 0 <= k2 -> m <= ldc ->
  holds_mat a lda (op_rows oa m (k1 + k2)) (op_cols oa m (k1 + k2)) A -> holds_mat b ldb (op_rows ob (k1 + k2) n) (op_cols ob (k1 + k2) n) B -> holds_mat c ldc m n w ->
  returns (HBLAS_GEMM e ca cb m n (k1 + k2) alpha a lda b ldb beta c ldc) (fun r =>
  returns (HBLAS_GEMM e1 ca cb m n k1 alpha a lda b ldb beta c ldc) (fun c1 =>
  returns (HBLAS_GEMM e2 ca cb m n k2 alpha (shifted a (op_offset oa lda 0 k1)) lda (shifted b (op_offset ob ldb k1 0)) ldb (SR (n1 : F64 fused)) c1 ldc) (fun c2 =>
    forall p, c2 p = r p))).
Proof. intros fused e e1 e2 ca cb oa ob alpha beta G G1 G2 Ca Cb m n k1 k2. exact (gemm_split_k e e1 e2 ca cb oa ob alpha beta G G1 G2 Ca Cb fmul_1_l m n k1 k2). Qed.
Print Assumptions C47_split_inner_double.
(** inner dimension, exact arithmetic, every pair of scalar types *)
Theorem C47_split_inner : forall (K : num), laws K -> forall (e e1 e2 : genv K) ca cb oa ob alpha beta,
  good_env e -> good_env e1 -> good_env e2 -> trans_char ca = Some oa -> trans_char cb = Some ob ->
  forall m n k1 k2 (a : arr (quat K)) lda (b : arr (quat K)) ldb (c : arr (quat K)) ldc A B w,
  0 <= m -> 0 <= n -> 0 <= k1 -> 0 <= k2 -> m <= ldc ->
  holds_mat a lda (op_rows oa m (k1 + k2)) (op_cols oa m (k1 + k2)) A -> holds_mat b ldb (op_rows ob (k1 + k2) n) (op_cols ob (k1 + k2) n) B -> holds_mat c ldc m n w ->
  returns (HBLAS_GEMM e ca cb m n (k1 + k2) alpha a lda b ldb beta c ldc) (fun r =>
  returns (HBLAS_GEMM e1 ca cb m n k1 alpha a lda b ldb beta c ldc) (fun c1 =>
  returns (HBLAS_GEMM e2 ca cb m n k2 alpha (shifted a (op_offset oa lda 0 k1)) lda (shifted b (op_offset ob ldb k1 0)) ldb (SR (n1 : K)) c1 ldc) (fun c2 =>
    forall p, c2 p = r p))).
Proof.
  intros K L e e1 e2 ca cb oa ob alpha beta G G1 G2 Ca Cb m n k1 k2 a lda b ldb c ldc A B w Hm Hn Hk1 Hk2 Hld Ha Hb Hc.
  eapply returns_mono; [apply (C44_gemm_public K L e G ca cb oa ob m n (k1 + k2) alpha a lda b ldb beta c ldc A B w); auto; lia|]. intros r [R SR].
  eapply returns_mono; [apply (C44_gemm_public K L e1 G1 ca cb oa ob m n k1 alpha a lda b ldb beta c ldc A B w); auto|].
  { intros i j Hi Hj. apply Ha; destruct oa; cbn [op_rows op_cols] in *; lia. }
  { intros i j Hi Hj. apply Hb; destruct ob; cbn [op_rows op_cols] in *; lia. }
  intros c1 [R1 S1].
  pose (A2 := fun r s => match oa with OpN | OpR => A (0 + r) (k1 + s) | OpT | OpC => A (k1 + r) (0 + s) end).
  pose (B2 := fun r s => match ob with OpN | OpR => B (k1 + r) (0 + s) | OpT | OpC => B (0 + r) (k1 + s) end).
  eapply returns_mono.
  { apply (C44_gemm_public K L e2 G2 ca cb oa ob m n k2 alpha (shifted a (op_offset oa lda 0 k1)) lda (shifted b (op_offset ob ldb k1 0)) ldb (Num.SR n1) c1 ldc
      A2 B2 (gemm_elt oa ob k1 (emb alpha) A B (emb beta) w)); auto.
    - intros i j Hi Hj. unfold shifted, A2. destruct oa; cbn [op_rows op_cols op_offset] in *; rewrite <- Ha by lia; f_equal; lia.
    - intros i j Hi Hj. unfold shifted, B2. destruct ob; cbn [op_rows op_cols op_offset] in *; rewrite <- Hb by lia; f_equal; lia. }
  intros c2 [R2 S2] p.
  destruct (window_dec ldc m n p) as [(i & j & Hi & Hj & ->)|Hp]; auto.
  - rewrite R, R2 by lia. f_equal. unfold gemm_elt. cbn [emb]. rewrite Hre_1, (Hmul_1_l L), (Hsum_split L), (Hmul_add_l L), (Hadd_assoc L) by lia.
    f_equal. rewrite (Hadd_comm L). f_equal. f_equal. apply Hsum_ext. intros l Hl. unfold A2, B2. destruct oa, ob; cbn [opm]; reflexivity.
  - rewrite SR, S2, S1; auto.
Qed.
Print Assumptions C47_split_inner.
(** the hypotheses are met: a 1 x 2 times 2 x 2 product, transposed A, cut each way *)
Example C47_concrete :
  let e := GEnv (K := Znum) 32 64 (fun _ => zq 7 7 7 7) (fun _ => zq 8 8 8 8) 0 in
  let a := arr_list [zq 1 0 0 1; zq 2 0 3 0] in let b := arr_list [zq 0 1 0 0; zq 0 0 1 0; zq 1 2 3 4; zq 5 6 7 8] in let c := arr_list [zq 5 0 0 0; zq 6 0 0 0] in
  let al := SC (zc 1 2) in let be := SR (3 : Znum) in
  match HBLAS_GEMM e "T" "N" 1 2 2 al a 2 b 2 be c 1, HBLAS_GEMM e "T" "N" 1 1 2 al a 2 b 2 be c 1, HBLAS_GEMM e "T" "N" 1 2 1 al a 2 b 2 be c 1 with
  | Ok r, Ok c1, Ok d1 =>
     match HBLAS_GEMM e "T" "N" 1 1 2 al a 2 (shifted b (op_offset OpN 2 0 1)) 2 be (shifted c1 1) 1,
           HBLAS_GEMM e "T" "N" 1 2 1 al (shifted a (op_offset OpT 2 0 1)) 2 (shifted b (op_offset OpN 2 1 0)) 2 (SR (1 : Znum)) d1 1 with
     | Ok c2, Ok d2 => c2 (-1) = r 0 /\ c2 0 = r 1 /\ d2 0 = r 0 /\ d2 1 = r 1 /\ r 0 = Some (zq 10 (-5) 3 6)
     | _, _ => False end
  | _, _, _ => False end.
Proof. vm_compute. repeat split. Qed.
