(** Property theorems C41, C42. *)
From Coq Require Import ZArith Bool Ascii List.
From Verif Require Import Num Res Spec MQuat MSimd MOptL1 MGenM MPack MOptGemm OptGemmTop GemmAlt.
Import ListNotations.
Local Open Scope Z_scope.

(** ** C41: the register products of AVXType<double> multiply on the side they are written *)
Theorem C41_scalar_on_left : forall (K : num), laws K -> forall (s : scal K) (q : quat K),
  q_of_v (avx_mul (Some s) (v_of_q q)) = Hmul (emb s) q.
Proof. intros K L s q. rewrite (avx_mul_ok L), SimdFacts.q_of_v_of_q. reflexivity. Qed.
Print Assumptions C41_scalar_on_left.
Theorem C41_scalar_on_right : forall (K : num), laws K -> forall (s : scal K) (q : quat K),
  q_of_v (avx_mul_r (v_of_q q) (Some s)) = Hmul q (emb s).
Proof. intros K L s q. rewrite (avx_mul_r_ok L), SimdFacts.q_of_v_of_q. reflexivity. Qed.
Print Assumptions C41_scalar_on_right.
(** without a scalar the register is passed on unchanged, bit for bit *)
Theorem C41_no_scalar : forall (K : num) (q : quat K),
  q_of_v (avx_mul None (v_of_q q)) = q /\ q_of_v (avx_mul_r (v_of_q q) None) = q.
Proof. intros K []. split; reflexivity. Qed.
Print Assumptions C41_no_scalar.
(** the two sides really differ *)
Example C41_concrete : q_of_v (avx_mul (Some (SC (zc 1 2))) (v_of_q (zq 3 4 5 6))) = zq (-5) 10 (-7) 16 /\
  q_of_v (avx_mul_r (v_of_q (zq 3 4 5 6)) (Some (SC (zc 1 2)))) = zq (-5) 10 17 (-4).
Proof. split; reflexivity. Qed.

(** ** C42: where ALPHA is applied (gemm.hpp:33-40 offers _FACTOR_ALPHA_IN_B_PACK) *)
(** real ALPHA: the same contract as the default build *)
Theorem C42_factor_in_b_real_partial : forall (K : num), laws K ->
  forall mc nc kc aa ba (ga gb : Z -> quat K) ca cb oa ob m n k (al : K) (beta : scal K) (a : arr (quat K)) lda (b : arr (quat K)) ldb
    cadr (c : arr (quat K)) ldc A B w,
  0 < mc -> Z.even mc = true -> 0 < nc -> Z.even nc = true -> 0 < kc -> aa mod 32 = 0 -> ba mod 32 = 0 ->
  trans_char_r ca = Some oa -> trans_char_r cb = Some ob -> 0 <= m -> 0 <= n -> 0 <= k -> m <= ldc ->
  holds_mat a lda (op_rows oa m k) (op_cols oa m k) A -> holds_mat b ldb (op_rows ob k n) (op_cols ob k n) B -> holds_mat c ldc m n w ->
  returns (gemm_opt_fb mc nc kc aa ba ga gb ca cb m n k (SR al) a lda b ldb beta cadr c ldc) (fun c' =>
    holds_mat c' ldc m n (gemm_elt oa ob k (Hre al) A B (emb beta) w) /\ same_but_mat c c' ldc m n).
Proof. exact @gemm_fb_real. Qed.
Print Assumptions C42_factor_in_b_real_partial.
(** any ALPHA: C(i,j) becomes the sum of op(A)(i,l) * (ALPHA * op(B)(l,j)), plus BETA * C(i,j) *)
Theorem C42_factor_in_b_value : forall (K : num), laws K ->
  forall mc nc kc aa ba (ga gb : Z -> quat K) ca cb oa ob m n k (alpha beta : scal K) (a : arr (quat K)) lda (b : arr (quat K)) ldb
    cadr (c : arr (quat K)) ldc A B w,
  0 < mc -> Z.even mc = true -> 0 < nc -> Z.even nc = true -> 0 < kc -> aa mod 32 = 0 -> ba mod 32 = 0 ->
  trans_char_r ca = Some oa -> trans_char_r cb = Some ob -> 0 <= m -> 0 <= n -> 0 <= k -> m <= ldc ->
  holds_mat a lda (op_rows oa m k) (op_cols oa m k) A -> holds_mat b ldb (op_rows ob k n) (op_cols ob k n) B -> holds_mat c ldc m n w ->
  returns (gemm_opt_fb mc nc kc aa ba ga gb ca cb m n k alpha a lda b ldb beta cadr c ldc) (fun c' =>
    holds_mat c' ldc m n (fun i j =>
      Hadd (Hsum k (fun l => Hmul (opm oa A i l) (Hmul (emb alpha) (opm ob B l j)))) (Hmul (emb beta) (w i j))) /\
    same_but_mat c c' ldc m n).
Proof. exact @gemm_fb_val. Qed.
Print Assumptions C42_factor_in_b_value.
(** which is not ALPHA * op(A) * op(B) for complex ALPHA: with ALPHA = i, A = j, B = 1 the result is j*i, not i*j *)
Theorem C42_factor_in_b_refuted : exists aa ba ga gb cadr (al : cplx Znum) (a b c : arr (quat Znum)) A B w,
  aa mod 32 = 0 /\ ba mod 32 = 0 /\ holds_mat a 1 1 1 A /\ holds_mat b 1 1 1 B /\ holds_mat c 1 1 1 w /\
  returns (gemm_opt_fb 64 512 64 aa ba ga gb "N" "N" 1 1 1 (SC al) a 1 b 1 (SR (1 : Znum)) cadr c 1) (fun c' =>
    ~ holds_mat c' 1 1 1 (gemm_elt OpN OpN 1 (Hc al) A B H1 w)).
Proof. exact gemm_fb_wrong. Qed.
Print Assumptions C42_factor_in_b_refuted.
(** with neither macro defined (only defining both is rejected, gemm.hpp:37-39) ALPHA is ignored *)
Theorem C42_no_factor_value : forall (K : num), laws K ->
  forall mc nc kc aa ba (ga gb : Z -> quat K) ca cb oa ob m n k (beta : scal K) (a : arr (quat K)) lda (b : arr (quat K)) ldb
    cadr (c : arr (quat K)) ldc A B w,
  0 < mc -> Z.even mc = true -> 0 < nc -> Z.even nc = true -> 0 < kc -> aa mod 32 = 0 -> ba mod 32 = 0 ->
  trans_char_r ca = Some oa -> trans_char_r cb = Some ob -> 0 <= m -> 0 <= n -> 0 <= k -> m <= ldc ->
  holds_mat a lda (op_rows oa m k) (op_cols oa m k) A -> holds_mat b ldb (op_rows ob k n) (op_cols ob k n) B -> holds_mat c ldc m n w ->
  returns (gemm_opt_at mc nc kc aa ba ga gb ca cb m n k None None a lda b ldb beta cadr c ldc) (fun c' =>
    holds_mat c' ldc m n (fun i j => Hadd (Hsum k (fun l => Hmul (opm oa A i l) (opm ob B l j))) (Hmul (emb beta) (w i j))) /\
    same_but_mat c c' ldc m n).
Proof. exact @gemm_none_val. Qed.
Print Assumptions C42_no_factor_value.
Theorem C42_no_factor_refuted : exists aa ba ga gb cadr (al : Znum) (a b c : arr (quat Znum)) A B w,
  aa mod 32 = 0 /\ ba mod 32 = 0 /\ holds_mat a 1 1 1 A /\ holds_mat b 1 1 1 B /\ holds_mat c 1 1 1 w /\
  returns (gemm_opt_at 64 512 64 aa ba ga gb "N" "N" 1 1 1 None None a 1 b 1 (SR (1 : Znum)) cadr c 1) (fun c' =>
    ~ holds_mat c' 1 1 1 (gemm_elt OpN OpN 1 (Hre al) A B H1 w)).
Proof. exact gemm_none_wrong. Qed.
Print Assumptions C42_no_factor_refuted.
Example C42_concrete :
  match gemm_opt_fb 2 2 2 32 64 (fun _ => zq 7 7 7 7) (fun _ => zq 8 8 8 8) "T" "N" 3 1 3 (SR (3 : Znum))
     (arr_list (map (fun z => zq z 1 (z+2) 3) [1;2;3;4;5;6;7;8;9])) 3 (arr_list (map (fun z => zq z z 1 4) [1;2;3])) 3
     (SR (2 : Znum)) 0 (arr_list (map (fun z => zq z 0 0 0) [1;2;3])) 3,
    gemm_opt 64 512 64 32 64 (fun _ => zq 7 7 7 7) (fun _ => zq 8 8 8 8) "T" "N" 3 1 3 (SR (3 : Znum))
     (arr_list (map (fun z => zq z 1 (z+2) 3) [1;2;3;4;5;6;7;8;9])) 3 (arr_list (map (fun z => zq z z 1 4) [1;2;3])) 3
     (SR (2 : Znum)) 0 (arr_list (map (fun z => zq z 0 0 0) [1;2;3])) 3 with
  | Ok c1, Ok c2 => map c1 [0;1;2;3] = map c2 [0;1;2;3] /\ c1 2 <> None
  | _, _ => False end.
Proof. vm_compute. split; [reflexivity|discriminate]. Qed.
