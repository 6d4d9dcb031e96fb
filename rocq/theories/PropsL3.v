(** Level-3 properties.  [gemm_elt], [trans_char], [op_rows], [op_cols], [holds_mat], [same_but_mat] are defined in
    Spec.v, independently of the model. *)
From Coq Require Import ZArith Bool Ascii List.
From Verif Require Import Num NumR Res Spec MQuat MSimd MForL1 MForL2 MForL3 ForL3Facts MOptL1 MPack MOptGemm PackFacts OptGemmFacts OptGemmTop
  PropsL1.
Import ListNotations.
Local Open Scope Z_scope.

(** ** C27: the Fortran kernels, all nine scalar type pairs and all nine TRANSA/TRANSB pairs *)
Theorem C27_gemm_fortran : forall (K : num), laws K ->
  forall ca cb oa ob m n k alpha (a : arr (quat K)) lda (b : arr (quat K)) ldb beta (c : arr (quat K)) ldc A B w,
  trans_char ca = Some oa -> trans_char cb = Some ob -> 0 <= m -> 0 <= n -> 0 <= k -> m <= ldc ->
  holds_mat a lda (op_rows oa m k) (op_cols oa m k) A -> holds_mat b ldb (op_rows ob k n) (op_cols ob k n) B ->
  holds_mat c ldc m n w ->
  returns (hgemm ca cb m n k alpha a lda b ldb beta c ldc) (fun c' =>
    holds_mat c' ldc m n (gemm_elt oa ob k (emb alpha) A B (emb beta) w) /\ same_but_mat c c' ldc m n).
Proof. exact @hgemm_ok. Qed.
Print Assumptions C27_gemm_fortran.
(** concrete: quaternion ALPHA = j, BETA = i, A = (1+k, 2), conjugated B, an untouched padding element *)
Example C27_concrete :
  match hgemm "N" "C" 1 1 2 (SH (zq 0 0 1 0)) (arr_list [zq 1 0 0 1; zq 2 0 0 0]) 1 (arr_list [zq 0 1 0 0; zq 0 0 1 0]) 1
          (SH (zq 0 1 0 0)) (arr_list [zq 5 0 0 0; zq 9 9 9 9]) 2 with
  | Ok c' => map c' [0;1] = map Some [Hadd (Hmul (zq 0 0 1 0) (Hadd (Hmul (zq 1 0 0 1) (Hconj (zq 0 1 0 0))) (Hmul (zq 2 0 0 0) (Hconj (zq 0 0 1 0))))) (Hmul (zq 0 1 0 0) (zq 5 0 0 0)); zq 9 9 9 9]
             /\ c' 0 = Some (zq 3 5 0 1)
  | _ => False end.
Proof. vm_compute. split; reflexivity. Qed.

(** ** C29: the packed, blocked GEMM.  MC and NC must be even, KC positive; the pack buffers are 32-byte aligned and have
    arbitrary initial contents (ga, gb); cadr is the address of C. *)
Theorem C29_gemm_opt : forall (K : num), laws K ->
  forall mc nc kc aa ba ga gb ca cb oa ob m n k alpha (a : arr (quat K)) lda (b : arr (quat K)) ldb beta cadr (c : arr (quat K)) ldc A B w,
  0 < mc -> Z.even mc = true -> 0 < nc -> Z.even nc = true -> 0 < kc -> aa mod 32 = 0 -> ba mod 32 = 0 ->
  trans_char_r ca = Some oa -> trans_char_r cb = Some ob -> 0 <= m -> 0 <= n -> 0 <= k -> m <= ldc ->
  holds_mat a lda (op_rows oa m k) (op_cols oa m k) A -> holds_mat b ldb (op_rows ob k n) (op_cols ob k n) B ->
  holds_mat c ldc m n w ->
  returns (gemm_opt mc nc kc aa ba ga gb ca cb m n k alpha a lda b ldb beta cadr c ldc) (fun c' =>
    holds_mat c' ldc m n (gemm_elt oa ob k (emb alpha) A B (emb beta) w) /\ same_but_mat c c' ldc m n).
Proof. exact @gemm_opt_ok. Qed.
Print Assumptions C29_gemm_opt.
(** the shipped parameters MC = 64, NC = 512, KC = 64 *)
Theorem C29_gemm_opt_default : forall (K : num), laws K ->
  forall aa ba ga gb ca cb oa ob m n k alpha (a : arr (quat K)) lda (b : arr (quat K)) ldb beta cadr (c : arr (quat K)) ldc A B w,
  aa mod 32 = 0 -> ba mod 32 = 0 ->
  trans_char_r ca = Some oa -> trans_char_r cb = Some ob -> 0 <= m -> 0 <= n -> 0 <= k -> m <= ldc ->
  holds_mat a lda (op_rows oa m k) (op_cols oa m k) A -> holds_mat b ldb (op_rows ob k n) (op_cols ob k n) B ->
  holds_mat c ldc m n w ->
  returns (gemm_opt_default aa ba ga gb ca cb m n k alpha a lda b ldb beta cadr c ldc) (fun c' =>
    holds_mat c' ldc m n (gemm_elt oa ob k (emb alpha) A B (emb beta) w) /\ same_but_mat c c' ldc m n).
Proof. exact @gemm_opt_default_ok. Qed.
Print Assumptions C29_gemm_opt_default.
(** concrete: 1 x 1 result, K = 3 split over two KC blocks, A conjugated without transposition, complex ALPHA, real BETA *)
Example C29_concrete :
  match gemm_opt 2 2 2 64 128 (fun _ => zq 7 7 7 7) (fun _ => zq 8 8 8 8) "R" "T" 1 1 3 (SC (zc 1 1))
          (arr_list [zq 1 0 0 1; zq 2 0 0 0; zq 0 3 0 0]) 1 (arr_list [zq 0 1 0 0; zq 0 0 1 0; zq 1 2 3 4]) 1
          (SR (2 : Znum)) 0 (arr_list [zq 5 0 0 0; zq 9 9 9 9]) 2 with
  | Ok c' => map c' [0;1] = map Some [Hadd (Hmul (zq 1 1 0 0)
      (Hadd (Hmul (Hconj (zq 1 0 0 1)) (zq 0 1 0 0)) (Hadd (Hmul (Hconj (zq 2 0 0 0)) (zq 0 0 1 0)) (Hmul (Hconj (zq 0 3 0 0)) (zq 1 2 3 4)))))
      (Hmul (zq 2 0 0 0) (zq 5 0 0 0)); zq 9 9 9 9]
  | _ => False end.
Proof. vm_compute. reflexivity. Qed.

(** ** C30: no dependence on the blocking parameters, the buffer addresses, the buffer contents or the address of C, for any
    scalar arithmetic whatsoever (no law is assumed, so also bit for bit in floating point). *)
Theorem C30_gemm_blocking_independent : forall (K : num)
  mc nc kc aa ba ga gb cadr mc' nc' kc' aa' ba' ga' gb' cadr'
  ca cb oa ob m n k alpha (a : arr (quat K)) lda (b : arr (quat K)) ldb beta (c : arr (quat K)) ldc A B w,
  0 < mc -> Z.even mc = true -> 0 < nc -> Z.even nc = true -> 0 < kc -> aa mod 32 = 0 -> ba mod 32 = 0 ->
  0 < mc' -> Z.even mc' = true -> 0 < nc' -> Z.even nc' = true -> 0 < kc' -> aa' mod 32 = 0 -> ba' mod 32 = 0 ->
  trans_char_r ca = Some oa -> trans_char_r cb = Some ob -> 0 <= m -> 0 <= n -> 0 <= k -> m <= ldc ->
  holds_mat a lda (op_rows oa m k) (op_cols oa m k) A -> holds_mat b ldb (op_rows ob k n) (op_cols ob k n) B ->
  holds_mat c ldc m n w ->
  returns (gemm_opt mc nc kc aa ba ga gb ca cb m n k alpha a lda b ldb beta cadr c ldc) (fun c1 =>
  returns (gemm_opt mc' nc' kc' aa' ba' ga' gb' ca cb m n k alpha a lda b ldb beta cadr' c ldc) (fun c2 =>
    forall p, c1 p = c2 p)).
Proof. exact @gemm_opt_indep. Qed.
Print Assumptions C30_gemm_blocking_independent.
Example C30_concrete :
  let run mc nc kc := gemm_opt mc nc kc 32 64 (fun _ => zq 7 7 7 7) (fun _ => zq 8 8 8 8) "N" "C" 3 3 3 (SR (3 : Znum))
     (arr_list (map (fun z => zq z 1 (z+2) 3) [1;2;3;4;5;6;7;8;9])) 3 (arr_list (map (fun z => zq z z 1 4) [1;2;3;4;5;6;7;8;9])) 3
     (SR (2 : Znum)) 0 (arr_list (map (fun z => zq z 0 0 0) [1;2;3;4;5;6;7;8;9])) 3 in
  match run 2 2 1, run 64 512 64 with
  | Ok c1, Ok c2 => map c1 [0;1;2;3;4;5;6;7;8;9] = map c2 [0;1;2;3;4;5;6;7;8;9] /\ c1 8 <> None /\ c1 9 = None
  | _, _ => False end.
Proof. vm_compute. repeat split; discriminate. Qed.

(** ** C31: packing.  [packed], [pairA], [pairB] are defined in Spec.v. *)
(** what each element becomes *)
Definition packed_elt {K : num} (cnj : bool) (alpha : option (scal K)) (q : quat K) : quat K :=
  let q := if cnj then Hconj q else q in match alpha with Some s => Hmul (emb s) q | None => q end.
(** TPACK: pairs of columns of the m x n block at offset x0 of x *)
Theorem C31_tpack : forall (K : num), laws K ->
  forall (o : packop) cnj alpha m n (x : arr (quat K)) x0 ldx (buf : arr (quat K)) F, 0 <= m -> 0 <= n ->
  (forall i j, 0 <= i < m -> 0 <= j < n -> x (x0 + i + j * ldx) = Some (F i j)) ->
  (forall p, 0 <= p < 2 * ((n + 1) / 2) * m -> buf p <> None) ->
  returns (tpack o cnj alpha m n x x0 ldx buf) (fun buf' =>
    packed (match o with T1 => pairA | T2 => pairB end) n m (fun r l => packed_elt cnj alpha (F l r)) buf' /\
    forall p, ~ (0 <= p < 2 * ((n + 1) / 2) * m) -> buf' p = buf p).
Proof. exact @tpack_ok. Qed.
Print Assumptions C31_tpack.
(** NPACK: pairs of rows *)
Theorem C31_npack : forall (K : num), laws K ->
  forall (o : packop) cnj alpha m n (x : arr (quat K)) x0 ldx (buf : arr (quat K)) F, 0 <= m -> 0 <= n ->
  (forall i j, 0 <= i < m -> 0 <= j < n -> x (x0 + i + j * ldx) = Some (F i j)) ->
  (forall p, 0 <= p < 2 * ((m + 1) / 2) * n -> buf p <> None) ->
  returns (npack o cnj alpha m n x x0 ldx buf) (fun buf' =>
    packed (match o with T1 => pairA | T2 => pairB end) m n (fun r l => packed_elt cnj alpha (F r l)) buf' /\
    forall p, ~ (0 <= p < 2 * ((m + 1) / 2) * n) -> buf' p = buf p).
Proof. exact @npack_ok. Qed.
Print Assumptions C31_npack.
(** the buffers GEMM allocates (FixMod(KC*MC, 32) and FixMod(KC*NC, 32) elements) hold every block, if MC, NC are even *)
Theorem C31_buffers_fit : forall blk kc R len, 0 < blk -> Z.even blk = true -> 0 < kc -> 0 <= R <= blk -> 0 <= len <= kc ->
  2 * ((R + 1) / 2) * len <= FixMod (kc * blk) REQ_ALIGN.
Proof. exact buffers_fit. Qed.
Print Assumptions C31_buffers_fit.
(** ... and not otherwise: with MC = 1, KC = 33 the A buffer has 64 elements and packing needs 66; the heap is overrun *)
Theorem C31_odd_blocking_refuted : exists (mc nc kc aa ba : Z) ga gb (a b c : arr (quat Znum)) A B w,
  0 < mc /\ 0 < nc /\ 0 < kc /\ aa mod 32 = 0 /\ ba mod 32 = 0 /\ holds_mat a 1 1 33 A /\ holds_mat b 33 33 1 B /\ holds_mat c 1 1 1 w /\
  gemm_opt mc nc kc aa ba ga gb "N" "N" 1 1 33 (SR (1 : Znum)) a 1 b 33 (SR (0 : Znum)) 0 c 1 = UB.
Proof. exact odd_blocking_ub. Qed.
Print Assumptions C31_odd_blocking_refuted.
Example C31_concrete :
  match tpack T1 true (Some (SR (2 : Znum))) 2 3 (arr_list (map (fun z => zq z 1 2 3) [0;1;2;3;4;5;6;7;8])) 1 3 (arr_list (repeat (zq 9 9 9 9) 10)) with
  | Ok b => map b [0;1;2;3;4;5;6;7;8;9] = map Some
     [zq 2 (-2) 8 (-2); zq (-4) (-6) (-4) (-6); zq 4 (-2) 10 (-2); zq (-4) (-6) (-4) (-6);
      zq 14 (-2) 0 0; zq (-4) (-6) 0 0; zq 16 (-2) 0 0; zq (-4) (-6) 0 0; zq 9 9 9 9; zq 9 9 9 9]
  | _ => False end.
Proof. vm_compute. reflexivity. Qed.
