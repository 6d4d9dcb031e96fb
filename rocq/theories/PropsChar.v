(** C37: what the option characters mean, for all 256 characters, in every implementation. *)
From Coq Require Import ZArith Bool Ascii List Lia.
From Verif Require Import Num Res ResFacts Spec MQuat MForL1 MForL2 MForL3 MGenL1 MGenL2 MOptL1 MGenM MPack MOptGemm RawL3 GemmMisc OptGemmTop ForL3Facts L2GenFacts PropsL1 PropsL2 PropsL3.
Import ListNotations.
Local Open Scope Z_scope.
Local Open Scope char_scope.

(** ** Reading of each implementation *)
(** Fortran GEMM: either case of N and C; everything else is a plain transpose *)
Definition gemm_char_fortran (c : ascii) : ascii :=
  match c with "N" | "n" => "N" | "C" | "c" => "C" | _ => "T" end.
(** template GEMM (real matrix): upper case only; everything else is a plain transpose *)
Definition gemm_char_template (c : ascii) : ascii :=
  match c with "N" => "N" | "C" => "C" | _ => "T" end.
(** optimised GEMM: upper case T, C, R; everything else is no transpose *)
Definition gemm_char_opt (c : ascii) : ascii :=
  match c with "T" => "T" | "C" => "C" | "R" => "R" | _ => "N" end.
(** Fortran GEMV: either case of N and T; everything else is a conjugate transpose *)
Definition gemv_char_fortran (c : ascii) : ascii :=
  match c with "N" | "n" => "N" | "T" | "t" => "T" | _ => "C" end.
Definition gemv_char_template (c : ascii) : ascii :=
  match c with "N" => "N" | "T" => "T" | _ => "C" end.
(** SIDE: optimised kernels multiply from the left only for 'L' *)
Definition side_char_opt (c : ascii) : ascii := match c with "L" => "L" | _ => "R" end.
(** templates: from the right only for 'R';  Fortran: 'R' or 'r' *)
Definition side_char_template (c : ascii) : ascii := match c with "R" => "R" | _ => "L" end.
Definition side_char_fortran (c : ascii) : ascii := match c with "R" | "r" => "R" | _ => "L" end.

Ltac allchars c := destruct c as [[] [] [] [] [] [] [] []]; reflexivity.
Lemma gf_N c : lsame (gemm_char_fortran c) "N" = lsame c "N". Proof. allchars c. Qed.
Lemma gf_C c : lsame (gemm_char_fortran c) "C" = lsame c "C". Proof. allchars c. Qed.
Lemma gt_N c : Ascii.eqb (gemm_char_template c) "N" = Ascii.eqb c "N". Proof. allchars c. Qed.
Lemma gt_C c : Ascii.eqb (gemm_char_template c) "C" = Ascii.eqb c "C". Proof. allchars c. Qed.
Lemma go_T c : Ascii.eqb (gemm_char_opt c) "T" = Ascii.eqb c "T". Proof. allchars c. Qed.
Lemma go_C c : Ascii.eqb (gemm_char_opt c) "C" = Ascii.eqb c "C". Proof. allchars c. Qed.
Lemma go_R c : Ascii.eqb (gemm_char_opt c) "R" = Ascii.eqb c "R". Proof. allchars c. Qed.
Lemma vf_N c : lsame (gemv_char_fortran c) "N" = lsame c "N". Proof. allchars c. Qed.
Lemma vf_N' c : lsame "N" (gemv_char_fortran c) = lsame "N" c. Proof. allchars c. Qed.
Lemma vf_T' c : lsame "T" (gemv_char_fortran c) = lsame "T" c. Proof. allchars c. Qed.
Lemma vt_N c : Ascii.eqb (gemv_char_template c) "N" = Ascii.eqb c "N". Proof. allchars c. Qed.
Lemma vt_T c : Ascii.eqb (gemv_char_template c) "T" = Ascii.eqb c "T". Proof. allchars c. Qed.
Lemma so_L c : Ascii.eqb (side_char_opt c) "L" = Ascii.eqb c "L". Proof. allchars c. Qed.
Lemma st_R c : Ascii.eqb (side_char_template c) "R" = Ascii.eqb c "R". Proof. allchars c. Qed.
Lemma sf_R c : lsame "R" (side_char_fortran c) = lsame "R" c. Proof. allchars c. Qed.

Local Open Scope Z_scope.
(** any scalar type, any data: the call with character c is the call with the canonical character *)
Theorem C37_gemm_fortran_all_chars : forall (K : num) ca cb m n k alpha (a : arr (quat K)) lda b ldb beta c ldc,
  hgemm ca cb m n k alpha a lda b ldb beta c ldc = hgemm (gemm_char_fortran ca) (gemm_char_fortran cb) m n k alpha a lda b ldb beta c ldc.
Proof. intros. unfold hgemm. rewrite !gf_N, !gf_C. reflexivity. Qed.
Print Assumptions C37_gemm_fortran_all_chars.
Theorem C37_gemm_real_all_chars : forall (K : num) f ca cb m n k alpha (a : arr K) lda b ldb beta c ldc,
  gemm_real f ca cb m n k alpha a lda b ldb beta c ldc = gemm_real f (gemm_char_template ca) (gemm_char_template cb) m n k alpha a lda b ldb beta c ldc.
Proof. intros. unfold gemm_real, gemm_gen. rewrite !gt_N, !gt_C. reflexivity. Qed.
Print Assumptions C37_gemm_real_all_chars.
Lemma apack_chars {K : num} c alpha nI nK (a : arr (quat K)) Ai lda p : apack_call (gemm_char_opt c) alpha nI nK a Ai lda p = apack_call c alpha nI nK a Ai lda p.
Proof. unfold apack_call. rewrite go_T, go_C, go_R. reflexivity. Qed.
Lemma bpack_chars {K : num} c alB nI nK (a : arr (quat K)) Ai lda p : bpack_call (gemm_char_opt c) alB nI nK a Ai lda p = bpack_call c alB nI nK a Ai lda p.
Proof. unfold bpack_call. rewrite go_T, go_C, go_R. reflexivity. Qed.
Lemma gemm_mc_chars {K : num} mc ca m alpha nJ nK (a : arr (quat K)) Ap lda aa aP ba bP c Cj ldc :
  gemm_mc mc (gemm_char_opt ca) m alpha nJ nK a Ap lda aa aP ba bP c Cj ldc = gemm_mc mc ca m alpha nJ nK a Ap lda aa aP ba bP c Cj ldc.
Proof. unfold gemm_mc, zforstep. rewrite go_T, go_C. f_equal. apply zfor_ext. intros i s _. destruct s as [[[c' aP'] Ai'] Ci']. rewrite apack_chars. reflexivity. Qed.
Lemma gemm_kc_chars {K : num} mc kc ca cb m k alA alB nJ (a : arr (quat K)) lda b Bj ldb aa aP ba bP c Cj ldc :
  gemm_kc mc kc (gemm_char_opt ca) (gemm_char_opt cb) m k alA alB nJ a lda b Bj ldb aa aP ba bP c Cj ldc = gemm_kc mc kc ca cb m k alA alB nJ a lda b Bj ldb aa aP ba bP c Cj ldc.
Proof.
  unfold gemm_kc, zforstep. rewrite !go_T, !go_C. f_equal. apply zfor_ext. intros i s _.
  repeat match goal with x : (_ * _)%type |- _ => destruct x end. rewrite bpack_chars.
  match goal with |- bind ?x _ = bind ?x _ => destruct x; cbn [bind]; auto end. rewrite gemm_mc_chars. reflexivity.
Qed.
Theorem C37_gemm_opt_all_chars : forall (K : num) mc nc kc aa ba ga gb ca cb m n k alpha (a : arr (quat K)) lda b ldb beta cadr c ldc,
  gemm_opt mc nc kc aa ba ga gb ca cb m n k alpha a lda b ldb beta cadr c ldc =
  gemm_opt mc nc kc aa ba ga gb (gemm_char_opt ca) (gemm_char_opt cb) m n k alpha a lda b ldb beta cadr c ldc.
Proof.
  intros. unfold gemm_opt, gemm_opt_at. match goal with |- bind ?x _ = bind ?x _ => destruct x; cbn [bind]; auto end.
  unfold gemm_nc, zforstep. rewrite !go_T, !go_C. f_equal. apply zfor_ext. intros i s _.
  repeat match goal with x : (_ * _)%type |- _ => destruct x end. rewrite gemm_kc_chars. reflexivity.
Qed.
Print Assumptions C37_gemm_opt_all_chars.
Theorem C37_gemv_fortran_all_chars : forall (K : num) c m n alpha (a : arr (quat K)) lda x incx beta y incy,
  hgemv c m n alpha a lda x incx beta y incy = hgemv (gemv_char_fortran c) m n alpha a lda x incx beta y incy.
Proof. intros. unfold hgemv, hgemv_lens. rewrite vf_N, vf_N', vf_T'. reflexivity. Qed.
Print Assumptions C37_gemv_fortran_all_chars.
Theorem C37_gemv_real_all_chars : forall (K : num) f c m n alpha (a : arr K) lda x incx beta y incy,
  gemv_real f c m n alpha a lda x incx beta y incy = gemv_real f (gemv_char_template c) m n alpha a lda x incx beta y incy.
Proof. intros. unfold gemv_real, gemv_gen. rewrite vt_N, vt_T. reflexivity. Qed.
Print Assumptions C37_gemv_real_all_chars.
(** SIDE: one reading for all scalar types of a build, hence also for the matrix versions *)
Theorem C37_side_opt_all_chars : forall (K : num) c n alpha xa (x : arr (quat K)) incx ya y incy,
  scalv_opt c n alpha xa x incx = scalv_opt (side_char_opt c) n alpha xa x incx /\
  axpyv_opt c n alpha xa x incx ya y incy = axpyv_opt (side_char_opt c) n alpha xa x incx ya y incy.
Proof. intros. unfold scalv_opt, axpyv_opt. rewrite so_L. split; reflexivity. Qed.
Print Assumptions C37_side_opt_all_chars.
Theorem C37_side_template_all_chars : forall (K : num) f c n alpha (x : arr (quat K)) incx y incy,
  scalv_gen f c n alpha x incx = scalv_gen f (side_char_template c) n alpha x incx /\
  axpyv_gen f c n alpha x incx y incy = axpyv_gen f (side_char_template c) n alpha x incx y incy.
Proof. intros. unfold scalv_gen, axpyv_gen. rewrite st_R. split; reflexivity. Qed.
Print Assumptions C37_side_template_all_chars.
Theorem C37_side_fortran_all_chars : forall (K : num) c n alpha (x : arr (quat K)) incx y incy,
  scalv_for c n alpha x incx = scalv_for (side_char_fortran c) n alpha x incx /\
  axpyv_for c n alpha x incx y incy = axpyv_for (side_char_fortran c) n alpha x incx y incy.
Proof. intros. unfold scalv_for, axpyv_for. rewrite sf_R. split; reflexivity. Qed.
Print Assumptions C37_side_fortran_all_chars.

(** ** Upper-case N, T, C mean the same for every scalar type: the optimised GEMM (real or complex ALPHA, BETA) and the Fortran
    GEMM with the same scalars given as quaternions compute the same matrix *)
Theorem C37_gemm_consistent_partial : forall (K : num), laws K ->
  forall mc nc kc aa ba ga gb ca cb oa ob m n k alpha (a : arr (quat K)) lda (b : arr (quat K)) ldb beta cadr (c : arr (quat K)) ldc A B w,
  0 < mc -> Z.even mc = true -> 0 < nc -> Z.even nc = true -> 0 < kc -> aa mod 32 = 0 -> ba mod 32 = 0 ->
  trans_char ca = Some oa -> trans_char cb = Some ob -> 0 <= m -> 0 <= n -> 0 <= k -> m <= ldc ->
  holds_mat a lda (op_rows oa m k) (op_cols oa m k) A -> holds_mat b ldb (op_rows ob k n) (op_cols ob k n) B -> holds_mat c ldc m n w ->
  returns (gemm_opt mc nc kc aa ba ga gb ca cb m n k alpha a lda b ldb beta cadr c ldc) (fun c1 =>
  returns (hgemm ca cb m n k (SH (emb alpha)) a lda b ldb (SH (emb beta)) c ldc) (fun c2 =>
    forall i j, 0 <= i < m -> 0 <= j < n -> c1 (i + j * ldc) = c2 (i + j * ldc))).
Proof.
  intros K L mc nc kc aa ba ga gb ca cb oa ob m n k alpha a lda b ldb beta cadr c ldc A B w H1 H2 H3 H4 H5 H6 H7 Ha Hb Hm Hn Hk Hl HA HB HC.
  assert (TR : forall c o, trans_char c = Some o -> trans_char_r c = Some o).
  { intros x o. unfold trans_char_r. destruct (Ascii.eqb_spec x "R") as [->|]; auto. discriminate. }
  eapply returns_mono; [apply (C29_gemm_opt K L mc nc kc aa ba ga gb ca cb oa ob m n k alpha a lda b ldb beta cadr c ldc A B w); auto|].
  intros c1 [V1 _].
  eapply returns_mono; [apply (C27_gemm_fortran K L ca cb oa ob m n k (SH (emb alpha)) a lda b ldb (SH (emb beta)) c ldc A B w); auto|].
  intros c2 [V2 _] i j Hi Hj. rewrite V1, V2 by auto. reflexivity.
Qed.
Print Assumptions C37_gemm_consistent_partial.

(** ** Other characters do not: GEMM with TRANSA = 't' is a transpose for quaternion scalars and no transpose for real ones *)
Definition a22 : arr (quat Znum) := vZ [1;2;3;4].
Theorem C37_gemm_lower_case_refuted : exists ca, gemm_char_fortran ca = "T"%char /\
  match gemm_opt 2 2 2 0 0 (fun _ => zq 0 0 0 0) (fun _ => zq 0 0 0 0) ca "N" 2 1 2 (SR (1 : Znum)) a22 2 (vZ [1;0]) 2 (SR (0 : Znum)) 0 (vZ [0;0]) 2,
        hgemm ca "N" 2 1 2 (SH (emb (SR (1 : Znum)))) a22 2 (vZ [1;0]) 2 (SH (emb (SR (0 : Znum)))) (vZ [0;0]) 2 with
  | Ok c1, Ok c2 => c1 1 <> c2 1
  | _, _ => False end.
Proof. exists "t"%char. split; [reflexivity|]. vm_compute. discriminate. Qed.
Print Assumptions C37_gemm_lower_case_refuted.
(** 'R' (conjugate only) exists for real and complex scalars only: with quaternion scalars it is a transpose *)
Theorem C37_gemm_R_refuted :
  match gemm_opt 2 2 2 0 0 (fun _ => zq 0 0 0 0) (fun _ => zq 0 0 0 0) "R" "N" 2 1 2 (SR (1 : Znum)) a22 2 (vZ [1;0]) 2 (SR (0 : Znum)) 0 (vZ [0;0]) 2,
        hgemm "R" "N" 2 1 2 (SH (emb (SR (1 : Znum)))) a22 2 (vZ [1;0]) 2 (SH (emb (SR (0 : Znum)))) (vZ [0;0]) 2 with
  | Ok c1, Ok c2 => c1 1 <> c2 1
  | _, _ => False end.
Proof. vm_compute. discriminate. Qed.
Print Assumptions C37_gemm_R_refuted.
(** GEMV 'n': no transpose for a quaternion matrix, conjugate transpose for a real one (the same matrix given as reals) *)
Theorem C37_gemv_lower_case_refuted :
  match hgemv "n" 2 2 (SR (1 : Znum)) (arr_list (map (fun z => zq z 0 0 0) [1;2;3;4])) 2 (vZ [1;0]) 1 (SR (0 : Znum)) (vZ [0;0]) 1,
        gemv_real (K := Znum) q_mul "n" 2 2 (1 : Znum) (arr_list (A := Znum) [1;2;3;4]) 2 (vZ [1;0]) 1 (0 : Znum) (vZ [0;0]) 1 with
  | Ok y1, Ok y2 => y1 1 <> y2 1
  | _, _ => False end.
Proof. vm_compute. discriminate. Qed.
Print Assumptions C37_gemv_lower_case_refuted.
(** SIDE = 'l' is right multiplication in the optimised build and left multiplication in the Fortran build *)
Theorem C37_side_lower_case_refuted :
  match scalv_opt "l" 1 (SH (zq 0 1 0 0)) 0 (arr_list [zq 0 0 1 0]) 1, scalv_for "l" 1 (SH (zq 0 1 0 0)) (arr_list [zq 0 0 1 0]) 1 with
  | Ok x1, Ok x2 => x1 0 = Some (zq 0 0 0 (-1)) /\ x2 0 = Some (zq 0 0 0 1)
  | _, _ => False end.
Proof. vm_compute. split; reflexivity. Qed.
Print Assumptions C37_side_lower_case_refuted.
