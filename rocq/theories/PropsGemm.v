(** C32-C34: GEMM frame and safety, BETA = 0, degenerate sizes and ALPHA = 0. *)
From Coq Require Import ZArith Bool Ascii List Lia.
From Verif Require Import Num NumR Res ResFacts Spec MQuat MSimd MForL1 MForL2 MForL3 MGenL1 MGenL2 MOptL1 MGenM MPack MOptGemm L1Facts2 F64 GemmMisc PropsL1.
Import ListNotations.
Local Open Scope Z_scope.

(** ** C32: for ANY scalar arithmetic (no law, so also floating point with NaN and infinity), every backend returns normally
    when exactly the elements of op(A), op(B) and the window of C are allocated (hence accesses nothing else), and changes C
    only inside its M x N window.  A and B are not outputs of the modelled functions: the code has no store through them. *)
Theorem C32_gemm_fortran : forall (K : num) ca cb oa ob m n k alpha (a : arr (quat K)) lda (b : arr (quat K)) ldb beta (c : arr (quat K)) ldc A B w,
  trans_char ca = Some oa -> trans_char cb = Some ob -> 0 <= m -> 0 <= n -> 0 <= k -> m <= ldc ->
  holds_mat a lda (op_rows oa m k) (op_cols oa m k) A -> holds_mat b ldb (op_rows ob k n) (op_cols ob k n) B -> holds_mat c ldc m n w ->
  returns (hgemm ca cb m n k alpha a lda b ldb beta c ldc) (fun c' => same_but_mat c c' ldc m n /\ exists w', holds_mat c' ldc m n w').
Proof. exact frame_fortran. Qed.
Print Assumptions C32_gemm_fortran.
Theorem C32_gemm_real : forall (K : num) qmul ca cb oa ob m n k alpha (a : arr K) lda (b : arr (quat K)) ldb beta (c : arr (quat K)) ldc A B w,
  trans_char ca = Some oa -> trans_char cb = Some ob -> 0 <= m -> 0 <= n -> 0 <= k -> m <= ldc ->
  holds_mat a lda (op_rows oa m k) (op_cols oa m k) A -> holds_mat b ldb (op_rows ob k n) (op_cols ob k n) B -> holds_mat c ldc m n w ->
  returns (gemm_real qmul ca cb m n k alpha a lda b ldb beta c ldc) (fun c' => same_but_mat c c' ldc m n /\ exists w', holds_mat c' ldc m n w').
Proof. exact frame_real. Qed.
Print Assumptions C32_gemm_real.
Theorem C32_gemm_opt : forall (K : num) mc nc kc aa ba ga gb ca cb oa ob m n k alpha (a : arr (quat K)) lda (b : arr (quat K)) ldb beta cadr (c : arr (quat K)) ldc A B w,
  0 < mc -> Z.even mc = true -> 0 < nc -> Z.even nc = true -> 0 < kc -> aa mod 32 = 0 -> ba mod 32 = 0 ->
  trans_char_r ca = Some oa -> trans_char_r cb = Some ob -> 0 <= m -> 0 <= n -> 0 <= k -> m <= ldc ->
  holds_mat a lda (op_rows oa m k) (op_cols oa m k) A -> holds_mat b ldb (op_rows ob k n) (op_cols ob k n) B -> holds_mat c ldc m n w ->
  returns (gemm_opt mc nc kc aa ba ga gb ca cb m n k alpha a lda b ldb beta cadr c ldc) (fun c' =>
    same_but_mat c c' ldc m n /\ exists w', holds_mat c' ldc m n w').
Proof. exact frame_opt. Qed.
Print Assumptions C32_gemm_opt.
(** concrete: C exactly allocated, LDC = 3 > M = 1, the gap elements unallocated or foreign *)
Definition gapC : arr (quat Znum) := fun p => if p =? 0 then Some (zq 1 0 0 0) else if p =? 3 then Some (zq 2 0 0 0) else if p =? 4 then Some (zq 77 0 0 0) else None.
Example C32_concrete :
  match hgemm "T" "N" 1 2 1 (SR (1 : Znum)) (vZ [5]) 1 (vZ [1;2]) 1 (SR (1 : Znum)) gapC 3,
        gemm_opt 2 2 2 0 0 (fun _ => zq 0 0 0 0) (fun _ => zq 0 0 0 0) "T" "N" 1 2 1 (SR (1 : Znum)) (vZ [5]) 1 (vZ [1;2]) 1 (SR (1 : Znum)) 32 gapC 3 with
  | Ok c1, Ok c2 => map c1 [0;1;2;3;4] = [Some (zq 1 0 0 (-10)); None; None; Some (zq 2 0 0 (-20)); Some (zq 77 0 0 0)] /\ map c2 [0;1;2;3;4] = map c1 [0;1;2;3;4]
  | _, _ => False end.
Proof. vm_compute. split; reflexivity. Qed.

(** ** C33.  [c] and [c2] are two possible old contents of C. *)
(** the scalar compares equal to zero *)
Definition scal_is_zero {K : num} (s : scal K) : Prop :=
  match s with
  | SR a => neqb a n0 = true
  | SC z => neqb (re z) n0 = true /\ neqb (im z) n0 = true
  | SH q => neqb (qr q) n0 = true /\ neqb (qi q) n0 = true /\ neqb (qj q) n0 = true /\ neqb (qk q) n0 = true
  end.
(** Fortran kernels, any arithmetic whose comparison separates 0 from 1 *)
Theorem C33_gemm_fortran : forall (K : num) ca cb oa ob m n k alpha (a : arr (quat K)) lda (b : arr (quat K)) ldb beta (c c2 : arr (quat K)) ldc A B w w2,
  (forall x : K, neqb x n0 = true -> neqb x n1 = false) -> scal_is_zero beta ->
  trans_char ca = Some oa -> trans_char cb = Some ob -> 0 <= m -> 0 <= n -> 0 <= k -> m <= ldc ->
  holds_mat a lda (op_rows oa m k) (op_cols oa m k) A -> holds_mat b ldb (op_rows ob k n) (op_cols ob k n) B ->
  holds_mat c ldc m n w -> holds_mat c2 ldc m n w2 ->
  returns (hgemm ca cb m n k alpha a lda b ldb beta c ldc) (fun c' =>
  returns (hgemm ca cb m n k alpha a lda b ldb beta c2 ldc) (fun c2' =>
    forall i j, 0 <= i < m -> 0 <= j < n -> c' (i + j * ldc) = c2' (i + j * ldc))).
Proof.
  intros. eapply beta0_fortran; eauto. destruct beta as [x|[x y]|[x y z t]]; cbn in *; rewrite ?andb_true_iff; tauto.
Qed.
Print Assumptions C33_gemm_fortran.
(** generic template with a real matrix *)
Theorem C33_gemm_real : forall (K : num) qmul ca cb oa ob m n k alpha (a : arr K) lda (b : arr (quat K)) ldb beta (c c2 : arr (quat K)) ldc A B w w2,
  (forall x : K, neqb x n0 = true -> neqb x n1 = false) -> neqb beta n0 = true ->
  trans_char ca = Some oa -> trans_char cb = Some ob -> 0 <= m -> 0 <= n -> 0 <= k -> m <= ldc ->
  holds_mat a lda (op_rows oa m k) (op_cols oa m k) A -> holds_mat b ldb (op_rows ob k n) (op_cols ob k n) B ->
  holds_mat c ldc m n w -> holds_mat c2 ldc m n w2 ->
  returns (gemm_real qmul ca cb m n k alpha a lda b ldb beta c ldc) (fun c' =>
  returns (gemm_real qmul ca cb m n k alpha a lda b ldb beta c2 ldc) (fun c2' =>
    forall i j, 0 <= i < m -> 0 <= j < n -> c' (i + j * ldc) = c2' (i + j * ldc))).
Proof. exact beta0_real. Qed.
Print Assumptions C33_gemm_real.
(** IEEE binary64 is such an arithmetic (with +0 and -0 both comparing equal to zero) *)
Theorem C33_hypothesis_ieee : forall fused (x : F64 fused), neqb x n0 = true -> neqb x n1 = false.
Proof. exact F64_zero_one. Qed.
Print Assumptions C33_hypothesis_ieee.
(** the optimised GEMM: in exact arithmetic BETA = 0 drops the old C *)
Theorem C33_gemm_opt_exact_partial : forall (K : num), laws K ->
  forall mc nc kc aa ba ga gb ca cb oa ob m n k alpha (a : arr (quat K)) lda (b : arr (quat K)) ldb beta cadr (c : arr (quat K)) ldc A B w,
  emb beta = H0 ->
  0 < mc -> Z.even mc = true -> 0 < nc -> Z.even nc = true -> 0 < kc -> aa mod 32 = 0 -> ba mod 32 = 0 ->
  trans_char_r ca = Some oa -> trans_char_r cb = Some ob -> 0 <= m -> 0 <= n -> 0 <= k -> m <= ldc ->
  holds_mat a lda (op_rows oa m k) (op_cols oa m k) A -> holds_mat b ldb (op_rows ob k n) (op_cols ob k n) B -> holds_mat c ldc m n w ->
  returns (gemm_opt mc nc kc aa ba ga gb ca cb m n k alpha a lda b ldb beta cadr c ldc) (fun c' =>
    holds_mat c' ldc m n (fun i j => Hmul (emb alpha) (Hsum k (fun l => Hmul (opm oa A i l) (opm ob B l j))))).
Proof. exact beta0_opt_exact. Qed.
Print Assumptions C33_gemm_opt_exact_partial.
(** ... but in IEEE double precision a NaN in the old C always survives, for every real or complex BETA including 0, every
    shape and every blocking: the property is false for the compiled GEMM *)
Theorem C33_gemm_opt_nan_refuted : forall fused mc nc kc aa ba ga gb ca cb oa ob m n k alpha
    (a : arr (quat (F64 fused))) lda b ldb beta cadr (c : arr (quat (F64 fused))) ldc A B w i j,
  (forall q, beta <> SH q) ->
  0 < mc -> Z.even mc = true -> 0 < nc -> Z.even nc = true -> 0 < kc -> aa mod 32 = 0 -> ba mod 32 = 0 ->
  trans_char_r ca = Some oa -> trans_char_r cb = Some ob -> 0 <= m -> 0 <= n -> 0 <= k -> m <= ldc ->
  holds_mat a lda (op_rows oa m k) (op_cols oa m k) A -> holds_mat b ldb (op_rows ob k n) (op_cols ob k n) B -> holds_mat c ldc m n w ->
  0 <= i < m -> 0 <= j < n -> qr (w i j) = f_nan ->
  returns (gemm_opt mc nc kc aa ba ga gb ca cb m n k alpha a lda b ldb beta cadr c ldc) (fun c' =>
    exists q, c' (i + j * ldc) = Some q /\ qr q = f_nan).
Proof. exact opt_nan. Qed.
Print Assumptions C33_gemm_opt_nan_refuted.
(** concrete, default blocking: 1 x 1, K = 1, C = NaN resp. infinity, BETA = 0: NaN; C = 0: the finite product *)
Definition fq (a : f64) : quat (F64 true) := Quat (a : F64 true) f_zero f_zero f_zero.
Definition run_beta0 (old : f64) : option SpecFloat.spec_float :=
  match gemm_opt_default 0 0 (fun _ => fq f_zero) (fun _ => fq f_zero) "N" "N" 1 1 1 (SR (f_one : F64 true)) (arr_list [fq f_one]) 1
          (arr_list [fq f_one]) 1 (SR (f_zero : F64 true)) 0 (arr_list [fq old]) 1 with
  | Ok c' => option_map (fun q : quat (F64 true) => Flocq.IEEE754.BinarySingleNaN.B2SF (qr q : f64)) (c' 0) | _ => None end.
Example C33_concrete_opt :
  run_beta0 f_nan = Some SpecFloat.S754_nan /\ run_beta0 f_inf = Some SpecFloat.S754_nan /\
  run_beta0 f_zero = Some (Flocq.IEEE754.BinarySingleNaN.B2SF f_one).
Proof. vm_compute. repeat split. Qed.
Example C33_concrete_fortran :
  match hgemm "N" "N" 1 1 1 (SH (fq f_one)) (arr_list [fq f_one]) 1 (arr_list [fq f_one]) 1 (SR (f_zero : F64 true)) (arr_list [fq f_nan]) 1 with
  | Ok c' => option_map (fun q : quat (F64 true) => Flocq.IEEE754.BinarySingleNaN.B2SF (qr q : f64)) (c' 0) = Some (Flocq.IEEE754.BinarySingleNaN.B2SF f_one)
  | _ => False end.
Proof. vm_compute. reflexivity. Qed.

(** ** C34 *)
(** a non-positive length: nothing is accessed, whatever the pointers and strides *)
Theorem C34_level1_empty : forall (K : num) f c n (alpha : scal K) xa (x : arr (quat K)) incx ya (y : arr (quat K)) incy, n <= 0 ->
  swapv_opt n xa x incx ya y incy = Ok (x, y) /\ swapv_gen n x incx y incy = Ok (x, y) /\
  copyv_opt n xa x incx ya y incy = Ok y /\ copyv_gen n x incx y incy = Ok y /\
  scalv_opt c n alpha xa x incx = Ok x /\ scalv_gen f c n alpha x incx = Ok x /\ scalv_for c n alpha x incx = Ok x /\
  axpyv_opt c n alpha xa x incx ya y incy = Ok y /\ axpyv_gen f c n alpha x incx y incy = Ok y /\ axpyv_for c n alpha x incx y incy = Ok y.
Proof. exact level1_empty. Qed.
Print Assumptions C34_level1_empty.
Theorem C34_dot_empty : forall (K : num), laws K -> forall f cnj n xa (x : arr (quat K)) incx ya y incy, n <= 0 ->
  dot_opt cnj n xa x incx ya y incy = Ok H0 /\ dot_gen f cnj n x incx y incy = Ok H0 /\ dot_for cnj n x incx y incy = Ok H0.
Proof. exact dot_empty. Qed.
Print Assumptions C34_dot_empty.
Theorem C34_matrix_empty : forall (K : num) sc ax c t m n (alpha : scal K) aa (a : arr (quat K)) lda inca ba (b : arr (quat K)) ldb incb, m <= 0 \/ n <= 0 ->
  scalm sc c t m n alpha aa a lda inca = Ok a /\ axpym ax c t m n alpha aa a lda inca ba b ldb incb = Ok b.
Proof.
  intros K sc ax c t m n alpha aa a lda inca ba b ldb incb Hn. unfold scalm, axpym.
  assert (E : (n <=? 0) || (m <=? 0) = true) by (apply orb_true_iff; lia). rewrite E. split; reflexivity.
Qed.
Print Assumptions C34_matrix_empty.
(** SCALM with a non-positive INCA does nothing, whatever the other arguments *)
Theorem C34_scalm_inca : forall (K : num) sc c t m n (alpha : scal K) aa (a : arr (quat K)) lda inca, inca <= 0 -> scalm sc c t m n alpha aa a lda inca = Ok a.
Proof. intros K sc c t m n alpha aa a lda inca Hi. unfold scalm. replace (inca <=? 0) with true by (symmetry; apply Z.leb_le; exact Hi). rewrite orb_true_r. reflexivity. Qed.
Print Assumptions C34_scalm_inca.
Theorem C34_level23_empty : forall (K : num) f ca cb m n k (alpha beta : scal K) (ralpha rbeta : K) (a b c x y : arr (quat K)) (ra : arr K) lda ldb ldc incx incy,
  m = 0 \/ n = 0 ->
  hgemv ca m n alpha a lda x incx beta y incy = Ok y /\ gemv_real f ca m n ralpha ra lda x incx rbeta y incy = Ok y /\
  (forall cnj, hger cnj m n alpha x incx y incy a lda = Ok a) /\
  hgemm ca cb m n k alpha a lda b ldb beta c ldc = Ok c /\ gemm_real f ca cb m n k ralpha ra lda b ldb rbeta c ldc = Ok c.
Proof.
  intros. unfold hgemv, gemv_real, gemv_gen, hger, hgemm, gemm_real, gemm_gen. destruct H as [-> | ->]; rewrite ?orb_true_r; cbn [Z.eqb orb]; auto.
Qed.
Print Assumptions C34_level23_empty.
(** ALPHA = 0: A, B, X (a, b, x below) are arbitrary, in particular nowhere allocated *)
Theorem C34_gemm_fortran_alpha0 : forall (K : num), laws K ->
  forall ca cb m n k alpha (a : arr (quat K)) lda (b : arr (quat K)) ldb beta (c : arr (quat K)) ldc w,
  emb alpha = H0 -> 0 <= m -> 0 <= n -> 0 <= k -> m <= ldc -> holds_mat c ldc m n w ->
  returns (hgemm ca cb m n k alpha a lda b ldb beta c ldc) (fun c' =>
    holds_mat c' ldc m n (fun i j => Hmul (emb beta) (w i j)) /\ same_but_mat c c' ldc m n).
Proof. exact gemm_fortran_alpha0. Qed.
Print Assumptions C34_gemm_fortran_alpha0.
Theorem C34_gemm_real_alpha0 : forall (K : num), laws K ->
  forall qmul ca cb m n k (a : arr K) lda (b : arr (quat K)) ldb beta (c : arr (quat K)) ldc w,
  0 <= m -> 0 <= n -> 0 <= k -> m <= ldc -> holds_mat c ldc m n w ->
  returns (gemm_real qmul ca cb m n k n0 a lda b ldb beta c ldc) (fun c' =>
    holds_mat c' ldc m n (fun i j => Hmul (Hre beta) (w i j)) /\ same_but_mat c c' ldc m n).
Proof. exact gemm_real_alpha0. Qed.
Print Assumptions C34_gemm_real_alpha0.
(** GEMV: with ALPHA = 0 the outcome is the same for every A and X; with C23 this is BETA*y *)
Theorem C34_gemv_alpha0_no_reads : forall (K : num) c m n alpha (a a' : arr (quat K)) lda lda' x x' incx beta y incy,
  scal_is_zero alpha -> hgemv c m n alpha a lda x incx beta y incy = hgemv c m n alpha a' lda' x' incx beta y incy.
Proof.
  intros K c m n alpha a a' lda lda' x x' incx beta y incy Hz.
  assert (E : fzero alpha = true) by (destruct alpha as [r|[r s]|[r s t u]]; cbn in *; rewrite ?andb_true_iff; tauto).
  unfold hgemv. rewrite E. reflexivity.
Qed.
Print Assumptions C34_gemv_alpha0_no_reads.
Theorem C34_gemv_real_alpha0_no_reads : forall (K : num) f c m n alpha (a a' : arr K) lda lda' (x x' : arr (quat K)) incx beta y incy,
  neqb alpha n0 = true -> gemv_real f c m n alpha a lda x incx beta y incy = gemv_real f c m n alpha a' lda' x' incx beta y incy.
Proof. intros. unfold gemv_real, gemv_gen. cbn [s_eqb]. rewrite H. reflexivity. Qed.
Print Assumptions C34_gemv_real_alpha0_no_reads.
(** GERU/GERC: A is returned unchanged, X and Y are not read *)
Theorem C34_ger_alpha0 : forall (K : num) cnj m n alpha (x : arr (quat K)) incx y incy a lda,
  scal_is_zero alpha -> hger cnj m n alpha x incx y incy a lda = Ok a.
Proof.
  intros K cnj m n alpha x incx y incy a lda Hz.
  assert (E : fzero alpha = true) by (destruct alpha as [r|[r s]|[r s t u]]; cbn in *; rewrite ?andb_true_iff; tauto).
  unfold hger. rewrite E, orb_true_r. reflexivity.
Qed.
Print Assumptions C34_ger_alpha0.
(** AXPY (Fortran): Y is returned unchanged, X is not read *)
Theorem C34_axpyv_fortran_alpha0 : forall (K : num) c n alpha (x : arr (quat K)) incx y incy,
  scal_is_zero alpha -> axpyv_for c n alpha x incx y incy = Ok y.
Proof.
  intros K c n alpha x incx y incy Hz.
  assert (E : fzero alpha = true) by (destruct alpha as [r|[r s]|[r s t u]]; cbn in *; rewrite ?andb_true_iff; tauto).
  unfold axpyv_for. rewrite E. destruct (n <=? 0); reflexivity.
Qed.
Print Assumptions C34_axpyv_fortran_alpha0.
(** optimised GEMM: N = 0 touches nothing, K = 0 reads neither A nor B and gives BETA*C *)
Theorem C34_gemm_opt_n0 : forall (K : num) mc nc kc aa ba ga gb ca cb m k (alpha : scal K) (a : arr (quat K)) lda (b : arr (quat K)) ldb beta cadr (c : arr (quat K)) ldc,
  0 < nc -> gemm_opt mc nc kc aa ba ga gb ca cb m 0 k alpha a lda b ldb beta cadr c ldc = Ok c.
Proof. exact gemm_opt_n0. Qed.
Print Assumptions C34_gemm_opt_n0.
Theorem C34_gemm_opt_k0 : forall (K : num), laws K ->
  forall mc nc kc aa ba ga gb ca cb oa ob m n alpha (a : arr (quat K)) lda (b : arr (quat K)) ldb beta cadr (c : arr (quat K)) ldc w,
  0 < mc -> Z.even mc = true -> 0 < nc -> Z.even nc = true -> 0 < kc -> aa mod 32 = 0 -> ba mod 32 = 0 ->
  trans_char_r ca = Some oa -> trans_char_r cb = Some ob -> 0 <= m -> 0 <= n -> m <= ldc -> holds_mat c ldc m n w ->
  returns (gemm_opt mc nc kc aa ba ga gb ca cb m n 0 alpha a lda b ldb beta cadr c ldc) (fun c' =>
    holds_mat c' ldc m n (fun i j => Hmul (emb beta) (w i j)) /\ same_but_mat c c' ldc m n).
Proof. exact gemm_opt_k0. Qed.
Print Assumptions C34_gemm_opt_k0.
(** ... but M = 0 still reads B, and ALPHA = 0 still reads A and B: with invalid pointers the optimised GEMM is undefined
    where the other backends return *)
Definition nowhere : arr (quat Znum) := fun _ => None.
Theorem C34_gemm_opt_refuted :
  gemm_opt_default 0 0 (fun _ => zq 0 0 0 0) (fun _ => zq 0 0 0 0) "N" "N" 0 1 1 (SR (1 : Znum)) nowhere 1 nowhere 1 (SR (1 : Znum)) 0 nowhere 1 = UB /\
  gemm_opt_default 0 0 (fun _ => zq 0 0 0 0) (fun _ => zq 0 0 0 0) "N" "N" 1 1 1 (SR (0 : Znum)) nowhere 1 nowhere 1 (SR (1 : Znum)) 0 (vZ [1]) 1 = UB /\
  hgemm "N" "N" 0 1 1 (SR (1 : Znum)) nowhere 1 nowhere 1 (SR (1 : Znum)) nowhere 1 = Ok nowhere /\
  hgemm "N" "N" 1 1 1 (SR (0 : Znum)) nowhere 1 nowhere 1 (SR (1 : Znum)) (vZ [1]) 1 = Ok (vZ [1]).
Proof. repeat split; reflexivity. Qed.
Print Assumptions C34_gemm_opt_refuted.
(** the optimised AXPY with ALPHA = 0 reads X *)
Theorem C34_axpyv_opt_refuted :
  axpyv_opt "L" 1 (SR (0 : Znum)) 0 nowhere 1 0 (vZ [1]) 1 = UB /\ axpyv_for "L" 1 (SR (0 : Znum)) nowhere 1 (vZ [1]) 1 = Ok (vZ [1]).
Proof. split; reflexivity. Qed.
Print Assumptions C34_axpyv_opt_refuted.
Example C34_concrete :
  match hgemm "C" "T" 1 2 3 (SH (zq 0 0 0 0)) nowhere 3 nowhere 2 (SC (zc 0 1)) (vZ [1;2;3]) 2 with
  | Ok c' => map c' [0;1;2] = [Some (zq 0 1 1 0); Some (zq 2 0 0 (-2)); Some (zq 0 3 3 0)] | _ => False end.
Proof. vm_compute. reflexivity. Qed.
