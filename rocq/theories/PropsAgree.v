(** C40: the level-1, level-2 and level-3 implementations agree on the products they have in common.  Exact arithmetic
    ([laws K]); every "the two calls agree" is equality of the two result arrays at every position. *)
From Coq Require Import ZArith Bool Ascii List Lia.
From Verif Require Import Num NumR Res ResFacts Spec SpecFacts VecFacts MQuat MSimd MOptL1 MGenL2 MForL2 MForL3 MOptGemm LoopFacts OptGemmFacts OptGemmTop PropsL1 PropsL2 PropsL3.
Import ListNotations.
Local Open Scope Z_scope.

Lemma trans_char_sub c o : trans_char c = Some o -> trans_char_r c = Some o.
Proof. unfold trans_char_r. intros H. destruct (Ascii.eqb_spec c "R"); auto. subst. discriminate. Qed.

(** two results for the same window and frame are the same array *)
Lemma agree_mat {A} (r1 r2 : res (arr A)) c ldc m n f g : m <= ldc -> 0 <= m ->
  returns r1 (fun c1 => holds_mat c1 ldc m n f /\ same_but_mat c c1 ldc m n) ->
  returns r2 (fun c2 => holds_mat c2 ldc m n g /\ same_but_mat c c2 ldc m n) ->
  (forall i j, 0 <= i < m -> 0 <= j < n -> f i j = g i j) ->
  returns r1 (fun c1 => returns r2 (fun c2 => forall p, c1 p = c2 p)).
Proof.
  intros Hl Hm R1 R2 E. eapply returns_mono; [exact R1|]. intros c1 [F1 S1].
  eapply returns_mono; [exact R2|]. intros c2 [F2 S2] p.
  destruct (window_dec ldc m n p Hl Hm) as [(i & j & Hi & Hj & ->)|Hp].
  - rewrite F1, F2, E; auto.
  - rewrite S1, S2; auto.
Qed.
Lemma vec_is_col {A} (y y' : arr A) n ldc f : holds_vec y' n 1 f /\ same_but_vec y y' n 1 ->
  holds_mat y' ldc n 1 (fun i _ => f i) /\ same_but_mat y y' ldc n 1.
Proof.
  intros [F S]. split.
  - intros i j Hi Hj. assert (j = 0) as -> by lia. rewrite Z.mul_0_l, Z.add_0_r. rewrite <- (F i) by lia. rewrite vpos_1. reflexivity.
  - intros p Hp. apply S. intros i Hi E. apply (Hp i 0); [lia|lia|]. rewrite E, vpos_1. lia.
Qed.
Lemma vec_row {A} (x : arr A) n inc v : 0 < inc -> holds_vec x n inc v -> holds_mat x inc 1 n (fun _ j => v j).
Proof.
  intros Hi Hx i j Hi0 Hj. assert (i = 0) as -> by lia. rewrite <- (Hx j) by lia.
  unfold vpos. replace (inc <? 0) with false by lia. reflexivity.
Qed.
Lemma vec_col {A} (x : arr A) n ldx v : holds_vec x n 1 v -> holds_mat x ldx n 1 (fun i _ => v i).
Proof.
  intros Hx i j Hi0 Hj. assert (j = 0) as -> by lia. rewrite <- (Hx i) by lia. rewrite vpos_1. f_equal; lia.
Qed.

(** ** The three GEMM implementations *)
Theorem C40_gemm_agree : forall (K : num), laws K ->
  forall mc nc kc aa ba ga gb ca cb oa ob m n k alpha (a : arr (quat K)) lda (b : arr (quat K)) ldb beta cadr (c : arr (quat K)) ldc A B w,
  0 < mc -> Z.even mc = true -> 0 < nc -> Z.even nc = true -> 0 < kc -> aa mod 32 = 0 -> ba mod 32 = 0 ->
  trans_char ca = Some oa -> trans_char cb = Some ob -> 0 <= m -> 0 <= n -> 0 <= k -> m <= ldc ->
  holds_mat a lda (op_rows oa m k) (op_cols oa m k) A -> holds_mat b ldb (op_rows ob k n) (op_cols ob k n) B ->
  holds_mat c ldc m n w ->
  returns (gemm_opt mc nc kc aa ba ga gb ca cb m n k alpha a lda b ldb beta cadr c ldc) (fun c1 =>
  returns (hgemm ca cb m n k alpha a lda b ldb beta c ldc) (fun c2 => forall p, c1 p = c2 p)).
Proof.
  intros. eapply agree_mat with (m := m) (n := n) (ldc := ldc); [lia|lia|..].
  - eapply C29_gemm_opt; eauto using trans_char_sub.
  - eapply C27_gemm_fortran; eauto.
  - reflexivity.
Qed.
Print Assumptions C40_gemm_agree.
(** a real A and the same A promoted to quaternions *)
Theorem C40_gemm_real_agree : forall (K : num), laws K -> forall qmul, cxx_mul qmul ->
  forall ca cb oa ob m n k (alpha beta : K) (a : arr K) (a' : arr (quat K)) lda lda' (b : arr (quat K)) ldb (c : arr (quat K)) ldc A B w,
  trans_char ca = Some oa -> trans_char cb = Some ob -> 0 <= m -> 0 <= n -> 0 <= k -> m <= ldc ->
  holds_mat a lda (op_rows oa m k) (op_cols oa m k) A ->
  holds_mat a' lda' (op_rows oa m k) (op_cols oa m k) (fun i j => Hre (A i j)) ->
  holds_mat b ldb (op_rows ob k n) (op_cols ob k n) B -> holds_mat c ldc m n w ->
  returns (gemm_real qmul ca cb m n k alpha a lda b ldb beta c ldc) (fun c1 =>
  returns (hgemm ca cb m n k (SR alpha) a' lda' b ldb (SR beta) c ldc) (fun c2 => forall p, c1 p = c2 p)).
Proof.
  intros. eapply agree_mat with (m := m) (n := n) (ldc := ldc); [lia|lia|..].
  - eapply C28_gemm_real; eauto.
  - eapply C27_gemm_fortran; eauto.
  - reflexivity.
Qed.
Print Assumptions C40_gemm_real_agree.

(** ** GEMV is GEMM with one column; a strided x is a 1 x K matrix with leading dimension INCX, transposed.  INCY = 1.
    Partial: the pairs and shapes for which GEMV is right (C23). *)
Theorem C40_gemv_gemm_partial : forall (K : num), laws K ->
  forall c o m n alpha (a : arr (quat K)) lda (x : arr (quat K)) incx beta y ldc A v w,
  trans_char c = Some o -> 0 < m -> 0 < n -> 0 < incx -> op_rows o m n <= ldc ->
  (m = n \/ c = "C"%char \/ emb beta = H1 \/ (exists r s, alpha = SR r /\ beta = SR s)) ->
  holds_mat a lda m n A -> holds_vec x (op_cols o m n) incx v -> holds_vec y (op_rows o m n) 1 w ->
  returns (hgemv c m n alpha a lda x incx beta y 1) (fun y1 =>
  returns (hgemm c "T" (op_rows o m n) 1 (op_cols o m n) alpha a lda x incx beta y ldc) (fun y2 => forall p, y1 p = y2 p)).
Proof.
  intros K L c o m n al a lda x incx be y ldc A v w Hc Hm Hn Hi Hl Hs HA HX HY.
  assert (R : returns (hgemv c m n al a lda x incx be y 1) (fun y' =>
    holds_vec y' (op_rows o m n) 1 (gemv_elt o (op_cols o m n) (emb al) A v (emb be) w) /\ same_but_vec y y' (op_rows o m n) 1)).
  { destruct Hs as [Hs|[Hs|[Hs|(r & s & -> & ->)]]].
    - apply C23_gemv_partial; auto; try lia.
    - apply C23_gemv_partial; auto; try lia.
    - apply C23_gemv_partial; auto; try lia. right; right; auto with zarith.
    - apply C23_gemv_dd; auto; lia. }
  eapply agree_mat with (m := op_rows o m n) (n := 1) (ldc := ldc) (c := y); [try lia|try lia; destruct o; cbn; lia|..].
  - eapply returns_mono; [exact R|]. intros y' Hy. exact (vec_is_col y y' _ ldc _ Hy).
  - eapply C27_gemm_fortran with (A := A) (B := fun _ j => v j) (w := fun i _ => w i); eauto; try reflexivity.
    + destruct o; cbn; lia.
    + lia.
    + destruct o; cbn; lia.
    + destruct o; cbn in *; exact HA.
    + cbn. apply vec_row; auto.
    + intros i j Hi' Hj. assert (j = 0) as -> by lia. rewrite Z.mul_0_l, Z.add_0_r, <- (HY i Hi'), vpos_1. reflexivity.
  - intros i j Hi' Hj. assert (j = 0) as -> by lia. unfold gemv_elt, gemm_elt. reflexivity.
Qed.
Print Assumptions C40_gemv_gemm_partial.
(** the same for a real matrix, without exception *)
Theorem C40_gemv_real_gemm : forall (K : num), laws K -> forall qmul, cxx_mul qmul ->
  forall c o m n (alpha : K) (a : arr K) lda (x : arr (quat K)) incx beta y ldc A v w,
  trans_char c = Some o -> 0 < m -> 0 < n -> 0 < incx -> op_rows o m n <= ldc ->
  holds_mat a lda m n A -> holds_vec x (op_cols o m n) incx v -> holds_vec y (op_rows o m n) 1 w ->
  returns (gemv_real qmul c m n alpha a lda x incx beta y 1) (fun y1 =>
  returns (gemm_real qmul c "T" (op_rows o m n) 1 (op_cols o m n) alpha a lda x incx beta y ldc) (fun y2 => forall p, y1 p = y2 p)).
Proof.
  intros K L qmul Hq c o m n al a lda x incx be y ldc A v w Hc Hm Hn Hi Hl HA HX HY.
  eapply agree_mat with (m := op_rows o m n) (n := 1) (ldc := ldc) (c := y); [try lia|try lia; destruct o; cbn; lia|..].
  - eapply returns_mono; [eapply C24_gemv_real with (A := A) (v := v) (w := w); eauto; lia|]. intros y' Hy. exact (vec_is_col y y' _ ldc _ Hy).
  - eapply C28_gemm_real with (A := A) (B := fun _ j => v j) (w := fun i _ => w i); eauto; try reflexivity.
    + destruct o; cbn; lia.
    + lia.
    + destruct o; cbn; lia.
    + destruct o; cbn in *; exact HA.
    + cbn. apply vec_row; auto.
    + intros i j Hi' Hj. assert (j = 0) as -> by lia. rewrite Z.mul_0_l, Z.add_0_r, <- (HY i Hi'), vpos_1. reflexivity.
  - intros i j Hi' Hj. assert (j = 0) as -> by lia. unfold gemv_elt, gemm_elt. reflexivity.
Qed.
Print Assumptions C40_gemv_real_gemm.

(** ** GERU and GERC are GEMM with K = 1 and BETA = 1 *)
Lemma ger_is_gemm {K : num} (L : laws K) oa ob al X Y (A : Z -> Z -> quat K) i j x y :
  opm oa X i 0 = x -> opm ob Y 0 j = y ->
  Hadd (A i j) (Hmul al (Hmul x y)) = gemm_elt oa ob 1 al X Y (Hre n1) A i j.
Proof.
  intros <- <-. unfold gemm_elt. rewrite (Hsum_succ 0) by lia. rewrite Hsum_0, (Hadd_0_l L), (Hre_1 (K:=K)), (Hmul_1_l L).
  apply (Hadd_comm L).
Qed.
Theorem C40_geru_gemm_partial : forall (K : num), laws K ->
  forall m n alpha (x : arr (quat K)) incx y incy a lda v w A,
  0 <= m -> 0 <= n -> 0 < incx -> 0 < incy -> m <= lda -> (incx = 1 \/ forall r, alpha <> SR r) ->
  holds_vec x m incx v -> holds_vec y n incy w -> holds_mat a lda m n A ->
  returns (hger false m n alpha x incx y incy a lda) (fun a1 =>
  returns (hgemm "T" "N" m n 1 alpha x incx y incy (SR n1) a lda) (fun a2 => forall p, a1 p = a2 p)).
Proof.
  intros K L m n al x incx y incy a lda v w A Hm Hn Hix Hiy Hl Ha HX HY HA.
  eapply agree_mat with (m := m) (n := n) (ldc := lda) (f := geru_elt (emb al) v w A); [lia|lia|..].
  - destruct Ha as [->|Ha]; [|apply C25_geru_zh; auto; lia].
    destruct al; try (apply C25_geru_zh; auto; [lia|lia|discriminate]). apply C25_geru_d_partial; auto; lia.
  - eapply C27_gemm_fortran with (A := fun _ i => v i) (B := fun _ j => w j); eauto; try reflexivity; try lia.
    + cbn. apply vec_row; auto.
    + cbn. apply vec_row; auto.
  - intros i j Hi Hj. unfold geru_elt. cbn [emb]. apply (ger_is_gemm L); reflexivity.
Qed.
Print Assumptions C40_geru_gemm_partial.
(** GERC: 'C' with a contiguous y; the optimised GEMM's 'R' with any INCY *)
Theorem C40_gerc_gemm_partial : forall (K : num), laws K ->
  forall m n alpha (x : arr (quat K)) incx y ldy a lda v w A,
  0 <= m -> 0 <= n -> 0 < incx -> m <= lda -> (incx = 1 \/ forall r, alpha <> SR r) ->
  holds_vec x m incx v -> holds_vec y n 1 w -> holds_mat a lda m n A ->
  returns (hger true m n alpha x incx y 1 a lda) (fun a1 =>
  returns (hgemm "T" "C" m n 1 alpha x incx y ldy (SR n1) a lda) (fun a2 => forall p, a1 p = a2 p)).
Proof.
  intros K L m n al x incx y ldy a lda v w A Hm Hn Hix Hl Ha HX HY HA.
  eapply agree_mat with (m := m) (n := n) (ldc := lda) (f := gerc_elt (emb al) v w A); [lia|lia|..].
  - destruct Ha as [->|Ha]; [|apply C26_gerc_zh; auto; lia].
    destruct al; try (apply C26_gerc_zh; auto; [lia|lia|discriminate]). apply C26_gerc_d_partial; auto; lia.
  - eapply C27_gemm_fortran with (A := fun _ i => v i) (B := fun j _ => w j); eauto; try reflexivity; try lia.
    + cbn. apply vec_row; auto.
    + cbn. apply vec_col; auto.
  - intros i j Hi Hj. unfold gerc_elt. cbn [emb]. apply (ger_is_gemm L); reflexivity.
Qed.
Print Assumptions C40_gerc_gemm_partial.
Theorem C40_gerc_gemm_opt_partial : forall (K : num), laws K ->
  forall aa ba ga gb cadr m n alpha (x : arr (quat K)) incx y incy a lda v w A, aa mod 32 = 0 -> ba mod 32 = 0 ->
  0 <= m -> 0 <= n -> 0 < incx -> 0 < incy -> m <= lda -> (incx = 1 \/ forall r, alpha <> SR r) ->
  holds_vec x m incx v -> holds_vec y n incy w -> holds_mat a lda m n A ->
  returns (hger true m n alpha x incx y incy a lda) (fun a1 =>
  returns (gemm_opt_default aa ba ga gb "T" "R" m n 1 alpha x incx y incy (SR n1) cadr a lda) (fun a2 => forall p, a1 p = a2 p)).
Proof.
  intros K L aa ba ga gb cadr m n al x incx y incy a lda v w A Aa Ab Hm Hn Hix Hiy Hl Ha HX HY HA.
  eapply agree_mat with (m := m) (n := n) (ldc := lda) (f := gerc_elt (emb al) v w A); [lia|lia|..].
  - destruct Ha as [->|Ha]; [|apply C26_gerc_zh; auto; lia].
    destruct al; try (apply C26_gerc_zh; auto; [lia|lia|discriminate]). apply C26_gerc_d_partial; auto; lia.
  - eapply C29_gemm_opt_default with (A := fun _ i => v i) (B := fun _ j => w j); eauto; try reflexivity; try lia.
    + cbn. apply vec_row; auto.
    + cbn. apply vec_row; auto.
  - intros i j Hi Hj. unfold gerc_elt. cbn [emb]. apply (ger_is_gemm L); reflexivity.
Qed.
Print Assumptions C40_gerc_gemm_opt_partial.

(** ** dot products are 1 x N times N x 1 *)
Theorem C40_dotuv_gemm : forall (K : num), laws K ->
  forall aa ba ga gb cadr n xa (x : arr (quat K)) incx ya y incy v w (c : arr (quat K)) ldc z, aa mod 32 = 0 -> ba mod 32 = 0 ->
  0 <= n -> 0 < incx -> 0 < incy -> 1 <= ldc -> holds_vec x n incx v -> holds_vec y n incy w -> c 0 = Some z ->
  exists d, dotuv_opt n xa x incx ya y incy = Ok d /\
  returns (gemm_opt_default aa ba ga gb "N" "T" 1 1 n (SR n1) x incx y incy (SR n0) cadr c ldc) (fun c' => c' 0 = Some d).
Proof.
  intros K L aa ba ga gb cadr n xa x incx ya y incy v w c ldc z Aa Ab Hn Hix Hiy Hl HX HY HC.
  eexists. split; [apply (C16_dotuv_opt K L n xa x incx ya y incy v w); auto|].
  eapply returns_mono; [eapply C29_gemm_opt_default with (A := fun _ j => v j) (B := fun _ j => w j) (w := fun _ _ => z); eauto; try reflexivity; try lia|].
  - cbn. apply vec_row; auto.
  - cbn. apply vec_row; auto.
  - intros i j Hi Hj. assert (i = 0) as -> by lia. assert (j = 0) as -> by lia. exact HC.
  - intros c' [Hc' _]. specialize (Hc' 0 0 ltac:(lia) ltac:(lia)). cbn [Z.add Z.mul] in Hc'. rewrite Hc'. f_equal.
    unfold gemm_elt. cbn [emb opm]. rewrite (Hre_1 (K:=K)), (Hmul_1_l L). change (Hre n0) with (H0 (K:=K)).
    rewrite (Hmul_0_l L), (Hadd_0_r L). reflexivity.
Qed.
Print Assumptions C40_dotuv_gemm.
Theorem C40_dotcv_gemm : forall (K : num), laws K ->
  forall aa ba ga gb cadr n xa (x : arr (quat K)) incx ya y incy v w (c : arr (quat K)) ldc z, aa mod 32 = 0 -> ba mod 32 = 0 ->
  0 <= n -> 0 < incx -> 0 < incy -> 1 <= ldc -> holds_vec x n incx v -> holds_vec y n incy w -> c 0 = Some z ->
  exists d, dotcv_opt n xa x incx ya y incy = Ok d /\
  returns (gemm_opt_default aa ba ga gb "R" "T" 1 1 n (SR n1) x incx y incy (SR n0) cadr c ldc) (fun c' => c' 0 = Some d).
Proof.
  intros K L aa ba ga gb cadr n xa x incx ya y incy v w c ldc z Aa Ab Hn Hix Hiy Hl HX HY HC.
  eexists. split; [apply (C17_dotcv_opt K L n xa x incx ya y incy v w); auto|].
  eapply returns_mono; [eapply C29_gemm_opt_default with (A := fun _ j => v j) (B := fun _ j => w j) (w := fun _ _ => z); eauto; try reflexivity; try lia|].
  - cbn. apply vec_row; auto.
  - cbn. apply vec_row; auto.
  - intros i j Hi Hj. assert (i = 0) as -> by lia. assert (j = 0) as -> by lia. exact HC.
  - intros c' [Hc' _]. specialize (Hc' 0 0 ltac:(lia) ltac:(lia)). cbn [Z.add Z.mul] in Hc'. rewrite Hc'. f_equal.
    unfold gemm_elt. cbn [emb opm]. rewrite (Hre_1 (K:=K)), (Hmul_1_l L). change (Hre n0) with (H0 (K:=K)).
    rewrite (Hmul_0_l L), (Hadd_0_r L). reflexivity.
Qed.
Print Assumptions C40_dotcv_gemm.
(** contiguous vectors, the documented 'C','N' form, Fortran GEMM *)
Theorem C40_dotcv_gemm_fortran : forall (K : num), laws K ->
  forall n xa (x : arr (quat K)) ldx ya y ldy v w (c : arr (quat K)) ldc z,
  0 <= n -> 1 <= ldc -> holds_vec x n 1 v -> holds_vec y n 1 w -> c 0 = Some z ->
  exists d, dotcv_opt n xa x 1 ya y 1 = Ok d /\
  returns (hgemm "C" "N" 1 1 n (SR n1) x ldx y ldy (SR n0) c ldc) (fun c' => c' 0 = Some d).
Proof.
  intros K L n xa x ldx ya y ldy v w c ldc z Hn Hl HX HY HC.
  eexists. split; [apply (C17_dotcv_opt K L n xa x 1 ya y 1 v w); auto; lia|].
  eapply returns_mono; [eapply C27_gemm_fortran with (A := fun i _ => v i) (B := fun i _ => w i) (w := fun _ _ => z); eauto; try reflexivity; try lia|].
  - cbn. apply vec_col; auto.
  - cbn. apply vec_col; auto.
  - intros i j Hi Hj. assert (i = 0) as -> by lia. assert (j = 0) as -> by lia. exact HC.
  - intros c' [Hc' _]. specialize (Hc' 0 0 ltac:(lia) ltac:(lia)). cbn [Z.add Z.mul] in Hc'. rewrite Hc'. f_equal.
    unfold gemm_elt. cbn [emb opm]. rewrite (Hre_1 (K:=K)), (Hmul_1_l L). change (Hre n0) with (H0 (K:=K)).
    rewrite (Hmul_0_l L), (Hadd_0_r L). reflexivity.
Qed.
Print Assumptions C40_dotcv_gemm_fortran.
(** concrete: strided x, both through GEMV/GER/DOT and through GEMM *)
Example C40_concrete :
  let a := arr_list [zq 1 0 0 1; zq 0 2 0 0; zq 0 0 3 0; zq 1 1 1 1] in
  let x := arr_list [zq 0 1 0 0; zq 9 9 9 9; zq 0 0 1 2] in
  let y := arr_list [zq 1 0 0 0; zq 0 0 0 5] in
  match hgemv "C" 2 2 (SH (zq 0 0 1 0)) a 2 x 2 (SR (3 : Znum)) y 1, hgemm "C" "T" 2 1 2 (SH (zq 0 0 1 0)) a 2 x 2 (SR (3 : Znum)) y 2 with
  | Ok y1, Ok y2 => map y1 [0;1;2] = map y2 [0;1;2] /\ y1 0 = Some (zq 0 (-2) 0 (-1)) | _, _ => False end /\
  dotcv_opt 2 0 x 2 0 a 1 = Ok (zq 0 (-1) (-3) 2).
Proof. vm_compute. repeat split. Qed.
