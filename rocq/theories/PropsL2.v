(** C23-C26, C28: level-2 operations and the real-matrix GEMM. *)
From Coq Require Import ZArith Ascii List Lia Bool.
From Verif Require Import Num Res ResFacts Spec SpecFacts VecFacts LoopFacts MQuat QuatFacts MSimd SimdFacts MGenL1 MForL1
  L1Facts2 L1Facts3 MForL2 MGenL2 L2Facts L2GenFacts PropsL1.
Import ListNotations.
Local Open Scope Z_scope.

(** ** C23: GEMV, quaternion matrix.  The claim for one pair of scalars and one set of sizes and strides. *)
Definition gemv_claim {K : num} (alpha beta : scal K) (c : ascii) (m n incx incy : Z) : Prop :=
  forall o (a : arr (quat K)) lda x y A v w,
  trans_char c = Some o ->
  holds_mat a lda m n A -> holds_vec x (op_cols o m n) incx v -> holds_vec y (op_rows o m n) incy w ->
  returns (hgemv c m n alpha a lda x incx beta y incy) (fun y' =>
    holds_vec y' (op_rows o m n) incy (gemv_elt o (op_cols o m n) (emb alpha) A v (emb beta) w) /\
    same_but_vec y y' (op_rows o m n) incy).

(** real ALPHA and BETA: the whole property (all shapes, strides of either sign) *)
Theorem C23_gemv_dd : forall (K : num), laws K -> forall (alpha beta : K) c o m n (a : arr (quat K)) lda x incx y incy A v w,
  trans_char c = Some o -> 0 < m -> 0 < n -> incx <> 0 -> incy <> 0 ->
  holds_mat a lda m n A -> holds_vec x (op_cols o m n) incx v -> holds_vec y (op_rows o m n) incy w ->
  returns (hgemv c m n (SR alpha) a lda x incx (SR beta) y incy) (fun y' =>
    holds_vec y' (op_rows o m n) incy (gemv_elt o (op_cols o m n) (Hre alpha) A v (Hre beta) w) /\
    same_but_vec y y' (op_rows o m n) incy).
Proof.
  intros K L al be c o m n a lda x incx y incy A v w Hc Hm Hn Hix Hiy.
  apply (hgemv_ok L c o m n (SR al) a lda x incx (SR be) y incy A v w); auto.
  - left; eauto.
  - right; right; right; intros; discriminate.
  - intros _; right; intros; discriminate.
Qed.
Print Assumptions C23_gemv_dd.

(** the other eight pairs: the same for square A, and for any shape with TRANS = 'C' or with BETA = 1 and positive
    strides; for INCY <> 1 not (real ALPHA, quaternion BETA) unless BETA is 0 or 1, and not quaternion ALPHA with 'N'.
    Missing: exactly the cases refuted below. *)
Theorem C23_gemv_partial : forall (K : num), laws K -> forall alpha beta c o m n (a : arr (quat K)) lda x incx y incy A v w,
  trans_char c = Some o -> 0 < m -> 0 < n -> incx <> 0 -> incy <> 0 ->
  (m = n \/ c = "C"%char \/ (emb beta = H1 /\ 0 < incx /\ 0 < incy)) ->
  (incy = 1 \/ emb beta = H0 \/ emb beta = H1 \/ ~ exists r q, alpha = SR r /\ beta = SH q) ->
  (incy = 1 \/ c <> "N"%char \/ ~ exists q, alpha = SH q) ->
  holds_mat a lda m n A -> holds_vec x (op_cols o m n) incx v -> holds_vec y (op_rows o m n) incy w ->
  returns (hgemv c m n alpha a lda x incx beta y incy) (fun y' =>
    holds_vec y' (op_rows o m n) incy (gemv_elt o (op_cols o m n) (emb alpha) A v (emb beta) w) /\
    same_but_vec y y' (op_rows o m n) incy).
Proof.
  intros K L al be c o m n a lda x incx y incy A v w Hc Hm Hn Hix Hiy Hs Hb Ho.
  apply (hgemv_ok L c o m n al a lda x incx be y incy A v w); auto.
  - destruct Hs as [->|[->|Hs]]; unfold shape_ok; auto. right; right; left. injection Hc as <-; auto.
  - destruct Hb as [->|[E|[E|E]]]; unfold beta_ok; auto. right; right; right. intros r q E1 E2. apply E; eauto.
  - intros ->. destruct Ho as [->|[E|E]]; auto.
    + exfalso. apply E. unfold trans_char in Hc. destruct (Ascii.eqb_spec c "N"); auto.
      destruct (Ascii.eqb c "T"); [discriminate|]. destruct (Ascii.eqb c "C"); discriminate.
    + right. intros q Eq. apply E; eauto.
Qed.
Print Assumptions C23_gemv_partial.

(** M <> N, TRANS = 'N' or 'T', unit strides: wrong for every pair of scalar types but (real, real).
    LENX and LENY are exchanged, so BETA is applied to the wrong number of elements of y. *)
Definition two_of_type : list (scal Znum * scal Znum) :=
  [ (SR (K:=Znum) 1, SC (zc 0 0)); (SR (K:=Znum) 1, SH (zq 0 0 0 0)); (SC (zc 1 0), SR (K:=Znum) 0); (SC (zc 1 0), SC (zc 0 0));
    (SC (zc 1 0), SH (zq 0 0 0 0)); (SH (zq 1 0 0 0), SR (K:=Znum) 0); (SH (zq 1 0 0 0), SC (zc 0 0)); (SH (zq 1 0 0 0), SH (zq 0 0 0 0)) ].
Theorem C23_gemv_nonsquare_refuted : forall alpha beta, In (alpha, beta) two_of_type ->
  ~ gemv_claim alpha beta "N" 2 1 1 1 /\ ~ gemv_claim alpha beta "T" 1 2 1 1.
Proof.
  intros alpha beta Hin.
  assert (G : forall y' : arr (quat Znum), y' 1 = Some (zq 6 0 0 0) -> forall n w, 1 < n -> holds_vec y' n 1 w -> w 1 = zq 6 0 0 0).
  { intros y' E n w Hn H. specialize (H 1 ltac:(lia)). rewrite vpos_1, E in H. injection H; auto. }
  split; intros F.
  - specialize (F OpN (arr_list [zq 1 0 0 0; zq 1 0 0 0]) 2 (arr_list [zq 1 0 0 0]) (arr_list [zq 5 0 0 0; zq 5 0 0 0])
      (fun _ _ => zq 1 0 0 0) (fun _ => zq 1 0 0 0) (fun _ => zq 5 0 0 0) eq_refl).
    repeat (destruct Hin as [[= <- <-]|Hin]; [|]); try contradiction;
    (destruct F as [F _];
      [intros i j Hi Hj; assert (j = 0) as -> by lia; assert (i = 0 \/ i = 1) as [->| ->] by lia; reflexivity
      |intros i Hi; cbn in Hi; assert (i = 0) as -> by lia; reflexivity
      |intros i Hi; cbn in Hi; assert (i = 0 \/ i = 1) as [->| ->] by lia; reflexivity
      |apply (G _ eq_refl 2) in F; [discriminate|lia]]).
  - specialize (F OpT (arr_list [zq 1 0 0 0; zq 1 0 0 0]) 1 (arr_list [zq 1 0 0 0]) (arr_list [zq 5 0 0 0; zq 5 0 0 0])
      (fun _ _ => zq 1 0 0 0) (fun _ => zq 1 0 0 0) (fun _ => zq 5 0 0 0) eq_refl).
    repeat (destruct Hin as [[= <- <-]|Hin]; [|]); try contradiction;
    (destruct F as [F _];
      [intros i j Hi Hj; assert (i = 0) as -> by lia; assert (j = 0 \/ j = 1) as [->| ->] by lia; reflexivity
      |intros i Hi; cbn in Hi; assert (i = 0) as -> by lia; reflexivity
      |intros i Hi; cbn in Hi; assert (i = 0 \/ i = 1) as [->| ->] by lia; reflexivity
      |apply (G _ eq_refl 2) in F; [discriminate|lia]]).
Qed.
Print Assumptions C23_gemv_nonsquare_refuted.
(** and it writes outside y: M = 1, N = 2, TRANS = 'N', y of one element *)
Theorem C23_gemv_out_of_bounds_refuted : forall alpha beta, In (alpha, beta) two_of_type ->
  holds_mat (vZ [1;1]) 1 1 2 (fun _ _ => zq 1 0 0 (-1)) /\ holds_vec (vZ [1;1]) 2 1 (fun _ => zq 1 0 0 (-1)) /\
  holds_vec (vZ [5]) 1 1 (fun _ => zq 5 0 0 (-5)) /\
  hgemv "N" 1 2 alpha (vZ [1;1]) 1 (vZ [1;1]) 1 beta (vZ [5]) 1 = UB.
Proof.
  intros alpha beta Hin. split; [|split; [|split]].
  - intros i j Hi Hj. assert (i = 0) as -> by lia. assert (j = 0 \/ j = 1) as [->| ->] by lia; reflexivity.
  - intros i Hi. assert (i = 0 \/ i = 1) as [->| ->] by lia; reflexivity.
  - intros i Hi. assert (i = 0) as -> by lia. reflexivity.
  - repeat (destruct Hin as [[= <- <-]|Hin]; [reflexivity|]). contradiction.
Qed.
Print Assumptions C23_gemv_out_of_bounds_refuted.
(** real ALPHA, quaternion BETA, INCY = 2, square: BETA is applied repeatedly to the first element *)
Theorem C23_gemv_dh_strided_refuted : ~ gemv_claim (@SR Znum 1) (SH (zq 2 0 0 0)) "C" 2 2 1 2.
Proof.
  intros F. specialize (F OpC (vZ [0;0;0;0]) 2 (vZ [0;0]) (vZ [1;0;1;0]) (fun _ _ => zq 0 0 0 0) (fun _ => zq 0 0 0 0) (fun _ => zq 1 0 0 (-1)) eq_refl).
  destruct F as [F _].
  - intros i j Hi Hj. assert (i = 0 \/ i = 1) as [->| ->] by lia; assert (j = 0 \/ j = 1) as [->| ->] by lia; reflexivity.
  - intros i Hi. cbn in Hi. assert (i = 0 \/ i = 1) as [->| ->] by lia; reflexivity.
  - intros i Hi. cbn in Hi. assert (i = 0 \/ i = 1) as [->| ->] by lia; reflexivity.
  - specialize (F 1 ltac:(cbn; lia)). discriminate.
Qed.
Print Assumptions C23_gemv_dh_strided_refuted.
(** quaternion ALPHA, 'N', INCY = 2: wrong conjugation, for every type of BETA *)
Theorem C23_gemv_h_strided_refuted : forall beta, In beta [SR (K:=Znum) 1; SC (zc 1 0); SH (zq 1 0 0 0)] ->
  ~ gemv_claim (SH (zq 1 0 0 0)) beta "N" 1 1 1 2.
Proof.
  intros beta Hin F. specialize (F OpN (arr_list [zq 0 0 1 0]) 1 (arr_list [zq 0 1 0 0]) (vZ [0]) (fun _ _ => zq 0 0 1 0) (fun _ => zq 0 1 0 0) (fun _ => zq 0 0 0 0) eq_refl).
  repeat (destruct Hin as [<-|Hin]; [|]); try contradiction;
  (destruct F as [F _];
   [intros i j Hi Hj; assert (i = 0) as -> by lia; assert (j = 0) as -> by lia; reflexivity
   |intros i Hi; cbn in Hi; assert (i = 0) as -> by lia; reflexivity
   |intros i Hi; cbn in Hi; assert (i = 0) as -> by lia; reflexivity
   |specialize (F 0 ltac:(cbn; lia)); discriminate]).
Qed.
Print Assumptions C23_gemv_h_strided_refuted.
(** an empty dimension: y is returned unchanged (reference BLAS convention), nothing is read *)
Theorem C23_gemv_empty : forall (K : num) c m n alpha (a : arr (quat K)) lda x incx beta y incy, m = 0 \/ n = 0 ->
  hgemv c m n alpha a lda x incx beta y incy = Ok y.
Proof. intros K c m n alpha a lda x incx beta y incy [->| ->]; unfold hgemv; [|rewrite orb_true_r]; reflexivity. Qed.
Print Assumptions C23_gemv_empty.
Example C23_concrete :
  holds_mat (vZ [1;2;9;3;4;9]) 3 2 2 (fun i j => zq (1 + i + 2 * j) 0 0 (-(1 + i + 2 * j))) /\
  match hgemv "C" 2 2 (SH (zq 0 0 1 0)) (vZ [1;2;9;3;4;9]) 3 (vZ [1;7;2]) (-2) (SC (zc 0 1)) (vZ [1;2]) 1 with
  | Ok y' => map y' [0;1;2] = [Some (zq 0 1 9 0); Some (zq 0 2 22 0); None] | _ => False end.
Proof.
  split; [|vm_compute; reflexivity].
  intros i j Hi Hj. assert (i = 0 \/ i = 1) as [->| ->] by lia; assert (j = 0 \/ j = 1) as [->| ->] by lia; reflexivity.
Qed.

(** ** C24: GEMV, real matrix *)
Theorem C24_gemv_real : forall (K : num), laws K -> forall qmul, cxx_mul qmul ->
  forall c o m n (alpha : K) (a : arr K) lda (x : arr (quat K)) incx beta y incy A v w,
  trans_char c = Some o -> 0 < m -> 0 < n -> 0 < incx -> 0 < incy ->
  holds_mat a lda m n A -> holds_vec x (op_cols o m n) incx v -> holds_vec y (op_rows o m n) incy w ->
  returns (gemv_real qmul c m n alpha a lda x incx beta y incy) (fun y' =>
    holds_vec y' (op_rows o m n) incy (gemv_elt o (op_cols o m n) (Hre alpha) (fun i j => Hre (A i j)) v (Hre beta) w) /\
    same_but_vec y y' (op_rows o m n) incy).
Proof.
  intros K L qmul Hq c o m n al a lda x incx be y incy A v w Hc Hm Hn Hix Hiy.
  apply (gemv_gen_ok L qmul r_mul_q rmulscal rscalmul nsub smartconj_r Hre (cxx_mul_H L _ Hq)
    (fun r q => r_mul_q_H L q r) (Hre_minus L) (Hre_conj L) (SR al)); auto using (eq_ok_real L).
  - intros r. symmetry. apply (Hre_mul L).
  - intros r. symmetry. apply (Hre_mul L).
Qed.
Print Assumptions C24_gemv_real.
Example C24_concrete :
  match gemv_real q_mul_avx "N" 2 2 (3 : Znum) (arr_list [1;2;9;3;4;9] : arr Znum) 3 (vZ [1;7;2]) 2 (2 : Znum) (vZ [1;2]) 1 with
  | Ok y' => map y' [0;1] = map (vZ [23;34]) [0;1] | _ => False end.
Proof. vm_compute. reflexivity. Qed.
(** the same template with a quaternion matrix (all nine scalar type pairs; not compiled into the library).
    Partial: a quaternion ALPHA or BETA must not differ from 0 (1) in the k component only, because operator== ignores it. *)
Theorem C24_gemv_quat_template_partial : forall (K : num), laws K -> forall qmul, cxx_mul qmul ->
  forall c o m n alpha (a : arr (quat K)) lda (x : arr (quat K)) incx beta y incy A v w,
  (forall d, alpha = SH (Quat n0 n0 n0 d) -> d = n0) ->
  (forall d, beta = SH (Quat n0 n0 n0 d) \/ beta = SH (Quat n1 n0 n0 d) -> d = n0) ->
  trans_char c = Some o -> 0 < m -> 0 < n -> 0 < incx -> 0 < incy ->
  holds_mat a lda m n A -> holds_vec x (op_cols o m n) incx v -> holds_vec y (op_rows o m n) incy w ->
  returns (gemv_quat qmul c m n alpha a lda x incx beta y incy) (fun y' =>
    holds_vec y' (op_rows o m n) incy (gemv_elt o (op_cols o m n) (emb alpha) A v (emb beta) w) /\
    same_but_vec y y' (op_rows o m n) incy).
Proof.
  intros K L qmul Hq c o m n al a lda x incx be y incy A v w Ea Eb Hc Hm Hn Hix Hiy.
  apply (gemv_gen_ok L qmul qmul (smul_l qmul) (fun s q => smul_r qmul q s) q_sub smartconj_q (fun q => q) (cxx_mul_H L _ Hq)
    (cxx_mul_H L _ Hq) (fun _ _ => eq_refl) (fun _ => eq_refl) al); auto.
  - intros q. apply (smul_l_H L); apply (cxx_mul_H L _ Hq).
  - intros q. apply (smul_r_H L); apply (cxx_mul_H L _ Hq).
  - apply (eq_ok_all L). intros d E. apply Ea; auto.
  - apply (eq_ok_all L). intros d E. apply Eb; auto.
  - apply (eq_ok_all L). intros d E. apply Eb; auto.
Qed.
Print Assumptions C24_gemv_quat_template_partial.

(** ** C25, C26: GERU, GERC *)
Theorem C25_geru_zh : forall (K : num), laws K -> forall m n alpha (x : arr (quat K)) incx y incy a lda v w A,
  0 <= m -> 0 <= n -> incx <> 0 -> incy <> 0 -> m <= lda -> (forall r, alpha <> SR r) ->
  holds_vec x m incx v -> holds_vec y n incy w -> holds_mat a lda m n A ->
  returns (hger false m n alpha x incx y incy a lda) (fun a' =>
    holds_mat a' lda m n (geru_elt (emb alpha) v w A) /\ same_but_mat a a' lda m n).
Proof. intros K L m n al x incx y incy a lda v w A H1 H2 H3 H4 H5 H6. exact (hger_ok L false m n al x incx y incy a lda v w A H1 H2 H3 H4 H5 (or_intror H6)). Qed.
Print Assumptions C25_geru_zh.
Theorem C25_geru_d_partial : forall (K : num), laws K -> forall m n (alpha : K) (x : arr (quat K)) y incy a lda v w A,
  0 <= m -> 0 <= n -> incy <> 0 -> m <= lda ->
  holds_vec x m 1 v -> holds_vec y n incy w -> holds_mat a lda m n A ->
  returns (hger false m n (SR alpha) x 1 y incy a lda) (fun a' =>
    holds_mat a' lda m n (geru_elt (Hre alpha) v w A) /\ same_but_mat a a' lda m n).
Proof. intros K L m n al x y incy a lda v w A H1 H2 H4 H5. exact (hger_ok L false m n (SR al) x 1 y incy a lda v w A H1 H2 ltac:(lia) H4 H5 (or_introl eq_refl)). Qed.
Print Assumptions C25_geru_d_partial.
(** real ALPHA with INCX <> 1 reads an undefined variable, GERU and GERC: for every incx <> 1 there is a failing call *)
Theorem C25_ger_d_strided_refuted : forall cnj incx, incx <> 0 -> incx <> 1 ->
  holds_vec (vZ [1]) 1 incx (fun _ => zq 1 0 0 (-1)) /\ holds_vec (vZ [1]) 1 1 (fun _ => zq 1 0 0 (-1)) /\ holds_mat (vZ [1]) 1 1 1 (fun _ _ => zq 1 0 0 (-1)) /\ hger cnj 1 1 (@SR Znum 1) (vZ [1]) incx (vZ [1]) 1 (vZ [1]) 1 = UB.
Proof.
  intros cnj incx H0 H1. split; [|split; [|split]].
  - intros i Hi. assert (i = 0) as -> by lia. unfold vpos. destruct (incx <? 0); reflexivity.
  - intros i Hi. assert (i = 0) as -> by lia. reflexivity.
  - intros i j Hi Hj. assert (i = 0) as -> by lia. assert (j = 0) as -> by lia. reflexivity.
  - unfold hger. cbn [Z.eqb orb fzero neqb Znum]. replace (incx =? 1) with false by lia. cbn. reflexivity.
Qed.
Print Assumptions C25_ger_d_strided_refuted.
Example C25_concrete :
  match hger false 2 2 (SC (zc 0 1)) (vZ [1;7;2]) 2 (vZ [1;2]) (-1) (vZ [0;0;9;0;0;9]) 3 with
  | Ok a' => map a' [0;1;2;3;4;5] = map Some [zq 0 0 4 0; zq 0 0 8 0; zq 9 0 0 (-9); zq 0 0 2 0; zq 0 0 4 0; zq 9 0 0 (-9)]
  | _ => False end.
Proof. vm_compute. reflexivity. Qed.
Theorem C26_gerc_zh : forall (K : num), laws K -> forall m n alpha (x : arr (quat K)) incx y incy a lda v w A,
  0 <= m -> 0 <= n -> incx <> 0 -> incy <> 0 -> m <= lda -> (forall r, alpha <> SR r) ->
  holds_vec x m incx v -> holds_vec y n incy w -> holds_mat a lda m n A ->
  returns (hger true m n alpha x incx y incy a lda) (fun a' =>
    holds_mat a' lda m n (gerc_elt (emb alpha) v w A) /\ same_but_mat a a' lda m n).
Proof. intros K L m n al x incx y incy a lda v w A H1 H2 H3 H4 H5 H6. exact (hger_ok L true m n al x incx y incy a lda v w A H1 H2 H3 H4 H5 (or_intror H6)). Qed.
Print Assumptions C26_gerc_zh.
Theorem C26_gerc_d_partial : forall (K : num), laws K -> forall m n (alpha : K) (x : arr (quat K)) y incy a lda v w A,
  0 <= m -> 0 <= n -> incy <> 0 -> m <= lda ->
  holds_vec x m 1 v -> holds_vec y n incy w -> holds_mat a lda m n A ->
  returns (hger true m n (SR alpha) x 1 y incy a lda) (fun a' =>
    holds_mat a' lda m n (gerc_elt (Hre alpha) v w A) /\ same_but_mat a a' lda m n).
Proof. intros K L m n al x y incy a lda v w A H1 H2 H4 H5. exact (hger_ok L true m n (SR al) x 1 y incy a lda v w A H1 H2 ltac:(lia) H4 H5 (or_introl eq_refl)). Qed.
Print Assumptions C26_gerc_d_partial.
Theorem C26_gerc_d_strided_refuted : forall incx, incx <> 0 -> incx <> 1 ->
  hger true 1 1 (@SR Znum 1) (vZ [1]) incx (vZ [1]) 1 (vZ [1]) 1 = UB.
Proof. intros incx H0 H1. apply (C25_ger_d_strided_refuted true incx H0 H1). Qed.
Print Assumptions C26_gerc_d_strided_refuted.
Example C26_concrete :
  match hger true 1 2 (SH (zq 0 0 1 0)) (vZ [1;7]) 2 (vZ [1;2]) 1 (vZ [0;0]) 1 with
  | Ok a' => map a' [0;1] = map Some [zq 0 0 2 0; zq 0 0 4 0] | _ => False end.
Proof. vm_compute. reflexivity. Qed.
(** the generic C++ templates (not compiled into the library), quaternion vectors.  Partial: an element of y of the
    form d*k, d <> 0, compares equal to 0 and its column is skipped; ALPHA likewise. *)
Theorem C25_ger_template_partial : forall (K : num), laws K -> forall qmul, cxx_mul qmul ->
  forall (cnj : bool) m n alpha (x : arr (quat K)) incx y incy a lda v w A,
  0 <= m -> 0 <= n -> 0 < incx -> 0 < incy -> m <= lda ->
  (forall d, alpha = SH (Quat n0 n0 n0 d) -> d = n0) ->
  (forall j d, 0 <= j < n -> w j = Quat n0 n0 n0 d -> d = n0) ->
  holds_vec x m incx v -> holds_vec y n incy w -> holds_mat a lda m n A ->
  returns (ger_gen qmul cnj m n alpha x incx y incy a lda) (fun a' =>
    holds_mat a' lda m n ((if cnj then gerc_elt else geru_elt) (emb alpha) v w A) /\ same_but_mat a a' lda m n).
Proof.
  intros K L qmul Hq cnj m n al x incx y incy a lda v w A H1 H2 H3 H4 H5 Ea Ew.
  apply (ger_gen_ok L qmul cnj m n al x incx y incy a lda v w A (cxx_mul_H L _ Hq)); auto.
  - apply (eq_ok_all L). intros d E. apply Ea; auto.
  - intros j Hj. apply (q_neqb_zero L). intros d E. apply (Ew j d Hj E).
Qed.
Print Assumptions C25_ger_template_partial.
Theorem C25_ger_template_refuted :
  match ger_gen q_mul false 1 1 (@SR Znum 1) (vZ [1]) 1 (arr_list [zq 0 0 0 1]) 1 (vZ [0]) 1 with
  | Ok a' => a' 0 = Some (zq 0 0 0 0) /\ geru_elt (Hre (K:=Znum) 1) (fun _ => zq 1 0 0 (-1)) (fun _ => zq 0 0 0 1) (fun _ _ => zq 0 0 0 0) 0 0 <> zq 0 0 0 0
  | _ => False end.
Proof. vm_compute. split; [reflexivity|discriminate]. Qed.
Print Assumptions C25_ger_template_refuted.

(** ** C28: GEMM, real A *)
Theorem C28_gemm_real : forall (K : num), laws K -> forall qmul, cxx_mul qmul ->
  forall ca cb oa ob m n k (alpha : K) (a : arr K) lda (b : arr (quat K)) ldb beta c ldc A B w,
  trans_char ca = Some oa -> trans_char cb = Some ob -> 0 <= m -> 0 <= n -> 0 <= k -> m <= ldc ->
  holds_mat a lda (op_rows oa m k) (op_cols oa m k) A -> holds_mat b ldb (op_rows ob k n) (op_cols ob k n) B ->
  holds_mat c ldc m n w ->
  returns (gemm_real qmul ca cb m n k alpha a lda b ldb beta c ldc) (fun c' =>
    holds_mat c' ldc m n (gemm_elt oa ob k (Hre alpha) (fun i j => Hre (A i j)) B (Hre beta) w) /\ same_but_mat c c' ldc m n).
Proof.
  intros K L qmul Hq ca cb oa ob m n k al a lda b ldb be c ldc A B w Ca Cb Hm Hn Hk Hld.
  apply (gemm_gen_ok L qmul r_mul_q rmulscal smartconj_r Hre (cxx_mul_H L _ Hq)
    (fun r q => r_mul_q_H L q r) (Hre_conj L) (SR al)); auto using (eq_ok_real L).
  intros r. symmetry. apply (Hre_mul L).
Qed.
Print Assumptions C28_gemm_real.
(** quaternion A through the same template (the reference implementation; not compiled into the library) *)
Theorem C28_gemm_quat_template_partial : forall (K : num), laws K -> forall qmul, cxx_mul qmul ->
  forall ca cb oa ob m n k alpha (a : arr (quat K)) lda (b : arr (quat K)) ldb beta c ldc A B w,
  (forall d, alpha = SH (Quat n0 n0 n0 d) -> d = n0) ->
  (forall d, beta = SH (Quat n0 n0 n0 d) \/ beta = SH (Quat n1 n0 n0 d) -> d = n0) ->
  trans_char ca = Some oa -> trans_char cb = Some ob -> 0 <= m -> 0 <= n -> 0 <= k -> m <= ldc ->
  holds_mat a lda (op_rows oa m k) (op_cols oa m k) A -> holds_mat b ldb (op_rows ob k n) (op_cols ob k n) B ->
  holds_mat c ldc m n w ->
  returns (gemm_quat qmul ca cb m n k alpha a lda b ldb beta c ldc) (fun c' =>
    holds_mat c' ldc m n (gemm_elt oa ob k (emb alpha) A B (emb beta) w) /\ same_but_mat c c' ldc m n).
Proof.
  intros K L qmul Hq ca cb oa ob m n k al a lda b ldb be c ldc A B w Ea Eb Ca Cb Hm Hn Hk Hld.
  apply (gemm_gen_ok L qmul qmul (smul_l qmul) smartconj_q (fun q => q) (cxx_mul_H L _ Hq) (cxx_mul_H L _ Hq) (fun _ => eq_refl) al); auto.
  - intros q. apply (smul_l_H L); apply (cxx_mul_H L _ Hq).
  - apply (eq_ok_all L). intros d E. apply Ea; auto.
  - apply (eq_ok_all L). intros d E. apply Eb; auto.
  - apply (eq_ok_all L). intros d E. apply Eb; auto.
Qed.
Print Assumptions C28_gemm_quat_template_partial.
Example C28_concrete :
  match gemm_real q_mul "T" "C" 2 1 2 (1 : Znum) (arr_list [1;2;3;4] : arr Znum) 2 (vZ [1;2]) 1 (10 : Znum) (vZ [1;2;7]) 3 with
  | Ok c' => map c' [0;1;2] = map Some [zq 15 0 0 (-5); zq 31 0 0 (-9); zq 7 0 0 (-7)] | _ => False end.
Proof. vm_compute. reflexivity. Qed.
