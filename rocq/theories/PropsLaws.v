(** C52, C53: algebraic laws across level-1 and level-2 calls. *)
From Coq Require Import ZArith Ascii List Lia Reals Lra.
From Verif Require Import Num NumR Res ResFacts Spec SpecFacts VecFacts MQuat QuatFacts RealFacts MSimd MOptL1 MGenL1 MForL1 L1Facts L1Facts2 L1Facts3
  MForL2 LawFacts PropsL1 PropsL2.
Import ListNotations.
Local Open Scope Z_scope.

Lemma vec_cases n inc p : inc <> 0 -> (exists i, 0 <= i < n /\ p = vpos n inc i) \/ (forall i, 0 <= i < n -> p <> vpos n inc i).
Proof.
  intros _. destruct (Z_lt_le_dec n 0) as [Hn|Hn]; [right; intros; lia|].
  assert (G : forall k, 0 <= k -> (exists i, 0 <= i < k /\ p = vpos n inc i) \/ (forall i, 0 <= i < k -> p <> vpos n inc i)).
  { intros k Hk. pattern k. apply natlike_ind; auto; [right; intros; lia|]. intros q Hq [(i & Hi & E)|N]; [left; exists i; split; [lia|auto]|].
    destruct (Z.eq_dec p (vpos n inc q)) as [E|E]; [left; exists q; split; [lia|auto]|].
    right. intros i Hi. destruct (Z.eq_dec i q) as [->|]; auto. apply N. lia. }
  apply G; auto.
Qed.
Lemma vec_restored {A} (x x' x'' : arr A) n inc v : inc <> 0 -> holds_vec x n inc v -> same_but_vec x x' n inc ->
  holds_vec x'' n inc v -> same_but_vec x' x'' n inc -> same x x''.
Proof.
  intros Hi Hx S1 Hx'' S2 p. destruct (vec_cases n inc p Hi) as [(i & Hn & ->)|N]; [rewrite Hx, Hx''; auto|rewrite S2, S1; auto].
Qed.

(** ** C52 *)
Theorem C52_swap_twice : forall (K : num) n xa (x : arr (quat K)) incx ya y incy v w,
  0 < incx -> 0 < incy -> holds_vec x n incx v -> holds_vec y n incy w ->
  returns (swapv_opt n xa x incx ya y incy) (fun '(x1, y1) =>
  returns (swapv_opt n xa x1 incx ya y1 incy) (fun '(x2, y2) => same x x2 /\ same y y2)).
Proof.
  intros K n xa x incx ya y incy v w Hix Hiy Hx Hy.
  eapply returns_mono; [exact (C12_swapv_opt K n xa x incx ya y incy v w Hix Hiy Hx Hy)|]. intros [x1 y1] [[X1 SX1] [Y1 SY1]].
  eapply returns_mono; [exact (C12_swapv_opt K n xa x1 incx ya y1 incy w v Hix Hiy X1 Y1)|]. intros [x2 y2] [[X2 SX2] [Y2 SY2]].
  split; [apply (vec_restored x x1 x2 n incx v)|apply (vec_restored y y1 y2 n incy w)]; auto; lia.
Qed.
Print Assumptions C52_swap_twice.
(** SCALV by ALPHA then by BETA is SCALV by the product in call order (BETA*ALPHA on the left, ALPHA*BETA on the right);
    if that product is one, the vector is restored *)
Theorem C52_scal_compose : forall (K : num), laws K -> forall c s n alpha beta xa (x : arr (quat K)) inc v,
  side_char c = Some s -> 0 < inc -> holds_vec x n inc v ->
  returns (scalv_opt c n alpha xa x inc) (fun x1 => returns (scalv_opt c n beta xa x1 inc) (fun x2 =>
    returns (scalv_opt c n (SH (Hside s (emb beta) (emb alpha))) xa x inc) (fun x3 => same x2 x3) /\
    (Hside s (emb beta) (emb alpha) = H1 -> same x x2))).
Proof.
  intros K L c s n alpha beta xa x inc v Hc Hi Hx.
  eapply returns_mono; [exact (C14_scalv_opt K L c s n alpha xa x inc v Hc Hi Hx)|]. intros x1 [X1 S1].
  eapply returns_mono; [exact (C14_scalv_opt K L c s n beta xa x1 inc _ Hc Hi X1)|]. intros x2 [X2 S2].
  assert (X2' : holds_vec x2 n inc (fun i => Hside s (Hside s (emb beta) (emb alpha)) (v i))).
  { intros i Hn. rewrite X2 by auto. rewrite (Hside_comp L). reflexivity. }
  split.
  - eapply returns_mono; [exact (C14_scalv_opt K L c s n (SH (Hside s (emb beta) (emb alpha))) xa x inc v Hc Hi Hx)|]. intros x3 [X3 S3] p.
    destruct (vec_cases n inc p ltac:(lia)) as [(i & Hn & ->)|N]; [rewrite X2', X3 by auto; reflexivity|rewrite S3, S2, S1; auto].
  - intros E. apply (vec_restored x x1 x2 n inc v); auto; try lia. intros i Hn. rewrite X2' by auto. rewrite E, (Hside_1 L). reflexivity.
Qed.
Print Assumptions C52_scal_compose.
(** over the reals: SCALV by q and then by inv(q) restores the vector, on either side *)
Theorem C52_scal_inverse : forall c s n (q : quat Rnum) xa (x : arr (quat Rnum)) inc v,
  side_char c = Some s -> 0 < inc -> q <> H0 -> holds_vec x n inc v ->
  returns (scalv_opt c n (SH q) xa x inc) (fun x1 => returns (scalv_opt c n (SH (q_inv q)) xa x1 inc) (fun x2 => same x x2)).
Proof.
  intros c s n q xa x inc v Hc Hi Hq Hx.
  eapply returns_mono; [exact (C52_scal_compose Rnum Rlaws c s n (SH q) (SH (q_inv q)) xa x inc v Hc Hi Hx)|]. intros x1 R1.
  eapply returns_mono; [exact R1|]. intros x2 [_ R2]. apply R2. cbn [emb]. destruct s; cbn [Hside]; rewrite <- (q_mul_H Rlaws); [exact (inv_left q Hq)|exact (inv_right q Hq)].
Qed.
Print Assumptions C52_scal_inverse.
(** AXPYV with ALPHA and then with -ALPHA restores y *)
Theorem C52_axpy_undo : forall (K : num), laws K -> forall c s n alpha beta xa (x : arr (quat K)) incx ya y incy v w,
  side_char c = Some s -> 0 < incx -> 0 < incy -> holds_vec x n incx v -> holds_vec y n incy w -> emb beta = Hopp (emb alpha) ->
  returns (axpyv_opt c n alpha xa x incx ya y incy) (fun y1 => returns (axpyv_opt c n beta xa x incx ya y1 incy) (fun y2 => same y y2)).
Proof.
  intros K L c s n alpha beta xa x incx ya y incy v w Hc Hix Hiy Hx Hy E.
  eapply returns_mono; [exact (C15_axpyv_opt K L c s n alpha xa x incx ya y incy v w Hc Hix Hiy Hx Hy)|]. intros y1 [Y1 S1].
  eapply returns_mono; [exact (C15_axpyv_opt K L c s n beta xa x incx ya y1 incy v _ Hc Hix Hiy Hx Y1)|]. intros y2 [Y2 S2].
  apply (vec_restored y y1 y2 n incy w); auto; try lia. intros i Hi. rewrite Y2 by auto. rewrite E, (Hside_undo L). reflexivity.
Qed.
Print Assumptions C52_axpy_undo.
(** the inner product is linear: on the right in its second argument, on the left (without conjugation) or conjugate-linear in its first *)
Theorem C52_dot_linear : forall (K : num), laws K -> forall n alpha xa (x : arr (quat K)) incx ya y incy za z incz u v w,
  0 < incx -> 0 < incy -> 0 < incz -> holds_vec x n incx u -> holds_vec y n incy v -> holds_vec z n incz w ->
  exists p q r, dotcv_opt n xa x incx ya y incy = Ok p /\ dotcv_opt n xa x incx za z incz = Ok q /\ dotuv_opt n za z incz xa x incx = Ok r /\
  (** y := y + z*ALPHA *)
  returns (axpyv_opt "R" n alpha za z incz ya y incy) (fun y' => dotcv_opt n xa x incx ya y' incy = Ok (Hadd p (Hmul q (emb alpha)))) /\
  (** z := z*ALPHA *)
  returns (scalv_opt "R" n alpha za z incz) (fun z' => dotcv_opt n za z' incz xa x incx = Ok (Hmul (Hconj (emb alpha)) (Hconj q)) ) /\
  (** z := ALPHA*z *)
  returns (scalv_opt "L" n alpha za z incz) (fun z' => dotuv_opt n za z' incz xa x incx = Ok (Hmul (emb alpha) r)).
Proof.
  intros K L n alpha xa x incx ya y incy za z incz u v w Hx Hy Hz X Y Z0.
  rewrite (C17_dotcv_opt K L n xa x incx ya y incy u v Hx Hy X Y), (C17_dotcv_opt K L n xa x incx za z incz u w Hx Hz X Z0),
    (C16_dotuv_opt K L n za z incz xa x incx w u Hz Hx Z0 X).
  eexists _, _, _. split; [reflexivity|]. split; [reflexivity|]. split; [reflexivity|]. split; [|split].
  - eapply returns_mono; [exact (C15_axpyv_opt K L "R" Rgt n alpha za z incz ya y incy w v eq_refl Hz Hy Z0 Y)|]. intros y' [Y' _].
    rewrite (C17_dotcv_opt K L n xa x incx ya y' incy u _ Hx Hy X Y'). f_equal. rewrite (Hmul_sum_r L), <- (Hsum_add L). apply Hsum_ext. intros i _.
    cbn [Hside]. rewrite (Hmul_add_l L), (Hmul_assoc L). reflexivity.
  - eapply returns_mono; [exact (C14_scalv_opt K L "R" Rgt n alpha za z incz w eq_refl Hz Z0)|]. intros z' [Z' _].
    rewrite (C17_dotcv_opt K L n za z' incz xa x incx _ u Hz Hx Z' X). f_equal. rewrite (Hconj_sum L), (Hmul_sum_l L). apply Hsum_ext. intros i _.
    cbn [Hside]. rewrite !(Hconj_mul L), (Hconj_conj L), (Hmul_assoc L). reflexivity.
  - eapply returns_mono; [exact (C14_scalv_opt K L "L" Lft n alpha za z incz w eq_refl Hz Z0)|]. intros z' [Z' _].
    rewrite (C16_dotuv_opt K L n za z' incz xa x incx _ u Hz Hx Z' X). f_equal. rewrite (Hmul_sum_l L). apply Hsum_ext. intros i _.
    cbn [Hside]. rewrite (Hmul_assoc L). reflexivity.
Qed.
Print Assumptions C52_dot_linear.
(** over the reals DOTCV is a positive definite inner product satisfying the Cauchy-Schwarz inequality *)
Theorem C52_inner_product : forall n xa (x : arr (quat Rnum)) incx ya y incy v w,
  0 < incx -> 0 < incy -> holds_vec x n incx v -> holds_vec y n incy w ->
  exists p a b, dotcv_opt n xa x incx ya y incy = Ok p /\ dotcv_opt n xa x incx xa x incx = Ok (Hre (a : Rnum)) /\
    dotcv_opt n ya y incy ya y incy = Ok (Hre (b : Rnum)) /\
    (0 <= a)%R /\ (a = 0%R <-> forall i, 0 <= i < n -> v i = H0) /\ (Hnsq p <= a * b)%R.
Proof.
  intros n xa x incx ya y incy v w Hix Hiy Hx Hy.
  rewrite (C17_dotcv_opt Rnum Rlaws n xa x incx ya y incy v w Hix Hiy Hx Hy), (C17_self_dot_real Rnum Rlaws n xa x incx v Hix Hx),
    (C17_self_dot_real Rnum Rlaws n ya y incy w Hiy Hy).
  assert (E : forall f : Z -> Rnum, Hsum n (fun i => Hre (f i)) = Hre (qr (Hsum n (fun i => Hre (f i))))).
  { intros f. destruct (Z_lt_le_dec n 0) as [Hn|Hn]; [rewrite Hsum_neg by lia; reflexivity|]. pattern n. apply natlike_ind; auto.
    intros k Hk IH. unfold Z.succ. rewrite Hsum_succ by lia. rewrite IH. cbn [Hre Hadd qr qi qj qk]. unfold Hre, Hadd. cbn. f_equal; lra. }
  exists (Hsum n (fun i => Hmul (Hconj (v i)) (w i))), (qr (Hsum n (fun i => Hre (Hnsq (v i))))), (qr (Hsum n (fun i => Hre (Hnsq (w i))))).
  split; [reflexivity|]. split; [rewrite <- E; reflexivity|]. split; [rewrite <- E; reflexivity|].
  split; [apply self_sum_pos|]. split; [split|].
  - apply self_sum_zero.
  - intros Z0. rewrite (Hsum_zero Rlaws); [reflexivity|]. intros i Hi. rewrite (Z0 i Hi). unfold Hre, Hnsq, H0. cbn. f_equal. ring.
  - rewrite nsq_H. apply cauchy_schwarz.
Qed.
Print Assumptions C52_inner_product.
Example C52_concrete : (* x = (1-k, 2-2k), scaled by j and then by -j on the right *)
  match scalv_opt "R" 2 (SH (zq 0 0 1 0)) 8 (vZ [1;2]) 1 with
  | Ok x1 => match scalv_opt "R" 2 (SH (zq 0 0 (-1) 0)) 8 x1 1 with Ok x2 => x1 0 = Some (zq 0 1 1 0) /\ map x2 [0;1] = map (vZ [1;2]) [0;1] | _ => False end
  | _ => False end /\ Hside Rgt (zq 0 0 (-1) 0) (zq 0 0 1 0) = H1.
Proof. vm_compute. repeat split. Qed.

(** ** C53 *)
(** <A x, y> = <x, A^H y> for every shape, with GEMV 'N' and GEMV 'C' *)
Theorem C53_adjoint : forall (K : num), laws K -> forall m n (a : arr (quat K)) lda xa x incx ya y incy ta t inct ua u incu A v w t0 u0,
  0 < m -> 0 < n -> 0 < incx -> 0 < incy -> 0 < inct -> 0 < incu ->
  holds_mat a lda m n A -> holds_vec x n incx v -> holds_vec y m incy w -> holds_vec t m inct t0 -> holds_vec u n incu u0 ->
  returns (hgemv "N" m n (SR (n1 : K)) a lda x incx (SR (n0 : K)) t inct) (fun t' =>
  returns (hgemv "C" m n (SR (n1 : K)) a lda y incy (SR (n0 : K)) u incu) (fun u' =>
  exists p, dotcv_opt m ta t' inct ya y incy = Ok p /\ dotcv_opt n xa x incx ua u' incu = Ok p)).
Proof.
  intros K L m n a lda xa x incx ya y incy ta t inct ua u incu A v w t0 u0 Hm Hn Hx Hy Ht Hu HA V W T U.
  eapply returns_mono; [exact (C23_gemv_dd K L n1 n0 "N" OpN m n a lda x incx t inct A v t0 eq_refl Hm Hn ltac:(lia) ltac:(lia) HA V T)|]. intros t' [T' _].
  eapply returns_mono; [exact (C23_gemv_dd K L n1 n0 "C" OpC m n a lda y incy u incu A w u0 eq_refl Hm Hn ltac:(lia) ltac:(lia) HA W U)|]. intros u' [U' _].
  cbn [op_rows op_cols] in T', U'.
  rewrite (C17_dotcv_opt K L m ta t' inct ya y incy _ w Ht Hy T' W), (C17_dotcv_opt K L n xa x incx ua u' incu v _ Hx Hu V U').
  eexists. split; [reflexivity|]. f_equal. unfold gemv_elt. rewrite Hre_0, Hre_1. symmetry.
  transitivity (Hsum m (fun i => Hmul (Hconj (Hsum n (fun j => Hmul (A i j) (v j)))) (w i))).
  - apply Hsum_ext. intros i _. rewrite (Hmul_1_l L), (Hmul_0_l L), (Hadd_0_r L). reflexivity.
  - rewrite (adjoint_sum L) by lia. apply Hsum_ext. intros j _. rewrite (Hmul_1_l L), (Hmul_0_l L), (Hadd_0_r L). reflexivity.
Qed.
Print Assumptions C53_adjoint.
(** a rank-1 update followed by a product: (A + ALPHA x y^H) z = A z + ALPHA x <y, z> *)
Theorem C53_rank1 : forall (K : num), laws K -> forall m n alpha (a : arr (quat K)) lda x incx ya y incy za z incz t inct t2 inct2 A u v w t0 t20,
  0 < m -> 0 < n -> m <= lda -> 0 < incx -> 0 < incy -> 0 < incz -> 0 < inct -> 0 < inct2 -> (incx = 1 \/ forall r, alpha <> SR r) ->
  holds_mat a lda m n A -> holds_vec x m incx u -> holds_vec y n incy v -> holds_vec z n incz w ->
  holds_vec t m inct t0 -> holds_vec t2 m inct2 t20 ->
  returns (hgemv "N" m n (SR (n1 : K)) a lda z incz (SR (n0 : K)) t inct) (fun t' =>
  returns (hger true m n alpha x incx y incy a lda) (fun a' =>
  returns (hgemv "N" m n (SR (n1 : K)) a' lda z incz (SR (n0 : K)) t2 inct2) (fun t2' =>
  exists Az d, holds_vec t' m inct Az /\ dotcv_opt n ya y incy za z incz = Ok d /\
    holds_vec t2' m inct2 (fun i => Hadd (Az i) (Hmul (emb alpha) (Hmul (u i) d)))))).
Proof.
  intros K L m n alpha a lda x incx ya y incy za z incz t inct t2 inct2 A u v w t0 t20 Hm Hn Hl Hix Hiy Hiz Hit Hit2 Hal HA U V W T T2.
  eapply returns_mono; [exact (C23_gemv_dd K L n1 n0 "N" OpN m n a lda z incz t inct A w t0 eq_refl Hm Hn ltac:(lia) ltac:(lia) HA W T)|]. intros t' [T' _].
  assert (G : returns (hger true m n alpha x incx y incy a lda) (fun a' => holds_mat a' lda m n (gerc_elt (emb alpha) u v A) /\ same_but_mat a a' lda m n)).
  { destruct Hal as [->|Hal]; [|apply (C26_gerc_zh K L); auto; lia].
    destruct alpha as [r|z0|q]; [apply (C26_gerc_d_partial K L); auto; lia|apply (C26_gerc_zh K L); auto; try lia; discriminate..]. }
  eapply returns_mono; [exact G|]. intros a' [A' _].
  eapply returns_mono; [exact (C23_gemv_dd K L n1 n0 "N" OpN m n a' lda z incz t2 inct2 _ w t20 eq_refl Hm Hn ltac:(lia) ltac:(lia) A' W T2)|]. intros t2' [T2' _].
  cbn [op_rows op_cols] in T', T2'.
  exists (fun i => Hsum n (fun j => Hmul (A i j) (w j))), (Hsum n (fun i => Hmul (Hconj (v i)) (w i))).
  split; [|split].
  - intros i Hi. rewrite T' by auto. unfold gemv_elt. rewrite Hre_0, Hre_1, (Hmul_1_l L), (Hmul_0_l L), (Hadd_0_r L). reflexivity.
  - exact (C17_dotcv_opt K L n ya y incy za z incz v w Hiy Hiz V W).
  - intros i Hi. rewrite T2' by auto. unfold gemv_elt. rewrite Hre_0, Hre_1, (Hmul_1_l L), (Hmul_0_l L), (Hadd_0_r L). cbn [opm]. unfold gerc_elt.
    rewrite (rank1_sum L). reflexivity.
Qed.
Print Assumptions C53_rank1.
Example C53_concrete : (* A = (i j), x = (1, k), y = 2k: both inner products are 2j + 2j ... computed *)
  let a := arr_list [zq 0 1 0 0; zq 0 0 1 0] in let x := arr_list [zq 1 0 0 0; zq 0 0 0 1] in let y := arr_list [zq 0 0 0 2] in
  match hgemv "N" 1 2 (SR (1 : Znum)) a 1 x 1 (SR (0 : Znum)) (vZ [9]) 1, hgemv "C" 1 2 (SR (1 : Znum)) a 1 y 1 (SR (0 : Znum)) (vZ [8;8]) 1 with
  | Ok t', Ok u' => dotcv_opt 1 0 t' 1 0 y 1 = dotcv_opt 2 0 x 1 0 u' 1 /\ dotcv_opt 1 0 t' 1 0 y 1 = Ok (zq 0 0 4 0)
  | _, _ => False end.
Proof. vm_compute. split; reflexivity. Qed.
