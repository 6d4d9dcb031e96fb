(** Level-1, level-2 and real-matrix results depend only on the values involved, for any arithmetic. *)
From Coq Require Import ZArith Lia Bool Ascii.
From Verif Require Import Num Res ResFacts Spec SpecFacts VecFacts LoopFacts GemmLoops MQuat MSimd SimdFacts MOptL1 MForL1 MGenL1 MForL2 MForL3 MGenL2 L1Facts2 OptGemmFacts ErrFacts3 RawL1 RawL3 RawL2 RawL2g SpecBlock SpecLocal BlockFacts GemmMisc.
Local Open Scope Z_scope.

Section F.
Context {K : num}.
Local Notation qarr := (arr (quat K)).
Lemma returns2 {X Y} (r : res X) (r' : res Y) P P' (Q : X -> Y -> Prop) : returns r P -> returns r' P' -> (forall a b, P a -> P' b -> Q a b) ->
  returns r (fun a => returns r' (fun b => Q a b)).
Proof. destruct r, r'; cbn [returns]; auto. Qed.

Lemma scalv_local c n n' alpha xa xa' (x x' : qarr) inc inc' v v' i i' : 0 < inc -> 0 < inc' -> holds_vec x n inc v -> holds_vec x' n' inc' v' ->
  0 <= i < n -> 0 <= i' < n' -> v i = v' i' ->
  returns (scalv_opt c n alpha xa x inc) (fun r => returns (scalv_opt c n' alpha xa' x' inc') (fun r' =>
    exists q, r (i * inc) = Some q /\ r' (i' * inc') = Some q)).
Proof.
  intros Hi Hi' Hx Hx' Ii Ii' E. eapply returns2; [apply (scalv_opt_raw _ c n alpha xa x inc v eq_refl); auto|apply (scalv_opt_raw _ c n' alpha xa' x' inc' v' eq_refl); auto|].
  intros r r' [A _] [B _]. specialize (A i Ii). specialize (B i' Ii'). rewrite vpos_pos in A, B by auto. rewrite E in A. eauto.
Qed.
Lemma axpyv_local c n n' alpha xa xa' (x x' : qarr) incx incx' ya ya' (y y' : qarr) incy incy' v v' w w' i i' : 0 < incx -> 0 < incx' -> 0 < incy -> 0 < incy' ->
  holds_vec x n incx v -> holds_vec x' n' incx' v' -> holds_vec y n incy w -> holds_vec y' n' incy' w' ->
  0 <= i < n -> 0 <= i' < n' -> v i = v' i' -> w i = w' i' ->
  returns (axpyv_opt c n alpha xa x incx ya y incy) (fun r => returns (axpyv_opt c n' alpha xa' x' incx' ya' y' incy') (fun r' =>
    exists q, r (i * incy) = Some q /\ r' (i' * incy') = Some q)).
Proof.
  intros H1 H2 H3 H4 Hx Hx' Hy Hy' Ii Ii' E E'.
  eapply returns2; [apply (axpyv_opt_raw _ c n alpha xa x incx ya y incy v w eq_refl); auto|apply (axpyv_opt_raw _ c n' alpha xa' x' incx' ya' y' incy' v' w' eq_refl); auto|].
  intros r r' [A _] [B _]. specialize (A i Ii). specialize (B i' Ii'). rewrite vpos_pos in A, B by auto. cbn beta in A, B. rewrite E, E' in A. eauto.
Qed.
Lemma dot_local cnj n xa xa' (x x' : qarr) incx incx' ya ya' (y y' : qarr) incy incy' v v' w w' : 0 <= n -> 0 < incx -> 0 < incx' -> 0 < incy -> 0 < incy' ->
  holds_vec x n incx v -> holds_vec x' n incx' v' -> holds_vec y n incy w -> holds_vec y' n incy' w' ->
  (forall i, 0 <= i < n -> v i = v' i) -> (forall i, 0 <= i < n -> w i = w' i) ->
  exists q, dot_opt cnj n xa x incx ya y incy = Ok q /\ dot_opt cnj n xa' x' incx' ya' y' incy' = Ok q.
Proof.
  intros Hn H1 H2 H3 H4 Hx Hx' Hy Hy' E E'. exists (dot_val cnj n v w). split; [apply dot_opt_raw; auto|].
  rewrite (dot_val_ext cnj n v w v' w') by auto. apply dot_opt_raw; auto.
Qed.
Lemma hgemv_val_local o k alpha beta A A' v v' w w' i i' : (forall l, 0 <= l < k -> stored o A i l = stored o A' i' l) -> (forall l, 0 <= l < k -> v l = v' l) -> w i = w' i' ->
  hgemv_val (K := K) o k alpha beta A v w i = hgemv_val o k alpha beta A' v' w' i'.
Proof.
  intros EA EV EW. unfold hgemv_val. rewrite EW. destruct o; cbn [stored] in EA.
  - rewrite (ziter_ext _ (fun l acc => hn_elt alpha (A' i' l) (v' l) acc)); [reflexivity|]. intros l x Hl. rewrite EA, EV by auto. reflexivity.
  - rewrite (ziter_ext _ (fun l h => hgdot_elt (iscj OpT) false (A' l i') (v' l) h)); [reflexivity|]. intros l x Hl. rewrite EA, EV by auto. reflexivity.
  - rewrite (ziter_ext _ (fun l h => hgdot_elt (iscj OpC) false (A' l i') (v' l) h)); [reflexivity|]. intros l x Hl. rewrite EA, EV by auto. reflexivity.
  - rewrite (ziter_ext _ (fun l acc => hn_elt alpha (A' i' l) (v' l) acc)); [reflexivity|]. intros l x Hl. rewrite EA, EV by auto. reflexivity.
Qed.
Lemma hgemv_local c o m n m' n' alpha beta (a a' : qarr) lda lda' (x x' : qarr) incx incx' (y y' : qarr) incy incy' A A' v v' w w' i i' :
  trans_char c = Some o -> 0 < m -> 0 < n -> 0 < m' -> 0 < n' -> incx <> 0 -> incx' <> 0 -> incy <> 0 -> incy' <> 0 ->
  gemv_usable c alpha beta m n incy -> gemv_usable c alpha beta m' n' incy' -> op_cols o m n = op_cols o m' n' ->
  holds_mat a lda m n A -> holds_vec x (op_cols o m n) incx v -> holds_vec y (op_rows o m n) incy w ->
  holds_mat a' lda' m' n' A' -> holds_vec x' (op_cols o m' n') incx' v' -> holds_vec y' (op_rows o m' n') incy' w' ->
  0 <= i < op_rows o m n -> 0 <= i' < op_rows o m' n' ->
  (forall l, 0 <= l < op_cols o m n -> stored o A i l = stored o A' i' l) -> (forall l, 0 <= l < op_cols o m n -> v l = v' l) -> w i = w' i' ->
  returns (hgemv c m n alpha a lda x incx beta y incy) (fun r => returns (hgemv c m' n' alpha a' lda' x' incx' beta y' incy') (fun r' =>
    exists q, r (vpos (op_rows o m n) incy i) = Some q /\ r' (vpos (op_rows o m' n') incy' i') = Some q)).
Proof.
  intros Hc Hm Hn Hm' Hn' Hix Hix' Hiy Hiy' [U1 U2] [U3 U4] EK Ha Hx Hy Ha' Hx' Hy' Ii Ii' EA EV EW.
  eapply returns2; [apply (hgemv_good c o m n alpha a lda x incx beta y incy A v w); auto|apply (hgemv_good c o m' n' alpha a' lda' x' incx' beta y' incy' A' v' w'); auto|].
  intros r r' [R _] [R' _]. specialize (R i Ii). specialize (R' i' Ii'). rewrite <- EK in R'.
  rewrite (hgemv_val_local o (op_cols o m n) alpha beta A A' v v' w w' i i') in R by auto. eauto.
Qed.
Lemma hger_local cnj m n m' n' alpha (x x' : qarr) incx incx' (y y' : qarr) incy incy' (a a' : qarr) lda lda' v v' w w' A A' i i' j j' :
  incx <> 0 -> incx' <> 0 -> incy <> 0 -> incy' <> 0 -> m <= lda -> m' <= lda' ->
  (incx = 1 \/ forall r, alpha <> SR r) -> (incx' = 1 \/ forall r, alpha <> SR r) ->
  holds_vec x m incx v -> holds_vec y n incy w -> holds_mat a lda m n A ->
  holds_vec x' m' incx' v' -> holds_vec y' n' incy' w' -> holds_mat a' lda' m' n' A' ->
  0 <= i < m -> 0 <= j < n -> 0 <= i' < m' -> 0 <= j' < n' -> v i = v' i' -> w j = w' j' -> A i j = A' i' j' ->
  returns (hger cnj m n alpha x incx y incy a lda) (fun r => returns (hger cnj m' n' alpha x' incx' y' incy' a' lda') (fun r' =>
    exists q, r (i + j * lda) = Some q /\ r' (i' + j' * lda') = Some q)).
Proof.
  intros Hix Hix' Hiy Hiy' Hl Hl' U U' Hx Hy Ha Hx' Hy' Ha' Ii Ij Ii' Ij' EV EW EA.
  eapply returns2; [apply (hger_raw cnj m n alpha x incx y incy a lda v w A); auto; lia|apply (hger_raw cnj m' n' alpha x' incx' y' incy' a' lda' v' w' A'); auto; lia|].
  intros r r' [R _] [R' _]. specialize (R i j Ii Ij). specialize (R' i' j' Ii' Ij'). unfold hger_val in *. rewrite EV, EW, EA in R. eauto.
Qed.
Variable qmul : quat K -> quat K -> quat K.
Lemma gemv_real_local c o m n m' n' alpha beta (a a' : arr K) lda lda' (x x' : qarr) incx incx' (y y' : qarr) incy incy' A A' v v' w w' i i' :
  trans_char c = Some o -> 0 < m -> 0 < n -> 0 < m' -> 0 < n' -> 0 < incx -> 0 < incx' -> 0 < incy -> 0 < incy' -> op_cols o m n = op_cols o m' n' ->
  holds_mat a lda m n A -> holds_vec x (op_cols o m n) incx v -> holds_vec y (op_rows o m n) incy w ->
  holds_mat a' lda' m' n' A' -> holds_vec x' (op_cols o m' n') incx' v' -> holds_vec y' (op_rows o m' n') incy' w' ->
  0 <= i < op_rows o m n -> 0 <= i' < op_rows o m' n' ->
  (forall l, 0 <= l < op_cols o m n -> stored o A i l = stored o A' i' l) -> (forall l, 0 <= l < op_cols o m n -> v l = v' l) -> w i = w' i' ->
  returns (gemv_real qmul c m n alpha a lda x incx beta y incy) (fun r => returns (gemv_real qmul c m' n' alpha a' lda' x' incx' beta y' incy') (fun r' =>
    exists q, r (i * incy) = Some q /\ r' (i' * incy') = Some q)).
Proof.
  intros Hc Hm Hn Hm' Hn' Hix Hix' Hiy Hiy' EK Ha Hx Hy Ha' Hx' Hy' Ii Ii' EA EV EW. unfold gemv_real.
  eapply returns2; [apply (gemv_gen_raw qmul r_mul_q rmulscal rscalmul nsub smartconj_r c o m n (SR alpha) a lda x incx (SR beta) y incy A v w); auto
    |apply (gemv_gen_raw qmul r_mul_q rmulscal rscalmul nsub smartconj_r c o m' n' (SR alpha) a' lda' x' incx' (SR beta) y' incy' A' v' w'); auto|].
  intros r r' [R _] [R' _]. specialize (R i Ii). specialize (R' i' Ii'). rewrite vpos_pos in R, R' by auto. rewrite R, R', <- EK. eexists. split; [reflexivity|]. f_equal.
  unfold ggemv_val. rewrite EW. destruct o; cbn [stored] in EA.
  - rewrite (ziter_ext (fun j acc => gn_elt qmul r_mul_q rmulscal rscalmul nsub (SR alpha) (A i j) (v j) acc) (fun j acc => gn_elt qmul r_mul_q rmulscal rscalmul nsub (SR alpha) (A' i' j) (v' j) acc)); [reflexivity|]. intros l h Hl. rewrite EA, EV by auto. reflexivity.
  - rewrite (ziter_ext (fun j h => gemv_dot r_mul_q smartconj_r true (A j i) (v j) h) (fun j h => gemv_dot r_mul_q smartconj_r true (A' j i') (v' j) h)); [reflexivity|]. intros l h Hl. rewrite EA, EV by auto. reflexivity.
  - rewrite (ziter_ext (fun j h => gemv_dot r_mul_q smartconj_r false (A j i) (v j) h) (fun j h => gemv_dot r_mul_q smartconj_r false (A' j i') (v' j) h)); [reflexivity|]. intros l h Hl. rewrite EA, EV by auto. reflexivity.
  - rewrite (ziter_ext (fun j acc => gn_elt qmul r_mul_q rmulscal rscalmul nsub (SR alpha) (A i j) (v j) acc) (fun j acc => gn_elt qmul r_mul_q rmulscal rscalmul nsub (SR alpha) (A' i' j) (v' j) acc)); [reflexivity|]. intros l h Hl. rewrite EA, EV by auto. reflexivity.
Qed.
Lemma bval_stored o (B B' : Z -> Z -> quat K) l j j' : stored o B l j = stored o B' l j' -> bval o B l j = bval o B' l j'.
Proof. intros E. unfold bval. assert (X : rawm o B l j = rawm o B' l j') by (destruct o; exact E). rewrite X. reflexivity. Qed.
Lemma gemm_real_local ca cb oa ob k alpha beta m n (a : arr K) lda (b : qarr) ldb (c : qarr) ldc A B w m' n' (a' : arr K) lda' (b' : qarr) ldb' (c' : qarr) ldc' A' B' w' i j i' j' :
  trans_char ca = Some oa -> trans_char cb = Some ob -> 0 <= k -> m <= ldc -> m' <= ldc' ->
  holds_mat a lda (op_rows oa m k) (op_cols oa m k) A -> holds_mat b ldb (op_rows ob k n) (op_cols ob k n) B -> holds_mat c ldc m n w ->
  holds_mat a' lda' (op_rows oa m' k) (op_cols oa m' k) A' -> holds_mat b' ldb' (op_rows ob k n') (op_cols ob k n') B' -> holds_mat c' ldc' m' n' w' ->
  0 <= i < m -> 0 <= j < n -> 0 <= i' < m' -> 0 <= j' < n' ->
  (forall l, 0 <= l < k -> stored oa A i l = stored oa A' i' l) -> (forall l, 0 <= l < k -> stored ob B l j = stored ob B' l j') -> w i j = w' i' j' ->
  returns (gemm_real qmul ca cb m n k alpha a lda b ldb beta c ldc) (fun r => returns (gemm_real qmul ca cb m' n' k alpha a' lda' b' ldb' beta c' ldc') (fun r' =>
    exists q, r (i + j * ldc) = Some q /\ r' (i' + j' * ldc') = Some q)).
Proof.
  intros Ca Cb Hk Hl Hl' Ha Hb Hc Ha' Hb' Hc' Ii Ij Ii' Ij' EA EB EW. apply gdec_char in Ca as <-. apply gdec_char in Cb as <-. unfold gemm_real.
  eapply returns2; [apply (gemm_gen_raw qmul r_mul_q rmulscal smartconj_r ca cb m n k (SR alpha) a lda b ldb (SR beta) c ldc A B w); auto; lia
    |apply (gemm_gen_raw qmul r_mul_q rmulscal smartconj_r ca cb m' n' k (SR alpha) a' lda' b' ldb' (SR beta) c' ldc' A' B' w'); auto; lia|].
  intros r r' [R _] [R' _]. specialize (R i j Ii Ij). specialize (R' i' j' Ii' Ij'). rewrite R, R'. eexists. split; [reflexivity|]. f_equal.
  unfold ggemm_val, ggemm_main. rewrite EW. generalize (gdec ca) (gdec cb) EA EB. clear - K. intros oa ob EA EB.
  destruct oa; cbn [stored iscj] in *.
  - rewrite (ziter_ext (fun l acc => q_addeq acc (r_mul_q (rmulscal (SR alpha) (A i l)) (bval ob B l j))) (fun l acc => q_addeq acc (r_mul_q (rmulscal (SR alpha) (A' i' l)) (bval ob B' l j')))); [reflexivity|].
    intros l h Hl. rewrite EA, (bval_stored ob B B' l j j') by auto. reflexivity.
  - rewrite (ziter_ext (fun l h => q_addeq h (r_mul_q (A l i) (bval ob B l j))) (fun l h => q_addeq h (r_mul_q (A' l i') (bval ob B' l j')))); [reflexivity|].
    intros l h Hl. rewrite EA, (bval_stored ob B B' l j j') by auto. reflexivity.
  - rewrite (ziter_ext (fun l h => q_addeq h (r_mul_q (smartconj_r (A l i)) (bval ob B l j))) (fun l h => q_addeq h (r_mul_q (smartconj_r (A' l i')) (bval ob B' l j')))); [reflexivity|].
    intros l h Hl. rewrite EA, (bval_stored ob B B' l j j') by auto. reflexivity.
  - rewrite (ziter_ext (fun l acc => q_addeq acc (r_mul_q (rmulscal (SR alpha) (A i l)) (bval ob B l j))) (fun l acc => q_addeq acc (r_mul_q (rmulscal (SR alpha) (A' i' l)) (bval ob B' l j')))); [reflexivity|].
    intros l h Hl. rewrite EA, (bval_stored ob B B' l j j') by auto. reflexivity.
Qed.
End F.
