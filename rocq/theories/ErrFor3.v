(** Rounding-error bounds of the Fortran GEMM, GEMV and GER: the calls. *)
From Coq Require Import ZArith Reals Lra Lia Psatz Bool Ascii.
From Flocq Require Import Core.Core IEEE754.BinarySingleNaN.
From Verif Require Import Num NumR Res ResFacts Spec SpecFacts VecFacts LoopFacts MQuat MForL1 MForL2 MForL3 PackFacts OptGemmFacts RawL3 RawL2 F64 GemmMisc SpecErr SpecErrF RoundFacts
  ErrFacts ErrFacts2 ErrFacts3 ErrFor ErrFor2.
Local Open Scope R_scope.
Section T.
Variables (fused : bool).
Local Notation K := (F64 fused).
Local Notation FQ := (quat (F64 fused)).

Section P.
Variable P : Prop.
Local Notation qapx := (qapx fused P).
Lemma qapx_hgpre (beta : scal K) (y : FQ) : (P -> sfin beta) -> (P -> fin y) ->
  qapx (hgpre beta y) (Hmul (K := Rnum) (emb (SR_of beta)) (QR y)) (Qmaj (Qabs (emb (SR_of beta))) (Qabs (QR y))) 3 7.
Proof.
  intros Fb Fy. unfold hgpre. destruct (fone beta) eqn:E1; [|apply qapx_hpre; auto].
  rewrite (fone_R _ _ E1), Qabs_H1, Qmaj_1_l, (Hmul_1_l Rlaws). eapply qapx_wk; [apply qapx_leaf; auto|lia|lra].
Qed.
Lemma qapx_hgemv o k (alpha beta : scal K) (A : Z -> Z -> FQ) (v w : Z -> FQ) i : o <> OpR -> (0 <= k)%Z ->
  let al := emb (SR_of alpha) in let be := emb (SR_of beta) in
  (P -> sfin alpha /\ sfin beta /\ fin (w i) /\ row_room k al (fun l => opm o A i l) v) ->
  qapx (hgemv_val o k alpha beta A v w i) (rc_val al k (fun l => QR (opm o A i l)) (fun l => QR (v l)) be (QR (w i)))
    (rc_mag al k (fun l => QR (opm o A i l)) (fun l => QR (v l)) be (QR (w i))) (Z.to_nat (4 * k + 7)) (row_units k al (fun l => QR (opm o A i l))).
Proof.
  intros Ho Hk al be HP.
  destruct (row_units_ge k al (fun l => QR (opm o A i l)) Hk) as (U0 & U1 & U2).
  assert (Fa : P -> sfin alpha) by (intros h; apply (HP h)). assert (Fb : P -> sfin beta) by (intros h; apply (HP h)). assert (Fw : P -> fin (w i)) by (intros h; apply (HP h)).
  pose proof (qapx_hgpre beta (w i) Fb Fw) as W. unfold hgemv_val. cbv zeta. destruct (fzero alpha) eqn:E0.
  { unfold al at 1 2. rewrite (fzero_R _ _ E0). destruct (rc_zero k (fun l => QR (opm o A i l)) (fun l => QR (v l)) be (QR (w i)) Hk) as [-> ->].
    eapply qapx_wk; [exact W|lia|lra]. }
  assert (TR : o <> OpN -> qapx (haxpyT_elt alpha (ziter k (fun l h => hgdot_elt (iscj o) false (rawm o A i l) (v l) h) (hq c0 c0)) (hgpre beta (w i)))
     (rc_val al k (fun l => QR (opm o A i l)) (fun l => QR (v l)) be (QR (w i)))
    (rc_mag al k (fun l => QR (opm o A i l)) (fun l => QR (v l)) be (QR (w i))) (Z.to_nat (4 * k + 7)) (row_units k al (fun l => QR (opm o A i l)))).
  { intros _.
    assert (HP2 : P -> forall l, (0 <= l < k)%Z -> fin (rawm o A i l) /\ fin (v l)).
    { intros h l Hl. destruct (HP h) as (_ & _ & _ & R & _). destruct (R l Hl) as (R1 & R2 & _). rewrite fin_opm in R1. auto. }
    pose proof (qapx_dsum fused P (iscj o) false k (fun l => rawm o A i l) v Hk HP2) as D.
    rewrite (Hsum_ext k _ (fun l => Hmul (K := Rnum) (QR (opm o A i l)) (QR (v l)))) in D by (intros l _; rewrite cjq_opm; reflexivity).
    rewrite (Hsum_ext k (fun l => Qmaj (Qabs (QR (rawm o A i l))) (Qabs (QR (v l)))) (fun l => Qmaj (Qabs (QR (opm o A i l))) (Qabs (QR (v l))))) in D
      by (intros l _; rewrite abs_opm; reflexivity).
    revert D. generalize (ziter k (fun l h => hgdot_elt (iscj o) false (rawm o A i l) (v l) h) (hq c0 c0)). intros h D.
    assert (Fh : P -> fin h) by (intros hp; destruct (HP hp) as (_ & _ & _ & _ & R); eapply qapx_fin; [exact D|exact hp|exact R]).
    rewrite rc_mag_alt by auto. unfold rc_val. rewrite (Hadd_comm Rlaws), (Hadd_comm Rlaws (Qmaj _ _)).
    eapply qapx_wk; [apply qapx_haxpyT; [auto|exact Fh|exact D|eapply qapx_wk; [exact W|lia|apply Rle_refl]]|lia|fold al; lra]. }
  destruct o; [|apply TR; discriminate|apply TR; discriminate|congruence].
  assert (HP2 : P -> forall l, (0 <= l < k)%Z -> fin (A i l) /\ fin (v l) /\ below 2 3 (Qmaj (Qabs al) (Qabs (QR (v l))))).
  { intros h l Hl. destruct (HP h) as (_ & _ & _ & R & _). destruct (R l Hl) as (R1 & R2 & R3). auto. }
  pose proof (qapx_nsum fused P false k alpha (fun l => A i l) v _ _ _ Hk Fa HP2 W) as N.
  rewrite rc_val_alt. unfold rc_mag. cbn [opm] in *. eapply qapx_wk; [exact N|lia|lra].
Qed.
Lemma qapx_ger cnj (alpha : scal K) (A : Z -> Z -> FQ) (v w : Z -> FQ) i j :
  let al := emb (SR_of alpha) in
  (P -> sfin alpha /\ fin (v i) /\ fin (w j) /\ fin (A i j) /\ below 2 3 (Qmaj (Qabs al) (Qabs (QR (w j))))) ->
  qapx (hger_val cnj alpha A v w i j) (Hadd (K := Rnum) (QR (A i j)) (Hmul (K := Rnum) al (Hmul (K := Rnum) (QR (v i)) (cjq cnj (QR (w j))))))
    (ger_mag al (fun i => QR (v i)) (fun j => QR (w j)) (fun i j => QR (A i j)) i j) 8 (6 * Q1 (QR (v i)) + 16).
Proof.
  intros al HP. unfold ger_mag.
  assert (Fa : P -> sfin alpha) by (intros h; apply (HP h)). assert (Fv : P -> fin (v i)) by (intros h; apply (HP h)). assert (Fw : P -> fin (w j)) by (intros h; apply (HP h)).
  assert (FA : P -> fin (A i j)) by (intros h; apply (HP h)). assert (Fb : P -> below 2 3 (Qmaj (Qabs al) (Qabs (QR (w j))))) by (intros h; apply (HP h)).
  pose proof (Q1_pos (QR (v i))).
  assert (LF : qapx (A i j) (QR (A i j)) (Qabs (QR (A i j))) 8 (6 * Q1 (QR (v i)) + 16)) by (eapply qapx_wk; [apply qapx_leaf; auto|lia|lra]).
  unfold hger_val. destruct (fzero alpha) eqn:E0.
  { unfold al. rewrite (fzero_R _ _ E0), (Hmul_0_l Rlaws), Qabs_H0, !Qmaj_0_l, !(Hadd_0_r Rlaws). exact LF. }
  destruct (hnz (w j)) eqn:EZ.
  - rewrite (Hmul_assoc Rlaws). apply qapx_hger; auto.
  - rewrite (hnz_R _ _ EZ). replace (cjq cnj (H0 (K := Rnum))) with (H0 (K := Rnum)) by (unfold cjq, Hconj, H0; destruct cnj; cbn; rewrite ?Ropp_0; reflexivity).
    rewrite !(Hmul_0_r Rlaws), Qabs_H0, Qmaj_0_r, !(Hadd_0_r Rlaws). exact LF.
Qed.
End P.

Local Open Scope Z_scope.
Lemma hgemm_err ca cb oa ob m n k (alpha beta : scal K) (a : arr FQ) lda (b : arr FQ) ldb (c : arr FQ) ldc A B w :
  trans_char ca = Some oa -> trans_char cb = Some ob -> 0 <= m -> 0 <= n -> 0 <= k -> m <= ldc ->
  holds_mat a lda (op_rows oa m k) (op_cols oa m k) A -> holds_mat b ldb (op_rows ob k n) (op_cols ob k n) B -> holds_mat c ldc m n w ->
  returns (hgemm ca cb m n k alpha a lda b ldb beta c ldc) (fun c' => same_but_mat c c' ldc m n /\
    forall i j, 0 <= i < m -> 0 <= j < n -> exists q, c' (i + j * ldc) = Some q /\
      let RA := fun i j => QR (A i j) in let RB := fun i j => QR (B i j) in let RC := fun i j => QR (w i j) in
      let ra := emb (SR_of alpha) in let rb := emb (SR_of beta) in
      let d := Z.to_nat (4 * k + 7) in let E := row_units k ra (fun l => opm (K := Rnum) oa RA i l) in let mg := gemm_mag oa ob k ra RA RB rb RC i j in
      close d E q (gemm_elt (K := Rnum) oa ob k ra RA RB rb RC i j) mg /\
      (sfin alpha -> sfin beta -> fin (w i j) -> row_room k ra (fun l => opm oa A i l) (fun l => opm ob B l j) -> below d E mg -> fin q)).
Proof.
  intros Ca Cb Hm Hn Hk Hl Ha Hb Hc. pose proof (fdec_char _ _ Ca) as Da. pose proof (fdec_char _ _ Cb) as Db.
  assert (Ho : oa <> OpR) by (destruct (lsame_N _ _ Ca) as (_ & _ & _ & ?); auto).
  eapply returns_mono; [apply (hgemm_raw ca cb m n k alpha a lda b ldb beta c ldc A B w); rewrite ?Da, ?Db; auto|]. rewrite Da, Db.
  intros c' [Hh S]. split; auto. intros i j Hi Hj. exists (hgemm_val oa ob k alpha beta A B w i j). split; [apply Hh; auto|].
  intros RA RB RC ra rb d E mg.
  assert (EV : rc_val ra k (fun l => QR (opm oa A i l)) (fun l => QR (opm ob B l j)) rb (QR (w i j)) = gemm_elt (K := Rnum) oa ob k ra RA RB rb RC i j).
  { unfold rc_val, gemm_elt. do 2 f_equal. apply Hsum_ext. intros l _. rewrite !QR_opm. reflexivity. }
  assert (EM : rc_mag ra k (fun l => QR (opm oa A i l)) (fun l => QR (opm ob B l j)) rb (QR (w i j)) = mg).
  { unfold rc_mag, mg, gemm_mag. f_equal. apply Hsum_ext. intros l _. rewrite !QR_opm. reflexivity. }
  assert (EE : row_units k ra (fun l => QR (opm oa A i l)) = E).
  { unfold E, row_units. f_equal. apply Rsum_ext. intros l. rewrite QR_opm. reflexivity. }
  split.
  - pose proof (qapx_hgemm fused False oa ob k alpha beta A B w i j Ho Hk ltac:(tauto)) as Q. cbv zeta in Q. fold ra rb in Q. rewrite EV, EM, EE in Q. apply qapx_close in Q. exact Q.
  - intros Fa Fb Fw Fr Bl. pose proof (qapx_hgemm fused True oa ob k alpha beta A B w i j Ho Hk ltac:(tauto)) as Q. cbv zeta in Q. fold ra rb in Q. rewrite EV, EM, EE in Q.
    eapply qapx_fin; [exact Q|exact I|exact Bl].
Qed.
Lemma hgemv_err c o m n (alpha beta : scal K) (a : arr FQ) lda (x : arr FQ) incx (y : arr FQ) incy A v w :
  trans_char c = Some o -> 0 < m -> 0 < n -> incx <> 0 -> incy <> 0 ->
  (m = n \/ c = "C"%char \/ exists r s, alpha = SR r /\ beta = SR s) ->
  (incy = 1 \/ ~ (exists r q, alpha = SR r /\ beta = SH q) /\ ~ (c = "N"%char /\ exists q, alpha = SH q)) ->
  holds_mat a lda m n A -> holds_vec x (op_cols o m n) incx v -> holds_vec y (op_rows o m n) incy w ->
  returns (hgemv c m n alpha a lda x incx beta y incy) (fun y' => same_but_vec y y' (op_rows o m n) incy /\
    forall i, 0 <= i < op_rows o m n -> exists q, y' (vpos (op_rows o m n) incy i) = Some q /\
      let k := op_cols o m n in let RA := fun i j => QR (A i j) in let Rx := fun j => QR (v j) in let Ry := fun i => QR (w i) in
      let ra := emb (SR_of alpha) in let rb := emb (SR_of beta) in
      let d := Z.to_nat (4 * k + 7) in let E := row_units k ra (fun l => opm (K := Rnum) o RA i l) in let mg := gemv_mag o k ra RA Rx rb Ry i in
      close d E q (gemv_elt (K := Rnum) o k ra RA Rx rb Ry i) mg /\
      (sfin alpha -> sfin beta -> fin (w i) -> row_room k ra (fun l => opm o A i l) v -> below d E mg -> fin q)).
Proof.
  intros Hc Hm Hn Hix Hiy Hs Hb Ha Hx Hy.
  assert (Ho : o <> OpR) by (destruct (lsame_N _ _ Hc) as (_ & _ & _ & ?); auto).
  assert (Hk : 0 <= op_cols o m n) by (destruct o; cbn; lia).
  eapply returns_mono; [apply (hgemv_good c o m n alpha a lda x incx beta y incy A v w); auto|].
  intros y' [Hh S]. split; auto. intros i Hi. eexists. split; [apply Hh; auto|].
  intros k RA Rx Ry ra rb d E mg. fold k in Hk |- *.
  assert (EV : rc_val ra k (fun l => QR (opm o A i l)) (fun l => QR (v l)) rb (QR (w i)) = gemv_elt (K := Rnum) o k ra RA Rx rb Ry i).
  { unfold rc_val, gemv_elt. do 2 f_equal. apply Hsum_ext. intros l _. rewrite !QR_opm. reflexivity. }
  assert (EM : rc_mag ra k (fun l => QR (opm o A i l)) (fun l => QR (v l)) rb (QR (w i)) = mg).
  { unfold rc_mag, mg, gemv_mag. f_equal. apply Hsum_ext. intros l _. rewrite !QR_opm. reflexivity. }
  assert (EE : row_units k ra (fun l => QR (opm o A i l)) = E).
  { unfold E, row_units. f_equal. apply Rsum_ext. intros l. rewrite QR_opm. reflexivity. }
  split.
  - pose proof (qapx_hgemv False o k alpha beta A v w i Ho Hk ltac:(tauto)) as Q. cbv zeta in Q. fold ra rb in Q. rewrite EV, EM, EE in Q. apply qapx_close in Q. exact Q.
  - intros Fa Fb Fw Fr Bl. pose proof (qapx_hgemv True o k alpha beta A v w i Ho Hk ltac:(tauto)) as Q. cbv zeta in Q. fold ra rb in Q. rewrite EV, EM, EE in Q.
    eapply qapx_fin; [exact Q|exact I|exact Bl].
Qed.
Lemma hger_err (cnj : bool) m n (alpha : scal K) (x : arr FQ) incx (y : arr FQ) incy (a : arr FQ) lda v w A :
  0 <= m -> 0 <= n -> incx <> 0 -> incy <> 0 -> m <= lda -> (incx = 1 \/ forall r, alpha <> SR r) ->
  holds_vec x m incx v -> holds_vec y n incy w -> holds_mat a lda m n A ->
  returns (hger cnj m n alpha x incx y incy a lda) (fun a' => same_but_mat a a' lda m n /\
    forall i j, 0 <= i < m -> 0 <= j < n -> exists q, a' (i + j * lda) = Some q /\
      let RA := fun i j => QR (A i j) in let Rx := fun i => QR (v i) in let Ry := fun j => QR (w j) in
      let ra := emb (SR_of alpha) in let E := (6 * Q1 (Rx i) + 16)%R in let mg := ger_mag ra Rx Ry RA i j in
      close 8 E q ((if cnj then gerc_elt else geru_elt) ra Rx Ry RA i j) mg /\
      (sfin alpha -> fin (v i) -> fin (w j) -> fin (A i j) -> below 2 3 (Qmaj (Qabs ra) (Qabs (Ry j))) -> below 8 E mg -> fin q)).
Proof.
  intros Hm Hn Hix Hiy Hl Hal Hx Hy Ha.
  eapply returns_mono; [apply (hger_raw cnj m n alpha x incx y incy a lda v w A); auto|].
  intros a' [Hh S]. split; auto. intros i j Hi Hj. eexists. split; [apply Hh; auto|].
  intros RA Rx Ry ra E mg.
  assert (EV : (if cnj then gerc_elt else geru_elt) ra Rx Ry RA i j = Hadd (K := Rnum) (QR (A i j)) (Hmul (K := Rnum) ra (Hmul (K := Rnum) (QR (v i)) (cjq cnj (QR (w j))))))
    by (destruct cnj; reflexivity).
  rewrite EV. split.
  - eapply qapx_close, (qapx_ger False). tauto.
  - intros. eapply qapx_fin; [apply (qapx_ger True); tauto|exact I|assumption].
Qed.
End T.
