(** Locality of GEMM, and calls on sub-blocks.  No algebraic law is used unless stated. *)
From Coq Require Import ZArith Reals Lia Bool Ascii.
From Flocq Require Import Core.Core IEEE754.BinarySingleNaN.
From Verif Require Import Num Res ResFacts Spec SpecBlock SpecFacts MQuat MForL1 MForL2 MForL3 ForL3Facts L1Facts2 MSimd MOptL1 MPack PackFacts MOptGemm
  OptGemmFacts OptGemmTop RawL3 MDispatch F64.
Local Open Scope Z_scope.



Lemma iterN_ext {X} (f g : Z -> X -> X) n s : (forall l x, 0 <= l < Z.of_nat n -> f l x = g l x) -> iterN n f s = iterN n g s.
Proof. induction n as [|n IH]; intros E; cbn [iterN]; auto. rewrite IH, E; auto; intros; try apply E; lia. Qed.
Lemma ziter_ext {X} (f g : Z -> X -> X) n s : (forall l x, 0 <= l < n -> f l x = g l x) -> ziter n f s = ziter n g s.
Proof. intros E. unfold ziter. apply iterN_ext. intros l x Hl. apply E. lia. Qed.

Lemma fdec_char c o : trans_char c = Some o -> fdec c = o.
Proof.
  unfold trans_char, fdec. destruct (Ascii.eqb_spec c "N") as [->|]; [intros [= <-]; reflexivity|].
  destruct (Ascii.eqb_spec c "T") as [->|]; [intros [= <-]; reflexivity|].
  destruct (Ascii.eqb_spec c "C") as [->|]; [intros [= <-]; reflexivity|]. discriminate.
Qed.
Lemma char_r c o : trans_char c = Some o -> trans_char_r c = Some o.
Proof. intros E. unfold trans_char_r. destruct (Ascii.eqb_spec c "R") as [->|]; [discriminate E|exact E]. Qed.

Section B.
Context {K : num}.
Local Notation H := (quat K).
Local Notation qarr := (arr (quat K)).
(** the value left in C(i,j) by the public GEMM *)
Definition pub_val (oa ob : mop) (k : Z) (alpha beta : scal K) (A B w : Z -> Z -> H) (i j : Z) : H :=
  match alpha, beta with
  | SH _, _ | _, SH _ => hgemm_val oa ob k alpha beta A B w i j
  | _, _ => gemm_val oa ob k alpha beta A B w i j
  end.
Lemma hgemm_val_ext oa ob k alpha beta (A B w A' B' w' : Z -> Z -> H) i j i' j' :
  (forall l, 0 <= l < k -> stored oa A i l = stored oa A' i' l) -> (forall l, 0 <= l < k -> stored ob B l j = stored ob B' l j') ->
  w i j = w' i' j' -> hgemm_val oa ob k alpha beta A B w i j = hgemm_val oa ob k alpha beta A' B' w' i' j'.
Proof.
  intros EA EB EW. unfold hgemm_val. rewrite EW.
  destruct ((fzero alpha || (k =? 0)) && fone beta); auto. destruct (fzero alpha); auto.
  unfold hgemm_main.
  assert (EB' : forall l, 0 <= l < k -> rawm ob B l j = rawm ob B' l j') by (intros l Hl; apply (EB l Hl)).
  destruct oa; cbn [stored] in EA; cbv zeta.
  - apply ziter_ext; intros l x Hl; rewrite EA, EB' by auto; reflexivity.
  - rewrite (ziter_ext _ (fun l h => hgdot_elt (iscj OpT) (iscj ob) (A' l i') (rawm ob B' l j') h)); [reflexivity|].
    intros l x Hl; rewrite EA, EB' by auto; reflexivity.
  - rewrite (ziter_ext _ (fun l h => hgdot_elt (iscj OpC) (iscj ob) (A' l i') (rawm ob B' l j') h)); [reflexivity|].
    intros l x Hl; rewrite EA, EB' by auto; reflexivity.
  - apply ziter_ext; intros l x Hl; rewrite EA, EB' by auto; reflexivity.
Qed.
Lemma gemm_val_ext oa ob k alpha beta (A B w A' B' w' : Z -> Z -> H) i j i' j' :
  (forall l, 0 <= l < k -> stored oa A i l = stored oa A' i' l) -> (forall l, 0 <= l < k -> stored ob B l j = stored ob B' l j') ->
  w i j = w' i' j' -> gemm_val oa ob k alpha beta A B w i j = gemm_val oa ob k alpha beta A' B' w' i' j'.
Proof.
  intros EA EB EW. unfold gemm_val, gemm_val_at, pprod. rewrite EW. apply facc_ext. intros l Hl. cbn [Z.add].
  split; f_equal; [apply (EA l Hl)|apply (EB l Hl)].
Qed.
Lemma pub_val_ext oa ob k alpha beta (A B w A' B' w' : Z -> Z -> H) i j i' j' :
  (forall l, 0 <= l < k -> stored oa A i l = stored oa A' i' l) -> (forall l, 0 <= l < k -> stored ob B l j = stored ob B' l j') ->
  w i j = w' i' j' -> pub_val oa ob k alpha beta A B w i j = pub_val oa ob k alpha beta A' B' w' i' j'.
Proof.
  intros EA EB EW. unfold pub_val. destruct alpha, beta;
    first [apply gemm_val_ext; assumption | apply hgemm_val_ext; assumption].
Qed.
Lemma pub_raw (e : genv K) ca cb oa ob m n k alpha (a : qarr) lda (b : qarr) ldb beta (c : qarr) ldc A B w : good_env e ->
  trans_char ca = Some oa -> trans_char cb = Some ob -> 0 <= m -> 0 <= n -> 0 <= k -> m <= ldc ->
  holds_mat a lda (op_rows oa m k) (op_cols oa m k) A -> holds_mat b ldb (op_rows ob k n) (op_cols ob k n) B ->
  holds_mat c ldc m n w ->
  returns (HBLAS_GEMM e ca cb m n k alpha a lda b ldb beta c ldc) (fun c' =>
    holds_mat c' ldc m n (pub_val oa ob k alpha beta A B w) /\ same_but_mat c c' ldc m n).
Proof.
  intros [Ea Eb] Ca Cb Hm Hn Hk Hld Ha Hb Hc.
  assert (O : returns (gemm_opt_default (e_aa e) (e_ba e) (e_ga e) (e_gb e) ca cb m n k alpha a lda b ldb beta (e_c e) c ldc) (fun c' =>
    holds_mat c' ldc m n (gemm_val oa ob k alpha beta A B w) /\ same_but_mat c c' ldc m n)).
  { apply gemm_opt_raw; auto using dec_char, char_r, buf_fits; reflexivity. }
  assert (F : returns (hgemm ca cb m n k alpha a lda b ldb beta c ldc) (fun c' =>
    holds_mat c' ldc m n (hgemm_val oa ob k alpha beta A B w) /\ same_but_mat c c' ldc m n)).
  { rewrite <- (fdec_char ca oa Ca) in *. rewrite <- (fdec_char cb ob Cb) in *. eapply returns_mono; [apply hgemm_raw with (A := A) (B := B) (w := w); auto|].
    intros c' [Hh S]; auto. }
  unfold HBLAS_GEMM, pub_val. destruct alpha, beta; assumption.
Qed.

Lemma gemm_local (e e' : genv K) ca cb oa ob k alpha beta m n (a : qarr) lda (b : qarr) ldb (c : qarr) ldc A B w
  m' n' (a' : qarr) lda' (b' : qarr) ldb' (c' : qarr) ldc' A' B' w' i j i' j' : good_env e -> good_env e' ->
  trans_char ca = Some oa -> trans_char cb = Some ob -> 0 <= k -> m <= ldc -> m' <= ldc' ->
  holds_mat a lda (op_rows oa m k) (op_cols oa m k) A -> holds_mat b ldb (op_rows ob k n) (op_cols ob k n) B -> holds_mat c ldc m n w ->
  holds_mat a' lda' (op_rows oa m' k) (op_cols oa m' k) A' -> holds_mat b' ldb' (op_rows ob k n') (op_cols ob k n') B' -> holds_mat c' ldc' m' n' w' ->
  0 <= i < m -> 0 <= j < n -> 0 <= i' < m' -> 0 <= j' < n' ->
  (forall l, 0 <= l < k -> stored oa A i l = stored oa A' i' l) -> (forall l, 0 <= l < k -> stored ob B l j = stored ob B' l j') ->
  w i j = w' i' j' ->
  returns (HBLAS_GEMM e ca cb m n k alpha a lda b ldb beta c ldc) (fun r =>
  returns (HBLAS_GEMM e' ca cb m' n' k alpha a' lda' b' ldb' beta c' ldc') (fun r' =>
    exists q, r (i + j * ldc) = Some q /\ r' (i' + j' * ldc') = Some q)).
Proof.
  intros G G' Ca Cb Hk Hl Hl' Ha Hb Hc Ha' Hb' Hc' Hi Hj Hi' Hj' EA EB EW.
  eapply returns_mono; [apply (pub_raw e ca cb oa ob) with (A := A) (B := B) (w := w); auto; lia|]. intros r [R _].
  eapply returns_mono; [apply (pub_raw e' ca cb oa ob) with (A := A') (B := B') (w := w'); auto; lia|]. intros r' [R' _].
  eexists. rewrite R, R' by auto. split; [reflexivity|]. f_equal. symmetry. apply pub_val_ext; auto.
Qed.

(** stored elements of a sub-block *)
Lemma sub_holds o (a : qarr) ldim m k A i0 m1 l0 k1 : holds_mat a ldim (op_rows o m k) (op_cols o m k) A ->
  0 <= i0 -> 0 <= m1 -> i0 + m1 <= m -> 0 <= l0 -> 0 <= k1 -> l0 + k1 <= k ->
  holds_mat (shifted a (op_offset o ldim i0 l0)) ldim (op_rows o m1 k1) (op_cols o m1 k1)
    (fun r s => match o with OpN | OpR => A (i0 + r) (l0 + s) | OpT | OpC => A (l0 + r) (i0 + s) end).
Proof.
  intros Ha Hi Hm Him Hl Hk Hlk r s Hr Hs. unfold shifted.
  destruct o; cbn [op_rows op_cols op_offset] in *; rewrite <- Ha by lia; f_equal; lia.
Qed.
Lemma sub_holds_c (c : qarr) ldc m n w i0 m1 j0 n1 : holds_mat c ldc m n w -> 0 <= i0 -> i0 + m1 <= m -> 0 <= j0 -> j0 + n1 <= n ->
  holds_mat (shifted c (i0 + j0 * ldc)) ldc m1 n1 (fun r s => w (i0 + r) (j0 + s)).
Proof. intros Hc Hi Him Hj Hjn r s Hr Hs. unfold shifted. rewrite <- Hc by lia. f_equal. lia. Qed.

Section SP.
Context (e e1 e2 : genv K) (ca cb : ascii) (oa ob : mop) (k : Z) (alpha beta : scal K).
Hypothesis (G : good_env e) (G1 : good_env e1) (G2 : good_env e2) (Ca : trans_char ca = Some oa) (Cb : trans_char cb = Some ob) (Hk : 0 <= k).
Lemma gemm_split_cols m n1 n2 (a : qarr) lda (b : qarr) ldb (c : qarr) ldc A B w : 0 <= m -> 0 <= n1 -> 0 <= n2 -> m <= ldc ->
  holds_mat a lda (op_rows oa m k) (op_cols oa m k) A -> holds_mat b ldb (op_rows ob k (n1 + n2)) (op_cols ob k (n1 + n2)) B -> holds_mat c ldc m (n1 + n2) w ->
  returns (HBLAS_GEMM e ca cb m (n1 + n2) k alpha a lda b ldb beta c ldc) (fun r =>
  returns (HBLAS_GEMM e1 ca cb m n1 k alpha a lda b ldb beta c ldc) (fun c1 =>
  returns (HBLAS_GEMM e2 ca cb m n2 k alpha a lda (shifted b (op_offset ob ldb 0 n1)) ldb beta (shifted c1 (n1 * ldc)) ldc) (fun c2 =>
    forall p, c2 (p - n1 * ldc) = r p))).
Proof.
  intros Hm Hn1 Hn2 Hld Ha Hb Hc.
  eapply returns_mono; [apply (pub_raw e ca cb oa ob) with (A := A) (B := B) (w := w); auto; lia|]. intros r [R SR].
  eapply returns_mono; [apply (pub_raw e1 ca cb oa ob m n1 k alpha a lda b ldb beta c ldc A B w); auto|].
  { intros i j Hi Hj. apply Hb; destruct ob; cbn [op_rows op_cols] in *; lia. }
  { intros i j Hi Hj. apply Hc; lia. }
  intros c1 [R1 S1].
  eapply returns_mono.
  { apply (pub_raw e2 ca cb oa ob m n2 k alpha a lda (shifted b (op_offset ob ldb 0 n1)) ldb beta (shifted c1 (n1 * ldc)) ldc A
      (fun r s => match ob with OpN | OpR => B (0 + r) (n1 + s) | OpT | OpC => B (n1 + r) (0 + s) end) (fun i j => w (i) (n1 + j))); auto.
    - intros i j Hi Hj. unfold shifted. destruct ob; cbn [op_rows op_cols op_offset] in *; rewrite <- Hb by lia; f_equal; lia.
    - intros i j Hi Hj. unfold shifted. rewrite S1.
      + rewrite <- Hc by lia. f_equal; lia.
      + intros i' j' Hi' Hj' E. destruct (mpos_inj ldc m i (n1 + j) i' j') as [_ E2]; lia. }
  intros c2 [R2 S2] p.
  destruct (window_dec ldc m (n1 + n2) p) as [(i & j & Hi & Hj & ->)|Hp]; auto.
  - rewrite R by lia. destruct (Z_lt_le_dec j n1) as [Hjn|Hjn].
    + rewrite S2.
      * unfold shifted. replace (i + j * ldc - n1 * ldc + n1 * ldc) with (i + j * ldc) by lia. apply R1; lia.
      * intros i' j' Hi' Hj' E. destruct (mpos_inj ldc m i j i' (n1 + j')) as [_ E2]; lia.
    + replace (i + j * ldc - n1 * ldc) with (i + (j - n1) * ldc) by lia. rewrite R2 by lia. f_equal. apply pub_val_ext; auto.
      * intros l Hl. destruct ob; cbn [stored]; f_equal; lia.
      * f_equal; lia.
  - rewrite SR by auto. rewrite S2.
    + unfold shifted. replace (p - n1 * ldc + n1 * ldc) with p by lia. apply S1. intros i j Hi Hj. apply Hp; lia.
    + intros i j Hi Hj E. apply (Hp i (n1 + j)); lia.
Qed.
Lemma gemm_split_rows m1 m2 n (a : qarr) lda (b : qarr) ldb (c : qarr) ldc A B w : 0 <= m1 -> 0 <= m2 -> 0 <= n -> m1 + m2 <= ldc ->
  holds_mat a lda (op_rows oa (m1 + m2) k) (op_cols oa (m1 + m2) k) A -> holds_mat b ldb (op_rows ob k n) (op_cols ob k n) B -> holds_mat c ldc (m1 + m2) n w ->
  returns (HBLAS_GEMM e ca cb (m1 + m2) n k alpha a lda b ldb beta c ldc) (fun r =>
  returns (HBLAS_GEMM e1 ca cb m1 n k alpha a lda b ldb beta c ldc) (fun c1 =>
  returns (HBLAS_GEMM e2 ca cb m2 n k alpha (shifted a (op_offset oa lda m1 0)) lda b ldb beta (shifted c1 m1) ldc) (fun c2 =>
    forall p, c2 (p - m1) = r p))).
Proof.
  intros Hm1 Hm2 Hn Hld Ha Hb Hc.
  eapply returns_mono; [apply (pub_raw e ca cb oa ob) with (A := A) (B := B) (w := w); auto; lia|]. intros r [R SR].
  eapply returns_mono; [apply (pub_raw e1 ca cb oa ob m1 n k alpha a lda b ldb beta c ldc A B w); auto; try lia|].
  { intros i j Hi Hj. apply Ha; destruct oa; cbn [op_rows op_cols] in *; lia. }
  { intros i j Hi Hj. apply Hc; lia. }
  intros c1 [R1 S1].
  eapply returns_mono.
  { apply (pub_raw e2 ca cb oa ob m2 n k alpha (shifted a (op_offset oa lda m1 0)) lda b ldb beta (shifted c1 m1) ldc
      (fun r s => match oa with OpN | OpR => A (m1 + r) (0 + s) | OpT | OpC => A (0 + r) (m1 + s) end) B (fun i j => w (m1 + i) j)); auto; try lia.
    - intros i j Hi Hj. unfold shifted. destruct oa; cbn [op_rows op_cols op_offset] in *; rewrite <- Ha by lia; f_equal; lia.
    - intros i j Hi Hj. unfold shifted. rewrite S1.
      + rewrite <- Hc by lia. f_equal; lia.
      + intros i' j' Hi' Hj' E. destruct (mpos_inj ldc (m1 + m2) (m1 + i) j i' j') as [E1 E2]; lia. }
  intros c2 [R2 S2] p.
  destruct (window_dec ldc (m1 + m2) n p) as [(i & j & Hi & Hj & ->)|Hp]; auto; try lia.
  - rewrite R by lia. destruct (Z_lt_le_dec i m1) as [Him|Him].
    + rewrite S2.
      * unfold shifted. replace (i + j * ldc - m1 + m1) with (i + j * ldc) by lia. apply R1; lia.
      * intros i' j' Hi' Hj' E. destruct (mpos_inj ldc (m1 + m2) i j (m1 + i') j') as [E1 E2]; lia.
    + replace (i + j * ldc - m1) with (i - m1 + j * ldc) by lia. rewrite R2 by lia. f_equal. apply pub_val_ext; auto.
      * intros l Hl. destruct oa; cbn [stored]; f_equal; lia.
      * f_equal; lia.
  - rewrite SR by auto. rewrite S2.
    + unfold shifted. replace (p - m1 + m1) with p by lia. apply S1. intros i j Hi Hj. apply Hp; lia.
    + intros i j Hi Hj E. apply (Hp (m1 + i) j); lia.
Qed.

(** splitting the inner dimension: the second call accumulates with BETA = 1 *)
Lemma facc_split n1 n2 x y (r : H) : 0 <= n1 -> 0 <= n2 -> facc (n1 + n2) x y r = facc n2 (fun l => x (n1 + l)) (fun l => y (n1 + l)) (facc n1 x y r).
Proof.
  intros Hn1 Hn2. pattern n2. apply natlike_ind; auto; [rewrite Z.add_0_r, facc_0; reflexivity|].
  intros p Hp IH. unfold Z.succ. rewrite Z.add_assoc, !facc_succ, IH by lia. reflexivity.
Qed.
Lemma scalq_one (one_l : forall x : K, nmul n1 x = x) (q : H) : scalq true (SR (n1 : K)) q = q.
Proof. destruct q as [q0 q1 q2 q3]. unfold scalq. change (@Quat K (nmul n1 q0) (nmul n1 q1) (nmul n1 q2) (nmul n1 q3) = @Quat K q0 q1 q2 q3). rewrite !one_l. reflexivity. Qed.
Lemma gemm_split_k (one_l : forall x : K, nmul n1 x = x) m n k1 k2 (a : qarr) lda (b : qarr) ldb (c : qarr) ldc A B w :
  (forall h, alpha <> SH h) -> (forall h, beta <> SH h) -> 0 <= m -> 0 <= n -> 0 <= k1 -> 0 <= k2 -> m <= ldc ->
  holds_mat a lda (op_rows oa m (k1 + k2)) (op_cols oa m (k1 + k2)) A -> holds_mat b ldb (op_rows ob (k1 + k2) n) (op_cols ob (k1 + k2) n) B -> holds_mat c ldc m n w ->
  returns (HBLAS_GEMM e ca cb m n (k1 + k2) alpha a lda b ldb beta c ldc) (fun r =>
  returns (HBLAS_GEMM e1 ca cb m n k1 alpha a lda b ldb beta c ldc) (fun c1 =>
  returns (HBLAS_GEMM e2 ca cb m n k2 alpha (shifted a (op_offset oa lda 0 k1)) lda (shifted b (op_offset ob ldb k1 0)) ldb (SR (n1 : K)) c1 ldc) (fun c2 =>
    forall p, c2 p = r p))).
Proof.
  intros Hal Hbe Hm Hn Hk1 Hk2 Hld Ha Hb Hc.
  eapply returns_mono; [apply (pub_raw e ca cb oa ob) with (A := A) (B := B) (w := w); auto; lia|]. intros r [R SR].
  eapply returns_mono; [apply (pub_raw e1 ca cb oa ob m n k1 alpha a lda b ldb beta c ldc A B w); auto|].
  { intros i j Hi Hj. apply Ha; destruct oa; cbn [op_rows op_cols] in *; lia. }
  { intros i j Hi Hj. apply Hb; destruct ob; cbn [op_rows op_cols] in *; lia. }
  intros c1 [R1 S1].
  pose (A2 := fun r s => match oa with OpN | OpR => A (0 + r) (k1 + s) | OpT | OpC => A (k1 + r) (0 + s) end).
  pose (B2 := fun r s => match ob with OpN | OpR => B (k1 + r) (0 + s) | OpT | OpC => B (0 + r) (k1 + s) end).
  eapply returns_mono.
  { apply (pub_raw e2 ca cb oa ob m n k2 alpha (shifted a (op_offset oa lda 0 k1)) lda (shifted b (op_offset ob ldb k1 0)) ldb (Num.SR n1) c1 ldc
      A2 B2 (pub_val oa ob k1 alpha beta A B w)); auto.
    - intros i j Hi Hj. unfold shifted, A2. destruct oa; cbn [op_rows op_cols op_offset] in *; rewrite <- Ha by lia; f_equal; lia.
    - intros i j Hi Hj. unfold shifted, B2. destruct ob; cbn [op_rows op_cols op_offset] in *; rewrite <- Hb by lia; f_equal; lia. }
  intros c2 [R2 S2] p.
  destruct (window_dec ldc m n p) as [(i & j & Hi & Hj & ->)|Hp]; auto.
  - rewrite R, R2 by lia. f_equal.
    assert (V : forall be (k : Z) (A B w : Z -> Z -> H), (forall h, be <> SH h) -> pub_val oa ob k alpha be A B w i j = gemm_val oa ob k alpha be A B w i j).
    { intros be k' A' B' w' Hbe'. unfold pub_val. destruct alpha as [?|?|h]; [| |destruct (Hal h eq_refl)];
      (destruct be as [?|?|h']; [| |destruct (Hbe' h' eq_refl)]); reflexivity. }
    rewrite !V by (auto; discriminate). unfold gemm_val, gemm_val_at, pprod. rewrite scalq_one, V by auto.
    unfold gemm_val, gemm_val_at, pprod. rewrite facc_split by lia. cbn [Z.add].
    rewrite (facc_ext k2 _ _ (fun l => pre (iscj oa) (Some alpha) (rawm oa A i (k1 + l))) (fun l => pre (iscj ob) None (rawm ob B (k1 + l) j))); [reflexivity|].
    intros l Hl. unfold A2, B2. destruct oa, ob; cbn [rawm]; split; reflexivity.
  - rewrite SR, S2, S1; auto.
Qed.
End SP.
End B.
Lemma fmul_1_l (x : f64) : fmul f_one x = x.
Proof.
  destruct x as [s|s| |s m e Hx]; try (destruct s; reflexivity); try reflexivity.
  pose proof (Bmult_correct 53 1024 prec64 emax64 mode_NE f_one (B754_finite s m e Hx)) as C.
  fold (fmul f_one (B754_finite s m e Hx)) in C.
  pose proof (Bone_correct 53 1024 prec64 emax64) as One. fold f_one in One. rewrite One, Rmult_1_l in C.
  rewrite round_generic in C by (try apply generic_format_B2R; typeclasses eauto).
  rewrite Rlt_bool_true in C by apply abs_B2R_lt_emax. destruct C as (C1 & C2 & C3).
  assert (F : is_finite (fmul f_one (B754_finite s m e Hx)) = true) by (rewrite C2; reflexivity).
  apply B2R_Bsign_inj; auto.
  rewrite C3; [destruct s; reflexivity|]. destruct (fmul f_one _); try discriminate; reflexivity.
Qed.
