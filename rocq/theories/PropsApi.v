(** Property theorems C44 (public GEMM for every scalar type) and C45 (laws of the matrix product). *)
From Coq Require Import ZArith Lia Bool Ascii List.
From Verif Require Import Num NumR Res ResFacts Spec SpecFacts MQuat MSimd MOptL1 MForL3 ForL3Facts MGenL2 MPack MOptGemm OptGemmTop MDispatch.
Import ListNotations.
Local Open Scope Z_scope.

(** ** C44 *)
Theorem C44_gemm_public : forall (K : num), laws K -> forall (e : genv K), good_env e ->
  forall ca cb oa ob m n k alpha (a : arr (quat K)) lda (b : arr (quat K)) ldb beta (c : arr (quat K)) ldc A B w,
  trans_char ca = Some oa -> trans_char cb = Some ob -> 0 <= m -> 0 <= n -> 0 <= k -> m <= ldc ->
  holds_mat a lda (op_rows oa m k) (op_cols oa m k) A -> holds_mat b ldb (op_rows ob k n) (op_cols ob k n) B ->
  holds_mat c ldc m n w ->
  returns (HBLAS_GEMM e ca cb m n k alpha a lda b ldb beta c ldc) (fun c' =>
    holds_mat c' ldc m n (gemm_elt oa ob k (emb alpha) A B (emb beta) w) /\ same_but_mat c c' ldc m n).
Proof.
  intros K L e [Ea Eb] ca cb oa ob m n k alpha a lda b ldb beta c ldc A B w Ca Cb Hm Hn Hk Hld Ha Hb Hc.
  assert (R : forall c o, trans_char c = Some o -> trans_char_r c = Some o).
  { intros ch o E. unfold trans_char_r. destruct (Ascii.eqb_spec ch "R") as [->|]; [discriminate E|exact E]. }
  assert (O := gemm_opt_default_ok K L (e_aa e) (e_ba e) (e_ga e) (e_gb e) ca cb oa ob m n k alpha a lda b ldb beta (e_c e) c ldc A B w
    Ea Eb (R _ _ Ca) (R _ _ Cb) Hm Hn Hk Hld Ha Hb Hc).
  assert (F := hgemm_ok L ca cb oa ob m n k alpha a lda b ldb beta c ldc A B w Ca Cb Hm Hn Hk Hld Ha Hb Hc).
  unfold HBLAS_GEMM. destruct alpha, beta; assumption.
Qed.
Print Assumptions C44_gemm_public.
(** concrete: one of the linked-to-Fortran and one of the linked-to-AVX combinations on the same data *)
Example C44_concrete :
  let e := GEnv (K := Znum) 32 64 (fun _ => zq 7 7 7 7) (fun _ => zq 8 8 8 8) 0 in
  let run al be := HBLAS_GEMM e "T" "C" 1 1 2 al (arr_list [zq 1 0 0 1; zq 2 0 3 0]) 2 (arr_list [zq 0 1 0 0; zq 0 0 1 0]) 1 be
                     (arr_list [zq 5 0 0 0]) 1 in
  match run (SC (zc 1 2)) (SR (3 : Znum)), run (SH (zq 1 2 0 0)) (SH (zq 3 0 0 0)) with
  | Ok c1, Ok c2 => c1 0 = Some (zq 20 5 (-3) (-6)) /\ c2 0 = c1 0
  | _, _ => False end.
Proof. vm_compute. split; reflexivity. Qed.

(** ** C45 *)
Section Laws.
Variables (K : num) (L : laws K).
Local Notation qarr := (arr (quat K)).
Local Notation one := (SR (n1 : K)).
Local Notation zero := (SR (n0 : K)).
Lemma gemm_prod (e : genv K) ca cb oa ob m n k (a : qarr) lda (b : qarr) ldb (c : qarr) ldc A B w : good_env e ->
  trans_char ca = Some oa -> trans_char cb = Some ob -> 0 <= m -> 0 <= n -> 0 <= k -> m <= ldc ->
  holds_mat a lda (op_rows oa m k) (op_cols oa m k) A -> holds_mat b ldb (op_rows ob k n) (op_cols ob k n) B ->
  holds_mat c ldc m n w ->
  returns (HBLAS_GEMM e ca cb m n k one a lda b ldb zero c ldc) (fun c' =>
    holds_mat c' ldc m n (fun i j => Hsum k (fun l => Hmul (opm oa A i l) (opm ob B l j)))).
Proof.
  intros. eapply returns_mono; [eapply (C44_gemm_public K L e) with (A := A) (B := B) (w := w); eauto|].
  intros c' [Hc' _] i j Hi Hj. rewrite Hc' by auto. unfold gemm_elt. cbn [emb]. rewrite Hre_0, Hre_1, (Hmul_1_l L), (Hmul_0_l L), (Hadd_0_r L). reflexivity.
Qed.
Lemma Hsum_swap m n (f : Z -> Z -> quat K) : 0 <= m -> Hsum m (fun i => Hsum n (fun j => f i j)) = Hsum n (fun j => Hsum m (fun i => f i j)).
Proof.
  intros Hm. pattern m. apply natlike_ind; auto.
  - rewrite Hsum_0. symmetry. apply (Hsum_zero L). intros. apply Hsum_0.
  - intros p Hp IH. unfold Z.succ. rewrite Hsum_succ, IH, <- (Hsum_add L) by lia. apply Hsum_ext. intros j _. rewrite Hsum_succ by lia. reflexivity.
Qed.
End Laws.
(** (A*B)*C = A*(B*C), whatever the intermediate and result buffers contained *)
Theorem C45_associative : forall (K : num), laws K -> forall (e1 e2 e3 e4 : genv K), good_env e1 -> good_env e2 -> good_env e3 -> good_env e4 ->
  forall m n p q (a : arr (quat K)) lda (b : arr (quat K)) ldb (c : arr (quat K)) ldc (d : arr (quat K)) ldd (f : arr (quat K)) ldf
    (g : arr (quat K)) ldg (h : arr (quat K)) ldh A B C wd wf wg wh,
  0 <= m -> 0 <= n -> 0 <= p -> 0 <= q -> m <= ldd -> m <= ldf -> n <= ldg -> m <= ldh ->
  holds_mat a lda m n A -> holds_mat b ldb n p B -> holds_mat c ldc p q C ->
  holds_mat d ldd m p wd -> holds_mat f ldf m q wf -> holds_mat g ldg n q wg -> holds_mat h ldh m q wh ->
  returns (HBLAS_GEMM e1 "N" "N" m p n (SR (n1 : K)) a lda b ldb (SR (n0 : K)) d ldd) (fun ab =>
  returns (HBLAS_GEMM e2 "N" "N" m q p (SR (n1 : K)) ab ldd c ldc (SR (n0 : K)) f ldf) (fun ab_c =>
  returns (HBLAS_GEMM e3 "N" "N" n q p (SR (n1 : K)) b ldb c ldc (SR (n0 : K)) g ldg) (fun bc =>
  returns (HBLAS_GEMM e4 "N" "N" m q n (SR (n1 : K)) a lda bc ldg (SR (n0 : K)) h ldh) (fun a_bc =>
    forall i j, 0 <= i < m -> 0 <= j < q -> ab_c (i + j * ldf) = a_bc (i + j * ldh) /\ exists x, ab_c (i + j * ldf) = Some x)))).
Proof.
  intros K L e1 e2 e3 e4 G1 G2 G3 G4 m n p q a lda b ldb c ldc d ldd f ldf g ldg h ldh A B C wd wf wg wh Hm Hn Hp Hq Ld Lf Lg Lh Ha Hb Hc Hd Hf Hg Hh.
  eapply returns_mono; [apply (gemm_prod K L e1 "N" "N" OpN OpN m p n a lda b ldb d ldd A B wd); auto|]. intros ab Hab.
  eapply returns_mono; [apply (gemm_prod K L e2 "N" "N" OpN OpN m q p ab ldd c ldc f ldf _ C wf G2 eq_refl eq_refl Hm Hq Hp Lf Hab Hc Hf)|]. intros abc Habc.
  eapply returns_mono; [apply (gemm_prod K L e3 "N" "N" OpN OpN n q p b ldb c ldc g ldg B C wg); auto|]. intros bc Hbc.
  eapply returns_mono; [apply (gemm_prod K L e4 "N" "N" OpN OpN m q n a lda bc ldg h ldh A _ wh G4 eq_refl eq_refl Hm Hq Hn Lh Ha Hbc Hh)|]. intros abc' Habc'.
  intros i j Hi Hj. rewrite Habc, Habc' by auto. split; [|eauto]. f_equal. cbn [opm].
  rewrite (Hsum_ext p _ (fun l => Hsum n (fun t => Hmul (Hmul (A i t) (B t l)) (C l j)))) by (intros; apply (Hmul_sum_r L)).
  rewrite (Hsum_ext n _ (fun t => Hsum p (fun l => Hmul (Hmul (A i t) (B t l)) (C l j)))).
  2:{ intros t _. rewrite (Hmul_sum_l L). apply Hsum_ext. intros l _. apply (Hmul_assoc L). }
  apply (Hsum_swap K L); auto.
Qed.
Print Assumptions C45_associative.
(** (A*B)^H = B^H * A^H, for a real factor ALPHA *)
Theorem C45_adjoint : forall (K : num), laws K -> forall (e1 e2 : genv K), good_env e1 -> good_env e2 ->
  forall m n k (al : K) (a : arr (quat K)) lda (b : arr (quat K)) ldb (d : arr (quat K)) ldd (f : arr (quat K)) ldf A B wd wf,
  0 <= m -> 0 <= n -> 0 <= k -> m <= ldd -> n <= ldf ->
  holds_mat a lda m k A -> holds_mat b ldb k n B -> holds_mat d ldd m n wd -> holds_mat f ldf n m wf ->
  returns (HBLAS_GEMM e1 "N" "N" m n k (SR al) a lda b ldb (SR (n0 : K)) d ldd) (fun ab =>
  returns (HBLAS_GEMM e2 "C" "C" n m k (SR al) b ldb a lda (SR (n0 : K)) f ldf) (fun bhah =>
    forall i j, 0 <= i < m -> 0 <= j < n -> exists x, ab (i + j * ldd) = Some x /\ bhah (j + i * ldf) = Some (Hconj x))).
Proof.
  intros K L e1 e2 G1 G2 m n k al a lda b ldb d ldd f ldf A B wd wf Hm Hn Hk Ld Lf Ha Hb Hd Hf.
  eapply returns_mono; [apply (C44_gemm_public K L e1 G1 "N" "N" OpN OpN m n k (SR al) a lda b ldb (SR n0) d ldd A B wd); auto|]. intros ab [Hab _].
  eapply returns_mono; [apply (C44_gemm_public K L e2 G2 "C" "C" OpC OpC n m k (SR al) b ldb a lda (SR n0) f ldf B A wf); auto|]. intros ba [Hba _].
  intros i j Hi Hj. eexists. split; [apply Hab; auto|]. rewrite Hba by auto. f_equal. unfold gemm_elt. cbn [opm emb].
  rewrite Hre_0, !(Hmul_0_l L), !(Hadd_0_r L), (Hconj_mul L), (Hconj_sum L).
  rewrite (Hconj_re L). rewrite (Hre_comm L). f_equal.
  apply Hsum_ext. intros l _. rewrite (Hconj_mul L). reflexivity.
Qed.
Print Assumptions C45_adjoint.
(** A^H * A is Hermitian and its diagonal is the real sum of squared norms of the column *)
Theorem C45_gram : forall (K : num), laws K -> forall (e : genv K), good_env e ->
  forall n k (a : arr (quat K)) lda (d : arr (quat K)) ldd A wd, 0 <= n -> 0 <= k -> n <= ldd -> holds_mat a lda k n A -> holds_mat d ldd n n wd ->
  returns (HBLAS_GEMM e "C" "N" n n k (SR (n1 : K)) a lda a lda (SR (n0 : K)) d ldd) (fun g =>
    forall i j, 0 <= i < n -> 0 <= j < n -> exists x, g (i + j * ldd) = Some x /\ g (j + i * ldd) = Some (Hconj x) /\
      (i = j -> x = Hsum k (fun l => Hre (Hnsq (A l i))))).
Proof.
  intros K L e G n k a lda d ldd A wd Hn Hk Ld Ha Hd.
  eapply returns_mono; [apply (gemm_prod K L e "C" "N" OpC OpN n n k a lda a lda d ldd A A wd); auto|]. intros g Hg i j Hi Hj.
  eexists. refine (conj (Hg i j Hi Hj) (conj _ _)).
  - rewrite Hg by auto. f_equal. rewrite (Hconj_sum L). apply Hsum_ext. intros l _. cbn [opm]. rewrite (Hconj_mul L), (Hconj_conj L). reflexivity.
  - intros <-. apply Hsum_ext. intros l _. cbn [opm]. apply (Hnsq_conj' L).
Qed.
Print Assumptions C45_gram.
(** multiplying by the identity copies *)
Theorem C45_identity : forall (K : num), laws K -> forall (e : genv K), good_env e ->
  forall m n (a : arr (quat K)) lda (b : arr (quat K)) ldb (d : arr (quat K)) ldd B wd, 0 <= m -> 0 <= n -> m <= ldd ->
  holds_mat a lda m m (fun i j => if i =? j then H1 else H0) -> holds_mat b ldb m n B -> holds_mat d ldd m n wd ->
  returns (HBLAS_GEMM e "N" "N" m n m (SR (n1 : K)) a lda b ldb (SR (n0 : K)) d ldd) (fun d' => holds_mat d' ldd m n B).
Proof.
  intros K L e G m n a lda b ldb d ldd B wd Hm Hn Ld Ha Hb Hd.
  eapply returns_mono; [apply (gemm_prod K L e "N" "N" OpN OpN m n m a lda b ldb d ldd _ B wd G eq_refl eq_refl Hm Hn Hm Ld Ha Hb Hd)|].
  intros d' Hd' i j Hi Hj. rewrite Hd' by auto. f_equal. cbn [opm].
  replace m with ((i + 1) + (m - i - 1)) by lia. rewrite (Hsum_split L), Hsum_succ by lia. rewrite Z.eqb_refl, (Hmul_1_l L).
  rewrite (Hsum_zero L i), (Hsum_zero L (m - i - 1)), (Hadd_0_l L), (Hadd_0_r L); auto.
  - intros l Hl. destruct (Z.eqb_spec i (i + 1 + l)); [lia|]. apply (Hmul_0_l L).
  - intros l Hl. destruct (Z.eqb_spec i l); [lia|]. apply (Hmul_0_l L).
Qed.
Print Assumptions C45_identity.
