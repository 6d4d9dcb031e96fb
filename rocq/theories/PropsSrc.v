(** C62, C63: the Fortran source texts.  The statements speak about running the text of each .f file (MSrc.v: parse the text, run the program), not about
    the hand-written model of the kernels. *)
From Coq Require Import ZArith Lia Bool Ascii String List.
From Verif Require Import Num Res ResFacts Spec SpecFacts SpecExp MForL1 MForL2 MForL3 MUtil F64 UtilFacts UtilFacts2 L1Facts3 PropsL1 PropsL2 PropsL3 PropsUtil
  FSyntax FParse FSem FProg FSimFacts FTac MSrc SrcEqL1 SrcEqR SrcEqVd SrcEqVz SrcEqVh SrcEqMdd SrcEqMdz SrcEqMdh SrcEqMzd SrcEqMzz SrcEqMzh SrcEqMhd SrcEqMhz SrcEqMhh SrcEqU.
Import ListNotations.
Local Open Scope string_scope.
Local Open Scope Z_scope.

Lemma so_of {K : num} (r : res (arr K)) m : simr (fun x' mm => forall z, mm z = cells x' z) r m -> same_outcome quats r m.
Proof. destruct r, m; cbn; auto. Qed.
Lemma so_ret {A B} (R : A -> B -> Prop) r m (P : B -> Prop) : same_outcome R r m -> returns m P -> returns r (fun a => exists b, R a b /\ P b).
Proof. destruct r, m; cbn; try contradiction; eauto. Qed.
Lemma e00_of {K : num} : laws K -> neqb (@n0 K) n0 = true. Proof. intros L. apply (l_eqb _ L). reflexivity. Qed.

(** ** The texts compute exactly what the kernels of MForL1.v, MForL2.v, MForL3.v and MUtil.v compute: same results, same undefined calls, in every
    arithmetic where 0 == 0, in particular in IEEE binary64.  Every theorem about those kernels is therefore a theorem about the texts. *)
Theorem C62_scal_text : forall (K : num), neqb (@n0 K) n0 = true -> forall side n alpha (x : arr (quat K)) incx,
  same_outcome quats (scal_text side n alpha x incx) (scalv_for side n alpha x incx).
Proof. intros K e side n [a|z|q] x incx; apply so_of; [exact (src_hscald_ok side n a x incx)|exact (src_hscalc_ok e side n z x incx)|exact (src_hscalh_ok side n q x incx)]. Qed.
Print Assumptions C62_scal_text.
Theorem C62_axpy_text : forall (K : num), neqb (@n0 K) n0 = true -> forall side n alpha (x : arr (quat K)) incx y incy,
  same_outcome quats (axpy_text side n alpha x incx y incy) (axpyv_for side n alpha x incx y incy).
Proof. intros K e side n [a|z|q] x incx y incy; apply so_of; [exact (src_haxpydh_ok side n a x incx y incy)|exact (src_haxpych_ok side n z x incx y incy)|exact (src_haxpyhh_ok side n q x incx y incy)]. Qed.
Print Assumptions C62_axpy_text.
Theorem C62_dot_text : forall (K : num) r0 n (x : arr (quat K)) incx y incy,
  same_outcome (fun mem r => quats mem (one r)) (dotu_text r0 n x incx y incy) (dot_for false n x incx y incy) /\
  same_outcome (fun mem r => quats mem (one r)) (dotc_text r0 n x incx y incy) (dot_for true n x incx y incy).
Proof.
  intros K r0 n x incx y incy. assert (A := src_hdot_ok false n r0 x incx y incy). assert (B := src_hdot_ok true n r0 x incx y incy). cbn iota in A, B.
  unfold dotu_text, dotc_text. split; [clear B|clear A];
    match goal with H : simr _ ?r ?m |- _ => destruct r, m; cbn in *; auto end.
Qed.
Print Assumptions C62_dot_text.
Theorem C62_gemv_text : forall (K : num), neqb (@n0 K) n0 = true -> forall trans m n alpha (a : arr (quat K)) lda x incx beta y incy,
  same_outcome quats (gemv_text trans m n alpha a lda x incx beta y incy) (hgemv trans m n alpha a lda x incx beta y incy).
Proof.
  intros K e trans m n [r|z|q] a lda x incx [r'|z'|q'] y incy; apply so_of;
    [apply src_hgemvdd_ok|apply src_hgemvdz_ok|apply src_hgemvdh_ok|apply src_hgemvzd_ok|apply src_hgemvzz_ok|apply src_hgemvzh_ok|apply src_hgemvhd_ok|apply src_hgemvhz_ok|apply src_hgemvhh_ok]; exact e.
Qed.
Print Assumptions C62_gemv_text.
Theorem C62_ger_text : forall (K : num), neqb (@n0 K) n0 = true -> forall m n alpha (x : arr (quat K)) incx y incy a lda,
  same_outcome quats (geru_text m n alpha x incx y incy a lda) (hger false m n alpha x incx y incy a lda) /\
  same_outcome quats (gerc_text m n alpha x incx y incy a lda) (hger true m n alpha x incx y incy a lda).
Proof.
  intros K e m n [r|z|q] x incx y incy a lda; split; apply so_of;
    [apply src_hgerud_ok|apply src_hgercd_ok|apply src_hgeruz_ok|apply src_hgercz_ok|apply src_hgeruh_ok|apply src_hgerch_ok]; exact e.
Qed.
Print Assumptions C62_ger_text.
Theorem C62_gemm_text : forall (K : num), neqb (@n0 K) n0 = true -> forall ta tb m n k alpha (a : arr (quat K)) lda b ldb beta c ldc, 0 <= m ->
  same_outcome quats (gemm_text ta tb m n k alpha a lda b ldb beta c ldc) (hgemm ta tb m n k alpha a lda b ldb beta c ldc).
Proof.
  intros K e ta tb m n k [r|z|q] a lda b ldb [r'|z'|q'] c ldc Hm; apply so_of;
    [apply src_hgemmdd_ok|apply src_hgemmdz_ok|apply src_hgemmdh_ok|apply src_hgemmzd_ok|apply src_hgemmzz_ok|apply src_hgemmzh_ok|apply src_hgemmhd_ok|apply src_hgemmhz_ok|apply src_hgemmhh_ok]; first [exact e|exact Hm].
Qed.
Print Assumptions C62_gemm_text.
Theorem C62_util_text : forall (K : num) uplo m n (a : arr (quat K)) lda (b : arr (cplx K)) (d : arr K) ldb,
  same_outcome complexes (hzexp_text true m n a lda b ldb) (hzexp1 m n a lda b ldb) /\
  same_outcome complexes (hzexp_text false m n a lda b ldb) (hzexp2 m n a lda b ldb) /\
  same_outcome (fun mem b' => forall z, mem z = b' z) (hdexp_text m n a lda d ldb) (hdexp m n a lda d ldb) /\
  same_outcome quats (hzcon_text true uplo m n a lda b ldb) (hzcon1 uplo m n a lda b ldb) /\
  same_outcome quats (hzcon_text false uplo m n a lda b ldb) (hzcon2 uplo m n a lda b ldb).
Proof.
  intros K uplo m n a lda b d ldb. unfold hzexp_text, hdexp_text, hzcon_text.
  repeat match goal with |- _ /\ _ => split end.
  - pose proof (src_hzexp1_ok m n a lda b ldb) as H. destruct (fcall _ _ _ _), (hzexp1 _ _ _ _ _ _); cbn in *; auto.
  - pose proof (src_hzexp2_ok m n a lda b ldb) as H. destruct (fcall _ _ _ _), (hzexp2 _ _ _ _ _ _); cbn in *; auto.
  - pose proof (src_hdexp_ok m n a lda d ldb) as H. destruct (fcall _ _ _ _), (hdexp _ _ _ _ _ _); cbn in *; auto.
  - apply so_of. apply src_hzcon1_ok.
  - apply so_of. apply src_hzcon2_ok.
Qed.
Print Assumptions C62_util_text.
Example C62_binary64_has_00 : forall fused, neqb (@n0 (F64 fused)) n0 = true.
Proof. intros fused. vm_compute. reflexivity. Qed.

(** ** LSAME: equal letters, ignoring case *)
Definition code (c : ascii) : Z := Z.of_N (N_of_ascii c).
Definition other_case (a b : ascii) : Prop := 65 <= code a <= 90 /\ code b = code a + 32.
Lemma code_inj a b : code a = code b -> a = b.
Proof. unfold code. intros E. rewrite <- (ascii_N_embedding a), <- (ascii_N_embedding b). f_equal. lia. Qed.
Theorem C62_lsame : forall (K : num) ca cb, exists b, lsame_text (K := K) ca cb = Ok (VL b) /\ (b = true <-> ca = cb \/ other_case ca cb \/ other_case cb ca).
Proof.
  intros K ca cb. exists (lsame ca cb). split; [exact (lsame_src ca cb)|]. unfold other_case, lsame.
  change (ichar ca) with (code ca). change (ichar cb) with (code cb).
  destruct (Ascii.eqb_spec ca cb) as [->|N]; [tauto|].
  assert (N' : code ca <> code cb) by (intros E; apply N, code_inj, E).
  destruct ((97 <=? code ca) && (code ca <=? 122)) eqn:A, ((97 <=? code cb) && (code cb <=? 122)) eqn:B; rewrite Z.eqb_eq; (split; [intros E; right; lia|intros [E|E]; [contradiction|lia]]).
Qed.
Print Assumptions C62_lsame.

(** ** C63: contracts of the texts *)
(** x := alpha x or x alpha.  Missing: ALPHA = 0, which leaves x as it is *)
Theorem C63_scal_partial : forall (K : num), laws K -> forall c s n alpha (x : arr (quat K)) inc v,
  side_char c = Some s -> inc <> 0 -> emb alpha <> H0 -> holds_vec x n inc v ->
  returns (scal_text c n alpha x inc) (fun mem => exists x', quats mem x' /\
    holds_vec x' n inc (fun i => Hside s (emb alpha) (v i)) /\ same_but_vec x x' n inc).
Proof. intros K L c s n al x inc v Hc Hi Hz Hx. exact (so_ret _ _ _ _ (C62_scal_text K (e00_of L) c n al x inc) (C14_scalv_fortran_partial K L c s n al x inc v Hc Hi Hz Hx)). Qed.
Print Assumptions C63_scal_partial.
Theorem C63_axpy : forall (K : num), laws K -> forall c s n alpha (x : arr (quat K)) incx y incy v w,
  side_char c = Some s -> incx <> 0 -> incy <> 0 -> holds_vec x n incx v -> holds_vec y n incy w ->
  returns (axpy_text c n alpha x incx y incy) (fun mem => exists y', quats mem y' /\
    holds_vec y' n incy (fun i => Hadd (w i) (Hside s (emb alpha) (v i))) /\ same_but_vec y y' n incy).
Proof. intros K L c s n al x incx y incy v w A B C D E. exact (so_ret _ _ _ _ (C62_axpy_text K (e00_of L) c n al x incx y incy) (C15_axpyv_fortran K L c s n al x incx y incy v w A B C D E)). Qed.
Print Assumptions C63_axpy.
Theorem C63_dot : forall (K : num), laws K -> forall r0 n (x : arr (quat K)) incx y incy v w,
  incx <> 0 -> incy <> 0 -> holds_vec x n incx v -> holds_vec y n incy w ->
  returns (dotu_text r0 n x incx y incy) (fun mem => quats mem (one (Hsum n (fun i => Hmul (v i) (w i))))) /\
  returns (dotc_text r0 n x incx y incy) (fun mem => quats mem (one (Hsum n (fun i => Hmul (Hconj (v i)) (w i))))).
Proof.
  intros K L r0 n x incx y incy v w A B C D. destruct (C62_dot_text K r0 n x incx y incy) as [U V].
  rewrite (C16_dotuv_fortran K L n x incx y incy v w A B C D) in U. rewrite (C17_dotcv_fortran K L n x incx y incy v w A B C D) in V.
  destruct (dotu_text _ _ _ _ _ _), (dotc_text _ _ _ _ _ _); cbn in U, V; try contradiction. split; assumption.
Qed.
Print Assumptions C63_dot.
Theorem C63_gemv_dd : forall (K : num), laws K -> forall (alpha beta : K) c o m n (a : arr (quat K)) lda x incx y incy A v w,
  trans_char c = Some o -> 0 < m -> 0 < n -> incx <> 0 -> incy <> 0 ->
  holds_mat a lda m n A -> holds_vec x (op_cols o m n) incx v -> holds_vec y (op_rows o m n) incy w ->
  returns (gemv_text c m n (SR alpha) a lda x incx (SR beta) y incy) (fun mem => exists y', quats mem y' /\
    holds_vec y' (op_rows o m n) incy (gemv_elt o (op_cols o m n) (Hre alpha) A v (Hre beta) w) /\
    same_but_vec y y' (op_rows o m n) incy).
Proof.
  intros K L al be c o m n a lda x incx y incy A v w Hc Hm Hn Hx Hy HA Hv Hw.
  exact (so_ret _ _ _ _ (C62_gemv_text K (e00_of L) c m n (SR al) a lda x incx (SR be) y incy) (C23_gemv_dd K L al be c o m n a lda x incx y incy A v w Hc Hm Hn Hx Hy HA Hv Hw)).
Qed.
Print Assumptions C63_gemv_dd.
(** Missing: the calls in which the nine texts do not compute the product (C23_gemv_*_refuted) *)
Theorem C63_gemv_partial : forall (K : num), laws K -> forall alpha beta c o m n (a : arr (quat K)) lda x incx y incy A v w,
  trans_char c = Some o -> 0 < m -> 0 < n -> incx <> 0 -> incy <> 0 ->
  (m = n \/ c = "C"%char \/ (emb beta = H1 /\ 0 < incx /\ 0 < incy)) ->
  (incy = 1 \/ emb beta = H0 \/ emb beta = H1 \/ ~ exists r q, alpha = SR r /\ beta = SH q) ->
  (incy = 1 \/ c <> "N"%char \/ ~ exists q, alpha = SH q) ->
  holds_mat a lda m n A -> holds_vec x (op_cols o m n) incx v -> holds_vec y (op_rows o m n) incy w ->
  returns (gemv_text c m n alpha a lda x incx beta y incy) (fun mem => exists y', quats mem y' /\
    holds_vec y' (op_rows o m n) incy (gemv_elt o (op_cols o m n) (emb alpha) A v (emb beta) w) /\
    same_but_vec y y' (op_rows o m n) incy).
Proof.
  intros K L al be c o m n a lda x incx y incy A v w Hc Hm Hn Hx Hy E1 E2 E3 HA Hv Hw.
  exact (so_ret _ _ _ _ (C62_gemv_text K (e00_of L) c m n al a lda x incx be y incy) (C23_gemv_partial K L al be c o m n a lda x incx y incy A v w Hc Hm Hn Hx Hy E1 E2 E3 HA Hv Hw)).
Qed.
Print Assumptions C63_gemv_partial.
Theorem C63_ger : forall (K : num), laws K -> forall m n alpha (x : arr (quat K)) incx y incy a lda v w A,
  0 <= m -> 0 <= n -> incx <> 0 -> incy <> 0 -> m <= lda -> (forall r, alpha <> SR r) ->
  holds_vec x m incx v -> holds_vec y n incy w -> holds_mat a lda m n A ->
  returns (geru_text m n alpha x incx y incy a lda) (fun mem => exists a', quats mem a' /\ holds_mat a' lda m n (geru_elt (emb alpha) v w A) /\ same_but_mat a a' lda m n) /\
  returns (gerc_text m n alpha x incx y incy a lda) (fun mem => exists a', quats mem a' /\ holds_mat a' lda m n (gerc_elt (emb alpha) v w A) /\ same_but_mat a a' lda m n).
Proof.
  intros K L m n al x incx y incy a lda v w A H1 H2 H3 H4 H5 H6 Hx Hy HA. destruct (C62_ger_text K (e00_of L) m n al x incx y incy a lda) as [U V].
  exact (conj (so_ret _ _ _ _ U (C25_geru_zh K L m n al x incx y incy a lda v w A H1 H2 H3 H4 H5 H6 Hx Hy HA))
              (so_ret _ _ _ _ V (C26_gerc_zh K L m n al x incx y incy a lda v w A H1 H2 H3 H4 H5 H6 Hx Hy HA))).
Qed.
Print Assumptions C63_ger.
(** real ALPHA.  Missing: INCX <> 1, where the texts of HGERUD and HGERCD use a variable they never define *)
Theorem C63_ger_d_partial : forall (K : num), laws K -> forall m n (alpha : K) (x : arr (quat K)) y incy a lda v w A,
  0 <= m -> 0 <= n -> incy <> 0 -> m <= lda ->
  holds_vec x m 1 v -> holds_vec y n incy w -> holds_mat a lda m n A ->
  returns (geru_text m n (SR alpha) x 1 y incy a lda) (fun mem => exists a', quats mem a' /\ holds_mat a' lda m n (geru_elt (Hre alpha) v w A) /\ same_but_mat a a' lda m n) /\
  returns (gerc_text m n (SR alpha) x 1 y incy a lda) (fun mem => exists a', quats mem a' /\ holds_mat a' lda m n (gerc_elt (Hre alpha) v w A) /\ same_but_mat a a' lda m n).
Proof.
  intros K L m n al x y incy a lda v w A H1 H2 H3 H4 Hx Hy HA. destruct (C62_ger_text K (e00_of L) m n (SR al) x 1 y incy a lda) as [U V].
  exact (conj (so_ret _ _ _ _ U (C25_geru_d_partial K L m n al x y incy a lda v w A H1 H2 H3 H4 Hx Hy HA))
              (so_ret _ _ _ _ V (C26_gerc_d_partial K L m n al x y incy a lda v w A H1 H2 H3 H4 Hx Hy HA))).
Qed.
Print Assumptions C63_ger_d_partial.
Theorem C63_ger_d_strided_refuted : forall incx, incx <> 0 -> incx <> 1 ->
  geru_text 1 1 (@SR Znum 1) (vZ [1]) incx (vZ [1]) 1 (vZ [1]) 1 = UB /\ gerc_text 1 1 (@SR Znum 1) (vZ [1]) incx (vZ [1]) 1 (vZ [1]) 1 = UB.
Proof.
  intros incx H0 H1. destruct (C62_ger_text Znum eq_refl 1 1 (@SR Znum 1) (vZ [1]) incx (vZ [1]) 1 (vZ [1]) 1) as [U V].
  destruct (C25_ger_d_strided_refuted false incx H0 H1) as (_ & _ & _ & E). destruct (C25_ger_d_strided_refuted true incx H0 H1) as (_ & _ & _ & E'). rewrite E in U. rewrite E' in V.
  destruct (geru_text _ _ _ _ _ _ _ _ _), (gerc_text _ _ _ _ _ _ _ _ _); cbn in U, V; try contradiction. auto.
Qed.
Print Assumptions C63_ger_d_strided_refuted.
Theorem C63_gemm : forall (K : num), laws K ->
  forall ca cb oa ob m n k alpha (a : arr (quat K)) lda (b : arr (quat K)) ldb beta (c : arr (quat K)) ldc A B w,
  trans_char ca = Some oa -> trans_char cb = Some ob -> 0 <= m -> 0 <= n -> 0 <= k -> m <= ldc ->
  holds_mat a lda (op_rows oa m k) (op_cols oa m k) A -> holds_mat b ldb (op_rows ob k n) (op_cols ob k n) B ->
  holds_mat c ldc m n w ->
  returns (gemm_text ca cb m n k alpha a lda b ldb beta c ldc) (fun mem => exists c', quats mem c' /\
    holds_mat c' ldc m n (gemm_elt oa ob k (emb alpha) A B (emb beta) w) /\ same_but_mat c c' ldc m n).
Proof.
  intros K L ca cb oa ob m n k al a lda b ldb be c ldc A B w H1 H2 H3 H4 H5 H6 HA HB HC.
  exact (so_ret _ _ _ _ (C62_gemm_text K (e00_of L) ca cb m n k al a lda b ldb be c ldc H3) (C27_gemm_fortran K L ca cb oa ob m n k al a lda b ldb be c ldc A B w H1 H2 H3 H4 H5 H6 HA HB HC)).
Qed.
Print Assumptions C63_gemm.
Theorem C63_expand : forall (K : num) m n (a : arr (quat K)) lda (b : arr (cplx K)) (d : arr K) ldb A, 0 <= m -> 0 <= n -> holds_mat a lda m n A ->
  (2 * m <= ldb -> alloc_mat b ldb (2 * m) (2 * n) ->
    returns (hzexp_text true m n a lda b ldb) (fun mem => exists b', complexes mem b' /\ holds_cexp BF b' ldb m n A /\ same_but_mat b b' ldb (2 * m) (2 * n)) /\
    returns (hzexp_text false m n a lda b ldb) (fun mem => exists b', complexes mem b' /\ holds_cexp BS b' ldb m n A /\ same_but_mat b b' ldb (2 * m) (2 * n))) /\
  (4 * m <= ldb -> alloc_mat d ldb (4 * m) (4 * n) ->
    returns (hdexp_text m n a lda d ldb) (fun mem => exists d', (forall z, mem z = d' z) /\ holds_rexp d' ldb m n A /\ same_but_mat d d' ldb (4 * m) (4 * n))).
Proof.
  intros K m n a lda b d ldb A Hm Hn HA. destruct (C62_util_text K "U" m n a lda b d ldb) as (U1 & U2 & U3 & _). refine (conj _ _).
  - intros Hl Hb. exact (conj (so_ret _ _ _ _ U1 (C35_complex_expand K "F" BF m n a lda b ldb A eq_refl Hm Hn Hl HA Hb)) (so_ret _ _ _ _ U2 (C35_complex_expand K "S" BS m n a lda b ldb A eq_refl Hm Hn Hl HA Hb))).
  - intros Hl Hd. exact (so_ret _ _ _ _ U3 (C35_real_expand K m n a lda d ldb A Hm Hn Hl HA Hd)).
Qed.
Print Assumptions C63_expand.
(** contraction recovers the quaternion matrix from either half of its complex form *)
Theorem C63_contract : forall (K : num) u m n (a : arr (quat K)) lda (b : arr (cplx K)) ldb A,
  (u = "U"%char \/ u = "u"%char \/ forall x : K, nopp (nopp x) = x) ->
  0 <= m -> 0 <= n -> m <= lda -> alloc_mat a lda m n ->
  (holds_cexp BF b ldb m n A -> returns (hzcon_text true u m n a lda b ldb) (fun mem => exists a', quats mem a' /\ holds_mat a' lda m n A /\ same_but_mat a a' lda m n)) /\
  (holds_cexp BS b ldb m n A -> returns (hzcon_text false u m n a lda b ldb) (fun mem => exists a', quats mem a' /\ holds_mat a' lda m n A /\ same_but_mat a a' lda m n)).
Proof.
  intros K u m n a lda b ldb A Hu Hm Hn Hl Ha. destruct (C62_util_text K u m n a lda b (fun _ => None) ldb) as (_ & _ & _ & U4 & U5). split; intros Hb.
  - exact (so_ret _ _ _ _ U4 (contract_expanded "F" u BF m n a lda b ldb A eq_refl Hu Hm Hn Hl Ha Hb)).
  - exact (so_ret _ _ _ _ U5 (contract_expanded "S" u BS m n a lda b ldb A eq_refl Hu Hm Hn Hl Ha Hb)).
Qed.
Print Assumptions C63_contract.
(** ** The texts run: concrete calls over Z.  HGEMVHZ with a negative stride (C23_concrete), HGEMMHH with padding (C27_concrete), HZEXP2 *)
Definition show (r : res (arr Znum)) (l : list Z) : list (option Z) := match r with Ok m => map m l | _ => [] end.
Example C63_concrete_gemv : show (gemv_text "C" 2 2 (SH (zq 0 0 1 0)) (vZ [1;2;9;3;4;9]) 3 (vZ [1;7;2]) (-2) (SC (zc 0 1)) (vZ [1;2]) 1) [0;1;2;3;4;5;6;7;8] =
  app (map Some [0;1;9;0;0;2;22;0]) [None].
Proof. vm_compute. reflexivity. Qed.
Example C63_concrete_gemm : show (gemm_text "N" "c" 1 1 2 (SH (zq 0 0 1 0)) (arr_list [zq 1 0 0 1; zq 2 0 0 0]) 1 (arr_list [zq 0 1 0 0; zq 0 0 1 0]) 1
          (SH (zq 0 1 0 0)) (arr_list [zq 5 0 0 0; zq 9 9 9 9]) 2) [0;1;2;3;4;5;6;7] = map Some [3;5;0;1;9;9;9;9].
Proof. vm_compute. reflexivity. Qed.
Example C63_concrete_exp : show (hzexp_text false 1 1 (arr_list [zq 1 2 3 4]) 1 (fun _ => Some (Cplx (K:=Znum) 0 0)) 3) [0;1;2;3;4;5;6;7;8;9] = map Some [1;2;-3;4;0;0;3;4;1;-2].
Proof. vm_compute. reflexivity. Qed.
Example C63_concrete_scal0 : show (scal_text "L" 1 (@SR Znum 0) (vZ [7]) 1) [0;1;2;3] = map Some [7;0;0;-7].
Proof. vm_compute. reflexivity. Qed.
