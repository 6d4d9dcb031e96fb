(** C73, C74: the build.  MBuild.v reads the texts of the CMake files, of hblas{1,2,3}.cxx.in and of util.cxx and finds the definition a call of a public
    function is linked with; MPublic.v runs it.  [fma]: whether the compiler defines __FMA__. *)
From Coq Require Import ZArith Lia Bool Ascii String List.
From Verif Require Import Num Res ResFacts Spec SpecFacts SpecExp SpecBuild MQuat MUtil MSrc FSem FProg PropsL1 PropsL2 PropsGemm PropsUtil PropsSrc
  FParse CSyntax CPre CParse CSem CProg CProgG CLink MSrcC MSrcG PropsSrcC PropsSrcG DSrc MBuild MPublic BuildFacts BuildFacts2.
Import ListNotations.
Local Open Scope string_scope.
Local Open Scope Z_scope.

(** ** C73.  Every public function, with every documented combination of types, has exactly one definition in the library; no other has any *)
Definition ty_dec : forall a b : ctype, {a = b} + {a <> b}.
Proof. decide equality. Defined.
Definition sig_dec : forall a b : string * list ctype, {a = b} + {a <> b}.
Proof. decide equality; [apply (list_eq_dec ty_dec) | apply string_dec]. Defined.
Fixpoint nodupb (l : list (string * list ctype)) : bool := match l with [] => true | x :: r => (if in_dec sig_dec x r then false else true) && nodupb r end.
Lemma nodupb_ok l : nodupb l = true -> NoDup l.
Proof. induction l as [|x l IH]; cbn; [constructor|]. destruct (in_dec sig_dec x l); [discriminate|]. intros H. constructor; auto. Qed.
Definition inclb (l k : list (string * list ctype)) : bool := forallb (fun x => if in_dec sig_dec x k then true else false) l.
Lemma inclb_ok l k : inclb l k = true -> forall x, In x l -> In x k.
Proof. intros H x Hx. unfold inclb in H. rewrite forallb_forall in H. specialize (H x Hx). destruct (in_dec sig_dec x k); [assumption | discriminate]. Qed.
Theorem C73_one_definition : forall fma, exists l, definitions fma = Some l /\ NoDup (map fst l) /\ forall f ts, In (f, ts) (map fst l) <-> In (f, ts) public_signatures.
Proof.
  intros fma. exists lib_defs. split; [apply definitions_eq|]. split; [apply nodupb_ok; vm_compute; reflexivity|].
  intros f ts. split; apply inclb_ok; vm_compute; reflexivity.
Qed.
Print Assumptions C73_one_definition.
Lemma ctype_eqb_ok a : forall b, ctype_eqb a b = true -> a = b.
Proof. induction a; intros b; destruct b; cbn; intros E; try discriminate; try reflexivity. f_equal. auto. Qed.
Lemma types_eqb_ok a : forall b, types_eqb a b = true -> a = b.
Proof. induction a as [|x a IH]; intros [|y b] E; try discriminate; [reflexivity|]. cbn in E. apply andb_prop in E. destruct E as [E1 E2]. f_equal; [apply ctype_eqb_ok | apply IH]; assumption. Qed.
Theorem C73_no_other : forall fma f ts, ~ In (f, ts) public_signatures -> implementation fma f ts = None.
Proof.
  intros fma f ts H. rewrite implementation_eq. unfold resolve. destruct (filter (fun d => String.eqb (fst (fst d)) f && types_eqb (snd (fst d)) ts) lib_defs) as [|d [|? ?]] eqn:E; try reflexivity. exfalso. apply H.
  assert (I : In d (filter (fun d => String.eqb (fst (fst d)) f && types_eqb (snd (fst d)) ts) lib_defs)) by (rewrite E; left; reflexivity).
  apply filter_In in I. destruct I as [I J]. apply andb_prop in J. destruct J as [J1 J2]. apply String.eqb_eq in J1. apply types_eqb_ok in J2.
  destruct (C73_one_definition fma) as (l & El & _ & S). rewrite definitions_eq in El. injection El as <-. apply S.
  rewrite <- J1, <- J2. rewrite <- surjective_pairing. apply in_map. exact I.
Qed.
Print Assumptions C73_no_other.
(** the definition found for each call is the text that C62-C70 are about: optimised C++ for the level-1 vector routines and GEMM without quaternion ALPHA or BETA,
    Fortran for GEMV, GERU, GERC, the other GEMMs and the utilities, the templates otherwise *)
Theorem C73_cpp : forall (K : num) fma fuel,
  (forall n xa (x : arr (quat K)) incx ya y incy, pub_swapv fma fuel n xa x incx ya y incy = swap_ctext fma fuel n xa x incx ya y incy) /\
  (forall n xa (x : arr (quat K)) incx ya y incy, pub_copyv fma fuel n xa x incx ya y incy = copy_ctext fma fuel n xa x incx ya y incy) /\
  (forall side n al xa (x : arr (quat K)) incx, pub_scalv fma fuel side n al xa x incx = scal_ctext fma fuel side n al xa x incx) /\
  (forall side n al xa (x : arr (quat K)) incx ya y incy, pub_axpyv fma fuel side n al xa x incx ya y incy = axpy_ctext fma fuel side n al xa x incx ya y incy) /\
  (forall n xa (x : arr (quat K)) incx ya y incy, pub_dotuv fma fuel n xa x incx ya y incy = dotu_ctext fma fuel n xa x incx ya y incy) /\
  (forall n xa (x : arr (quat K)) incx ya y incy, pub_dotcv fma fuel n xa x incx ya y incy = dotc_ctext fma fuel n xa x incx ya y incy) /\
  (forall aa ba ga gb ta tb m n k al a_ad (a : arr (quat K)) lda b_ad b ldb be c_ad c ldc, (forall q, al <> SH q) -> (forall q, be <> SH q) ->
    pub_gemm fma fuel aa ba ga gb ta tb m n k al a_ad a lda b_ad b ldb be c_ad c ldc = gemm_ctext fma fuel aa ba ga gb ta tb m n k al a_ad a lda b_ad b ldb be c_ad c ldc).
Proof.
  intros K fma fuel. unfold pub_swapv, pub_copyv, pub_scalv, pub_axpyv, pub_dotuv, pub_dotcv, pub_gemm, cpp_call,
    swap_ctext, copy_ctext, scal_ctext, axpy_ctext, dotu_ctext, dotc_ctext, gemm_ctext.
  refine (conj _ (conj _ (conj _ (conj _ (conj _ (conj _ _)))))); intros.
  - rewrite (u_swapv fma : public_unit fma "HBLAS_SWAPV" [_; _; _; _; _] = _). reflexivity.
  - rewrite (u_copyv fma : public_unit fma "HBLAS_COPYV" [_; _; _; _; _] = _). reflexivity.
  - rewrite (u_scalv fma al : public_unit fma "HBLAS_SCALV" [_; _; _; _; _] = _). reflexivity.
  - rewrite (u_axpyv fma al : public_unit fma "HBLAS_AXPYV" [_; _; _; _; _; _; _] = _). reflexivity.
  - rewrite (u_dotuv fma : public_unit fma "HBLAS_DOTUV" [_; _; _; _; _] = _). reflexivity.
  - rewrite (u_dotcv fma : public_unit fma "HBLAS_DOTCV" [_; _; _; _; _] = _). reflexivity.
  - rewrite u_gemm by assumption. reflexivity.
Qed.
Print Assumptions C73_cpp.
Theorem C73_templates : forall (K : num) fma fuel,
  (forall side ta m n al aa (a : arr (quat K)) lda inca, pub_scalm fma fuel side ta m n al aa a lda inca = scalm_gtext fuel fma side ta m n al aa a lda inca) /\
  (forall side ta m n al aa (a : arr (quat K)) lda inca ba b ldb incb,
    pub_axpym fma fuel side ta m n al aa a lda inca ba b ldb incb = axpym_gtext fuel fma side ta m n al aa a lda inca ba b ldb incb) /\
  (forall trans m n al aa a lda xa (x : arr (quat K)) incx be ya y incy,
    pub_gemv_real fma fuel trans m n al aa a lda xa x incx be ya y incy = gemv_gtext fuel trans m n al aa a lda xa x incx be ya y incy) /\
  (forall ta tb m n k al aa a lda ba (b : arr (quat K)) ldb be ca c ldc,
    pub_gemm_real fma fuel ta tb m n k al aa a lda ba b ldb be ca c ldc = gemm_gtext fuel ta tb m n k al aa a lda ba b ldb be ca c ldc).
Proof.
  intros K fma fuel. unfold pub_scalm, pub_axpym, pub_gemv_real, pub_gemm_real, cpp_call, scalm_gtext, axpym_gtext, gemv_gtext, gemm_gtext.
  refine (conj _ (conj _ (conj _ _))); intros.
  - rewrite u_scalm. reflexivity.
  - rewrite u_axpym. reflexivity.
  - rewrite u_gemv_real. reflexivity.
  - rewrite u_gemm_real. reflexivity.
Qed.
Print Assumptions C73_templates.
Theorem C73_fortran : forall (K : num) fma,
  (forall trans m n al (a : arr (quat K)) lda x incx be y incy, pub_gemv fma trans m n al a lda x incx be y incy = Some (gemv_text trans m n al a lda x incx be y incy)) /\
  (forall m n al (x : arr (quat K)) incx y incy a lda, pub_geru fma m n al x incx y incy a lda = Some (geru_text m n al x incx y incy a lda)) /\
  (forall m n al (x : arr (quat K)) incx y incy a lda, pub_gerc fma m n al x incx y incy a lda = Some (gerc_text m n al x incx y incy a lda)) /\
  (forall ta tb m n k al (a : arr (quat K)) lda b ldb be c ldc, (exists q, al = SH q) \/ (exists q, be = SH q) ->
    pub_gemm_f fma ta tb m n k al a lda b ldb be c ldc = Some (gemm_text ta tb m n k al a lda b ldb be c ldc)).
Proof. intros K fma. refine (conj _ (conj _ (conj _ _))); intros; [apply f_gemv | apply f_geru | apply f_gerc | apply f_gemm; assumption]. Qed.
Print Assumptions C73_fortran.
(** the utilities: an ORDER other than 'F' and 'S' fails the assertion *)
Theorem C73_util : forall (K : num) fma m n (a : arr (quat K)) lda ldb,
  (forall o b, pub_complex_expand fma o m n a lda b ldb =
    Some (if Ascii.eqb o "F" then hzexp_text true m n a lda b ldb else if Ascii.eqb o "S" then hzexp_text false m n a lda b ldb else Abort)) /\
  (forall b, pub_real_expand fma m n a lda b ldb = Some (hdexp_text m n a lda b ldb)) /\
  (forall o u b, pub_complex_contract fma o u m n a lda b ldb =
    Some (if Ascii.eqb o "F" then hzcon_text true u m n a lda b ldb else if Ascii.eqb o "S" then hzcon_text false u m n a lda b ldb else Abort)).
Proof. intros K fma m n a lda ldb. refine (conj _ (conj _ _)); intros; [apply f_complex_expand | apply f_real_expand | apply f_complex_contract]. Qed.
Print Assumptions C73_util.
(** with ENABLE_GENERIC_FORTRAN the text of hblas1.cxx is not a sequence of specialisations and instantiations: it uses a macro DOTV_FORTRAN_IMPL that it does not define
    (it defines DOT_FORTRAN_IMPL); with the name corrected it is one *)
Theorem C73_generic_fortran_refuted : items ["ENABLE_GENERIC_FORTRAN"] dsrc_hblas1 = None /\ items ["ENABLE_GENERIC_CXX"] dsrc_hblas1 <> None.
Proof. split; [vm_compute; reflexivity | vm_compute; discriminate]. Qed.
Print Assumptions C73_generic_fortran_refuted.
Fixpoint correct (prev : ascii) (l : list ascii) : list ascii :=
  match l with
  | [] => []
  | c :: r => let r' := correct c r in if Ascii.eqb prev "T" then match stripS "V_FORTRAN_IMPL" l with Some _ => r' | None => c :: r' end else c :: r'
  end.
Example C73_generic_fortran_corrected : option_map (@List.length item) (items ["ENABLE_GENERIC_FORTRAN"] (implode (correct " " (explode dsrc_hblas1)))) = Some 14%nat.
Proof. vm_compute. reflexivity. Qed.

(** ** C74.  The contracts, for calls of the public functions *)
Definition returns_f {K : num} (o : option (res (arr K))) (P : arr K -> Prop) : Prop := exists m, o = Some (Ok m) /\ P m.
Lemma ret_f {K : num} (r : res (arr K)) P : returns r P -> returns_f (Some r) P.
Proof. destruct r; cbn; intros H; try contradiction. exists a. split; [reflexivity | exact H]. Qed.
Lemma ret_e {K : num} (o : option (res (arr K))) (r : res (arr K)) P : o = Some r -> returns r P -> returns_f o P.
Proof. intros ->. apply ret_f. Qed.

Section L.
Context {K : num} (fma : bool) (fuel : nat).
Definition c_swap := proj1 (C73_cpp K fma fuel).
Definition c_copy := proj1 (proj2 (C73_cpp K fma fuel)).
Definition c_scal := proj1 (proj2 (proj2 (C73_cpp K fma fuel))).
Definition c_axpy := proj1 (proj2 (proj2 (proj2 (C73_cpp K fma fuel)))).
Definition c_dotu := proj1 (proj2 (proj2 (proj2 (proj2 (C73_cpp K fma fuel))))).
Definition c_dotc := proj1 (proj2 (proj2 (proj2 (proj2 (proj2 (C73_cpp K fma fuel)))))).
Definition c_gemm := proj2 (proj2 (proj2 (proj2 (proj2 (proj2 (C73_cpp K fma fuel)))))).
Definition t_scalm := proj1 (C73_templates K fma fuel).
Definition t_axpym := proj1 (proj2 (C73_templates K fma fuel)).
Definition t_gemv := proj1 (proj2 (proj2 (C73_templates K fma fuel))).
Definition t_gemm := proj2 (proj2 (proj2 (C73_templates K fma fuel))).
End L.

Theorem C74_swap : forall (K : num) fma fuel n xa (x : arr (quat K)) incx ya y incy v w, (Z.to_nat n < fuel)%nat ->
  0 < incx -> 0 < incy -> holds_vec x n incx v -> holds_vec y n incy w ->
  returns_c (pub_swapv fma fuel n xa x incx ya y incy) (fun l v' => v' = None /\ exists x' y', l = [x'; y'] /\
    (holds_vec x' n incx w /\ same_but_vec x x' n incx) /\ holds_vec y' n incy v /\ same_but_vec y y' n incy).
Proof. intros *; intros. rewrite c_swap. eapply C68_swap; eassumption. Qed.

Theorem C74_copy : forall (K : num) fma fuel n xa (x : arr (quat K)) incx ya y incy v w, (Z.to_nat n < fuel)%nat ->
  0 < incx -> 0 < incy -> holds_vec x n incx v -> holds_vec y n incy w ->
  returns_c (pub_copyv fma fuel n xa x incx ya y incy) (fun l v' => v' = None /\ exists y', l = [x; y'] /\ holds_vec y' n incy v /\ same_but_vec y y' n incy).
Proof. intros *; intros. rewrite c_copy. eapply C68_copy; eassumption. Qed.

Theorem C74_scal : forall (K : num), laws K -> forall fma fuel c s n alpha xa (x : arr (quat K)) inc v, (Z.to_nat n < fuel)%nat ->
  side_char c = Some s -> 0 < inc -> holds_vec x n inc v ->
  returns_c (pub_scalv fma fuel c n alpha xa x inc) (fun l v' => v' = None /\ exists x', l = [x'] /\
    holds_vec x' n inc (fun i => Hside s (emb alpha) (v i)) /\ same_but_vec x x' n inc).
Proof. intros *; intros. rewrite c_scal. eapply C68_scal; eassumption. Qed.

Theorem C74_axpy : forall (K : num), laws K -> forall fma fuel c s n alpha xa (x : arr (quat K)) incx ya y incy v w, (Z.to_nat n < fuel)%nat ->
  side_char c = Some s -> 0 < incx -> 0 < incy -> holds_vec x n incx v -> holds_vec y n incy w ->
  returns_c (pub_axpyv fma fuel c n alpha xa x incx ya y incy) (fun l v' => v' = None /\ exists y', l = [x; y'] /\
    holds_vec y' n incy (fun i => Hadd (w i) (Hside s (emb alpha) (v i))) /\ same_but_vec y y' n incy).
Proof. intros *; intros. rewrite c_axpy. eapply C68_axpy; eassumption. Qed.

Theorem C74_dot : forall (K : num), laws K -> forall fma fuel n xa (x : arr (quat K)) incx ya y incy v w, (Z.to_nat n + 4 < fuel)%nat ->
  0 < incx -> 0 < incy -> holds_vec x n incx v -> holds_vec y n incy w ->
  pub_dotuv fma fuel n xa x incx ya y incy = Some (Ok ([x; y], Some (VQ (Hsum n (fun i => Hmul (v i) (w i)))))) /\
  pub_dotcv fma fuel n xa x incx ya y incy = Some (Ok ([x; y], Some (VQ (Hsum n (fun i => Hmul (Hconj (v i)) (w i)))))).
Proof. intros K L fma fuel n xa x incx ya y incy v w Hf Hx Hy Hv Hw. destruct (C68_dot K L fma fuel n xa x incx ya y incy v w Hf Hx Hy Hv Hw) as [U V]. exact (conj (eq_trans (c_dotu fma fuel n xa x incx ya y incy) U) (eq_trans (c_dotc fma fuel n xa x incx ya y incy) V)). Qed.

Theorem C74_gemm : forall (K : num), laws K ->
  forall fma fuel aa ba ga gb ca cb oa ob m n k alpha a_ad (a : arr (quat K)) lda b_ad (b : arr (quat K)) ldb beta c_ad (c : arr (quat K)) ldc A B w,
  (forall q, alpha <> SH q) -> (forall q, beta <> SH q) -> (Z.to_nat m < fuel)%nat -> (Z.to_nat n < fuel)%nat -> (Z.to_nat k < fuel)%nat ->
  aa mod 32 = 0 -> ba mod 32 = 0 ->
  trans_char_r ca = Some oa -> trans_char_r cb = Some ob -> 0 <= m -> 0 <= n -> 0 <= k -> m <= ldc ->
  holds_mat a lda (op_rows oa m k) (op_cols oa m k) A -> holds_mat b ldb (op_rows ob k n) (op_cols ob k n) B -> holds_mat c ldc m n w ->
  returns_c (pub_gemm fma fuel aa ba ga gb ca cb m n k alpha a_ad a lda b_ad b ldb beta c_ad c ldc) (fun l v' => v' = None /\ exists c' bPack aPack, l = [a; b; c'; bPack; aPack] /\
    holds_mat c' ldc m n (gemm_elt oa ob k (emb alpha) A B (emb beta) w) /\ same_but_mat c c' ldc m n).
Proof. intros *; intros. rewrite c_gemm by assumption. eapply C68_gemm; eassumption. Qed.

Theorem C74_gemm_frame : forall (K : num) fma fuel, right_fma fma K ->
  forall aa ba ga gb ca cb oa ob m n k alpha a_ad (a : arr (quat K)) lda b_ad (b : arr (quat K)) ldb beta c_ad (c : arr (quat K)) ldc A B w,
  (forall q, alpha <> SH q) -> (forall q, beta <> SH q) -> (Z.to_nat m < fuel)%nat -> (Z.to_nat n < fuel)%nat -> (Z.to_nat k < fuel)%nat ->
  aa mod 32 = 0 -> ba mod 32 = 0 ->
  trans_char_r ca = Some oa -> trans_char_r cb = Some ob -> 0 <= m -> 0 <= n -> 0 <= k -> m <= ldc ->
  holds_mat a lda (op_rows oa m k) (op_cols oa m k) A -> holds_mat b ldb (op_rows ob k n) (op_cols ob k n) B -> holds_mat c ldc m n w ->
  returns_c (pub_gemm fma fuel aa ba ga gb ca cb m n k alpha a_ad a lda b_ad b ldb beta c_ad c ldc) (fun l v' => v' = None /\ exists c' bPack aPack, l = [a; b; c'; bPack; aPack] /\
    same_but_mat c c' ldc m n /\ exists w', holds_mat c' ldc m n w').
Proof. intros *; intros. rewrite c_gemm by assumption. eapply C68_gemm_frame; eassumption. Qed.

Theorem C74_scalm : forall (K : num), laws K -> forall fma fuel c s m n alpha aa (a : arr (quat K)) lda inca f, (Z.to_nat m < fuel)%nat -> (Z.to_nat n < fuel)%nat ->
  side_char c = Some s -> 0 < inca -> disjoint_mat lda inca m n -> holds_matinc a lda inca m n f ->
  returns_c (pub_scalm fma fuel c "N" m n alpha aa a lda inca) (fun l v' => v' = None /\ exists a', l = [a'] /\
    holds_matinc a' lda inca m n (fun i j => Hside s (emb alpha) (f i j)) /\ same_but_matinc a a' lda inca m n).
Proof. intros *; intros. rewrite t_scalm. eapply C70_scalm; eassumption. Qed.

(** missing: ALPHA = d k with d <> 0 *)
Theorem C74_axpym_partial : forall (K : num), laws K -> forall fma fuel c s m n alpha aa (a : arr (quat K)) lda inca ba b ldb incb f g, (Z.to_nat m < fuel)%nat -> (Z.to_nat n < fuel)%nat ->
  (forall d, alpha = SH (Quat n0 n0 n0 d) -> d = n0) -> side_char c = Some s ->
  0 < inca -> 0 < incb -> disjoint_mat ldb incb m n -> holds_matinc a lda inca m n f -> holds_matinc b ldb incb m n g ->
  returns_c (pub_axpym fma fuel c "N" m n alpha aa a lda inca ba b ldb incb) (fun l v' => v' = None /\ exists b', l = [a; b'] /\
    holds_matinc b' ldb incb m n (fun i j => Hadd (g i j) (Hside s (emb alpha) (f i j))) /\ same_but_matinc b b' ldb incb m n).
Proof. intros *; intros. rewrite t_axpym. eapply C70_axpym_partial; eassumption. Qed.

Theorem C74_axpym_refuted : ~ (forall fma fuel c s m n (alpha : scal Znum) aa a lda inca ba b ldb incb f g, (Z.to_nat m < fuel)%nat -> (Z.to_nat n < fuel)%nat ->
  side_char c = Some s -> 0 < inca -> 0 < incb -> disjoint_mat ldb incb m n -> holds_matinc a lda inca m n f -> holds_matinc b ldb incb m n g ->
  returns_c (pub_axpym fma fuel c "N" m n alpha aa a lda inca ba b ldb incb) (fun l v' => v' = None /\ exists b', l = [a; b'] /\
    holds_matinc b' ldb incb m n (fun i j => Hadd (g i j) (Hside s (emb alpha) (f i j))) /\ same_but_matinc b b' ldb incb m n)).
Proof. intros F. apply C70_axpym_refuted. intros *; intros. rewrite <- t_axpym. eapply F; eassumption. Qed.

Theorem C74_gemv_real : forall (K : num), laws K -> forall fma fuel c o m n (alpha : K) aa (a : arr K) lda xa (x : arr (quat K)) incx beta ya y incy A v w, (Z.to_nat m < fuel)%nat -> (Z.to_nat n < fuel)%nat ->
  trans_char c = Some o -> 0 < m -> 0 < n -> 0 < incx -> 0 < incy ->
  holds_mat a lda m n A -> holds_vec x (op_cols o m n) incx v -> holds_vec y (op_rows o m n) incy w ->
  returns_mem (pub_gemv_real fma fuel c m n alpha aa a lda xa x incx beta ya y incy) (fun mem => exists y', mem = [(aa, DK a); (xa, DQ x); (ya, DQ y')] /\
    holds_vec y' (op_rows o m n) incy (gemv_elt o (op_cols o m n) (Hre alpha) (fun i j => Hre (A i j)) v (Hre beta) w) /\
    same_but_vec y y' (op_rows o m n) incy).
Proof. intros *; intros. rewrite t_gemv. eapply C70_gemv_real; eassumption. Qed.

Theorem C74_gemm_real : forall (K : num), laws K -> forall fma fuel ca cb oa ob m n k (alpha : K) aa (a : arr K) lda ba (b : arr (quat K)) ldb beta c_ad c ldc A B w,
  (Z.to_nat m < fuel)%nat -> (Z.to_nat n < fuel)%nat -> (Z.to_nat k < fuel)%nat ->
  trans_char ca = Some oa -> trans_char cb = Some ob -> 0 <= m -> 0 <= n -> 0 <= k -> m <= ldc ->
  holds_mat a lda (op_rows oa m k) (op_cols oa m k) A -> holds_mat b ldb (op_rows ob k n) (op_cols ob k n) B -> holds_mat c ldc m n w ->
  returns_mem (pub_gemm_real fma fuel ca cb m n k alpha aa a lda ba b ldb beta c_ad c ldc) (fun mem => exists c', mem = [(aa, DK a); (ba, DQ b); (c_ad, DQ c')] /\
    holds_mat c' ldc m n (gemm_elt oa ob k (Hre alpha) (fun i j => Hre (A i j)) B (Hre beta) w) /\ same_but_mat c c' ldc m n).
Proof. intros *; intros. rewrite t_gemm. eapply C70_gemm_real; eassumption. Qed.

Theorem C74_gemm_real_frame : forall (K : num) fma fuel ca cb oa ob m n k (alpha : K) aa (a : arr K) lda ba (b : arr (quat K)) ldb beta c_ad c ldc A B w,
  (Z.to_nat m < fuel)%nat -> (Z.to_nat n < fuel)%nat -> (Z.to_nat k < fuel)%nat ->
  trans_char ca = Some oa -> trans_char cb = Some ob -> 0 <= m -> 0 <= n -> 0 <= k -> m <= ldc ->
  holds_mat a lda (op_rows oa m k) (op_cols oa m k) A -> holds_mat b ldb (op_rows ob k n) (op_cols ob k n) B -> holds_mat c ldc m n w ->
  returns_mem (pub_gemm_real fma fuel ca cb m n k alpha aa a lda ba b ldb beta c_ad c ldc) (fun mem => exists c', mem = [(aa, DK a); (ba, DQ b); (c_ad, DQ c')] /\
    same_but_mat c c' ldc m n /\ exists w', holds_mat c' ldc m n w').
Proof. intros *; intros. rewrite t_gemm. eapply C70_gemm_real_frame; eassumption. Qed.

Theorem C74_gemv_dd : forall (K : num), laws K -> forall fma (alpha beta : K) c o m n (a : arr (quat K)) lda x incx y incy A v w,
  trans_char c = Some o -> 0 < m -> 0 < n -> incx <> 0 -> incy <> 0 ->
  holds_mat a lda m n A -> holds_vec x (op_cols o m n) incx v -> holds_vec y (op_rows o m n) incy w ->
  returns_f (pub_gemv fma c m n (SR alpha) a lda x incx (SR beta) y incy) (fun mem => exists y', quats mem y' /\
    holds_vec y' (op_rows o m n) incy (gemv_elt o (op_cols o m n) (Hre alpha) A v (Hre beta) w) /\
    same_but_vec y y' (op_rows o m n) incy).
Proof. intros *; intros. rewrite f_gemv. apply ret_f. eapply C63_gemv_dd; eassumption. Qed.

(** Missing: the calls in which the nine texts do not compute the product (C23_gemv_*_refuted) *)
Theorem C74_gemv_partial : forall (K : num), laws K -> forall fma alpha beta c o m n (a : arr (quat K)) lda x incx y incy A v w,
  trans_char c = Some o -> 0 < m -> 0 < n -> incx <> 0 -> incy <> 0 ->
  (m = n \/ c = "C"%char \/ (emb beta = H1 /\ 0 < incx /\ 0 < incy)) ->
  (incy = 1 \/ emb beta = H0 \/ emb beta = H1 \/ ~ exists r q, alpha = SR r /\ beta = SH q) ->
  (incy = 1 \/ c <> "N"%char \/ ~ exists q, alpha = SH q) ->
  holds_mat a lda m n A -> holds_vec x (op_cols o m n) incx v -> holds_vec y (op_rows o m n) incy w ->
  returns_f (pub_gemv fma c m n alpha a lda x incx beta y incy) (fun mem => exists y', quats mem y' /\
    holds_vec y' (op_rows o m n) incy (gemv_elt o (op_cols o m n) (emb alpha) A v (emb beta) w) /\
    same_but_vec y y' (op_rows o m n) incy).
Proof. intros *; intros. rewrite f_gemv. apply ret_f. eapply C63_gemv_partial; eassumption. Qed.

Theorem C74_ger : forall (K : num), laws K -> forall fma m n alpha (x : arr (quat K)) incx y incy a lda v w A,
  0 <= m -> 0 <= n -> incx <> 0 -> incy <> 0 -> m <= lda -> (forall r, alpha <> SR r) ->
  holds_vec x m incx v -> holds_vec y n incy w -> holds_mat a lda m n A ->
  returns_f (pub_geru fma m n alpha x incx y incy a lda) (fun mem => exists a', quats mem a' /\ holds_mat a' lda m n (geru_elt (emb alpha) v w A) /\ same_but_mat a a' lda m n) /\
  returns_f (pub_gerc fma m n alpha x incx y incy a lda) (fun mem => exists a', quats mem a' /\ holds_mat a' lda m n (gerc_elt (emb alpha) v w A) /\ same_but_mat a a' lda m n).
Proof. intros K L fma m n al x incx y incy a lda v w A A1 A2 A3 A4 A5 A6 A7 A8 A9. destruct (C63_ger K L m n al x incx y incy a lda v w A A1 A2 A3 A4 A5 A6 A7 A8 A9) as [U V]. exact (conj (ret_e _ _ _ (f_geru _ _ _ _ _ _ _ _ _ _) U) (ret_e _ _ _ (f_gerc _ _ _ _ _ _ _ _ _ _) V)). Qed.

(** real ALPHA.  Missing: INCX <> 1, where the texts of HGERUD and HGERCD use a variable they never define *)
Theorem C74_ger_d_partial : forall (K : num), laws K -> forall fma m n (alpha : K) (x : arr (quat K)) y incy a lda v w A,
  0 <= m -> 0 <= n -> incy <> 0 -> m <= lda ->
  holds_vec x m 1 v -> holds_vec y n incy w -> holds_mat a lda m n A ->
  returns_f (pub_geru fma m n (SR alpha) x 1 y incy a lda) (fun mem => exists a', quats mem a' /\ holds_mat a' lda m n (geru_elt (Hre alpha) v w A) /\ same_but_mat a a' lda m n) /\
  returns_f (pub_gerc fma m n (SR alpha) x 1 y incy a lda) (fun mem => exists a', quats mem a' /\ holds_mat a' lda m n (gerc_elt (Hre alpha) v w A) /\ same_but_mat a a' lda m n).
Proof. intros K L fma m n al x y incy a lda v w A A1 A2 A3 A4 A5 A6 A7. destruct (C63_ger_d_partial K L m n al x y incy a lda v w A A1 A2 A3 A4 A5 A6 A7) as [U V]. exact (conj (ret_e _ _ _ (f_geru _ _ _ _ _ _ _ _ _ _) U) (ret_e _ _ _ (f_gerc _ _ _ _ _ _ _ _ _ _) V)). Qed.

Theorem C74_ger_d_strided_refuted : forall fma incx, incx <> 0 -> incx <> 1 ->
  pub_geru fma 1 1 (@SR Znum 1) (vZ [1]) incx (vZ [1]) 1 (vZ [1]) 1 = Some UB /\ pub_gerc fma 1 1 (@SR Znum 1) (vZ [1]) incx (vZ [1]) 1 (vZ [1]) 1 = Some UB.
Proof. intros fma incx A B. destruct (C63_ger_d_strided_refuted incx A B) as [E F]. split; [rewrite <- E; apply f_geru | rewrite <- F; apply f_gerc]. Qed.

Theorem C74_gemm_fortran : forall (K : num), laws K ->
  forall fma ca cb oa ob m n k alpha (a : arr (quat K)) lda (b : arr (quat K)) ldb beta (c : arr (quat K)) ldc A B w,
  (exists q, alpha = SH q) \/ (exists q, beta = SH q) ->
  trans_char ca = Some oa -> trans_char cb = Some ob -> 0 <= m -> 0 <= n -> 0 <= k -> m <= ldc ->
  holds_mat a lda (op_rows oa m k) (op_cols oa m k) A -> holds_mat b ldb (op_rows ob k n) (op_cols ob k n) B ->
  holds_mat c ldc m n w ->
  returns_f (pub_gemm_f fma ca cb m n k alpha a lda b ldb beta c ldc) (fun mem => exists c', quats mem c' /\
    holds_mat c' ldc m n (gemm_elt oa ob k (emb alpha) A B (emb beta) w) /\ same_but_mat c c' ldc m n).
Proof. intros *; intros. rewrite f_gemm by assumption. apply ret_f. eapply C63_gemm; eassumption. Qed.

Theorem C74_expand : forall (K : num) fma m n (a : arr (quat K)) lda (b : arr (cplx K)) (d : arr K) ldb A, 0 <= m -> 0 <= n -> holds_mat a lda m n A ->
  (2 * m <= ldb -> alloc_mat b ldb (2 * m) (2 * n) ->
    returns_f (pub_complex_expand fma "F" m n a lda b ldb) (fun mem => exists b', complexes mem b' /\ holds_cexp BF b' ldb m n A /\ same_but_mat b b' ldb (2 * m) (2 * n)) /\
    returns_f (pub_complex_expand fma "S" m n a lda b ldb) (fun mem => exists b', complexes mem b' /\ holds_cexp BS b' ldb m n A /\ same_but_mat b b' ldb (2 * m) (2 * n))) /\
  (4 * m <= ldb -> alloc_mat d ldb (4 * m) (4 * n) ->
    returns_f (pub_real_expand fma m n a lda d ldb) (fun mem => exists d', (forall z, mem z = d' z) /\ holds_rexp d' ldb m n A /\ same_but_mat d d' ldb (4 * m) (4 * n))).
Proof. intros K fma m n a lda b d ldb A Hm Hn HA. destruct (C63_expand K m n a lda b d ldb A Hm Hn HA) as [E F]. refine (conj _ _).
  - intros X Y. destruct (E X Y) as [E1 E2]. exact (conj (ret_e _ _ _ (f_complex_expand fma "F" m n a lda b ldb) E1) (ret_e _ _ _ (f_complex_expand fma "S" m n a lda b ldb) E2)).
  - intros X Y. exact (ret_e _ _ _ (f_real_expand fma m n a lda d ldb) (F X Y)).
 Qed.

Theorem C74_contract : forall (K : num) fma u m n (a : arr (quat K)) lda (b : arr (cplx K)) ldb A,
  (u = "U"%char \/ u = "u"%char \/ forall x : K, nopp (nopp x) = x) ->
  0 <= m -> 0 <= n -> m <= lda -> alloc_mat a lda m n ->
  (holds_cexp BF b ldb m n A -> returns_f (pub_complex_contract fma "F" u m n a lda b ldb) (fun mem => exists a', quats mem a' /\ holds_mat a' lda m n A /\ same_but_mat a a' lda m n)) /\
  (holds_cexp BS b ldb m n A -> returns_f (pub_complex_contract fma "S" u m n a lda b ldb) (fun mem => exists a', quats mem a' /\ holds_mat a' lda m n A /\ same_but_mat a a' lda m n)).
Proof. intros K fma u m n a lda b ldb A Hu Hm Hn Hl Ha. destruct (C63_contract K u m n a lda b ldb A Hu Hm Hn Hl Ha) as [E F].
  exact (conj (fun X => ret_e _ _ _ (f_complex_contract fma "F" u m n a lda b ldb) (E X)) (fun X => ret_e _ _ _ (f_complex_contract fma "S" u m n a lda b ldb) (F X))). Qed.

(** ** The calls run, through the build: over Z.  A real ALPHA and a quaternion BETA go to HGEMMDH, complex ones to gemm.cxx *)
Definition show_f (o : option (res (arr Znum))) (l : list Z) : list (option Z) := match o with Some (Ok m) => map m l | _ => [] end.
Example C74_concrete_gemm : show_f (pub_gemm_f true "N" "c" 1 1 2 (SH (zq 0 0 1 0)) (arr_list [zq 1 0 0 1; zq 2 0 0 0]) 1 (arr_list [zq 0 1 0 0; zq 0 0 1 0]) 1
          (SH (zq 0 1 0 0)) (arr_list [zq 5 0 0 0; zq 9 9 9 9]) 2) [0;1;2;3;4;5;6;7] = map Some [3;5;0;1;9;9;9;9].
Proof. vm_compute. reflexivity. Qed.
Example C74_concrete_axpy :
  nth_error (show_c (pub_axpyv false 4 "R" 2 (SH (zq 0 0 1 0)) 8 (vZ [1;2;3]) 2 32 (vZ [0;5]) 1) 1 [0;1;2]) 0 = Some (Some (Hmul (zq 1 0 0 (-1)) (zq 0 0 1 0))).
Proof. vm_compute; reflexivity. Qed.
