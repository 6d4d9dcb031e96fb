(** C69, C70: the source texts of the templates of include/hblas/generic.  As for C67 and C68, the statements speak about running the texts (MSrcG.v). *)
From Coq Require Import ZArith Lia Bool Ascii String List.
From Verif Require Import Num Res ResFacts Spec SpecFacts MQuat MSimd MOptL1 MGenL1 MGenM MGenL2 F64 PropsL1 PropsL2 PropsGemm CSyntax CSem CProg CSimFacts
  CEqGen1 CEqGen2 CEqGen3 CEqGen4 MSrcC MSrcG PropsSrcC.
Import ListNotations.
Local Open Scope string_scope.
Local Open Scope Z_scope.

Lemma mem_sim {K : num} {A} (r : res A) (x : option (res (mem K * option (val K)))) (f : A -> mem K * option (val K)) :
  sim (fun a o => o = f a) r x -> x = Some (a <- r ;; Ok (f a)).
Proof.
  intros Hs. destruct r as [a| |]; cbn in Hs.
  - destruct Hs as (o & -> & ->). reflexivity.
  - exact Hs.
  - exact Hs.
Qed.
Lemma gemv_real_mul {K : num} f g trans m n (alpha : K) a lda (x : arr (quat K)) incx beta y incy :
  gemv_real f trans m n alpha a lda x incx beta y incy = gemv_real g trans m n alpha a lda x incx beta y incy.
Proof. reflexivity. Qed.
Lemma gemm_real_mul {K : num} f g ta tb m n k (alpha : K) a lda (b : arr (quat K)) ldb beta c ldc :
  gemm_real f ta tb m n k alpha a lda b ldb beta c ldc = gemm_real g ta tb m n k alpha a lda b ldb beta c ldc.
Proof. reflexivity. Qed.
(** a call that returns normally, leaving a memory with property P and returning no value *)
Definition returns_mem {K : num} (o : option (res (mem K * option (val K)))) (P : mem K -> Prop) : Prop := exists m, o = Some (Ok (m, None)) /\ P m.

(** ** C69.  Every call of a template text ends as the call of the model of MGenL1.v, MGenM.v or MGenL2.v: same memory, same value, same undefined and aborted
    calls, in every arithmetic.  Here operator*(quaternion,quaternion) is the portable template of haxx_quaternion_op.hpp; the real-matrix routines
    never call it. *)
Theorem C69_swap : forall (K : num) fuel n xa (x : arr (quat K)) incx ya y incy, (Z.to_nat n < fuel)%nat ->
  swap_gtext fuel n xa x incx ya y incy = Some ('(x', y') <- swapv_gen n x incx y incy ;; Ok ([x'; y'], None)).
Proof.
  intros K fuel n xa x incx ya y incy Hf. pose proof (gsrc_swapv n xa x incx ya y incy fuel Hf) as Hs. unfold swap_gtext.
  destruct (swapv_gen n x incx y incy) as [[x' y']| |]; cbn [sim] in Hs; cbn [bind].
  - destruct Hs as (o & E & ->). rewrite E. reflexivity.
  - rewrite Hs. reflexivity.
  - rewrite Hs. reflexivity.
Qed.
Print Assumptions C69_swap.
Theorem C69_copy : forall (K : num) fuel n xa (x : arr (quat K)) incx ya y incy, (Z.to_nat n < fuel)%nat ->
  copy_gtext fuel n xa x incx ya y incy = Some (y' <- copyv_gen n x incx y incy ;; Ok ([x; y'], None)).
Proof. intros K fuel n xa x incx ya y incy Hf. ct (gsrc_copyv n xa x incx ya y incy fuel Hf). Qed.
Print Assumptions C69_copy.
Theorem C69_scal : forall (K : num) fuel side n alpha xa (x : arr (quat K)) incx, (Z.to_nat n < fuel)%nat ->
  scal_gtext fuel side n alpha xa x incx = Some (x' <- scalv_gen q_mul side n alpha x incx ;; Ok ([x'], None)).
Proof. intros K fuel side n al xa x incx Hf. ct (gsrc_scalv side n al xa x incx fuel Hf). Qed.
Print Assumptions C69_scal.
Theorem C69_axpy : forall (K : num) fuel side n alpha xa (x : arr (quat K)) incx ya y incy, (Z.to_nat n < fuel)%nat ->
  axpy_gtext fuel side n alpha xa x incx ya y incy = Some (y' <- axpyv_gen q_mul side n alpha x incx y incy ;; Ok ([x; y'], None)).
Proof. intros K fuel side n al xa x incx ya y incy Hf. ct (gsrc_axpyv side n al xa x incx ya y incy fuel Hf). Qed.
Print Assumptions C69_axpy.
Theorem C69_dot : forall (K : num) fuel n xa (x : arr (quat K)) incx ya y incy, (Z.to_nat n < fuel)%nat ->
  dotu_gtext fuel n xa x incx ya y incy = Some (r <- dot_gen q_mul false n x incx y incy ;; Ok ([x; y], Some (VQ r))) /\
  dotc_gtext fuel n xa x incx ya y incy = Some (r <- dot_gen q_mul true n x incx y incy ;; Ok ([x; y], Some (VQ r))).
Proof.
  intros K fuel n xa x incx ya y incy Hf.
  refine (conj (after_sim _ _ _ _ _ (gsrc_dotuv n xa x incx ya y incy fuel Hf) _) (after_sim _ _ _ _ _ (gsrc_dotcv n xa x incx ya y incy fuel Hf) _)); intros; split; reflexivity.
Qed.
Print Assumptions C69_dot.
Theorem C69_scalm : forall (K : num) fma fuel, right_fma fma K -> forall side ta m n alpha aa (a : arr (quat K)) lda inca, (Z.to_nat m < fuel)%nat -> (Z.to_nat n < fuel)%nat ->
  scalm_gtext fuel fma side ta m n alpha aa a lda inca = Some (a' <- scalm_avx side ta m n alpha aa a lda inca ;; Ok ([a'], None)).
Proof. intros K fma fuel U side ta m n al aa a lda inca Hm Hn. ct (gsrc_scalm fma fuel U side ta m n al aa a lda inca Hm Hn). Qed.
Print Assumptions C69_scalm.
Theorem C69_axpym : forall (K : num) fma fuel, right_fma fma K -> forall side ta m n alpha aa (a : arr (quat K)) lda inca ba b ldb incb, (Z.to_nat m < fuel)%nat -> (Z.to_nat n < fuel)%nat ->
  axpym_gtext fuel fma side ta m n alpha aa a lda inca ba b ldb incb = Some (b' <- axpym_avx side ta m n alpha aa a lda inca ba b ldb incb ;; Ok ([a; b'], None)).
Proof. intros K fma fuel U side ta m n al aa a lda inca ba b ldb incb Hm Hn. ct (gsrc_axpym fma fuel U side ta m n al aa a lda inca ba b ldb incb Hm Hn). Qed.
Print Assumptions C69_axpym.
Theorem C69_gemv_real : forall (K : num) fuel qmul trans m n (alpha : K) aa a lda xa (x : arr (quat K)) incx beta ya y incy, (Z.to_nat m < fuel)%nat -> (Z.to_nat n < fuel)%nat ->
  gemv_gtext fuel trans m n alpha aa a lda xa x incx beta ya y incy =
  Some (y' <- gemv_real qmul trans m n alpha a lda x incx beta y incy ;; Ok ([(aa, DK a); (xa, DQ x); (ya, DQ y')], None)).
Proof.
  intros K fuel qmul trans m n al aa a lda xa x incx be ya y incy Hm Hn. rewrite (gemv_real_mul qmul q_mul).
  exact (mem_sim _ _ _ (gsrc_gemv_real trans m n al aa a lda xa x incx be ya y incy fuel Hm Hn)).
Qed.
Print Assumptions C69_gemv_real.
Theorem C69_gemm_real : forall (K : num) fuel qmul ta tb m n k (alpha : K) aa a lda ba (b : arr (quat K)) ldb beta ca c ldc,
  (Z.to_nat m < fuel)%nat -> (Z.to_nat n < fuel)%nat -> (Z.to_nat k < fuel)%nat ->
  gemm_gtext fuel ta tb m n k alpha aa a lda ba b ldb beta ca c ldc =
  Some (c' <- gemm_real qmul ta tb m n k alpha a lda b ldb beta c ldc ;; Ok ([(aa, DK a); (ba, DQ b); (ca, DQ c')], None)).
Proof.
  intros K fuel qmul ta tb m n k al aa a lda ba b ldb be ca c ldc Hm Hn Hk. rewrite (gemm_real_mul qmul q_mul).
  exact (mem_sim _ _ _ (gsrc_gemm_real ta tb m n k al aa a lda ba b ldb be ca c ldc fuel Hm Hn Hk)).
Qed.
Print Assumptions C69_gemm_real.

(** ** C70.  What the texts compute *)
Theorem C70_swap : forall (K : num) fuel n xa (x : arr (quat K)) incx ya y incy v w, (Z.to_nat n < fuel)%nat ->
  0 < incx -> 0 < incy -> holds_vec x n incx v -> holds_vec y n incy w ->
  returns_c (swap_gtext fuel n xa x incx ya y incy) (fun l v' => v' = None /\ exists x' y', l = [x'; y'] /\
    holds_vec x' n incx w /\ holds_vec y' n incy v /\ same_but_vec x x' n incx /\ same_but_vec y y' n incy).
Proof.
  intros K fuel n xa x incx ya y incy v w Hf Hx Hy Hv Hw. pose proof (C69_swap K fuel n xa x incx ya y incy Hf) as E.
  pose proof (C12_swapv_gen K n x incx y incy v w Hx Hy Hv Hw) as C. destruct (swapv_gen n x incx y incy) as [[x' y']| |]; try contradiction.
  exists [x'; y'], None. split; [exact E|]. split; [reflexivity|]. exists x', y'. split; [reflexivity|]. destruct C as [[C1 C2] [C3 C4]]. exact (conj C1 (conj C3 (conj C2 C4))).
Qed.
Print Assumptions C70_swap.
Theorem C70_copy : forall (K : num) fuel n xa (x : arr (quat K)) incx ya y incy v w, (Z.to_nat n < fuel)%nat ->
  0 < incx -> 0 < incy -> holds_vec x n incx v -> holds_vec y n incy w ->
  returns_c (copy_gtext fuel n xa x incx ya y incy) (fun l v' => v' = None /\ exists y', l = [x; y'] /\ holds_vec y' n incy v /\ same_but_vec y y' n incy).
Proof.
  intros K fuel n xa x incx ya y incy v w Hf Hx Hy Hv Hw.
  refine (c_ret _ _ _ _ _ (C69_copy K fuel n xa x incx ya y incy Hf) (C13_copyv_gen K n x incx y incy v w Hx Hy Hv Hw) _).
  intros y' C. split; [reflexivity|]. exists y'. split; [reflexivity | exact C].
Qed.
Print Assumptions C70_copy.
Theorem C70_scal : forall (K : num), laws K -> forall fuel c s n alpha xa (x : arr (quat K)) inc v, (Z.to_nat n < fuel)%nat ->
  side_char c = Some s -> 0 < inc -> holds_vec x n inc v ->
  returns_c (scal_gtext fuel c n alpha xa x inc) (fun l v' => v' = None /\ exists x', l = [x'] /\
    holds_vec x' n inc (fun i => Hside s (emb alpha) (v i)) /\ same_but_vec x x' n inc).
Proof.
  intros K L fuel c s n al xa x inc v Hf Hc Hi Hv.
  refine (c_ret _ _ _ _ _ (C69_scal K fuel c n al xa x inc Hf) (C14_scalv_gen K L q_mul (or_introl eq_refl) c s n al x inc v Hc Hi Hv) _).
  intros x' C. split; [reflexivity|]. exists x'. split; [reflexivity | exact C].
Qed.
Print Assumptions C70_scal.
(** missing: ALPHA = d k with d <> 0, which compares equal to 0 (C11, C15_axpyv_gen_refuted) *)
Theorem C70_axpy_partial : forall (K : num), laws K -> forall fuel c s n alpha xa (x : arr (quat K)) incx ya y incy v w, (Z.to_nat n < fuel)%nat ->
  (forall d, alpha = SH (Quat n0 n0 n0 d) -> d = n0) ->
  side_char c = Some s -> 0 < incx -> 0 < incy -> holds_vec x n incx v -> holds_vec y n incy w ->
  returns_c (axpy_gtext fuel c n alpha xa x incx ya y incy) (fun l v' => v' = None /\ exists y', l = [x; y'] /\
    holds_vec y' n incy (fun i => Hadd (w i) (Hside s (emb alpha) (v i))) /\ same_but_vec y y' n incy).
Proof.
  intros K L fuel c s n al xa x incx ya y incy v w Hf Hk Hc Hx Hy Hv Hw.
  refine (c_ret _ _ _ _ _ (C69_axpy K fuel c n al xa x incx ya y incy Hf) (C15_axpyv_gen_partial K L q_mul (or_introl eq_refl) c s n al x incx y incy v w Hk Hc Hx Hy Hv Hw) _).
  intros y' C. split; [reflexivity|]. exists y'. split; [reflexivity | exact C].
Qed.
Print Assumptions C70_axpy_partial.
Theorem C70_dot : forall (K : num), laws K -> forall fuel n xa (x : arr (quat K)) incx ya y incy v w, (Z.to_nat n < fuel)%nat ->
  0 < incx -> 0 < incy -> holds_vec x n incx v -> holds_vec y n incy w ->
  dotu_gtext fuel n xa x incx ya y incy = Some (Ok ([x; y], Some (VQ (Hsum n (fun i => Hmul (v i) (w i)))))) /\
  dotc_gtext fuel n xa x incx ya y incy = Some (Ok ([x; y], Some (VQ (Hsum n (fun i => Hmul (Hconj (v i)) (w i)))))).
Proof.
  intros K L fuel n xa x incx ya y incy v w Hf Hx Hy Hv Hw. destruct (C69_dot K fuel n xa x incx ya y incy Hf) as [E1 E2].
  rewrite E1, E2, (C16_dotuv_gen K L q_mul (or_introl eq_refl) n x incx y incy v w Hx Hy Hv Hw), (C17_dotcv_gen K L q_mul (or_introl eq_refl) n x incx y incy v w Hx Hy Hv Hw). split; reflexivity.
Qed.
Print Assumptions C70_dot.
Theorem C70_scalm : forall (K : num), laws K -> forall fma fuel c s m n alpha aa (a : arr (quat K)) lda inca f, (Z.to_nat m < fuel)%nat -> (Z.to_nat n < fuel)%nat ->
  side_char c = Some s -> 0 < inca -> disjoint_mat lda inca m n -> holds_matinc a lda inca m n f ->
  returns_c (scalm_gtext fuel fma c "N" m n alpha aa a lda inca) (fun l v' => v' = None /\ exists a', l = [a'] /\
    holds_matinc a' lda inca m n (fun i j => Hside s (emb alpha) (f i j)) /\ same_but_matinc a a' lda inca m n).
Proof.
  intros K L fma fuel c s m n al aa a lda inca f Fm Fn Hc Hi Hd Hv.
  refine (c_ret _ _ _ _ _ (C69_scalm K fma fuel (fun _ => laws_two K L) c "N" m n al aa a lda inca Fm Fn) (C21_scalm_avx K L c s m n al aa a lda inca f Hc Hi Hd Hv) _).
  intros a' C. split; [reflexivity|]. exists a'. split; [reflexivity | exact C].
Qed.
Print Assumptions C70_scalm.
(** missing: ALPHA = d k with d <> 0 *)
Theorem C70_axpym_partial : forall (K : num), laws K -> forall fma fuel c s m n alpha aa (a : arr (quat K)) lda inca ba b ldb incb f g, (Z.to_nat m < fuel)%nat -> (Z.to_nat n < fuel)%nat ->
  (forall d, alpha = SH (Quat n0 n0 n0 d) -> d = n0) -> side_char c = Some s ->
  0 < inca -> 0 < incb -> disjoint_mat ldb incb m n -> holds_matinc a lda inca m n f -> holds_matinc b ldb incb m n g ->
  returns_c (axpym_gtext fuel fma c "N" m n alpha aa a lda inca ba b ldb incb) (fun l v' => v' = None /\ exists b', l = [a; b'] /\
    holds_matinc b' ldb incb m n (fun i j => Hadd (g i j) (Hside s (emb alpha) (f i j))) /\ same_but_matinc b b' ldb incb m n).
Proof.
  intros K L fma fuel c s m n al aa a lda inca ba b ldb incb f g Fm Fn Hk Hc Ha Hb Hd Hv Hw.
  refine (c_ret _ _ _ _ _ (C69_axpym K fma fuel (fun _ => laws_two K L) c "N" m n al aa a lda inca ba b ldb incb Fm Fn)
    (C22_axpym_avx_partial K L c s m n al aa a lda inca ba b ldb incb f g Hk Hc Ha Hb Hd Hv Hw) _).
  intros b' C. split; [reflexivity|]. exists b'. split; [reflexivity | exact C].
Qed.
Print Assumptions C70_axpym_partial.
Theorem C70_axpym_refuted : ~ (forall fma fuel c s m n (alpha : scal Znum) aa a lda inca ba b ldb incb f g, (Z.to_nat m < fuel)%nat -> (Z.to_nat n < fuel)%nat ->
  side_char c = Some s -> 0 < inca -> 0 < incb -> disjoint_mat ldb incb m n -> holds_matinc a lda inca m n f -> holds_matinc b ldb incb m n g ->
  returns_c (axpym_gtext fuel fma c "N" m n alpha aa a lda inca ba b ldb incb) (fun l v' => v' = None /\ exists b', l = [a; b'] /\
    holds_matinc b' ldb incb m n (fun i j => Hadd (g i j) (Hside s (emb alpha) (f i j))) /\ same_but_matinc b b' ldb incb m n)).
Proof.
  intros F. specialize (F false 4%nat "L"%char Lft 1 1 (SH (zq 0 0 0 1)) 0 (vZ [1]) 1 1 0 (vZ [0]) 1 1
    (fun _ _ => zq 1 0 0 (-1)) (fun _ _ => zq 0 0 0 0) ltac:(cbn; lia) ltac:(cbn; lia) eq_refl eq_refl eq_refl).
  destruct F as (l & v & E & _ & b' & -> & H & _); try (intros i j Hi Hj; assert (i = 0) as -> by lia; assert (j = 0) as -> by lia; reflexivity).
  - intros i j i' j' Hi Hj Hi' Hj' _. lia.
  - specialize (H 0 0 ltac:(lia) ltac:(lia)). rewrite C69_axpym in E; [| intros _; apply (laws_two _ Zlaws) | cbn; lia | cbn; lia].
    injection E as Eb _. rewrite <- Eb in H. discriminate.
Qed.
Print Assumptions C70_axpym_refuted.
Theorem C70_gemv_real : forall (K : num), laws K -> forall fuel c o m n (alpha : K) aa (a : arr K) lda xa (x : arr (quat K)) incx beta ya y incy A v w, (Z.to_nat m < fuel)%nat -> (Z.to_nat n < fuel)%nat ->
  trans_char c = Some o -> 0 < m -> 0 < n -> 0 < incx -> 0 < incy ->
  holds_mat a lda m n A -> holds_vec x (op_cols o m n) incx v -> holds_vec y (op_rows o m n) incy w ->
  returns_mem (gemv_gtext fuel c m n alpha aa a lda xa x incx beta ya y incy) (fun mem => exists y', mem = [(aa, DK a); (xa, DQ x); (ya, DQ y')] /\
    holds_vec y' (op_rows o m n) incy (gemv_elt o (op_cols o m n) (Hre alpha) (fun i j => Hre (A i j)) v (Hre beta) w) /\
    same_but_vec y y' (op_rows o m n) incy).
Proof.
  intros K L fuel c o m n al aa a lda xa x incx be ya y incy A v w Fm Fn Hc Hm Hn Hx Hy HA Hv Hw.
  pose proof (C24_gemv_real K L q_mul (or_introl eq_refl) c o m n al a lda x incx be y incy A v w Hc Hm Hn Hx Hy HA Hv Hw) as C.
  pose proof (C69_gemv_real K fuel q_mul c m n al aa a lda xa x incx be ya y incy Fm Fn) as E.
  destruct (gemv_real q_mul c m n al a lda x incx be y incy) as [y'| |]; try contradiction.
  eexists. split; [exact E|]. exists y'. split; [reflexivity | exact C].
Qed.
Print Assumptions C70_gemv_real.
Theorem C70_gemm_real : forall (K : num), laws K -> forall fuel ca cb oa ob m n k (alpha : K) aa (a : arr K) lda ba (b : arr (quat K)) ldb beta c_ad c ldc A B w,
  (Z.to_nat m < fuel)%nat -> (Z.to_nat n < fuel)%nat -> (Z.to_nat k < fuel)%nat ->
  trans_char ca = Some oa -> trans_char cb = Some ob -> 0 <= m -> 0 <= n -> 0 <= k -> m <= ldc ->
  holds_mat a lda (op_rows oa m k) (op_cols oa m k) A -> holds_mat b ldb (op_rows ob k n) (op_cols ob k n) B -> holds_mat c ldc m n w ->
  returns_mem (gemm_gtext fuel ca cb m n k alpha aa a lda ba b ldb beta c_ad c ldc) (fun mem => exists c', mem = [(aa, DK a); (ba, DQ b); (c_ad, DQ c')] /\
    holds_mat c' ldc m n (gemm_elt oa ob k (Hre alpha) (fun i j => Hre (A i j)) B (Hre beta) w) /\ same_but_mat c c' ldc m n).
Proof.
  intros K L fuel ca cb oa ob m n k al aa a lda ba b ldb be c_ad c ldc A B w Fm Fn Fk Ha Hb Hm Hn Hk Hl HA HB HC.
  pose proof (C28_gemm_real K L q_mul (or_introl eq_refl) ca cb oa ob m n k al a lda b ldb be c ldc A B w Ha Hb Hm Hn Hk Hl HA HB HC) as C.
  pose proof (C69_gemm_real K fuel q_mul ca cb m n k al aa a lda ba b ldb be c_ad c ldc Fm Fn Fk) as E.
  destruct (gemm_real q_mul ca cb m n k al a lda b ldb be c ldc) as [c'| |]; try contradiction.
  eexists. split; [exact E|]. exists c'. split; [reflexivity | exact C].
Qed.
Print Assumptions C70_gemm_real.
(** in every arithmetic, binary64 included, real GEMM touches nothing but the m by n entries of C *)
Theorem C70_gemm_real_frame : forall (K : num) fuel ca cb oa ob m n k (alpha : K) aa (a : arr K) lda ba (b : arr (quat K)) ldb beta c_ad c ldc A B w,
  (Z.to_nat m < fuel)%nat -> (Z.to_nat n < fuel)%nat -> (Z.to_nat k < fuel)%nat ->
  trans_char ca = Some oa -> trans_char cb = Some ob -> 0 <= m -> 0 <= n -> 0 <= k -> m <= ldc ->
  holds_mat a lda (op_rows oa m k) (op_cols oa m k) A -> holds_mat b ldb (op_rows ob k n) (op_cols ob k n) B -> holds_mat c ldc m n w ->
  returns_mem (gemm_gtext fuel ca cb m n k alpha aa a lda ba b ldb beta c_ad c ldc) (fun mem => exists c', mem = [(aa, DK a); (ba, DQ b); (c_ad, DQ c')] /\
    same_but_mat c c' ldc m n /\ exists w', holds_mat c' ldc m n w').
Proof.
  intros K fuel ca cb oa ob m n k al aa a lda ba b ldb be c_ad c ldc A B w Fm Fn Fk Ha Hb Hm Hn Hk Hl HA HB HC.
  pose proof (C32_gemm_real K q_mul ca cb oa ob m n k al a lda b ldb be c ldc A B w Ha Hb Hm Hn Hk Hl HA HB HC) as C.
  pose proof (C69_gemm_real K fuel q_mul ca cb m n k al aa a lda ba b ldb be c_ad c ldc Fm Fn Fk) as E.
  destruct (gemm_real q_mul ca cb m n k al a lda b ldb be c ldc) as [c'| |]; try contradiction.
  eexists. split; [exact E|]. exists c'. split; [reflexivity | exact C].
Qed.
Print Assumptions C70_gemm_real_frame.
(** ** The texts run: concrete calls over Z *)
Example C70_concrete_scalm : show_c (scalm_gtext 4 true "L" "N" 2 2 (SH (zq 0 1 0 0)) 8 (vZ [1;2;9;3;4;9]) 3 1) 0 [0;1;2;3;4;5] =
  [Some (Hmul (zq 0 1 0 0) (zq 1 0 0 (-1))); Some (Hmul (zq 0 1 0 0) (zq 2 0 0 (-2))); Some (zq 9 0 0 (-9)); Some (Hmul (zq 0 1 0 0) (zq 3 0 0 (-3))); Some (Hmul (zq 0 1 0 0) (zq 4 0 0 (-4))); Some (zq 9 0 0 (-9))].
Proof. vm_compute. reflexivity. Qed.
Definition show_m (o : option (res (mem Znum * option (val Znum)))) (i : nat) (l : list Z) : list (option (quat Znum)) :=
  match o with Some (Ok (m, _)) => match nth_error m i with Some (_, DQ x) => map x l | _ => [] end | _ => [] end.
Example C70_concrete_gemv : show_m (gemv_gtext 4 "T" 2 2 (2 : Znum) 0 (arr_list (A := Znum) [1;2;3;4]) 2 0 (vZ [1;5]) 1 (1 : Znum) 0 (vZ [7;0;8]) 2) 2 [0;1;2] =
  [Some (zq 29 0 0 (-29)); Some (zq 0 0 0 0); Some (zq 54 0 0 (-54))].
Proof. vm_compute. reflexivity. Qed.
Example C70_concrete_gemm : show_m (gemm_gtext 4 "N" "C" 2 1 2 (1 : Znum) 0 (arr_list (A := Znum) [1;2;3;4]) 2 0 (vZ [1;5]) 1 (0 : Znum) 0 (vZ [7;8;9]) 2) 2 [0;1;2] =
  [Some (zq 16 0 0 16); Some (zq 22 0 0 22); Some (zq 9 0 0 (-9))].
Proof. vm_compute. reflexivity. Qed.
