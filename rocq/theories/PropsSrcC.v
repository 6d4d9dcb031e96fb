(** C67, C68: the C++ source texts of the default build.  The statements speak about running the text of the translation units of src/hblas/cxx (MSrcC.v:
    preprocess and parse the text, run the function), not about the hand-written model of the kernels. *)
From Coq Require Import ZArith Lia Bool Ascii String List.
From Verif Require Import Num Res ResFacts Spec SpecFacts MQuat MSimd MOptL1 MGenM MPack MOptGemm F64 PropsL1 PropsL3 PropsGemm CSyntax CSem CProg CSimFacts CLink
  CEqQ CEqL1 CEqL1b CEqK CEqG2 MSrcC.
Import ListNotations.
Local Open Scope string_scope.
Local Open Scope Z_scope.

Lemma after_sim {K : num} {A} (r : res A) (x : option (res (mem K * option (val K)))) (f : A -> mem K * option (val K)) l v :
  sim (fun a o => o = f a) r x -> (forall a, qarrs (fst (f a)) = Some (l a) /\ snd (f a) = v a) -> after x = Some (a <- r ;; Ok (l a, v a)).
Proof.
  intros Hs Hf. destruct r as [a| |]; cbn in Hs.
  - destruct Hs as (o & -> & ->). destruct (Hf a) as [E1 E2]. destruct (f a) as [m w]. cbn in *. rewrite E1, E2. reflexivity.
  - rewrite Hs. reflexivity.
  - rewrite Hs. reflexivity.
Qed.
Lemma laws_two (K : num) : laws K -> two_step K.
Proof. intros L a b c. exact (conj (l_fma _ L a b c) (conj (l_fms _ L a b c) (l_fnma _ L a b c))). Qed.
Ltac ct s := refine (after_sim _ _ _ _ _ s _); intros; split; reflexivity.
Lemma c_ret {K : num} {A} (o : option (res (list (arr (quat K)) * option (val K)))) (r : res A) f (P : A -> Prop) (Q : list (arr (quat K)) -> option (val K) -> Prop) :
  o = Some (a <- r ;; Ok (f a)) -> returns r P -> (forall a, P a -> Q (fst (f a)) (snd (f a))) -> returns_c o Q.
Proof. intros E Hr Hp. destruct r as [a| |]; try contradiction. exists (fst (f a)), (snd (f a)). rewrite E. split; [cbn; rewrite <- surjective_pairing; reflexivity | exact (Hp a Hr)]. Qed.

(** ** C67.  Every call of a text ends as the call of the kernel of MOptL1.v or MOptGemm.v: same memory, same value, same undefined calls.  This holds on
    machines with FMA and, in an arithmetic where an emulated FMA is a multiplication followed by an addition, on machines without; in particular in IEEE
    binary64.  [fuel] bounds the iterations of each loop; any bound larger than the dimensions will do. *)
Definition right_fma (fma : bool) (K : num) : Prop := fma = false -> two_step K.
Theorem C67_swap : forall (K : num) fma fuel, forall n xa (x : arr (quat K)) incx ya y incy, (Z.to_nat n < fuel)%nat ->
  swap_ctext fma fuel n xa x incx ya y incy = Some ('(x', y') <- swapv_opt n xa x incx ya y incy ;; Ok ([x'; y'], None)).
Proof.
  intros K fma fuel n xa x incx ya y incy Hf. pose proof (src_swapv fma n xa x incx ya y incy fuel Hf) as Hs.
  unfold swap_ctext. change (@ptr K) with (fun b => @pv K b 0). cbv beta. destruct (swapv_opt n xa x incx ya y incy) as [[x' y']| |]; cbn in Hs |- *.
  - destruct Hs as (o & E & ->). rewrite E. reflexivity.
  - rewrite Hs. reflexivity.
  - rewrite Hs. reflexivity.
Qed.
Print Assumptions C67_swap.
Theorem C67_copy : forall (K : num) fma fuel, forall n xa (x : arr (quat K)) incx ya y incy, (Z.to_nat n < fuel)%nat ->
  copy_ctext fma fuel n xa x incx ya y incy = Some (y' <- copyv_opt n xa x incx ya y incy ;; Ok ([x; y'], None)).
Proof. intros K fma fuel n xa x incx ya y incy Hf. ct (src_copyv fma n xa x incx ya y incy fuel Hf). Qed.
Print Assumptions C67_copy.
Theorem C67_scal : forall (K : num) fma fuel, right_fma fma K -> forall side n alpha xa (x : arr (quat K)) incx, (Z.to_nat n < fuel)%nat ->
  scal_ctext fma fuel side n alpha xa x incx = Some (x' <- scalv_opt side n alpha xa x incx ;; Ok ([x'], None)).
Proof.
  intros K fma fuel U side n [a|a|a] xa x incx Hf;
    [ct (src_scald fma side n a xa x incx fuel Hf) | ct (src_scalz fma side n a xa x incx fuel Hf) | ct (src_scalh fma U side n a xa x incx fuel Hf)].
Qed.
Print Assumptions C67_scal.
Theorem C67_axpy : forall (K : num) fma fuel, right_fma fma K -> forall side n alpha xa (x : arr (quat K)) incx ya y incy, (Z.to_nat n < fuel)%nat ->
  axpy_ctext fma fuel side n alpha xa x incx ya y incy = Some (y' <- axpyv_opt side n alpha xa x incx ya y incy ;; Ok ([x; y'], None)).
Proof.
  intros K fma fuel U side n [a|a|a] xa x incx ya y incy Hf;
    [ct (src_axpyd fma U side n a xa x incx ya y incy fuel Hf) | ct (src_axpyz fma side n a xa x incx ya y incy fuel Hf) | ct (src_axpyh fma U side n a xa x incx ya y incy fuel Hf)].
Qed.
Print Assumptions C67_axpy.
Theorem C67_dot : forall (K : num) fma fuel, right_fma fma K -> forall n xa (x : arr (quat K)) incx ya y incy, (Z.to_nat n + 4 < fuel)%nat ->
  dotu_ctext fma fuel n xa x incx ya y incy = Some (r <- dotuv_opt n xa x incx ya y incy ;; Ok ([x; y], Some (VQ r))) /\
  dotc_ctext fma fuel n xa x incx ya y incy = Some (r <- dotcv_opt n xa x incx ya y incy ;; Ok ([x; y], Some (VQ r))).
Proof.
  intros K fma fuel U n xa x incx ya y incy Hf. assert (H1 : (Z.to_nat n < fuel)%nat) by lia. assert (H2 : (4 < fuel)%nat) by lia. split;
    [ct (src_dotuv fma U n xa x incx ya y incy fuel H1 H2) | ct (src_dotcv fma U n xa x incx ya y incy fuel H1 H2)].
Qed.
Print Assumptions C67_dot.
Theorem C67_kern : forall (K : num) fma fuel, right_fma fma K -> forall m n k aa (a : arr (quat K)) oa ba b ob ca c oc ldc, (Z.to_nat k <= fuel)%nat ->
  kern_ctext fma fuel m n k aa a oa ba b ob ca c oc ldc = Some (c' <- kern m n k aa a oa ba b ob c oc ldc ;; Ok ([a; b; c'], None)).
Proof. intros K fma fuel U m n k aa a oa ba b ob ca c oc ldc Hf. ct (src_kern fma U m n k aa a oa ba b ob ca c oc ldc fuel Hf). Qed.
Print Assumptions C67_kern.
(** GEMM with real or complex ALPHA and BETA: A and B are as before, C is as the model leaves it; the two packing buffers are left over *)
Theorem C67_gemm : forall (K : num) fma fuel, right_fma fma K ->
  forall aa ba ga gb ta tb m n k alpha a_ad (a : arr (quat K)) lda b_ad b ldb beta c_ad c ldc,
  (forall q, alpha <> SH q) -> (forall q, beta <> SH q) -> (Z.to_nat m < fuel)%nat -> (Z.to_nat n < fuel)%nat -> (Z.to_nat k < fuel)%nat ->
  match gemm_opt_default aa ba ga gb ta tb m n k alpha a lda b ldb beta c_ad c ldc with
  | Ok c' => exists bPack aPack, gemm_ctext fma fuel aa ba ga gb ta tb m n k alpha a_ad a lda b_ad b ldb beta c_ad c ldc = Some (Ok ([a; b; c'; bPack; aPack], None))
  | UB => gemm_ctext fma fuel aa ba ga gb ta tb m n k alpha a_ad a lda b_ad b ldb beta c_ad c ldc = Some UB
  | Abort => gemm_ctext fma fuel aa ba ga gb ta tb m n k alpha a_ad a lda b_ad b ldb beta c_ad c ldc = Some Abort
  end.
Proof.
  intros K fma fuel U aa ba ga gb ta tb m n k al a_ad a lda b_ad b ldb be c_ad c ldc Ha Hb Hm Hn Hk. unfold gemm_ctext.
  assert (S : sim (fun r o => exists bp ap, o = ([(a_ad, DQ a); (b_ad, DQ b); (c_ad, DQ r); (ba, DQ bp); (aa, DQ ap)], None))
    (gemm_opt_default aa ba ga gb ta tb m n k al a lda b ldb be c_ad c ldc)
    (ccall (unit_gemm fma (type_of al) (type_of be)) (gemm_link fma fuel aa ba ga gb) fuel "HBLAS_GEMM"
    [VChr ta; VChr tb; VZ m; VZ n; VZ k; val_of al; ptr 0; VZ lda; ptr 1; VZ ldb; val_of be; ptr 2; VZ ldc] [(a_ad, DQ a); (b_ad, DQ b); (c_ad, DQ c)])).
  { destruct al as [al|al|q]; [| | destruct (Ha q eq_refl)]; (destruct be as [be|be|q]; [| | destruct (Hb q eq_refl)]).
    - exact (src_gemmdd fma U fuel aa ba ga gb ta tb m n k al be a_ad b_ad a b lda ldb c_ad c ldc Hm Hn Hk).
    - exact (src_gemmdz fma U fuel aa ba ga gb ta tb m n k al be a_ad b_ad a b lda ldb c_ad c ldc Hm Hn Hk).
    - exact (src_gemmzd fma U fuel aa ba ga gb ta tb m n k al be a_ad b_ad a b lda ldb c_ad c ldc Hm Hn Hk).
    - exact (src_gemmzz fma U fuel aa ba ga gb ta tb m n k al be a_ad b_ad a b lda ldb c_ad c ldc Hm Hn Hk). }
  destruct (gemm_opt_default aa ba ga gb ta tb m n k al a lda b ldb be c_ad c ldc) as [c'| |]; cbn [sim] in S.
  - destruct S as (o & E & bp & ap & ->). exists bp, ap. rewrite E. reflexivity.
  - rewrite S. reflexivity.
  - rewrite S. reflexivity.
Qed.
Print Assumptions C67_gemm.
(** IEEE binary64 qualifies, on both kinds of machine *)
Example C67_binary64 : forall fma, right_fma fma (F64 fma).
Proof. intros [|] E; [discriminate | intros a b c; repeat split]. Qed.

(** ** C68.  The contracts of C12-C17 and C29, for the texts: for every vector or matrix argument, both kinds of machine *)
Theorem C68_swap : forall (K : num) fma fuel n xa (x : arr (quat K)) incx ya y incy v w, (Z.to_nat n < fuel)%nat ->
  0 < incx -> 0 < incy -> holds_vec x n incx v -> holds_vec y n incy w ->
  returns_c (swap_ctext fma fuel n xa x incx ya y incy) (fun l v' => v' = None /\ exists x' y', l = [x'; y'] /\
    (holds_vec x' n incx w /\ same_but_vec x x' n incx) /\ holds_vec y' n incy v /\ same_but_vec y y' n incy).
Proof.
  intros K fma fuel n xa x incx ya y incy v w Hf Hx Hy Hv Hw. pose proof (C67_swap K fma fuel n xa x incx ya y incy Hf) as E.
  pose proof (C12_swapv_opt K n xa x incx ya y incy v w Hx Hy Hv Hw) as C. destruct (swapv_opt n xa x incx ya y incy) as [[x' y']| |]; try contradiction.
  exists [x'; y'], None. split; [exact E|]. split; [reflexivity|]. exists x', y'. split; [reflexivity|]. exact C.
Qed.
Print Assumptions C68_swap.
Theorem C68_copy : forall (K : num) fma fuel n xa (x : arr (quat K)) incx ya y incy v w, (Z.to_nat n < fuel)%nat ->
  0 < incx -> 0 < incy -> holds_vec x n incx v -> holds_vec y n incy w ->
  returns_c (copy_ctext fma fuel n xa x incx ya y incy) (fun l v' => v' = None /\ exists y', l = [x; y'] /\ holds_vec y' n incy v /\ same_but_vec y y' n incy).
Proof.
  intros K fma fuel n xa x incx ya y incy v w Hf Hx Hy Hv Hw.
  refine (c_ret _ _ _ _ _ (C67_copy K fma fuel n xa x incx ya y incy Hf) (C13_copyv_opt K n xa x incx ya y incy v w Hx Hy Hv Hw) _).
  intros y' C. split; [reflexivity|]. exists y'. split; [reflexivity | exact C].
Qed.
Print Assumptions C68_copy.
Theorem C68_scal : forall (K : num), laws K -> forall fma fuel c s n alpha xa (x : arr (quat K)) inc v, (Z.to_nat n < fuel)%nat ->
  side_char c = Some s -> 0 < inc -> holds_vec x n inc v ->
  returns_c (scal_ctext fma fuel c n alpha xa x inc) (fun l v' => v' = None /\ exists x', l = [x'] /\
    holds_vec x' n inc (fun i => Hside s (emb alpha) (v i)) /\ same_but_vec x x' n inc).
Proof.
  intros K L fma fuel c s n al xa x inc v Hf Hc Hi Hv.
  refine (c_ret _ _ _ _ _ (C67_scal K fma fuel (fun _ => laws_two K L) c n al xa x inc Hf) (C14_scalv_opt K L c s n al xa x inc v Hc Hi Hv) _).
  intros x' C. split; [reflexivity|]. exists x'. split; [reflexivity | exact C].
Qed.
Print Assumptions C68_scal.
Theorem C68_axpy : forall (K : num), laws K -> forall fma fuel c s n alpha xa (x : arr (quat K)) incx ya y incy v w, (Z.to_nat n < fuel)%nat ->
  side_char c = Some s -> 0 < incx -> 0 < incy -> holds_vec x n incx v -> holds_vec y n incy w ->
  returns_c (axpy_ctext fma fuel c n alpha xa x incx ya y incy) (fun l v' => v' = None /\ exists y', l = [x; y'] /\
    holds_vec y' n incy (fun i => Hadd (w i) (Hside s (emb alpha) (v i))) /\ same_but_vec y y' n incy).
Proof.
  intros K L fma fuel c s n al xa x incx ya y incy v w Hf Hc Hx Hy Hv Hw.
  refine (c_ret _ _ _ _ _ (C67_axpy K fma fuel (fun _ => laws_two K L) c n al xa x incx ya y incy Hf) (C15_axpyv_opt K L c s n al xa x incx ya y incy v w Hc Hx Hy Hv Hw) _).
  intros y' C. split; [reflexivity|]. exists y'. split; [reflexivity | exact C].
Qed.
Print Assumptions C68_axpy.
Theorem C68_dot : forall (K : num), laws K -> forall fma fuel n xa (x : arr (quat K)) incx ya y incy v w, (Z.to_nat n + 4 < fuel)%nat ->
  0 < incx -> 0 < incy -> holds_vec x n incx v -> holds_vec y n incy w ->
  dotu_ctext fma fuel n xa x incx ya y incy = Some (Ok ([x; y], Some (VQ (Hsum n (fun i => Hmul (v i) (w i)))))) /\
  dotc_ctext fma fuel n xa x incx ya y incy = Some (Ok ([x; y], Some (VQ (Hsum n (fun i => Hmul (Hconj (v i)) (w i)))))).
Proof.
  intros K L fma fuel n xa x incx ya y incy v w Hf Hx Hy Hv Hw. destruct (C67_dot K fma fuel (fun _ => laws_two K L) n xa x incx ya y incy Hf) as [E1 E2].
  rewrite E1, E2, (C16_dotuv_opt K L n xa x incx ya y incy v w Hx Hy Hv Hw), (C17_dotcv_opt K L n xa x incx ya y incy v w Hx Hy Hv Hw). split; reflexivity.
Qed.
Print Assumptions C68_dot.
Theorem C68_gemm : forall (K : num), laws K ->
  forall fma fuel aa ba ga gb ca cb oa ob m n k alpha a_ad (a : arr (quat K)) lda b_ad (b : arr (quat K)) ldb beta c_ad (c : arr (quat K)) ldc A B w,
  (forall q, alpha <> SH q) -> (forall q, beta <> SH q) -> (Z.to_nat m < fuel)%nat -> (Z.to_nat n < fuel)%nat -> (Z.to_nat k < fuel)%nat ->
  aa mod 32 = 0 -> ba mod 32 = 0 ->
  trans_char_r ca = Some oa -> trans_char_r cb = Some ob -> 0 <= m -> 0 <= n -> 0 <= k -> m <= ldc ->
  holds_mat a lda (op_rows oa m k) (op_cols oa m k) A -> holds_mat b ldb (op_rows ob k n) (op_cols ob k n) B -> holds_mat c ldc m n w ->
  returns_c (gemm_ctext fma fuel aa ba ga gb ca cb m n k alpha a_ad a lda b_ad b ldb beta c_ad c ldc) (fun l v' => v' = None /\ exists c' bPack aPack, l = [a; b; c'; bPack; aPack] /\
    holds_mat c' ldc m n (gemm_elt oa ob k (emb alpha) A B (emb beta) w) /\ same_but_mat c c' ldc m n).
Proof.
  intros K L fma fuel aa ba ga gb ca cb oa ob m n k al a_ad a lda b_ad b ldb be c_ad c ldc A B w Ha Hb Fm Fn Fk H1 H2 H3 H4 H5 H6 H7 H8 HA HB HC.
  pose proof (C67_gemm K fma fuel (fun _ => laws_two K L) aa ba ga gb ca cb m n k al a_ad a lda b_ad b ldb be c_ad c ldc Ha Hb Fm Fn Fk) as E.
  pose proof (C29_gemm_opt_default K L aa ba ga gb ca cb oa ob m n k al a lda b ldb be c_ad c ldc A B w H1 H2 H3 H4 H5 H6 H7 H8 HA HB HC) as C.
  destruct (gemm_opt_default aa ba ga gb ca cb m n k al a lda b ldb be c_ad c ldc) as [c'| |]; try contradiction.
  destruct E as (bp & ap & E). exists [a; b; c'; bp; ap], None. split; [exact E|]. split; [reflexivity|]. exists c', bp, ap. split; [reflexivity | exact C].
Qed.
Print Assumptions C68_gemm.
(** in every arithmetic the text of GEMM touches nothing but the m by n entries of C (and its buffers) *)
Theorem C68_gemm_frame : forall (K : num) fma fuel, right_fma fma K ->
  forall aa ba ga gb ca cb oa ob m n k alpha a_ad (a : arr (quat K)) lda b_ad (b : arr (quat K)) ldb beta c_ad (c : arr (quat K)) ldc A B w,
  (forall q, alpha <> SH q) -> (forall q, beta <> SH q) -> (Z.to_nat m < fuel)%nat -> (Z.to_nat n < fuel)%nat -> (Z.to_nat k < fuel)%nat ->
  aa mod 32 = 0 -> ba mod 32 = 0 ->
  trans_char_r ca = Some oa -> trans_char_r cb = Some ob -> 0 <= m -> 0 <= n -> 0 <= k -> m <= ldc ->
  holds_mat a lda (op_rows oa m k) (op_cols oa m k) A -> holds_mat b ldb (op_rows ob k n) (op_cols ob k n) B -> holds_mat c ldc m n w ->
  returns_c (gemm_ctext fma fuel aa ba ga gb ca cb m n k alpha a_ad a lda b_ad b ldb beta c_ad c ldc) (fun l v' => v' = None /\ exists c' bPack aPack, l = [a; b; c'; bPack; aPack] /\
    same_but_mat c c' ldc m n /\ exists w', holds_mat c' ldc m n w').
Proof.
  intros K fma fuel U aa ba ga gb ca cb oa ob m n k al a_ad a lda b_ad b ldb be c_ad c ldc A B w Ha Hb Fm Fn Fk H1 H2 H3 H4 H5 H6 H7 H8 HA HB HC.
  pose proof (C67_gemm K fma fuel U aa ba ga gb ca cb m n k al a_ad a lda b_ad b ldb be c_ad c ldc Ha Hb Fm Fn Fk) as E.
  pose proof (C32_gemm_opt K 64 512 64 aa ba ga gb ca cb oa ob m n k al a lda b ldb be c_ad c ldc A B w eq_refl eq_refl eq_refl eq_refl eq_refl H1 H2 H3 H4 H5 H6 H7 H8 HA HB HC) as C.
  unfold gemm_opt_default in E.
  destruct (gemm_opt 64 512 64 aa ba ga gb ca cb m n k al a lda b ldb be c_ad c ldc) as [c'| |]; try contradiction.
  destruct E as (bp & ap & E). exists [a; b; c'; bp; ap], None. split; [exact E|]. split; [reflexivity|]. exists c', bp, ap. split; [reflexivity | exact C].
Qed.
Print Assumptions C68_gemm_frame.
(** ** The texts run: concrete calls over Z *)
Definition show_c (o : option (res (list (arr (quat Znum)) * option (val Znum)))) (i : nat) (l : list Z) : list (option (quat Znum)) :=
  match o with Some (Ok (xs, _)) => match nth_error xs i with Some x => map x l | None => [] end | _ => [] end.
Example C68_concrete_axpy : show_c (axpy_ctext false 4 "R" 2 (SH (zq 0 0 1 0)) 8 (vZ [1;2;3]) 2 32 (vZ [0;5]) 1) 1 [0;1;2] =
  [Some (Hadd (zq 0 0 0 0) (Hmul (zq 1 0 0 (-1)) (zq 0 0 1 0))); Some (Hadd (zq 5 0 0 (-5)) (Hmul (zq 3 0 0 (-3)) (zq 0 0 1 0))); None].
Proof. vm_compute. reflexivity. Qed.
Example C68_concrete_dot : dotc_ctext true 11 6 8 (vZ [1;2;3;4;5;6]) 1 32 (vZ [1;0;2;0;3;0;4;0;5;0;6]) 2 = Some (Ok ([vZ [1;2;3;4;5;6]; vZ [1;0;2;0;3;0;4;0;5;0;6]], Some (VQ (zq 182 0 0 0)))).
Proof. vm_compute. reflexivity. Qed.
Example C68_concrete_gemm : show_c (gemm_ctext true 4 0 64 (fun _ => zq 9 9 9 9) (fun _ => zq 8 8 8 8) "C" "N" 1 2 3 (SC (Cplx (K:=Znum) 0 1)) 8 (vZ [1;2;3]) 3 8 (vZ [1;0;2;0;3;0]) 3 (SR (2 : Znum)) 0 (vZ [7;1;1]) 2) 2 [0;1;2] =
  [Some (zq 14 14 0 (-14)); Some (zq 1 0 0 (-1)); Some (zq 2 12 0 (-2))].
Proof. vm_compute. reflexivity. Qed.
