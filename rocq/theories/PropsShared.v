(** C50, C51: operands inside one allocation (views, in-place calls, overlap).  Vocabulary: SpecShared.v; model: MShared.v. *)
From Coq Require Import ZArith Ascii List Lia.
From Verif Require Import Num Res ResFacts Spec SpecFacts VecFacts MQuat QuatFacts MSimd SimdFacts MOptL1 MGenL1 MGenM L1Facts L1Facts2 L1Facts3
  MPack MOptGemm OptGemmFacts OptGemmTop MShared SpecShared SharedFacts SharedFacts2 PropsL1.
Import ListNotations.
Local Open Scope Z_scope.

(** ** C50 *)
Theorem C50_copyv : forall (K : num) n ba (m : arr (quat K)) px incx py incy v w,
  incy <> 0 -> not_behind n px incx py incy -> vec_at m px n incx v -> vec_at m py n incy w ->
  returns (copyv_sh n ba m px incx py incy) (fun m' => vec_at m' py n incy v /\ changes_vec m m' py n incy).
Proof. exact @copyv_sh_ok. Qed.
Print Assumptions C50_copyv.
Theorem C50_axpyv : forall (K : num), laws K -> forall c s n alpha ba (m : arr (quat K)) px incx py incy v w,
  side_char c = Some s -> incy <> 0 -> not_behind n px incx py incy -> vec_at m px n incx v -> vec_at m py n incy w ->
  returns (axpyv_sh c n alpha ba m px incx py incy) (fun m' =>
    vec_at m' py n incy (fun i => Hadd (w i) (Hside s (emb alpha) (v i))) /\ changes_vec m m' py n incy).
Proof.
  intros K L c s n alpha ba m px incx py incy v w Hc Hy NB Hx Hw. rewrite <- (side_L c s Hc).
  eapply returns_mono; [exact (axpyv_sh_raw _ c n alpha ba m px incx py incy v w eq_refl Hy NB Hx Hw)|].
  intros m' [V C]. split; [|exact C]. intros i Hi. rewrite <- (axpy_step_H L). exact (V i Hi).
Qed.
Print Assumptions C50_axpyv.
Theorem C50_swapv : forall (K : num) n ba (m : arr (quat K)) px incx py incy v w,
  incx <> 0 -> incy <> 0 -> vec_apart n px incx py incy -> vec_at m px n incx v -> vec_at m py n incy w ->
  returns (swapv_sh n ba m px incx py incy) (fun m' => vec_at m' px n incx w /\ vec_at m' py n incy v /\
    forall q, (forall i, 0 <= i < n -> q <> px + i * incx /\ q <> py + i * incy) -> m' q = m q).
Proof. exact @swapv_sh_ok. Qed.
Print Assumptions C50_swapv.
(** swapping a vector with itself changes nothing *)
Theorem C50_swapv_self : forall (K : num) n ba (m : arr (quat K)) p inc v, vec_at m p n inc v ->
  returns (swapv_sh n ba m p inc p inc) (fun m' => forall q, m' q = m q).
Proof. exact @swapv_sh_same. Qed.
Print Assumptions C50_swapv_self.
(** missing: quaternion ALPHA = d k (C22_axpym_refuted) *)
Theorem C50_axpym_partial : forall (K : num), laws K -> forall (s : side) c m n alpha ba (mem : arr (quat K)) pa lda inca pb ldb incb f g,
  (forall d, alpha = SH (Quat n0 n0 n0 d) -> d = n0) -> side_char c = Some s -> incb <> 0 -> disjoint_mat ldb incb m n ->
  mat_at mem pa lda inca m n f -> mat_at mem pb ldb incb m n g -> mat_aligned m n pa lda inca pb ldb incb ->
  returns (axpym_sh c "N" m n alpha ba mem pa lda inca pb ldb incb) (fun mem' =>
    mat_at mem' pb ldb incb m n (fun i j => Hadd (g i j) (Hside s (emb alpha) (f i j))) /\ changes_mat mem mem' pb ldb incb m n).
Proof. exact axpym_sh_ok. Qed.
Print Assumptions C50_axpym_partial.
(** layouts that satisfy [not_behind]: disjoint operands, identical operands, and a shift towards the start *)
Theorem C50_layouts : forall n p q inc incx incy, 
  (vec_apart n p incx q incy -> not_behind n p incx q incy) /\ (inc <> 0 -> not_behind n p inc p inc) /\
  (0 < inc -> q <= p -> not_behind n p inc q inc).
Proof.
  intros n p q inc incx incy. refine (conj _ (conj _ _)).
  - intros A i j Hj Hi. apply A; lia.
  - intros Hi i j Hj Hn E. apply pos_inj in E; lia.
  - intros Hi Hq i j Hj Hn E. assert (j * inc < i * inc) by (apply Z.mul_lt_mono_pos_r; lia). lia.
Qed.
Print Assumptions C50_layouts.
(** on disjoint operands the shared-memory run leaves, bit for bit (no laws), what the separate-array kernels of C13 and C15 leave *)
Theorem C50_separate_agree : forall (K : num) c n alpha ba xa ya (m : arr (quat K)) px incx py incy v w,
  0 < incx -> 0 < incy -> not_behind n px incx py incy -> vec_at m px n incx v -> vec_at m py n incy w ->
  returns (copyv_sh n ba m px incx py incy) (fun m' =>
    returns (copyv_opt n xa (shiftp m px) incx ya (shiftp m py) incy) (fun y' => forall q, m' (py + q) = y' q)) /\
  returns (axpyv_sh c n alpha ba m px incx py incy) (fun m' =>
    returns (axpyv_opt c n alpha xa (shiftp m px) incx ya (shiftp m py) incy) (fun y' => forall q, m' (py + q) = y' q)).
Proof.
  intros K c n alpha ba xa ya m px incx py incy v w Hx Hy NB Vx Vy.
  assert (HX : holds_vec (shiftp m px) n incx v) by (intros i Hi; unfold shiftp; rewrite vpos_pos by auto; apply Vx; auto).
  assert (HY : holds_vec (shiftp m py) n incy w) by (intros i Hi; unfold shiftp; rewrite vpos_pos by auto; apply Vy; auto).
  assert (G : forall (m' y' : arr (quat K)) u, vec_at m' py n incy u /\ changes_vec m m' py n incy -> holds_vec y' n incy u /\ same_but_vec (shiftp m py) y' n incy ->
    forall q, m' (py + q) = y' q).
  { intros m' y' u [V C] [V' S] q.
    destruct (range_dec (fun i => q = i * incy) (fun i => match Z.eq_dec q (i * incy) with left e => or_introl e | right e => or_intror e end) n) as [(i & Hi & ->)|N].
    - rewrite V by auto. specialize (V' i Hi). rewrite vpos_pos in V' by auto. auto.
    - rewrite C by (intros i Hi E; apply (N i Hi); lia). symmetry. apply S. intros i Hi E. rewrite vpos_pos in E by auto. apply (N i Hi E). }
  split.
  - eapply returns_mono; [apply (copyv_sh_ok n ba m px incx py incy v w); auto; lia|]. intros m' R.
    eapply returns_mono; [apply (copyv_opt_ok n xa _ incx ya _ incy v w); auto|]. intros y' R'. exact (G m' y' v R R').
  - eapply returns_mono; [apply (axpyv_sh_raw (Ascii.eqb c "L") c n alpha ba m px incx py incy v w); auto; lia|]. intros m' R.
    eapply returns_mono; [apply (axpyv_sep_raw (Ascii.eqb c "L") c n alpha xa _ incx ya _ incy v w); auto|]. intros y' R'. exact (G m' y' _ R R').
Qed.
Print Assumptions C50_separate_agree.
(** the condition matters: COPYV of 2 elements one place up copies X(0) twice *)
Theorem C50_copyv_overlap_refuted : ~ (forall n ba (m : arr (quat Znum)) px incx py incy v w,
  0 < incx -> 0 < incy -> vec_at m px n incx v -> vec_at m py n incy w ->
  returns (copyv_sh n ba m px incx py incy) (fun m' => vec_at m' py n incy v)).
Proof.
  intros F. specialize (F 2 0 (vZ [1;2;3]) 0 1 1 1 (fun i => zq (1 + i) 0 0 (-(1 + i))) (fun i => zq (2 + i) 0 0 (-(2 + i))) eq_refl eq_refl).
  assert (V : vec_at (vZ [1;2;3]) 0 2 1 (fun i => zq (1 + i) 0 0 (-(1 + i)))) by (intros i Hi; assert (i = 0 \/ i = 1) as [->| ->] by lia; reflexivity).
  assert (W : vec_at (vZ [1;2;3]) 1 2 1 (fun i => zq (2 + i) 0 0 (-(2 + i)))) by (intros i Hi; assert (i = 0 \/ i = 1) as [->| ->] by lia; reflexivity).
  specialize (F V W 1 ltac:(lia)). discriminate F.
Qed.
Print Assumptions C50_copyv_overlap_refuted.
(** shift [2;3;4] one place down; add a vector to itself *)
Example C50_concrete :
  not_behind 3 1 1 0 1 /\
  match copyv_sh 3 8 (vZ [1;2;3;4]) 1 1 0 1 with Ok m' => map m' [0;1;2;3] = map (vZ [2;3;4;4]) [0;1;2;3] | _ => False end /\
  match axpyv_sh "L" 2 (SR (2 : Znum)) 0 (vZ [1;2;3]) 0 2 0 2 with Ok m' => map m' [0;1;2] = map (vZ [3;2;9]) [0;1;2] | _ => False end.
Proof. split; [apply (proj2 (proj2 (C50_layouts 3 1 0 1 1 1))); lia|]. split; vm_compute; reflexivity. Qed.

(** ** C51: GEMM on views of one allocation.  Indices count from the first element of C; A and B may overlap each other. *)
Theorem C51_gemm_views : forall (K : num), laws K ->
  forall mc nc kc aa bb ga gb ca cb oa ob m n k alpha pa lda pb ldb beta ba (mem : arr (quat K)) ldc A B w,
  0 < mc -> Z.even mc = true -> 0 < nc -> Z.even nc = true -> 0 < kc -> aa mod 32 = 0 -> bb mod 32 = 0 ->
  trans_char_r ca = Some oa -> trans_char_r cb = Some ob -> 0 <= m -> 0 <= n -> 0 <= k -> m <= ldc ->
  mat_at mem pa lda 1 (op_rows oa m k) (op_cols oa m k) A -> mat_at mem pb ldb 1 (op_rows ob k n) (op_cols ob k n) B -> mat_at mem 0 ldc 1 m n w ->
  win_apart pa lda (op_rows oa m k) (op_cols oa m k) 0 ldc m n -> win_apart pb ldb (op_rows ob k n) (op_cols ob k n) 0 ldc m n ->
  returns (gemm_sh mc nc kc aa bb ga gb ca cb m n k alpha pa lda pb ldb beta ba mem ldc) (fun mem' =>
    mat_at mem' 0 ldc 1 m n (gemm_elt oa ob k (emb alpha) A B (emb beta) w) /\ changes_mat mem mem' 0 ldc 1 m n).
Proof. exact gemm_sh_ok. Qed.
Print Assumptions C51_gemm_views.
(** and, with no laws, exactly the memory a call on separate copies of A and B leaves *)
Theorem C51_separate_agree : forall (K : num) mc nc kc aa bb ga gb ca cb oa ob m n k alpha pa lda pb ldb beta ba (mem : arr (quat K)) ldc A B w,
  0 < mc -> Z.even mc = true -> 0 < nc -> Z.even nc = true -> 0 < kc -> aa mod 32 = 0 -> bb mod 32 = 0 ->
  trans_char_r ca = Some oa -> trans_char_r cb = Some ob -> 0 <= m -> 0 <= n -> 0 <= k -> m <= ldc ->
  mat_at mem pa lda 1 (op_rows oa m k) (op_cols oa m k) A -> mat_at mem pb ldb 1 (op_rows ob k n) (op_cols ob k n) B -> mat_at mem 0 ldc 1 m n w ->
  win_apart pa lda (op_rows oa m k) (op_cols oa m k) 0 ldc m n -> win_apart pb ldb (op_rows ob k n) (op_cols ob k n) 0 ldc m n ->
  returns (gemm_sh mc nc kc aa bb ga gb ca cb m n k alpha pa lda pb ldb beta ba mem ldc) (fun mem' =>
    returns (gemm_opt mc nc kc aa bb ga gb ca cb m n k alpha (shiftp mem pa) lda (shiftp mem pb) ldb beta ba mem ldc) (fun c' =>
      forall q, mem' q = c' q)).
Proof.
  intros K mc nc kc aa bb ga gb ca cb oa ob m n k alpha pa lda pb ldb beta ba mem ldc A B w Pmc Emc Pnc Enc Pkc Haa Hbb Hca Hcb Hm Hn Hk Hl HA HB HC WA WB.
  assert (V : forall p ld r c F, mat_at mem p ld 1 r c F -> holds_mat (shiftp mem p) ld r c F).
  { intros p ld r c F HF i j Hi Hj. unfold shiftp. rewrite <- (HF i j Hi Hj). f_equal. lia. }
  assert (HC' : holds_mat mem ldc m n w) by (intros i j Hi Hj; rewrite <- (HC i j Hi Hj); f_equal; lia).
  eapply returns_mono; [apply (gemm_sh_raw mc nc kc aa bb ga gb ca cb oa ob) with (A := A) (B := B) (w := w); auto using dec_char|].
  intros c1 [X1 S1].
  eapply returns_mono; [apply (gemm_opt_raw mc nc kc aa bb ga gb ca cb oa ob) with (A := A) (B := B) (w := w); auto using buf_fits, dec_char|].
  intros c2 [X2 S2] q. destruct (window_dec ldc m n q) as [(i & j & Hi & Hj & ->)|Hq]; auto.
  - rewrite X1, X2; auto.
  - rewrite S1, S2; auto.
Qed.
Print Assumptions C51_separate_agree.
(** a call with A = C (an in-place product) does not compute it: BETA = 0 clears C before A is read *)
Theorem C51_in_place_refuted : ~ (forall m n k lda pb ldb (mem : arr (quat Znum)) ldc A B w,
  0 <= m -> 0 <= n -> 0 <= k -> m <= ldc ->
  mat_at mem 0 lda 1 m k A -> mat_at mem pb ldb 1 k n B -> mat_at mem 0 ldc 1 m n w -> win_apart pb ldb k n 0 ldc m n ->
  returns (gemm_sh_default 0 0 (fun _ => H0) (fun _ => H0) "N" "N" m n k (SR (1 : Znum)) 0 lda pb ldb (SR (0 : Znum)) 0 mem ldc) (fun mem' =>
    mat_at mem' 0 ldc 1 m n (gemm_elt OpN OpN k H1 A B H0 w))).
Proof.
  intros F. specialize (F 1 1 1 1 1 1 (vZ [3;5]) 1 (fun _ _ => zq 3 0 0 (-3)) (fun _ _ => zq 5 0 0 (-5)) (fun _ _ => zq 3 0 0 (-3))).
  assert (M : forall p a, (vZ [3;5]) p = Some a -> mat_at (vZ [3;5]) p 1 1 1 1 (fun _ _ => a)).
  { intros p a E i j Hi Hj. rewrite <- E. f_equal. lia. }
  specialize (F ltac:(lia) ltac:(lia) ltac:(lia) ltac:(lia) (M 0 _ eq_refl) (M 1 _ eq_refl) (M 0 _ eq_refl)).
  assert (W : win_apart 1 1 1 1 0 1 1 1) by (intros i j i' j' Hi Hj Hi' Hj'; lia). specialize (F W).
  apply returns_ex in F as (m' & E & P). specialize (P 0 0 ltac:(lia) ltac:(lia)).
  assert (E' : match gemm_sh_default 0 0 (fun _ => H0) (fun _ => H0) "N" "N" 1 1 1 (SR (1 : Znum)) 0 1 1 1 (SR (0 : Znum)) 0 (vZ [3;5]) 1 with Ok m' => m' 0 | _ => None end
     = Some (zq 0 0 0 0)) by (vm_compute; reflexivity).
  rewrite E in E'. change (0 + 0 * 1 + 0 * 1) with 0 in P. rewrite P in E'. discriminate E'.
Qed.
Print Assumptions C51_in_place_refuted.
(** a 3 x 3 array (leading dimension 3) holding the blocks of a blocked factorisation: C = its lower right 2 x 2 block (element 4),
    A = the column to the left of it (element 1), B = the row above it (element 3): C := C - A B *)
Example C51_concrete : win_apart (-3) 3 2 1 0 3 2 2 /\ win_apart (-1) 3 1 2 0 3 2 2 /\
  match gemm_sh_default 0 32 (fun _ => H0) (fun _ => H0) "N" "N" 2 2 1 (SR (-1 : Znum)) (-3) 3 (-1) 3 (SR (1 : Znum)) 8
    (shiftp (arr_list (map (fun a => zq a 0 0 0) [1;2;3; 4;50;60; 7;80;90])) 4) 3 with
  | Ok m' => map m' [-4;-3;-2;-1;0;1;2;3;4] = map (fun a => Some (zq a 0 0 0)) [1;2;3; 4;42;48; 7;66;69] | _ => False end.
Proof.
  split; [intros i j i' j' Hi Hj Hi' Hj'; lia|]. split; [intros i j i' j' Hi Hj Hi' Hj'; lia|]. vm_compute. reflexivity.
Qed.
