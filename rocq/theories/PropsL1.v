(** C12-C22: level-1 operations, all backends. *)
From Coq Require Import ZArith Ascii List Lia.
From Verif Require Import Num Res ResFacts Spec SpecFacts VecFacts MQuat QuatFacts MSimd SimdFacts MOptL1 MGenL1 MForL1 MGenM
  L1Facts L1Facts2 L1Facts3.
Import ListNotations.
Local Open Scope Z_scope.

(** the two implementations of operator*(quaternion,quaternion) the generic templates can be compiled with *)
Definition cxx_mul {K : num} (f : quat K -> quat K -> quat K) : Prop := f = q_mul \/ f = q_mul_avx.
Lemma cxx_mul_H {K : num} (L : laws K) f : cxx_mul f -> forall p q : quat K, f p q = Hmul p q.
Proof. intros [->| ->] p q; [apply (q_mul_H L)|apply (q_mul_avx_H L)]. Qed.
Lemma side_L c s : side_char c = Some s -> sd (Ascii.eqb c "L") = s.
Proof. unfold side_char. destruct (Ascii.eqb c "L"), (Ascii.eqb c "R"); intros [=]; auto. Qed.
Lemma side_R c s : side_char c = Some s -> exists b, Ascii.eqb c "R" = negb b /\ lsame "R" c = negb b /\ sd b = s.
Proof.
  unfold side_char. destruct (Ascii.eqb_spec c "L") as [->|_]; [intros [= <-]; exists true; repeat split|].
  destruct (Ascii.eqb_spec c "R") as [->|_]; [intros [= <-]; exists false; repeat split|discriminate].
Qed.

(** ** C12 *)
Theorem C12_swapv_opt : forall (K : num) n xa (x : arr (quat K)) incx ya y incy v w,
  0 < incx -> 0 < incy -> holds_vec x n incx v -> holds_vec y n incy w ->
  returns (swapv_opt n xa x incx ya y incy) (fun '(x', y') =>
    (holds_vec x' n incx w /\ same_but_vec x x' n incx) /\ (holds_vec y' n incy v /\ same_but_vec y y' n incy)).
Proof. exact @swapv_opt_ok. Qed.
Print Assumptions C12_swapv_opt.
Theorem C12_swapv_gen : forall (K : num) n (x : arr (quat K)) incx y incy v w,
  0 < incx -> 0 < incy -> holds_vec x n incx v -> holds_vec y n incy w ->
  returns (swapv_gen n x incx y incy) (fun '(x', y') =>
    (holds_vec x' n incx w /\ same_but_vec x x' n incx) /\ (holds_vec y' n incy v /\ same_but_vec y y' n incy)).
Proof. exact @swapv_gen_ok. Qed.
Print Assumptions C12_swapv_gen.
Definition vZ (l : list Z) : arr (quat Znum) := arr_list (map (fun a => zq a 0 0 (-a)) l).
Example C12_nonvacuous :
  holds_vec (vZ [1;2;3;4;5]) 2 2 (fun i => zq (1 + 2 * i) 0 0 (-(1 + 2 * i))) /\
  holds_vec (vZ [10;20;30;40]) 2 3 (fun i => zq (10 + 30 * i) 0 0 (-(10 + 30 * i))) /\
  match swapv_opt 2 7 (vZ [1;2;3;4;5]) 2 64 (vZ [10;20;30;40]) 3 with
  | Ok (x', y') => map x' [0;1;2;3;4] = map (vZ [10;2;40;4;5]) [0;1;2;3;4] /\ map y' [0;1;2;3] = map (vZ [1;20;30;3]) [0;1;2;3]
  | _ => False end.
Proof.
  split; [|split].
  - intros i Hi. assert (i = 0 \/ i = 1) as [->| ->] by lia; reflexivity.
  - intros i Hi. assert (i = 0 \/ i = 1) as [->| ->] by lia; reflexivity.
  - vm_compute. split; reflexivity.
Qed.

(** ** C13 *)
Theorem C13_copyv_opt : forall (K : num) n xa (x : arr (quat K)) incx ya y incy v w,
  0 < incx -> 0 < incy -> holds_vec x n incx v -> holds_vec y n incy w ->
  returns (copyv_opt n xa x incx ya y incy) (fun y' => holds_vec y' n incy v /\ same_but_vec y y' n incy).
Proof. exact @copyv_opt_ok. Qed.
Print Assumptions C13_copyv_opt.
Theorem C13_copyv_gen : forall (K : num) n (x : arr (quat K)) incx y incy v w,
  0 < incx -> 0 < incy -> holds_vec x n incx v -> holds_vec y n incy w ->
  returns (copyv_gen n x incx y incy) (fun y' => holds_vec y' n incy v /\ same_but_vec y y' n incy).
Proof. exact @copyv_gen_ok. Qed.
Print Assumptions C13_copyv_gen.
Example C13_concrete :
  match copyv_gen 9 (vZ [1;2;3;4;5;6;7;8;9]) 1 (vZ [0;0;0;0;0;0;0;0;0;0]) 1 with
  | Ok y' => map y' [0;1;2;3;4;5;6;7;8;9] = map (vZ [1;2;3;4;5;6;7;8;9;0]) [0;1;2;3;4;5;6;7;8;9]
  | _ => False end.
Proof. vm_compute. reflexivity. Qed.

(** ** C14 *)
Theorem C14_scalv_opt : forall (K : num), laws K -> forall c s n alpha xa (x : arr (quat K)) inc v,
  side_char c = Some s -> 0 < inc -> holds_vec x n inc v ->
  returns (scalv_opt c n alpha xa x inc) (fun x' =>
    holds_vec x' n inc (fun i => Hside s (emb alpha) (v i)) /\ same_but_vec x x' n inc).
Proof.
  intros K L c s n alpha xa x inc v Hc Hi Hx. rewrite <- (side_L c s Hc).
  exact (scalv_opt_ok L _ c n alpha xa x inc v eq_refl Hi Hx).
Qed.
Print Assumptions C14_scalv_opt.
Theorem C14_scalv_gen : forall (K : num), laws K -> forall f, cxx_mul f -> forall c s n alpha (x : arr (quat K)) inc v,
  side_char c = Some s -> 0 < inc -> holds_vec x n inc v ->
  returns (scalv_gen f c n alpha x inc) (fun x' =>
    holds_vec x' n inc (fun i => Hside s (emb alpha) (v i)) /\ same_but_vec x x' n inc).
Proof.
  intros K L f Hf c s n alpha x inc v Hc Hi Hx. destruct (side_R c s Hc) as (b & E1 & E2 & <-).
  exact (scalv_gen_ok L f b c n alpha x inc v (cxx_mul_H L f Hf) E1 Hi Hx).
Qed.
Print Assumptions C14_scalv_gen.
(** Fortran: missing ALPHA = 0 (the routine returns without writing) *)
Theorem C14_scalv_fortran_partial : forall (K : num), laws K -> forall c s n alpha (x : arr (quat K)) inc v,
  side_char c = Some s -> inc <> 0 -> emb alpha <> H0 -> holds_vec x n inc v ->
  returns (scalv_for c n alpha x inc) (fun x' =>
    holds_vec x' n inc (fun i => Hside s (emb alpha) (v i)) /\ same_but_vec x x' n inc).
Proof.
  intros K L c s n alpha x inc v Hc Hi Hz Hx. destruct (side_R c s Hc) as (b & E1 & E2 & <-).
  exact (scalv_for_ok L b c n alpha x inc v E2 Hz Hi Hx).
Qed.
Print Assumptions C14_scalv_fortran_partial.
Theorem C14_scalv_fortran_refuted : ~ (forall c s n (alpha : scal Znum) x inc v,
  side_char c = Some s -> 0 < inc -> holds_vec x n inc v ->
  returns (scalv_for c n alpha x inc) (fun x' =>
    holds_vec x' n inc (fun i => Hside s (emb alpha) (v i)) /\ same_but_vec x x' n inc)).
Proof.
  intros F. specialize (F "L"%char Lft 1 (@SR Znum 0) (vZ [1]) 1 (fun _ => zq 1 0 0 (-1)) eq_refl eq_refl).
  destruct F as [F _]; [intros i Hi; assert (i = 0) as -> by lia; reflexivity|].
  specialize (F 0 ltac:(lia)). discriminate.
Qed.
Print Assumptions C14_scalv_fortran_refuted.
Example C14_concrete :
  match scalv_opt "R" 2 (SH (zq 0 0 1 0)) 8 (vZ [1;2;3]) 2 with
  | Ok x' => map x' [0;1;2] = [Some (zq 0 1 1 0); Some (zq 2 0 0 (-2)); Some (zq 0 3 3 0)]
  | _ => False end.
Proof. vm_compute. reflexivity. Qed.

(** ** C15 *)
Theorem C15_axpyv_opt : forall (K : num), laws K -> forall c s n alpha xa (x : arr (quat K)) incx ya y incy v w,
  side_char c = Some s -> 0 < incx -> 0 < incy -> holds_vec x n incx v -> holds_vec y n incy w ->
  returns (axpyv_opt c n alpha xa x incx ya y incy) (fun y' =>
    holds_vec y' n incy (fun i => Hadd (w i) (Hside s (emb alpha) (v i))) /\ same_but_vec y y' n incy).
Proof.
  intros K L c s n alpha xa x incx ya y incy v w Hc. rewrite <- (side_L c s Hc).
  exact (axpyv_opt_ok L _ c n alpha xa x incx ya y incy v w eq_refl).
Qed.
Print Assumptions C15_axpyv_opt.
Theorem C15_axpyv_fortran : forall (K : num), laws K -> forall c s n alpha (x : arr (quat K)) incx y incy v w,
  side_char c = Some s -> incx <> 0 -> incy <> 0 -> holds_vec x n incx v -> holds_vec y n incy w ->
  returns (axpyv_for c n alpha x incx y incy) (fun y' =>
    holds_vec y' n incy (fun i => Hadd (w i) (Hside s (emb alpha) (v i))) /\ same_but_vec y y' n incy).
Proof.
  intros K L c s n alpha x incx y incy v w Hc. destruct (side_R c s Hc) as (b & E1 & E2 & <-).
  exact (axpyv_for_ok L b c n alpha x incx y incy v w E2).
Qed.
Print Assumptions C15_axpyv_fortran.
(** generic template: missing quaternion ALPHA = d k with d <> 0, which compares equal to zero *)
Theorem C15_axpyv_gen_partial : forall (K : num), laws K -> forall f, cxx_mul f ->
  forall c s n alpha (x : arr (quat K)) incx y incy v w,
  (forall d, alpha = SH (Quat n0 n0 n0 d) -> d = n0) ->
  side_char c = Some s -> 0 < incx -> 0 < incy -> holds_vec x n incx v -> holds_vec y n incy w ->
  returns (axpyv_gen f c n alpha x incx y incy) (fun y' =>
    holds_vec y' n incy (fun i => Hadd (w i) (Hside s (emb alpha) (v i))) /\ same_but_vec y y' n incy).
Proof.
  intros K L f Hf c s n alpha x incx y incy v w Hk Hc. destruct (side_R c s Hc) as (b & E1 & E2 & <-).
  refine (axpyv_gen_ok L f b c n alpha x incx y incy v w (cxx_mul_H L f Hf) E1 _).
  exact (s_eqb_zero L alpha Hk).
Qed.
Print Assumptions C15_axpyv_gen_partial.
Theorem C15_axpyv_gen_refuted : ~ (forall c s n (alpha : scal Znum) x incx y incy v w,
  side_char c = Some s -> 0 < incx -> 0 < incy -> holds_vec x n incx v -> holds_vec y n incy w ->
  returns (axpyv_gen q_mul c n alpha x incx y incy) (fun y' =>
    holds_vec y' n incy (fun i => Hadd (w i) (Hside s (emb alpha) (v i))) /\ same_but_vec y y' n incy)).
Proof.
  intros F. specialize (F "L"%char Lft 1 (SH (zq 0 0 0 1)) (vZ [1]) 1 (vZ [0]) 1 (fun _ => zq 1 0 0 (-1)) (fun _ => zq 0 0 0 0)
    eq_refl eq_refl eq_refl).
  destruct F as [F _]; try (intros i Hi; assert (i = 0) as -> by lia; reflexivity).
  specialize (F 0 ltac:(lia)). discriminate.
Qed.
Print Assumptions C15_axpyv_gen_refuted.
Example C15_concrete :
  match axpyv_opt "R" 2 (SC (zc 0 1)) 8 (vZ [1;2;3]) 2 32 (vZ [1;1]) 1 with
  | Ok y' => map y' [0;1] = [Some (zq 1 1 (-1) (-1)); Some (zq 1 3 (-3) (-1))]
  | _ => False end.
Proof. vm_compute. reflexivity. Qed.

(** ** C16 (the result is a value; X and Y are inputs only and are not returned, i.e. not written) *)
Theorem C16_dotuv_opt : forall (K : num), laws K -> forall n xa (x : arr (quat K)) incx ya y incy v w,
  0 < incx -> 0 < incy -> holds_vec x n incx v -> holds_vec y n incy w ->
  dotuv_opt n xa x incx ya y incy = Ok (Hsum n (fun i => Hmul (v i) (w i))).
Proof. exact (fun K L n xa x incx ya y incy v w => dot_opt_ok L false n xa x incx ya y incy v w). Qed.
Print Assumptions C16_dotuv_opt.
Theorem C16_dotuv_gen : forall (K : num), laws K -> forall f, cxx_mul f -> forall n (x : arr (quat K)) incx y incy v w,
  0 < incx -> 0 < incy -> holds_vec x n incx v -> holds_vec y n incy w ->
  dot_gen f false n x incx y incy = Ok (Hsum n (fun i => Hmul (v i) (w i))).
Proof. exact (fun K L f Hf n x incx y incy v w => dot_gen_ok f false n x incx y incy v w (cxx_mul_H L f Hf)). Qed.
Print Assumptions C16_dotuv_gen.
Theorem C16_dotuv_fortran : forall (K : num), laws K -> forall n (x : arr (quat K)) incx y incy v w,
  incx <> 0 -> incy <> 0 -> holds_vec x n incx v -> holds_vec y n incy w ->
  dot_for false n x incx y incy = Ok (Hsum n (fun i => Hmul (v i) (w i))).
Proof. exact (fun K L n x incx y incy v w => dot_for_ok L false n x incx y incy v w). Qed.
Print Assumptions C16_dotuv_fortran.
Example C16_concrete : dotuv_opt 6 8 (vZ [1;2;3;4;5;6]) 1 32 (vZ [1;0;2;0;3;0;4;0;5;0;6]) 2 = Ok (zq 0 0 0 (-182)).
Proof. vm_compute. reflexivity. Qed.

(** ** C17 *)
Theorem C17_dotcv_opt : forall (K : num), laws K -> forall n xa (x : arr (quat K)) incx ya y incy v w,
  0 < incx -> 0 < incy -> holds_vec x n incx v -> holds_vec y n incy w ->
  dotcv_opt n xa x incx ya y incy = Ok (Hsum n (fun i => Hmul (Hconj (v i)) (w i))).
Proof. exact (fun K L n xa x incx ya y incy v w => dot_opt_ok L true n xa x incx ya y incy v w). Qed.
Print Assumptions C17_dotcv_opt.
Theorem C17_dotcv_gen : forall (K : num), laws K -> forall f, cxx_mul f -> forall n (x : arr (quat K)) incx y incy v w,
  0 < incx -> 0 < incy -> holds_vec x n incx v -> holds_vec y n incy w ->
  dot_gen f true n x incx y incy = Ok (Hsum n (fun i => Hmul (Hconj (v i)) (w i))).
Proof. exact (fun K L f Hf n x incx y incy v w => dot_gen_ok f true n x incx y incy v w (cxx_mul_H L f Hf)). Qed.
Print Assumptions C17_dotcv_gen.
Theorem C17_dotcv_fortran : forall (K : num), laws K -> forall n (x : arr (quat K)) incx y incy v w,
  incx <> 0 -> incy <> 0 -> holds_vec x n incx v -> holds_vec y n incy w ->
  dot_for true n x incx y incy = Ok (Hsum n (fun i => Hmul (Hconj (v i)) (w i))).
Proof. exact (fun K L n x incx y incy v w => dot_for_ok L true n x incx y incy v w). Qed.
Print Assumptions C17_dotcv_fortran.
Theorem C17_hermitian : forall (K : num), laws K -> forall n xa (x : arr (quat K)) incx ya y incy v w,
  0 < incx -> 0 < incy -> holds_vec x n incx v -> holds_vec y n incy w ->
  exists p q, dotcv_opt n xa x incx ya y incy = Ok p /\ dotcv_opt n ya y incy xa x incx = Ok q /\ p = Hconj q.
Proof. exact @dotc_hermitian. Qed.
Print Assumptions C17_hermitian.
Theorem C17_self_dot_real : forall (K : num), laws K -> forall n xa (x : arr (quat K)) incx v,
  0 < incx -> holds_vec x n incx v ->
  dotcv_opt n xa x incx xa x incx = Ok (Hsum n (fun i => Hre (Hnsq (v i)))).
Proof. exact @dotc_self. Qed.
Print Assumptions C17_self_dot_real.
Example C17_concrete : dotcv_opt 6 8 (vZ [1;2;3;4;5;6]) 1 32 (vZ [1;0;2;0;3;0;4;0;5;0;6]) 2 = Ok (zq 182 0 0 0).
Proof. vm_compute. reflexivity. Qed.

(** ** C18: every outcome (including errors and, with no laws assumed, the exact floating point result)
    is independent of the addresses; address 0 takes the aligned path and address 8 the unaligned one.
    Together with C12-C17, which return for every address, no aligned access is misaligned. *)
Theorem C18_alignment_invisible : forall (K : num) (c : ascii) (n : Z) (alpha : scal K) (x y : arr (quat K)) incx incy xa xa' ya ya',
  swapv_opt n xa x incx ya y incy = swapv_opt n xa' x incx ya' y incy /\
  copyv_opt n xa x incx ya y incy = copyv_opt n xa' x incx ya' y incy /\
  scalv_opt c n alpha xa x incx = scalv_opt c n alpha xa' x incx /\
  axpyv_opt c n alpha xa x incx ya y incy = axpyv_opt c n alpha xa' x incx ya' y incy /\
  dotuv_opt n xa x incx ya y incy = dotuv_opt n xa' x incx ya' y incy /\
  dotcv_opt n xa x incx ya y incy = dotcv_opt n xa' x incx ya' y incy.
Proof.
  exact (fun K c n alpha x y incx incy xa xa' ya ya' =>
    conj (swapv_opt_addr n xa xa' x incx ya ya' y incy) (conj (copyv_opt_addr n xa xa' x incx ya ya' y incy)
    (conj (scalv_opt_addr c n alpha xa xa' x incx) (conj (axpyv_opt_addr c n alpha xa xa' x incx ya ya' y incy)
    (conj (dot_opt_addr false n xa xa' x incx ya ya' y incy) (dot_opt_addr true n xa xa' x incx ya ya' y incy)))))).
Qed.
Print Assumptions C18_alignment_invisible.
(** the model does distinguish the two kinds of access *)
Example C18_model_faults : vld true 8 (vZ [1]) 0 = UB /\ IS_ALIGNED 8 = false /\ IS_ALIGNED 96 = true.
Proof. repeat split. Qed.

(** ** C19 *)
Theorem C19_swapv_agree : forall (K : num) n xa (x : arr (quat K)) incx ya y incy v w,
  0 < incx -> 0 < incy -> holds_vec x n incx v -> holds_vec y n incy w ->
  exists x1 y1 x2 y2, swapv_opt n xa x incx ya y incy = Ok (x1, y1) /\ swapv_gen n x incx y incy = Ok (x2, y2) /\
    same x1 x2 /\ same y1 y2.
Proof. exact @swapv_agree. Qed.
Print Assumptions C19_swapv_agree.
Theorem C19_copyv_agree : forall (K : num) n xa (x : arr (quat K)) incx ya y incy v w,
  0 < incx -> 0 < incy -> holds_vec x n incx v -> holds_vec y n incy w ->
  exists y1 y2, copyv_opt n xa x incx ya y incy = Ok y1 /\ copyv_gen n x incx y incy = Ok y2 /\ same y1 y2.
Proof. exact @copyv_agree. Qed.
Print Assumptions C19_copyv_agree.
(** missing for SCALV: ALPHA = 0 with the Fortran kernel (see C14_scalv_fortran_refuted) *)
Theorem C19_scalv_agree_partial : forall (K : num), laws K -> forall f, cxx_mul f -> forall c s n alpha xa (x : arr (quat K)) inc v,
  side_char c = Some s -> 0 < inc -> emb alpha <> H0 -> holds_vec x n inc v ->
  exists x1 x2 x3, scalv_opt c n alpha xa x inc = Ok x1 /\ scalv_gen f c n alpha x inc = Ok x2 /\
    scalv_for c n alpha x inc = Ok x3 /\ same x1 x2 /\ same x1 x3.
Proof.
  intros K L f Hf c s n alpha xa x inc v Hc Hi Hz Hx.
  exact (agree3 _ _ _ _ _ _ _ (Zpos_neq inc Hi) (C14_scalv_opt K L c s n alpha xa x inc v Hc Hi Hx)
    (C14_scalv_gen K L f Hf c s n alpha x inc v Hc Hi Hx)
    (C14_scalv_fortran_partial K L c s n alpha x inc v Hc (Zpos_neq inc Hi) Hz Hx)).
Qed.
Print Assumptions C19_scalv_agree_partial.
(** missing for AXPYV: quaternion ALPHA = d k with the generic template (see C15_axpyv_gen_refuted) *)
Theorem C19_axpyv_agree_partial : forall (K : num), laws K -> forall f, cxx_mul f -> forall c s n alpha xa (x : arr (quat K)) incx ya y incy v w,
  side_char c = Some s -> 0 < incx -> 0 < incy -> (forall d, alpha = SH (Quat n0 n0 n0 d) -> d = n0) ->
  holds_vec x n incx v -> holds_vec y n incy w ->
  exists y1 y2 y3, axpyv_opt c n alpha xa x incx ya y incy = Ok y1 /\ axpyv_gen f c n alpha x incx y incy = Ok y2 /\
    axpyv_for c n alpha x incx y incy = Ok y3 /\ same y1 y2 /\ same y1 y3.
Proof.
  intros K L f Hf c s n alpha xa x incx ya y incy v w Hc Hix Hiy Hz Hx Hy.
  exact (agree3 _ _ _ _ _ _ _ (Zpos_neq incy Hiy) (C15_axpyv_opt K L c s n alpha xa x incx ya y incy v w Hc Hix Hiy Hx Hy)
    (C15_axpyv_gen_partial K L f Hf c s n alpha x incx y incy v w Hz Hc Hix Hiy Hx Hy)
    (C15_axpyv_fortran K L c s n alpha x incx y incy v w Hc (Zpos_neq incx Hix) (Zpos_neq incy Hiy) Hx Hy)).
Qed.
Print Assumptions C19_axpyv_agree_partial.
(** the two builds that link (optimised and Fortran) agree on AXPYV for every ALPHA *)
Theorem C19_axpyv_linked_agree : forall (K : num), laws K -> forall c s n alpha xa (x : arr (quat K)) incx ya y incy v w,
  side_char c = Some s -> 0 < incx -> 0 < incy -> holds_vec x n incx v -> holds_vec y n incy w ->
  exists y1 y3, axpyv_opt c n alpha xa x incx ya y incy = Ok y1 /\ axpyv_for c n alpha x incx y incy = Ok y3 /\ same y1 y3.
Proof.
  intros K L c s n alpha xa x incx ya y incy v w Hc Hix Hiy Hx Hy.
  exact (agree2 _ _ _ _ _ _ (Zpos_neq incy Hiy) (C15_axpyv_opt K L c s n alpha xa x incx ya y incy v w Hc Hix Hiy Hx Hy)
    (C15_axpyv_fortran K L c s n alpha x incx y incy v w Hc (Zpos_neq incx Hix) (Zpos_neq incy Hiy) Hx Hy)).
Qed.
Print Assumptions C19_axpyv_linked_agree.
Theorem C19_dot_agree : forall (K : num), laws K -> forall f, cxx_mul f -> forall n xa (x : arr (quat K)) incx ya y incy v w,
  0 < incx -> 0 < incy -> holds_vec x n incx v -> holds_vec y n incy w ->
  (dotuv_opt n xa x incx ya y incy = dot_gen f false n x incx y incy /\
   dotuv_opt n xa x incx ya y incy = dot_for false n x incx y incy /\ exists r, dotuv_opt n xa x incx ya y incy = Ok r) /\
  (dotcv_opt n xa x incx ya y incy = dot_gen f true n x incx y incy /\
   dotcv_opt n xa x incx ya y incy = dot_for true n x incx y incy /\ exists r, dotcv_opt n xa x incx ya y incy = Ok r).
Proof.
  intros K L f Hf n xa x incx ya y incy v w Hix Hiy Hx Hy.
  rewrite (C16_dotuv_opt K L n xa x incx ya y incy v w Hix Hiy Hx Hy), (C17_dotcv_opt K L n xa x incx ya y incy v w Hix Hiy Hx Hy),
    (C16_dotuv_gen K L f Hf n x incx y incy v w Hix Hiy Hx Hy), (C17_dotcv_gen K L f Hf n x incx y incy v w Hix Hiy Hx Hy),
    (C16_dotuv_fortran K L n x incx y incy v w (Zpos_neq _ Hix) (Zpos_neq _ Hiy) Hx Hy),
    (C17_dotcv_fortran K L n x incx y incy v w (Zpos_neq _ Hix) (Zpos_neq _ Hiy) Hx Hy).
  repeat split; eexists; reflexivity.
Qed.
Print Assumptions C19_dot_agree.

(** ** C20: Fortran kernels with strides of either sign (vpos is the BLAS position) *)
Theorem C20_fortran_partial : forall (K : num), laws K -> forall c s n alpha (x : arr (quat K)) incx y incy v w,
  side_char c = Some s -> incx <> 0 -> incy <> 0 -> holds_vec x n incx v -> holds_vec y n incy w ->
  returns (axpyv_for c n alpha x incx y incy) (fun y' =>
    holds_vec y' n incy (fun i => Hadd (w i) (Hside s (emb alpha) (v i))) /\ same_but_vec y y' n incy) /\
  (emb alpha <> H0 -> returns (scalv_for c n alpha x incx) (fun x' =>
    holds_vec x' n incx (fun i => Hside s (emb alpha) (v i)) /\ same_but_vec x x' n incx)) /\
  dot_for false n x incx y incy = Ok (Hsum n (fun i => Hmul (v i) (w i))) /\
  dot_for true n x incx y incy = Ok (Hsum n (fun i => Hmul (Hconj (v i)) (w i))).
Proof.
  intros K L c s n alpha x incx y incy v w Hc Hix Hiy Hx Hy.
  exact (conj (C15_axpyv_fortran K L c s n alpha x incx y incy v w Hc Hix Hiy Hx Hy)
    (conj (fun Hz => C14_scalv_fortran_partial K L c s n alpha x incx v Hc Hix Hz Hx)
    (conj (C16_dotuv_fortran K L n x incx y incy v w Hix Hiy Hx Hy) (C17_dotcv_fortran K L n x incx y incy v w Hix Hiy Hx Hy)))).
Qed.
Print Assumptions C20_fortran_partial.
(** the optimised kernels do not follow the convention *)
Theorem C20_optimised_refuted : ~ (forall (K : num), laws K -> forall n xa (x : arr (quat K)) incx ya y incy v w,
  incx <> 0 -> incy <> 0 -> holds_vec x n incx v -> holds_vec y n incy w ->
  exists y', copyv_opt n xa x incx ya y incy = Ok y' /\ holds_vec y' n incy v).
Proof.
  intros F. destruct (F Znum Zlaws 2 0 (vZ [1;2]) (-1) 0 (vZ [5;6]) 1 (fun i => zq (2 - i) 0 0 (-(2-i))) (fun i => zq (5 + i) 0 0 (-(5+i))))
    as (y' & E & _); try lia; try discriminate.
  - intros i Hi. assert (i = 0 \/ i = 1) as [->| ->] by lia; reflexivity.
  - intros i Hi. assert (i = 0 \/ i = 1) as [->| ->] by lia; reflexivity.
Qed.
Print Assumptions C20_optimised_refuted.
(** even when the memory below the pointer exists, the optimised dot product with one negative stride pairs
    other elements than the Fortran one *)
Theorem C20_backends_differ_refuted : exists (x y : arr (quat Znum)) (v w : Z -> quat Znum) r1 r2,
  holds_vec x 2 (-1) v /\ holds_vec y 2 1 w /\
  dotuv_opt 2 0 x (-1) 0 y 1 = Ok r1 /\ dot_for false 2 x (-1) y 1 = Ok r2 /\ r1 <> r2.
Proof.
  exists (fun p => Some (zq p 0 0 0)), (fun p => Some (zq (1 + p) 0 0 0)), (fun i => zq (1 - i) 0 0 0), (fun i => zq (1 + i) 0 0 0),
    (zq (-2) 0 0 0), (zq 1 0 0 0).
  split; [intros i Hi; assert (i = 0 \/ i = 1) as [->| ->] by lia; reflexivity|].
  split; [intros i Hi; assert (i = 0 \/ i = 1) as [->| ->] by lia; reflexivity|].
  repeat split. discriminate.
Qed.
Print Assumptions C20_backends_differ_refuted.
Example C20_concrete : (* y = (10,20) += x traversed backwards *)
  match axpyv_for "L" 2 (@SR Znum 1) (vZ [1;2]) (-1) (vZ [10;20]) 1 with
  | Ok y' => map y' [0;1] = map (vZ [12;21]) [0;1] | _ => False end.
Proof. vm_compute. reflexivity. Qed.

(** ** C21 *)
Theorem C21_scalm_avx : forall (K : num), laws K -> forall c s m n alpha aa (a : arr (quat K)) lda inca f,
  side_char c = Some s -> 0 < inca -> disjoint_mat lda inca m n -> holds_matinc a lda inca m n f ->
  returns (scalm_avx c "N" m n alpha aa a lda inca) (fun a' =>
    holds_matinc a' lda inca m n (fun i j => Hside s (emb alpha) (f i j)) /\ same_but_matinc a a' lda inca m n).
Proof.
  intros K L c s m n alpha aa a lda inca f Hc Hi.
  exact (scalm_ok scalv_opt s c m n alpha aa a lda inca f (fun xa x v => C14_scalv_opt K L c s m alpha xa x inca v Hc Hi) Hi).
Qed.
Print Assumptions C21_scalm_avx.
Theorem C21_scalm_fortran_partial : forall (K : num), laws K -> forall c s m n alpha aa (a : arr (quat K)) lda inca f,
  side_char c = Some s -> 0 < inca -> emb alpha <> H0 -> disjoint_mat lda inca m n -> holds_matinc a lda inca m n f ->
  returns (scalm_fortran c "N" m n alpha aa a lda inca) (fun a' =>
    holds_matinc a' lda inca m n (fun i j => Hside s (emb alpha) (f i j)) /\ same_but_matinc a a' lda inca m n).
Proof.
  intros K L c s m n alpha aa a lda inca f Hc Hi Hz.
  exact (scalm_ok scalv_fortran s c m n alpha aa a lda inca f
    (fun _ x v => C14_scalv_fortran_partial K L c s m alpha x inca v Hc (Zpos_neq _ Hi) Hz) Hi).
Qed.
Print Assumptions C21_scalm_fortran_partial.
(** with the Fortran kernels SCALM by zero leaves the matrix unchanged *)
Theorem C21_scalm_fortran_refuted : ~ (forall c s m n (alpha : scal Znum) aa a lda inca f,
  side_char c = Some s -> 0 < inca -> disjoint_mat lda inca m n -> holds_matinc a lda inca m n f ->
  returns (scalm_fortran c "N" m n alpha aa a lda inca) (fun a' =>
    holds_matinc a' lda inca m n (fun i j => Hside s (emb alpha) (f i j)) /\ same_but_matinc a a' lda inca m n)).
Proof.
  intros F. specialize (F "L"%char Lft 1 1 (@SR Znum 0) 0 (vZ [1]) 1 1 (fun _ _ => zq 1 0 0 (-1)) eq_refl eq_refl).
  destruct F as [F _].
  - intros i j i' j' Hi Hj Hi' Hj' _. lia.
  - intros i j Hi Hj. assert (i = 0) as -> by lia. assert (j = 0) as -> by lia. reflexivity.
  - specialize (F 0 0 ltac:(lia) ltac:(lia)). discriminate.
Qed.
Print Assumptions C21_scalm_fortran_refuted.
(** the usual layouts satisfy [disjoint_mat] *)
Theorem C21_disjoint_colmajor : forall ldim inc m n, 0 < inc -> (m - 1) * inc < ldim -> disjoint_mat ldim inc m n.
Proof. exact disjoint_colmajor. Qed.
Print Assumptions C21_disjoint_colmajor.
Example C21_concrete :
  match scalm_avx "L" "N" 2 2 (@SR Znum 3) 8 (vZ [1;2;3;4;5;6]) 3 1 with
  | Ok a' => map a' [0;1;2;3;4;5] = map (vZ [3;6;3;12;15;6]) [0;1;2;3;4;5] | _ => False end.
Proof. vm_compute. reflexivity. Qed.

(** ** C22 *)
Theorem C22_axpym_avx_partial : forall (K : num), laws K -> forall c s m n alpha aa (a : arr (quat K)) lda inca ba b ldb incb f g,
  (forall d, alpha = SH (Quat n0 n0 n0 d) -> d = n0) -> side_char c = Some s ->
  0 < inca -> 0 < incb -> disjoint_mat ldb incb m n -> holds_matinc a lda inca m n f -> holds_matinc b ldb incb m n g ->
  returns (axpym_avx c "N" m n alpha aa a lda inca ba b ldb incb) (fun b' =>
    holds_matinc b' ldb incb m n (fun i j => Hadd (g i j) (Hside s (emb alpha) (f i j))) /\ same_but_matinc b b' ldb incb m n).
Proof.
  intros K L c s m n alpha aa a lda inca ba b ldb incb f g Hz Hc Ha Hb.
  exact (axpym_ok L axpyv_opt s c m n alpha aa a lda inca ba b ldb incb f g (s_eqb_zero L alpha Hz)
    (fun xa x ya y v w => C15_axpyv_opt K L c s m alpha xa x inca ya y incb v w Hc Ha Hb) Ha Hb).
Qed.
Print Assumptions C22_axpym_avx_partial.
Theorem C22_axpym_fortran_partial : forall (K : num), laws K -> forall c s m n alpha aa (a : arr (quat K)) lda inca ba b ldb incb f g,
  (forall d, alpha = SH (Quat n0 n0 n0 d) -> d = n0) -> side_char c = Some s ->
  0 < inca -> 0 < incb -> disjoint_mat ldb incb m n -> holds_matinc a lda inca m n f -> holds_matinc b ldb incb m n g ->
  returns (axpym_fortran c "N" m n alpha aa a lda inca ba b ldb incb) (fun b' =>
    holds_matinc b' ldb incb m n (fun i j => Hadd (g i j) (Hside s (emb alpha) (f i j))) /\ same_but_matinc b b' ldb incb m n).
Proof.
  intros K L c s m n alpha aa a lda inca ba b ldb incb f g Hz Hc Ha Hb.
  exact (axpym_ok L axpyv_fortran s c m n alpha aa a lda inca ba b ldb incb f g (s_eqb_zero L alpha Hz)
    (fun xa x ya y v w => C15_axpyv_fortran K L c s m alpha x inca y incb v w Hc (Zpos_neq _ Ha) (Zpos_neq _ Hb)) Ha Hb).
Qed.
Print Assumptions C22_axpym_fortran_partial.
(** false in general: ALPHA = k compares equal to 0 and the call returns without adding *)
Theorem C22_axpym_refuted : ~ (forall c s m n (alpha : scal Znum) aa a lda inca ba b ldb incb f g,
  side_char c = Some s ->
  0 < inca -> 0 < incb -> disjoint_mat ldb incb m n -> holds_matinc a lda inca m n f -> holds_matinc b ldb incb m n g ->
  returns (axpym_avx c "N" m n alpha aa a lda inca ba b ldb incb) (fun b' =>
    holds_matinc b' ldb incb m n (fun i j => Hadd (g i j) (Hside s (emb alpha) (f i j))) /\ same_but_matinc b b' ldb incb m n)).
Proof.
  intros F. specialize (F "L"%char Lft 1 1 (SH (zq 0 0 0 1)) 0 (vZ [1]) 1 1 0 (vZ [0]) 1 1
    (fun _ _ => zq 1 0 0 (-1)) (fun _ _ => zq 0 0 0 0) eq_refl eq_refl eq_refl).
  destruct F as [F _]; try (intros i j Hi Hj; assert (i = 0) as -> by lia; assert (j = 0) as -> by lia; reflexivity).
  - intros i j i' j' Hi Hj Hi' Hj' _. lia.
  - specialize (F 0 0 ltac:(lia) ltac:(lia)). discriminate.
Qed.
Print Assumptions C22_axpym_refuted.
Example C22_concrete :
  match axpym_avx "L" "N" 2 2 (SC (zc 0 1)) 8 (vZ [1;2;3;4]) 2 1 32 (vZ [0;0;9;0;0;9]) 3 1 with
  | Ok b' => map b' [0;1;2;3;4;5] = map Some [zq 0 1 1 0; zq 0 2 2 0; zq 9 0 0 (-9); zq 0 3 3 0; zq 0 4 4 0; zq 9 0 0 (-9)] | _ => False end.
Proof. vm_compute. reflexivity. Qed.
