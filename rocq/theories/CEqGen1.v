(** The generic level-1 templates, run from the text, have the outcome of the models of MGenL1.v. *)
From Coq Require Import ZArith Bool Ascii String List Lia.
From Verif Require Import Num Res MQuat MSimd MOptL1 MGenL1 CSyntax CParse CSem CSimFacts CTac CStep CTacG CProgG CObjGen CLinkG.
Import ListNotations. Local Open Scope string_scope. Local Open Scope Z_scope.

Ltac rem_facts n k :=
  let Hm := fresh "Hm" in let Hr := fresh "Hr" in
  assert (Hr : 0 <= Z.rem n k <= n) by (split; [apply Z.rem_nonneg; lia | apply Z.rem_le; lia]);
  destruct (Z.eqb_spec (Z.rem n k) 0) as [Hm | Hm]; cbn [negb andb].
(** a loop whose model state is the array x1 *)
Ltac side1 F unf :=
  F; [ let i := fresh "i" in let x1 := fresh "x1" in intros i x1 ? ->; gcond
  | let i := fresh "i" in let x1 := fresh "x1" in let Hi := fresh "Hi" in intros i x1 ? Hi ->; gbody; unf; grun; gok; reflexivity
  | reflexivity
  | try lia
  | let Es := fresh "Es" in let E := fresh "E" in let s := fresh "s" in let fl := fresh "fl" in
    let x1 := fresh "x1" in intros x1 [s fl] [E Es]; cbn in E; subst fl;
    first [destruct Es as (? & ? & Es) | destruct Es as (? & Es)]; cbn in Es; subst s; gsteps ].
(** a loop with two cursors *)
Ltac side3 F unf :=
  F; [ let i := fresh "i" in let x1 := fresh "x1" in let p := fresh "p" in let q := fresh "q" in intros i [[x1 p] q] ? ->; gcond
  | let i := fresh "i" in let x1 := fresh "x1" in let p := fresh "p" in let q := fresh "q" in let Hi := fresh "Hi" in
    intros i [[x1 p] q] ? Hi ->; gbody; unf; grun; gok; reflexivity
  | reflexivity
  | try lia
  | let Es := fresh "Es" in let E := fresh "E" in let s := fresh "s" in let fl := fresh "fl" in
    let x1 := fresh "x1" in let p := fresh "p" in let q := fresh "q" in
    intros [[x1 p] q] [s fl] [E (? & ? & Es)]; cbn in E; subst fl; cbn in Es; subst s; gsteps ].

(** a loop whose model state is two arrays, with a temporary *)
Ltac side2 F unf :=
  F; [ let i := fresh "i" in let x1 := fresh "x1" in let y1 := fresh "y1" in let w := fresh "w" in intros i [x1 y1] ? (w & ->); gcond
  | let i := fresh "i" in let x1 := fresh "x1" in let y1 := fresh "y1" in let w := fresh "w" in let Hi := fresh "Hi" in
    intros i [x1 y1] ? Hi (w & ->); gbody; unf; grun; gok; eexists; reflexivity
  | eexists; reflexivity
  | try lia
  | let Es := fresh "Es" in let E := fresh "E" in let s := fresh "s" in let fl := fresh "fl" in
    let x1 := fresh "x1" in let y1 := fresh "y1" in let w := fresh "w" in intros [x1 y1] [s fl] [E Es]; cbn in E; subst fl;
    first [destruct Es as (? & ? & w & Es) | destruct Es as (? & w & Es)]; cbn in Es; subst s; gsteps ].
Ltac side4 F unf :=
  F; [ let i := fresh "i" in let x1 := fresh "x1" in let y1 := fresh "y1" in let p := fresh "p" in let q := fresh "q" in let w := fresh "w" in
    intros i [[[x1 y1] p] q] ? (w & ->); gcond
  | let i := fresh "i" in let x1 := fresh "x1" in let y1 := fresh "y1" in let p := fresh "p" in let q := fresh "q" in let w := fresh "w" in let Hi := fresh "Hi" in
    intros i [[[x1 y1] p] q] ? Hi (w & ->); gbody; unf; grun; gok; eexists; reflexivity
  | eexists; reflexivity
  | try lia
  | let Es := fresh "Es" in let E := fresh "E" in let s := fresh "s" in let fl := fresh "fl" in
    let x1 := fresh "x1" in let y1 := fresh "y1" in let p := fresh "p" in let q := fresh "q" in let w := fresh "w" in
    intros [[[x1 y1] p] q] [s fl] [E (? & ? & w & Es)]; cbn in E; subst fl; cbn in Es; subst s; gsteps ].

Section S.
Context {K : num}.
Local Notation qp b e := (Some (VP (Ptr (OnQ b) e 0 TQuat))).
Lemma gsrc_scalv side n alpha xa x incx fuel :
  (Z.to_nat n < fuel)%nat ->
  sim (fun r o => o = ([(xa, DQ r)], None))
    (scalv_gen q_mul side n alpha x incx)
    (ccall (K:=K) (unit_scalv_g (ty alpha)) no_ext fuel "HBLAS_SCALV" [VChr side; VZ n; val_of alpha; ptr 0; VZ incx] [(xa, DQ x)]).
Proof.
  intros Hf. gstart (unit_scalv_g (ty alpha)) (g_scalv (ty alpha)) (unit_scalv_g_eq (ty alpha)).
  cbv delta [g_scalv]. gopen. gsteps. unfold scalv_gen.
  destruct ((n <=? 0) || (incx <=? 0)) eqn:E0; gsteps; [apply sim_ok; reflexivity|].
  apply orb_false_iff in E0. destruct E0 as [En Ei]. apply Z.leb_gt in En, Ei.
  destruct (incx =? 1) eqn:E1; gsteps.
  - rem_facts n 5.
    + rewrite Hm. rewrite (zfor_nil 0 0) by lia. cbn [bind].
      destruct (Ascii.eqb side "R"); cbn [negb]; gsteps;
      (side1 ltac:(idtac; lazymatch goal with |- context [exec _ _ _ _ _ _ (?en, _)] =>
        gfors (fun (i : Z) (x : arr (quat K)) (s : st K) => s = (puts en [(5%nat, Some (VZ i))], [(xa, DQ x)])) end) ltac:(unfold scal1); apply sim_ok; reflexivity).
    + destruct (Ascii.eqb side "R"); cbn [negb]; gsteps;
      (side1 ltac:(idtac; lazymatch goal with |- context [exec _ _ _ _ _ _ (?en, _)] =>
        gfor (fun (i : Z) (x : arr (quat K)) (s : st K) => s = (puts en [(5%nat, Some (VZ i))], [(xa, DQ x)])) end) ltac:(unfold scal1));
      (destruct (n <? 5) eqn:E5; gsteps; [apply sim_ok; reflexivity|]);
      (side1 ltac:(idtac; lazymatch goal with |- context [exec _ _ _ _ _ _ (?en, _)] =>
        gfors (fun (i : Z) (x : arr (quat K)) (s : st K) => s = (puts en [(5%nat, Some (VZ i))], [(xa, DQ x)])) end) ltac:(unfold scal1); apply sim_ok; reflexivity).
  - destruct (Ascii.eqb side "R"); cbn [negb]; gsteps;
      (side1 ltac:(idtac; lazymatch goal with |- context [exec _ _ _ _ _ _ (?en, _)] =>
        gfors' (fun (i : Z) (x : arr (quat K)) (s : st K) => s = (puts en [(5%nat, Some (VZ i))], [(xa, DQ x)])) end) ltac:(unfold scal1); [apply mult_fuel; assumption | apply sim_ok; reflexivity]).
Qed.
Lemma gsrc_axpyv side n alpha xa x incx ya y incy fuel :
  (Z.to_nat n < fuel)%nat ->
  sim (fun r o => o = ([(xa, DQ x); (ya, DQ r)], None))
    (axpyv_gen q_mul side n alpha x incx y incy)
    (ccall (K:=K) (unit_axpyv_g (ty alpha)) no_ext fuel "HBLAS_AXPYV" [VChr side; VZ n; val_of alpha; ptr 0; VZ incx; ptr 1; VZ incy]
      [(xa, DQ x); (ya, DQ y)]).
Proof.
  intros Hf. gstart (unit_axpyv_g (ty alpha)) (g_axpyv (ty alpha)) (unit_axpyv_g_eq (ty alpha)).
  cbv delta [g_axpyv]. gopen. gsteps. unfold axpyv_gen. rewrite !Z.gtb_ltb.
  destruct (n <=? 0) eqn:E0; gsteps; [apply sim_ok; reflexivity|]. apply Z.leb_gt in E0.
  destruct (s_eqb alpha n0); gsteps; [apply sim_ok; reflexivity|].
  gassert. gsteps. gassert. gsteps.
  destruct ((incx =? 1) && (incy =? 1)) eqn:E1; gsteps.
  - rem_facts n 4.
    + rewrite Hm. rewrite (zfor_nil 0 0) by lia. cbn [bind].
      destruct (Ascii.eqb side "R"); cbn [negb]; gsteps;
      (side1 ltac:(idtac; lazymatch goal with |- context [exec _ _ _ _ _ _ (?en, _)] =>
        gfors (fun (i : Z) (y : arr (quat K)) (s : st K) => s = (puts en [(7%nat, Some (VZ i))], [(xa, DQ x); (ya, DQ y)])) end) ltac:(unfold axpy1; change (@q_addeq K) with (@q_add K)); apply sim_ok; reflexivity).
    + destruct (Ascii.eqb side "R"); cbn [negb]; gsteps;
      (side1 ltac:(idtac; lazymatch goal with |- context [exec _ _ _ _ _ _ (?en, _)] =>
        gfor (fun (i : Z) (y : arr (quat K)) (s : st K) => s = (puts en [(7%nat, Some (VZ i))], [(xa, DQ x); (ya, DQ y)])) end) ltac:(unfold axpy1; change (@q_addeq K) with (@q_add K)));
      (destruct (n <? 4) eqn:E5; gsteps; [apply sim_ok; reflexivity|]);
      (side1 ltac:(idtac; lazymatch goal with |- context [exec _ _ _ _ _ _ (?en, _)] =>
        gfors (fun (i : Z) (y : arr (quat K)) (s : st K) => s = (puts en [(7%nat, Some (VZ i))], [(xa, DQ x); (ya, DQ y)])) end) ltac:(unfold axpy1; change (@q_addeq K) with (@q_add K)); apply sim_ok; reflexivity).
  - destruct (Ascii.eqb side "R"); cbn [negb]; gsteps;
      (side3 ltac:(idtac; lazymatch goal with |- context [exec _ _ _ _ _ _ (?en, _)] =>
        gfor (fun (i : Z) '(y, p, q) (s : st K) => s = (puts en [(7%nat, Some (VZ i)); (11%nat, Some (VZ p)); (12%nat, Some (VZ q))], [(xa, DQ x); (ya, DQ y)])) end) ltac:(unfold axpy1; change (@q_addeq K) with (@q_add K)); apply sim_ok; reflexivity).
Qed.
Lemma gsrc_copyv n xa x incx ya y incy fuel :
  (Z.to_nat n < fuel)%nat ->
  sim (fun r o => o = ([(xa, DQ x); (ya, DQ r)], None))
    (copyv_gen n x incx y incy)
    (ccall (K:=K) unit_copyv_g no_ext fuel "HBLAS_COPYV" [VZ n; ptr 0; VZ incx; ptr 1; VZ incy] [(xa, DQ x); (ya, DQ y)]).
Proof.
  intros Hf. gstart unit_copyv_g g_copyv unit_copyv_g_eq.
  cbv delta [g_copyv]. gopen. gsteps. unfold copyv_gen. rewrite !Z.gtb_ltb.
  destruct (n <=? 0) eqn:E0; gsteps; [apply sim_ok; reflexivity|]. apply Z.leb_gt in E0.
  gassert. gsteps. gassert. gsteps.
  destruct ((incx =? 1) && (incy =? 1)) eqn:E1; gsteps.
  - rem_facts n 7.
    + rewrite Hm. rewrite (zfor_nil 0 0) by lia. cbn [bind]. gsteps.
      (side1 ltac:(idtac; lazymatch goal with |- context [exec _ _ _ _ _ _ (?en, _)] =>
        gfors (fun (i : Z) (y : arr (quat K)) (s : st K) => s = (puts en [(5%nat, Some (VZ i))], [(xa, DQ x); (ya, DQ y)])) end) ltac:(unfold copy1); apply sim_ok; reflexivity).
    + gsteps.
      (side1 ltac:(idtac; lazymatch goal with |- context [exec _ _ _ _ _ _ (?en, _)] =>
        gfor (fun (i : Z) (y : arr (quat K)) (s : st K) => s = (puts en [(5%nat, Some (VZ i))], [(xa, DQ x); (ya, DQ y)])) end) ltac:(unfold copy1)).
      (destruct (n <? 7) eqn:E5; gsteps; [apply sim_ok; reflexivity|]);
      (side1 ltac:(idtac; lazymatch goal with |- context [exec _ _ _ _ _ _ (?en, _)] =>
        gfors (fun (i : Z) (y : arr (quat K)) (s : st K) => s = (puts en [(5%nat, Some (VZ i))], [(xa, DQ x); (ya, DQ y)])) end) ltac:(unfold copy1); apply sim_ok; reflexivity).
  - (side3 ltac:(idtac; lazymatch goal with |- context [exec _ _ _ _ _ _ (?en, _)] =>
        gfor (fun (i : Z) '(y, p, q) (s : st K) => s = (puts en [(5%nat, Some (VZ i)); (7%nat, Some (VZ p)); (8%nat, Some (VZ q))], [(xa, DQ x); (ya, DQ y)])) end) ltac:(unfold copy1); apply sim_ok; reflexivity).
Qed.
Lemma gsrc_dotuv n xa x incx ya y incy fuel :
  (Z.to_nat n < fuel)%nat ->
  sim (fun r o => o = ([(xa, DQ x); (ya, DQ y)], Some (VQ r)))
    (dot_gen q_mul false n x incx y incy)
    (ccall (K:=K) unit_dotuv_g no_ext fuel "HBLAS_DOTUV" [VZ n; ptr 0; VZ incx; ptr 1; VZ incy] [(xa, DQ x); (ya, DQ y)]).
Proof.
  intros Hf. gstart unit_dotuv_g g_dotuv unit_dotuv_g_eq.
  cbv delta [g_dotuv]. gopen. gsteps. unfold dot_gen. rewrite !Z.gtb_ltb.
  destruct (n <=? 0) eqn:E0; gsteps; [apply sim_ok; reflexivity|]. apply Z.leb_gt in E0.
  gassert. gsteps. gassert. gsteps.
  destruct ((incx =? 1) && (incy =? 1)) eqn:E1; gsteps.
  - (side1 ltac:(idtac; lazymatch goal with |- context [exec _ _ _ _ _ _ (?en, _)] =>
        gfor (fun (i : Z) (h : quat K) (s : st K) => s = (puts en [(6%nat, Some (VZ i)); (5%nat, Some (VQ h))], [(xa, DQ x); (ya, DQ y)])) end) ltac:(unfold dot1; change (@q_addeq K) with (@q_add K)); apply sim_ok; reflexivity).
  - (side3 ltac:(idtac; lazymatch goal with |- context [exec _ _ _ _ _ _ (?en, _)] =>
        gfor (fun (i : Z) '(h, p, q) (s : st K) => s = (puts en [(6%nat, Some (VZ i)); (5%nat, Some (VQ h)); (7%nat, Some (VZ p)); (8%nat, Some (VZ q))], [(xa, DQ x); (ya, DQ y)])) end) ltac:(unfold dot1; change (@q_addeq K) with (@q_add K)); apply sim_ok; reflexivity).
Qed.
Lemma gsrc_dotcv n xa x incx ya y incy fuel :
  (Z.to_nat n < fuel)%nat ->
  sim (fun r o => o = ([(xa, DQ x); (ya, DQ y)], Some (VQ r)))
    (dot_gen q_mul true n x incx y incy)
    (ccall (K:=K) unit_dotcv_g no_ext fuel "HBLAS_DOTCV" [VZ n; ptr 0; VZ incx; ptr 1; VZ incy] [(xa, DQ x); (ya, DQ y)]).
Proof.
  intros Hf. gstart unit_dotcv_g g_dotcv unit_dotcv_g_eq.
  cbv delta [g_dotcv]. gopen. gsteps. unfold dot_gen. rewrite !Z.gtb_ltb.
  destruct (n <=? 0) eqn:E0; gsteps; [apply sim_ok; reflexivity|]. apply Z.leb_gt in E0.
  gassert. gsteps. gassert. gsteps.
  destruct ((incx =? 1) && (incy =? 1)) eqn:E1; gsteps.
  - (side1 ltac:(idtac; lazymatch goal with |- context [exec _ _ _ _ _ _ (?en, _)] =>
        gfor (fun (i : Z) (h : quat K) (s : st K) => s = (puts en [(6%nat, Some (VZ i)); (5%nat, Some (VQ h))], [(xa, DQ x); (ya, DQ y)])) end) ltac:(unfold dot1; change (@q_addeq K) with (@q_add K)); apply sim_ok; reflexivity).
  - (side3 ltac:(idtac; lazymatch goal with |- context [exec _ _ _ _ _ _ (?en, _)] =>
        gfor (fun (i : Z) '(h, p, q) (s : st K) => s = (puts en [(6%nat, Some (VZ i)); (5%nat, Some (VQ h)); (7%nat, Some (VZ p)); (8%nat, Some (VZ q))], [(xa, DQ x); (ya, DQ y)])) end) ltac:(unfold dot1; change (@q_addeq K) with (@q_add K)); apply sim_ok; reflexivity).
Qed.
Lemma gsrc_swapv n xa x incx ya y incy fuel :
  (Z.to_nat n < fuel)%nat ->
  sim (fun '(x', y') o => o = ([(xa, DQ x'); (ya, DQ y')], None))
    (swapv_gen n x incx y incy)
    (ccall (K:=K) unit_swapv_g no_ext fuel "HBLAS_SWAPV" [VZ n; ptr 0; VZ incx; ptr 1; VZ incy] [(xa, DQ x); (ya, DQ y)]).
Proof.
  intros Hf. gstart unit_swapv_g g_swapv unit_swapv_g_eq.
  cbv delta [g_swapv]. gopen. gsteps. unfold swapv_gen. rewrite !Z.gtb_ltb.
  destruct (n <=? 0) eqn:E0; gsteps; [apply sim_ok; reflexivity|]. apply Z.leb_gt in E0.
  gassert. gsteps. gassert. gsteps.
  destruct ((incx =? 1) && (incy =? 1)) eqn:E1; gsteps.
  - rem_facts n 3.
    + rewrite Hm. rewrite (zfor_nil 0 0) by lia. cbn [bind]. gsteps.
      side2 ltac:(idtac; lazymatch goal with |- context [exec _ _ _ _ _ _ (?en, _)] =>
        gfors (fun (i : Z) '(x, y) (s : st K) => exists w, s = (puts en [(5%nat, Some (VZ i)); (6%nat, w)], [(xa, DQ x); (ya, DQ y)])) end) ltac:(unfold swap1). apply sim_ok; reflexivity.
    + gsteps. side2 ltac:(idtac; lazymatch goal with |- context [exec _ _ _ _ _ _ (?en, _)] =>
        gfor (fun (i : Z) '(x, y) (s : st K) => exists w, s = (puts en [(5%nat, Some (VZ i)); (6%nat, w)], [(xa, DQ x); (ya, DQ y)])) end) ltac:(unfold swap1).
      (destruct (n <? 3) eqn:E5; gsteps; [apply sim_ok; reflexivity|]).
      side2 ltac:(idtac; lazymatch goal with |- context [exec _ _ _ _ _ _ (?en, _)] =>
        gfors (fun (i : Z) '(x, y) (s : st K) => exists w, s = (puts en [(5%nat, Some (VZ i)); (6%nat, w)], [(xa, DQ x); (ya, DQ y)])) end) ltac:(unfold swap1). apply sim_ok; reflexivity.
  - side4 ltac:(idtac; lazymatch goal with |- context [exec _ _ _ _ _ _ (?en, _)] =>
        gfor (fun (i : Z) '(x, y, p, q) (s : st K) => exists w, s = (puts en [(5%nat, Some (VZ i)); (6%nat, w); (8%nat, Some (VZ p)); (9%nat, Some (VZ q))], [(xa, DQ x); (ya, DQ y)])) end) ltac:(unfold swap1). apply sim_ok; reflexivity.
Qed.
End S.
