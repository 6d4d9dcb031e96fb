From Coq Require Import ZArith Bool Ascii String List Lia.
From Verif Require Import Num Res ResFacts MQuat MSimd MOptL1 MPack CSyntax CPre CSem CSrc CProg CLinkG TSrc TSyntax TParse TSem MSrcT TEq TEq2 TEq3 TEq4 TEq5 TEq6 TEq7 TEq8.
Import ListNotations.
Local Open Scope string_scope.
Local Open Scope Z_scope.
Definition do_body (l : list tstmt) : list tstmt := match l with [_; SIf _ [SDo b _]; _; _] => b | _ => [] end.
Definition do_cond (l : list tstmt) : texpr := match l with [_; SIf _ [SDo _ c]; _; _] => c | _ => EInt 0 end.
Definition rem_body (l : list tstmt) : list tstmt := match l with [_; _; _; SIf _ b] => b | _ => [] end.
Definition T_do := Eval vm_compute in do_body T_rest.
Definition N_do := Eval vm_compute in do_body N_rest.
Definition T_dc := Eval vm_compute in do_cond T_rest.
Definition N_dc := Eval vm_compute in do_cond N_rest.
Definition T_rb := Eval vm_compute in rem_body T_rest.
Definition N_rb := Eval vm_compute in rem_body N_rest.
Definition T_do1 := Eval vm_compute in firstn 2 T_do.
Definition N_do1 := Eval vm_compute in firstn 2 N_do.
Definition T_do2 := Eval vm_compute in skipn 3 T_do.
Definition N_do2 := Eval vm_compute in skipn 3 N_do.
Definition T_rb1 := Eval vm_compute in firstn 2 T_rb.
Definition N_rb1 := Eval vm_compute in firstn 2 N_rb.
Definition e_lb : texpr := Eval vm_compute in ex_of (nth 2 T_do (SRet None)).
Definition l_lb : list texpr := Eval vm_compute in match e_lb with ECall _ l => l | _ => [] end.
Definition do1 (t : bool) := if t then T_do1 else N_do1.
Definition do2 (t : bool) := if t then T_do2 else N_do2.
Definition dc (t : bool) := if t then T_dc else N_dc.
Definition rb1 (t : bool) := if t then T_rb1 else N_rb1.
Definition eo (t : bool) : env := if t then eT18 else eN17.
Definition eoc (t : bool) : env := ("xCol", if t then 18%nat else 17%nat) :: eo t.
Lemma do_eq (t : bool) : (if t then T_do else N_do) = (do1 t ++ SExpr e_lb :: do2 t)%list. Proof. destruct t; reflexivity. Qed.
Lemma rb_eq (t : bool) : (if t then T_rb else N_rb) = (rb1 t ++ [SExpr e_lb])%list. Proof. destruct t; reflexivity. Qed.
Section E.
Context {K : num} (lf : nat).
Local Notation exec := (exec u (K := K) lf).
Local Notation eval := (eval u (K := K) lf).
Local Notation evals := (evals u (K := K) lf).
Local Notation call := (call u (K := K) lf).
Local Notation pval := (pval (K := K)).
Local Notation qarr := (arr (quat K)).
Local Notation S_ := (stP (K := K)).
Ltac lz := lazy -[Z.add Z.mul Z.sub Z.quot Z.rem Z.ltb Z.gtb Z.leb Z.eqb].
Lemma pre_N f o cj al m n e ld mm : exec (100 + f) (sc o cj) eT6 (st0 al m n e ld, mm) (N_pre ++ [probe]) =
  Some (Ok (Some (PClo eN17 (sc o cj) [] []), (stN o cj al m n e ld None None (qp 0 e) (qp 1 0), mm))).
Proof. destruct o, cj, al as [[a|z|q]|]. all: lazy; reflexivity. Qed.
Definition sd (t : bool) (ld : Z) : Z := if t then ld else 1.
Lemma do_1 t f o cj al m n e ld v w xb xp mm :
  exec (70 + f) (sc o cj) (eo t) (S_ t o cj al m n e ld v w (qp 0 xb) xp [], mm) (do1 t ++ [probe]) =
  Some (Ok (Some (PClo (eoc t) (sc o cj) [] []), (S_ t o cj al m n e ld v w (qp 0 (xb + 2 * sd t ld)) xp [Some (ptrs (xb + 0 * sd t ld) (Some (xb + 1 * sd t ld)))], mm))).
Proof. destruct t, o, cj. all: lz; reflexivity. Qed.
Lemma do_2 t f o cj al m n e ld v j x xp col mm :
  exec (30 + f) (sc o cj) (eoc t) (S_ t o cj al m n e ld v (vz j) x xp [col], mm) (do2 t) = Some (Ok (None, (S_ t o cj al m n e ld v (vz (j - 1)) x xp [col], mm))).
Proof. destruct t, o, cj. all: lz; reflexivity. Qed.
Lemma args_lb t f o cj al m n e ld v w x xp col mm : let s := (S_ t o cj al m n e ld v w x xp [Some col], mm) in
  evals (10 + f) (sc o cj) (eoc t) s l_lb = Some (Ok ([(col, Some (if t then 18 else 17)%nat); (xp, Some (if t then 12 else 11)%nat)], s)).
Proof. intros s. subst s. destruct t, o, cj. all: lz; reflexivity. Qed.
Lemma cond_o t f o cj al m n e ld v j x xp mm :
  tests u lf (30 + f) (sc o cj) (eo t) (dc t) (S_ t o cj al m n e ld v (vz j) x xp [], mm) = Some (Ok (0 <? j, (S_ t o cj al m n e ld v (vz j) x xp [], mm))).
Proof. destruct t, o, cj. all: lz; reflexivity. Qed.

Lemma lb_call t f o cj al m n e ld v w x a0 (src : qarr) a1 p1 p2 pos buf rest : (Z.to_nat (bnd t m n) < lf)%nat ->
  exec (52 + f) (sc o cj) (eoc t) (S_ t o cj al m n e ld v w x (qp 1 pos) [Some (ptrs p1 p2)], memq a0 src a1 buf) (SExpr e_lb :: rest) =
  mb (oput (zfor 0 (bnd t m n) (ploop o cj al (inc t ld) src) (p1, p2, pos, buf))
        (fun '(p1, p2, pos, buf) => (S_ t o cj al m n e ld (vz (Z.max 0 (bnd t m n))) w x (qp 1 pos) [Some (ptrs p1 p2)], memq a0 src a1 buf)))
     (fun s => exec (51 + f) (sc o cj) (eoc t) s rest).
Proof.
  intros HL. change (52 + f)%nat with (S (51 + f)). rewrite ex_expr.
  change e_lb with (ECall (Ty "loopBody" None None) l_lb). change (51 + f)%nat with (S (50 + f)) at 1. rewrite ev_call.
  change (50 + f)%nat with (10 + (40 + f))%nat at 1. rewrite args_lb. cbn [mb].
  change (50 + f)%nat with (S (49 + f)) at 1.
  refine (eq_trans (f_equal (fun z => mb (mb z _) _) (inv_local u lf (49 + f) _ _ _ _ _ (if t then 17 else 16)%nat (cBody t o cj) _ _)) _).
  { destruct t; reflexivity. } { destruct t; reflexivity. }
  change (49 + f)%nat with (48 + (1 + f))%nat.
  refine (eq_trans (f_equal (fun z => mb (mb z _) _) (body_call lf t (1 + f) o cj al m n e ld v w x a0 src a1 p1 p2 pos buf HL)) _).
  destruct (zfor _ _ _ _) as [[[[q1 q2] ps] b]| |]; cbn [oput mb mret].
  - reflexivity. - reflexivity. - reflexivity.
Qed.
(** one iteration of the outer loop *)
Definition oloop (t : bool) o cj (al : option (scal K)) (m n ld : Z) (src : qarr) (_ : Z) (z : Z * Z * qarr) : res (Z * Z * qarr) :=
  let '(xb, pos, buf) := z in '(_, _, pos, buf) <- zfor 0 (bnd t m n) (ploop o cj al (inc t ld) src) (xb, Some (xb + sd t ld), pos, buf) ;; Ok (xb + 2 * sd t ld, pos, buf).
Lemma obody t f o cj al m n e ld v j xb a0 (src : qarr) a1 pos buf : (Z.to_nat (bnd t m n) < lf)%nat ->
  blk u lf (70 + f) (sc o cj) (eo t) (do1 t ++ SExpr e_lb :: do2 t) (S_ t o cj al m n e ld v (vz j) (qp 0 xb) (qp 1 pos) [], memq a0 src a1 buf) =
  oput (oloop t o cj al m n ld src 0 (xb, pos, buf))
    (fun '(xb, pos, buf) => (S_ t o cj al m n e ld (vz (Z.max 0 (bnd t m n))) (vz (j - 1)) (qp 0 xb) (qp 1 pos) [], memq a0 src a1 buf)).
Proof.
  intros HL. unfold blk, oloop.
  refine (eq_trans (f_equal (fun z => mb z _) (proj2 (exec_app u lf (70 + f) (do1 t) _ _ _ (SExpr e_lb :: do2 t) _ _ _ _ (do_1 t f o cj al m n e ld v (vz j) xb (qp 1 pos) (memq a0 src a1 buf))))) _).
  { destruct t; reflexivity. }
  replace (70 + f - cost (do1 t))%nat with (52 + (15 + f))%nat by (destruct t; cbn [do1]; change (cost T_do1) with 3%nat; change (cost N_do1) with 3%nat; lia).
  rewrite lb_call by exact HL. replace (xb + 0 * sd t ld) with xb by lia. replace (xb + 1 * sd t ld) with (xb + sd t ld) by lia.
  destruct (zfor _ _ _ _) as [[[[q1 q2] ps] b]| |]; try reflexivity. cbn [oput mb bind].
  change (51 + (15 + f))%nat with (30 + (36 + f))%nat. rewrite do_2. cbn [mb]. destruct t; reflexivity.
Qed.
Lemma owhile t f o cj al m n e ld a0 (src : qarr) a1 : (Z.to_nat (bnd t m n) < lf)%nat -> forall k j i L xb pos buf, k = Z.to_nat j -> (k < L)%nat ->
  while_ L (tests u lf (70 + f) (sc o cj) (eo t) (dc t)) (blk u lf (70 + f) (sc o cj) (eo t) (do1 t ++ SExpr e_lb :: do2 t))
    (S_ t o cj al m n e ld (vz (Z.max 0 (bnd t m n))) (vz j) (qp 0 xb) (qp 1 pos) [], memq a0 src a1 buf) =
  oput (floop k i (oloop t o cj al m n ld src) (xb, pos, buf))
    (fun '(xb, pos, buf) => (S_ t o cj al m n e ld (vz (Z.max 0 (bnd t m n))) (vz (j - Z.of_nat k)) (qp 0 xb) (qp 1 pos) [], memq a0 src a1 buf)).
Proof.
  intros HB. induction k as [|k IH]; intros j i L xb pos buf Ek HL; destruct L as [|L]; try lia.
  - cbn [while_ floop]. change (70 + f)%nat with (30 + (40 + f))%nat at 1. rewrite cond_o. cbn [mb]. replace (0 <? j) with false by (symmetry; apply Z.ltb_ge; lia).
    cbn [oput mret Z.of_nat]. rewrite Z.sub_0_r. reflexivity.
  - cbn [while_ floop]. change (70 + f)%nat with (30 + (40 + f))%nat at 1. rewrite cond_o. cbn [mb]. replace (0 <? j) with true by (symmetry; apply Z.ltb_lt; lia).
    rewrite obody by exact HB. change (oloop t o cj al m n ld src i (xb, pos, buf)) with (oloop t o cj al m n ld src 0 (xb, pos, buf)).
    destruct (oloop t o cj al m n ld src 0 (xb, pos, buf)) as [[[xb' pos'] buf']| |]; try reflexivity. cbn [oput mb bind].
    rewrite (IH (j - 1) (i + 1)) by lia. replace (j - 1 - Z.of_nat k) with (j - Z.of_nat (S k)) by lia. reflexivity.
Qed.
Lemma odo t f o cj al m n e ld v a0 (src : qarr) a1 j i xb pos buf : (Z.to_nat (bnd t m n) < lf)%nat -> (Z.to_nat j <= lf)%nat -> 0 < j ->
  do_ lf (tests u lf (70 + f) (sc o cj) (eo t) (dc t)) (blk u lf (70 + f) (sc o cj) (eo t) (do1 t ++ SExpr e_lb :: do2 t))
    (S_ t o cj al m n e ld v (vz j) (qp 0 xb) (qp 1 pos) [], memq a0 src a1 buf) =
  oput (floop (Z.to_nat j) i (oloop t o cj al m n ld src) (xb, pos, buf))
    (fun '(xb, pos, buf) => (S_ t o cj al m n e ld (vz (Z.max 0 (bnd t m n))) (vz 0) (qp 0 xb) (qp 1 pos) [], memq a0 src a1 buf)).
Proof.
  intros HB HL Hj. unfold do_. rewrite obody by exact HB. replace (Z.to_nat j) with (S (Z.to_nat (j - 1))) by lia. cbn [floop].
  change (oloop t o cj al m n ld src i (xb, pos, buf)) with (oloop t o cj al m n ld src 0 (xb, pos, buf)).
  destruct (oloop t o cj al m n ld src 0 (xb, pos, buf)) as [[[xb' pos'] buf']| |]; try reflexivity. cbn [oput mb bind].
  rewrite (owhile t f o cj al m n e ld a0 src a1 HB (Z.to_nat (j - 1)) (j - 1) (i + 1)) by lia. replace (j - 1 - Z.of_nat (Z.to_nat (j - 1))) with 0 by lia. reflexivity.
Qed.
End E.
