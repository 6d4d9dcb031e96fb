From Coq Require Import ZArith Bool Ascii String List Lia.
From Verif Require Import Num Res ResFacts MQuat MSimd MOptL1 MPack CSyntax CPre CSem CSrc CProg CLinkG TSrc TSyntax TParse TSem MSrcT TEq TEq2 TEq3 TEq4 TEq5 TEq6 TEq7 TEq8 TEq9.
Import ListNotations.
Local Open Scope string_scope.
Local Open Scope Z_scope.
Definition ifc (l : list tstmt) : texpr := match l with [_; _; _; SIf c _] => c | _ => EInt 0 end.
Definition T_a1 := Eval vm_compute in nth 0 T_rest (SRet None).
Definition N_a1 := Eval vm_compute in nth 0 N_rest (SRet None).
Definition T_a2 := Eval vm_compute in nth 2 T_rest (SRet None).
Definition N_a2 := Eval vm_compute in nth 2 N_rest (SRet None).
Definition T_rc := Eval vm_compute in ifc T_rest.
Definition N_rc := Eval vm_compute in ifc N_rest.
Definition a1_ (t : bool) := if t then T_a1 else N_a1.
Definition a2_ (t : bool) := if t then T_a2 else N_a2.
Definition rc (t : bool) := if t then T_rc else N_rc.
Definition cnt (t : bool) (m n : Z) : Z := if t then n else m.
Definition rest_ (t : bool) := if t then T_rest else N_rest.
Lemma rest_eq (t : bool) : rest_ t = ([a1_ t] ++ SIf (dc t) [SDo (do1 t ++ SExpr e_lb :: do2 t) (dc t)] :: [a2_ t] ++ [SIf (rc t) (rb1 t ++ [SExpr e_lb])])%list.
Proof. destruct t; reflexivity. Qed.
Section E.
Context {K : num} (lf : nat).
Local Notation exec := (exec u (K := K) lf).
Local Notation pval := (pval (K := K)).
Local Notation qarr := (arr (quat K)).
Local Notation S_ := (stP (K := K)).
Ltac lz := lazy -[Z.add Z.mul Z.sub Z.quot Z.rem Z.ltb Z.gtb Z.leb].
Ltac lze := lazy -[Z.add Z.mul Z.sub Z.quot Z.rem Z.ltb Z.gtb Z.leb Z.eqb].
Lemma asg1 t f o cj al m n e ld v w x xp mm :
  exec (30 + f) (sc o cj) (eo t) (S_ t o cj al m n e ld v w x xp [], mm) ([a1_ t] ++ [probe]) =
  Some (Ok (Some (PClo (eo t) (sc o cj) [] []), (S_ t o cj al m n e ld v (vz (Z.quot (cnt t m n) 2)) x xp [], mm))).
Proof. destruct t, o, cj. all: lz; reflexivity. Qed.
Lemma asg2 t f o cj al m n e ld v w x xp mm :
  exec (30 + f) (sc o cj) (eo t) (S_ t o cj al m n e ld v w x xp [], mm) ([a2_ t] ++ [probe]) =
  Some (Ok (Some (PClo (eo t) (sc o cj) [] []), (S_ t o cj al m n e ld v (vz (Z.rem (cnt t m n) 2)) x xp [], mm))).
Proof. destruct t, o, cj. all: lz; reflexivity. Qed.
Lemma cond_r t f o cj al m n e ld v j x xp mm :
  tests u lf (30 + f) (sc o cj) (eo t) (rc t) (S_ t o cj al m n e ld v (vz j) x xp [], mm) = Some (Ok (negb (j =? 0), (S_ t o cj al m n e ld v (vz j) x xp [], mm))).
Proof. destruct t, o, cj. all: lze; reflexivity. Qed.
Lemma rb_1 t f o cj al m n e ld v xb xp mm :
  exec (30 + f) (sc o cj) (eo t) (S_ t o cj al m n e ld v (vz 1) (qp 0 xb) xp [], mm) (rb1 t ++ [probe]) =
  Some (Ok (Some (PClo (eoc t) (sc o cj) [] []), (S_ t o cj al m n e ld v (vz 1) (qp 0 xb) xp [Some (ptrs xb None)], mm))).
Proof. destruct t, o, cj. all: lz; reflexivity. Qed.
Definition e_as (t : bool) : texpr := ex_of (nth 0 (rb1 t) (SRet None)).
Lemma as_ t f o cj al m n e ld v j xb xp mm : (j =? 1) = false ->
  eval u lf (29 + f) (sc o cj) (eo t) (S_ t o cj al m n e ld v (vz j) (qp 0 xb) xp [], mm) (e_as t) = Some Abort.
Proof. intros E. destruct t, o, cj. all: lze; rewrite E; reflexivity. Qed.
Lemma rb_a t f o cj al m n e ld v j xb xp mm rest : (j =? 1) = false ->
  exec (30 + f) (sc o cj) (eo t) (S_ t o cj al m n e ld v (vz j) (qp 0 xb) xp [], mm) (rb1 t ++ rest) = Some Abort.
Proof.
  intros E. transitivity (exec (S (29 + f)) (sc o cj) (eo t) (S_ t o cj al m n e ld v (vz j) (qp 0 xb) xp [], mm) (SExpr (e_as t) :: (tl (rb1 t) ++ rest))).
  { destruct t; reflexivity. }
  rewrite ex_expr, as_ by exact E. reflexivity.
Qed.
Definition gives (x : option (res (option pval * st))) a0 (src : qarr) a1 (r : res qarr) : Prop :=
  match r with Ok b => exists s, x = Some (Ok (None, (s, memq a0 src a1 b))) | UB => x = Some UB | Abort => x = Some Abort end.
Definition pack_ (t : bool) o cj (al : option (scal K)) m n src e ld buf : res qarr := if t then tpack o cj al m n src e ld buf else npack o cj al m n src e ld buf.
Lemma pack_eq t o cj al m n (src : qarr) e ld buf : pack_ t o cj al m n src e ld buf =
  ('(xb, pos, buf) <- zfor 0 (Z.quot (cnt t m n) 2) (oloop t o cj al m n ld src) (e, 0, buf) ;;
   if Z.rem (cnt t m n) 2 =? 0 then Ok buf else
   _ <- assertb (Z.rem (cnt t m n) 2 =? 1) ;;
   '(_, _, _, buf) <- zfor 0 (bnd t m n) (ploop o cj al (inc t ld) src) (xb, None, pos, buf) ;; Ok buf).
Proof.
  assert (EL : forall i xb pos buf, (let '(xb, pos, buf) := (xb, pos, buf) in
      '(pos, buf) <- pack_loop o cj al (bnd t m n) (inc t ld) src xb (Some (xb + sd t ld)) pos buf ;; Ok (xb + 2 * sd t ld, pos, buf)) = oloop t o cj al m n ld src i (xb, pos, buf)).
  { intros i xb pos b. unfold oloop. rewrite pack_loop_ploop. destruct (zfor _ _ _ _) as [[[[q1 q2] ps] b']| |]; reflexivity. }
  transitivity ('(xb, pos, buf) <- zfor 0 (Z.quot (cnt t m n) 2) (fun _ '(xb, pos, buf) =>
      '(pos, buf) <- pack_loop o cj al (bnd t m n) (inc t ld) src xb (Some (xb + sd t ld)) pos buf ;; Ok (xb + 2 * sd t ld, pos, buf)) (e, 0, buf) ;;
    if Z.rem (cnt t m n) 2 =? 0 then Ok buf else
    _ <- assertb (Z.rem (cnt t m n) 2 =? 1) ;;
    '(_, buf) <- pack_loop o cj al (bnd t m n) (inc t ld) src xb None pos buf ;; Ok buf).
  { destruct t; reflexivity. }
  rewrite (zfor_ext 0 (Z.quot (cnt t m n) 2) _ (oloop t o cj al m n ld src)) by (intros i [[xb pos] b] _; exact (EL i xb pos b)).
  destruct (zfor 0 (Z.quot _ _) _ _) as [[[xb pos] b]| |]; try reflexivity. cbn [bind].
  destruct (_ =? 0); [reflexivity|]. destruct (assertb _); try reflexivity. cbn [bind]. rewrite pack_loop_ploop.
  destruct (zfor _ _ _ _) as [[[[q1 q2] ps] b']| |]; reflexivity.
Qed.
(** the remainder *)
Lemma tail_ok t f o cj al m n e ld v w xb pos a0 (src : qarr) a1 buf : (Z.to_nat (bnd t m n) < lf)%nat ->
  gives (exec (80 + f) (sc o cj) (eo t) (S_ t o cj al m n e ld v w (qp 0 xb) (qp 1 pos) [], memq a0 src a1 buf) ([a2_ t] ++ [SIf (rc t) (rb1 t ++ [SExpr e_lb])])) a0 src a1
    (if Z.rem (cnt t m n) 2 =? 0 then Ok buf else
     _ <- assertb (Z.rem (cnt t m n) 2 =? 1) ;;
     '(_, _, _, buf) <- zfor 0 (bnd t m n) (ploop o cj al (inc t ld) src) (xb, None, pos, buf) ;; Ok buf).
Proof.
  intros HL.
  rewrite (proj2 (exec_app u lf (80 + f) [a2_ t] _ _ _ [SIf (rc t) (rb1 t ++ [SExpr e_lb])] _ _ _ ltac:(destruct t; reflexivity) (asg2 t (50 + f) o cj al m n e ld v w (qp 0 xb) (qp 1 pos) (memq a0 src a1 buf)))).
  replace (80 + f - cost [a2_ t])%nat with (S (78 + f)) by (destruct t; cbn [cost fold_right cost1 a2_ T_a2 N_a2]; lia).
  set (r := Z.rem (cnt t m n) 2). rewrite ex_if. change (78 + f)%nat with (30 + (48 + f))%nat at 1. rewrite cond_r. cbn [mb].
  destruct (r =? 0) eqn:E0; cbn [negb].
  - change (78 + f)%nat with (S (77 + f)). rewrite ex_end. eexists. reflexivity.
  - destruct (r =? 1) eqn:E1; cbn [assertb bind].
    + apply Z.eqb_eq in E1. rewrite E1. unfold blk at 1.
      rewrite (proj2 (exec_app u lf (78 + f) (rb1 t) _ _ _ [SExpr e_lb] _ _ _ ltac:(destruct t; reflexivity) (rb_1 t (48 + f) o cj al m n e ld v xb (qp 1 pos) (memq a0 src a1 buf)))).
      replace (78 + f - cost (rb1 t))%nat with (52 + (23 + f))%nat by (destruct t; cbn [cost fold_right cost1 rb1 T_rb1 N_rb1 List.length]; lia).
      rewrite lb_call by exact HL.
      destruct (zfor _ _ _ _) as [[[[q1 q2] ps] b]| |]; try reflexivity. cbn [oput mb bind].
      change (51 + (23 + f))%nat with (S (73 + f)). rewrite ex_end. cbn [mb mret]. change (78 + f)%nat with (S (77 + f)). rewrite ex_end. eexists. destruct t; reflexivity.
    + unfold blk at 1. change (78 + f)%nat with (30 + (48 + f))%nat at 1. rewrite rb_a by exact E1. reflexivity.
Qed.
Lemma rest_ok t f o cj al m n e ld a0 (src : qarr) a1 buf : (Z.to_nat (bnd t m n) < lf)%nat -> (Z.to_nat (Z.quot (cnt t m n) 2) <= lf)%nat ->
  gives (exec (100 + f) (sc o cj) (eo t) (S_ t o cj al m n e ld None None (qp 0 e) (qp 1 0) [], memq a0 src a1 buf) (rest_ t)) a0 src a1 (pack_ t o cj al m n src e ld buf).
Proof.
  intros HB HC. rewrite rest_eq, pack_eq.
  rewrite (proj2 (exec_app u lf (100 + f) [a1_ t] _ _ _ _ _ _ _ ltac:(destruct t; reflexivity) (asg1 t (70 + f) o cj al m n e ld None None (qp 0 e) (qp 1 0) (memq a0 src a1 buf)))).
  replace (100 + f - cost [a1_ t])%nat with (S (98 + f)) by (destruct t; cbn [cost fold_right cost1 a1_ T_a1 N_a1]; lia).
  set (q := Z.quot (cnt t m n) 2) in *. rewrite ex_if. change (98 + f)%nat with (30 + (68 + f))%nat at 1. rewrite cond_o. cbn [mb].
  destruct (0 <? q) eqn:Eq.
  - apply Z.ltb_lt in Eq. unfold blk at 1. change (98 + f)%nat with (S (70 + (27 + f))) at 1. rewrite ex_do.
    rewrite (odo lf t (27 + f) o cj al m n e ld None a0 src a1 q 0 e 0 buf HB HC Eq).
    unfold zfor at 1. rewrite Z.sub_0_r. destruct (floop _ _ _ _) as [[[xb pos] b]| |]; try reflexivity. cbn [oput mb bind].
    change (70 + (27 + f))%nat with (S (96 + f)). rewrite ex_end. cbn [mb mret].
    change (98 + f)%nat with (80 + (18 + f))%nat.
    match goal with |- gives (TSem.exec _ _ _ _ _ ?s _) _ _ _ _ =>
      replace s with (S_ t o cj al m n e ld (vz (Z.max 0 (bnd t m n))) (vz 0) (qp 0 xb) (qp 1 pos) [], memq a0 src a1 b) by (destruct t; reflexivity) end.
    apply tail_ok. exact HB.
  - apply Z.ltb_ge in Eq. rewrite zfor_none by exact Eq. cbn [bind]. change (98 + f)%nat with (80 + (18 + f))%nat. apply tail_ok. exact HB.
Qed.
End E.
