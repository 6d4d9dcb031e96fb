From Coq Require Import ZArith Bool Ascii String List Lia.
From Verif Require Import Num Res ResFacts MQuat MSimd MOptL1 MPack CSyntax CPre CSem CSrc CProg CLinkG TSrc TSyntax TParse TSem MSrcT TEq TEq2 TEq3 TEq4 TEq5 TEq6.
Import ListNotations.
Local Open Scope string_scope.
Local Open Scope Z_scope.
Section E.
Context {K : num} (lf : nat).
Local Notation exec := (exec u (K := K) lf).
Local Notation eval := (eval u (K := K) lf).
Local Notation evals := (evals u (K := K) lf).
Local Notation call := (call u (K := K) lf).
Local Notation call_each := (call_each u (K := K) lf).
Local Notation invoke := (invoke u (K := K) lf).
Local Notation pval := (pval (K := K)).
Local Notation qarr := (arr (quat K)).
Local Notation S_ := (stP (K := K)).
Lemma ce2 f s c l1 l2 : call_each (S (S (S f))) s c [l1; l2] = mb (call (S (S f)) s c l1) (fun '(v1, s) => mb (call (S f) s c l2) (fun '(v2, s) => mret ([v1; v2], s))).
Proof.
  rewrite ce_cons. destruct (call (S (S f)) s c l1) as [[[v1 s1]| |]|]; try reflexivity. cbn [mb].
  rewrite ce_cons. destruct (call (S f) s1 c l2) as [[[v2 s2]| |]|]; try reflexivity.
Qed.
(** apply_n<2>(load_preOP, xCol) *)
Definition pload (cj : bool) (al : option (scal K)) (src : qarr) (p : option Z) : res (m256 K) :=
  match p with Some p => match src p with Some q => Ok (preOP cj al (v_of_q q)) | None => UB end | None => Ok (preOP cj al mm256_zero) end.
Definition oput {A B} (r : res A) (g : A -> B) : option (res B) := match r with Ok a => Some (Ok (g a)) | UB => Some UB | Abort => Some Abort end.
Lemma load_x t f o cj al m n e ld v w x xp p1 p2 a0 src a1 buf : let s := (S_ t o cj al m n e ld v w x xp [Some (ptrs p1 p2)], memq a0 src a1 buf) in
  eval (45 + f) (sc o cj) (ebd t) s e_x = oput (y1 <- pload cj al src (Some p1) ;; y2 <- pload cj al src p2 ;; Ok (y1, y2)) (fun '(y1, y2) => ((PTup [V (VM y1); V (VM y2)], None), s)).
Proof.
  intros s. change (45 + f)%nat with (S (44 + f)). change e_x with (ECall (Ty "apply_n" (Some [Ty "PK" None None]) None) l_x). rewrite ev_call.
  change (44 + f)%nat with (10 + (34 + f))%nat at 1. unfold s at 1. rewrite args_x. fold s. cbn [mb].
  unfold ptrs at 1. change (44 + f)%nat with (S (43 + f)). rewrite inv_apply_n with (z := 2) by (destruct o, cj; reflexivity).
  transitivity (mb (mb (call_each (43 + f) s (cLoad t o cj) ([[(qp 0 p1, None)]; match p2 with Some p => [(qp 0 p, None)] | None => [] end] : list (list arg))) (fun '(vs, s) => mret (PTup vs, s))) (fun '(v, s) => mret ((v, @None nat), s))).
  { destruct p2; reflexivity. }
  refine (eq_trans (f_equal (fun z => mb (mb z _) _) (ce2 (40 + f) _ _ _ _)) _).
  change (S (S (40 + f))) with (40 + (2 + f))%nat. change (S (40 + f)) with (40 + (1 + f))%nat.
  unfold s. rewrite load_1. cbn [pload bind]. destruct (src p1) as [q1|]; [|reflexivity]. cbn [mb bind].
  destruct p2 as [p2|].
  - rewrite load_1. cbn [pload]. destruct (src p2) as [q2|]; reflexivity.
  - refine (eq_trans (f_equal (fun z => mb (mb (mb z _) _) _) (load_0 lf t (1 + f) o cj al m n e ld v w x xp _ _)) _). reflexivity.
Qed.
(** one iteration of loopBody *)
Definition pstep (o : packop) (cj : bool) (al : option (scal K)) (src : qarr) (p1 : Z) (p2 : option Z) (pos : Z) (buf : qarr) : res qarr :=
  y1 <- pload cj al src (Some p1) ;; y2 <- pload cj al src p2 ;;
  buf <- vst false 0 buf pos (fst (packOP o y1 y2)) ;; vst false 0 buf (pos + 1) (snd (packOP o y1 y2)).
Lemma body_x t f o cj al m n e ld v w x pos p1 p2 a0 src a1 buf :
  blk u lf (46 + f) (sc o cj) (ebd t) T_for (S_ t o cj al m n e ld v w x (qp 1 pos) [Some (ptrs p1 p2)], memq a0 src a1 buf) =
  oput (pstep o cj al src p1 p2 pos buf) (fun buf => (S_ t o cj al m n e ld v w x (qp 1 (pos + 2)) [Some (ptrs (p1 + inc t ld) (option_map (fun p => p + inc t ld) p2))], memq a0 src a1 buf)).
Proof.
  unfold blk. change T_for with (SDecl (tn "auto") [(O, "x", Some e_x)] :: SDecl (tn "auto") [(O, "x_t", Some e_xt)] :: SExpr e_st :: T_tl).
  change (46 + f)%nat with (S (45 + f)). rewrite ex_decl, load_x. unfold pstep.
  destruct (pload cj al src (Some p1)) as [y1| |]; try reflexivity. cbn [bind].
  destruct (pload cj al src p2) as [y2| |]; try reflexivity. cbn [bind oput mb declared].
  transitivity (mb (exec (45 + f) (sc o cj) (exb t) (S_ t o cj al m n e ld v w x (qp 1 pos) [Some (ptrs p1 p2); Some (PTup [V (VM y1); V (VM y2)])], memq a0 src a1 buf)
     (SDecl (tn "auto") [] :: SDecl (tn "auto") [(O, "x_t", Some e_xt)] :: SExpr e_st :: T_tl)) (fun '(r, s2) => match r with None => mret (leave (if t then 19 else 18)%nat s2) | Some _ => None end)).
  { destruct t; reflexivity. }
  change (45 + f)%nat with (S (S (20 + (23 + f)))). rewrite ex_nil, ex_decl, op_e. cbn [mb].
  transitivity (mb (exec (20 + (23 + f)) (sc o cj) (ext_ t) (S_ t o cj al m n e ld v w x (qp 1 pos) [Some (ptrs p1 p2); Some (PTup [V (VM y1); V (VM y2)]); Some (PTup [V (VM (fst (packOP o y1 y2))); V (VM (snd (packOP o y1 y2)))])], memq a0 src a1 buf)
     (SDecl (tn "auto") [] :: SExpr e_st :: T_tl)) (fun '(r, s2) => match r with None => mret (leave (if t then 19 else 18)%nat s2) | Some _ => None end)).
  { destruct t; reflexivity. }
  change (20 + (23 + f))%nat with (S (S (41 + f))). rewrite ex_nil, ex_expr.
  change e_st with (ECall (Ty "array_tuple_execute" None None) l_st). change (41 + f)%nat with (S (40 + f)). rewrite ev_call.
  change (40 + f)%nat with (10 + (30 + f))%nat at 1. rewrite args_st. cbn [mb].
  refine (eq_trans (f_equal (fun z => mb (mb (mb z _) _) _) (inv_exec u lf (39 + f) _ _ _ _ _ (VP (Ptr (OnQ 1) pos 0 TQuat)) _ _ _ _)) _); [destruct t; reflexivity|].
  cbn [List.length seq fold_right binary padd mb mret combine map Z.of_nat Pos.of_succ_nat]. rewrite Z.add_0_r.
  change (V (VP (Ptr (OnQ 1) pos 0 TQuat)) : pval) with (qp (K := K) 1 pos). change (V (VP (Ptr (OnQ 1) (pos + 1) 0 TQuat)) : pval) with (qp (K := K) 1 (pos + 1)).
  refine (eq_trans (f_equal (fun z => mb (mb (mb (mb z _) _) _) _) (ce2 (36 + f) _ _ _ _)) _).
  change (S (S (36 + f))) with (20 + (18 + f))%nat. change (S (36 + f)) with (20 + (17 + f))%nat.
  rewrite store_1. change (vst false a1 buf pos) with (vst false 0 buf pos).
  destruct (vst false 0 buf pos (fst (packOP o y1 y2))) as [b1| |]; try reflexivity. cbn [mb bind].
  rewrite store_1. change (vst false a1 b1 (pos + 1)) with (vst false 0 b1 (pos + 1)).
  destruct (vst false 0 b1 (pos + 1) (snd (packOP o y1 y2))) as [b2| |]; try reflexivity. cbn [mb mret].
  change (S (40 + f)) with (30 + (11 + f))%nat. rewrite tail_e. cbn [mb oput]. destruct t; reflexivity.
Qed.
End E.
