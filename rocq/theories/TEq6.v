From Coq Require Import ZArith Bool Ascii String List Lia.
From Verif Require Import Num Res ResFacts MQuat MSimd MOptL1 MPack CSyntax CPre CSem CSrc CProg CLinkG TSrc TSyntax TParse TSem MSrcT TEq TEq2 TEq3 TEq4 TEq5.
Import ListNotations.
Local Open Scope string_scope.
Local Open Scope Z_scope.

Lemma TN_for : T_for = N_for. Proof. reflexivity. Qed.
Definition ex_of (s : tstmt) : texpr := match s with SDecl _ [(_, _, Some e)] => e | SExpr e => e | _ => EInt 0 end.
Definition e_x : texpr := Eval vm_compute in ex_of (nth 0 T_for (SRet None)).
Definition e_xt : texpr := Eval vm_compute in ex_of (nth 1 T_for (SRet None)).
Definition e_st : texpr := Eval vm_compute in ex_of (nth 2 T_for (SRet None)).
Definition l_x : list texpr := Eval vm_compute in match e_x with ECall _ l => l | _ => [] end.
Definition l_st : list texpr := Eval vm_compute in match e_st with ECall _ l => l | _ => [] end.
Definition T_tl : list tstmt := Eval vm_compute in skipn 3 T_for.
Definition ebd (t : bool) : env := if t then eTb else eNb.
Definition exb (t : bool) : env := ("x", if t then 19%nat else 18%nat) :: ebd t.
Definition ext_ (t : bool) : env := ("x_t", if t then 20%nat else 19%nat) :: exb t.
Section E.
Context {K : num} (lf : nat).
Local Notation exec := (exec u (K := K) lf).
Local Notation eval := (eval u (K := K) lf).
Local Notation evals := (evals u (K := K) lf).
Local Notation call := (call u (K := K) lf).
Local Notation pval := (pval (K := K)).
Local Notation qarr := (arr (quat K)).
Ltac lz := lazy -[Z.add Z.mul vld vst mm256_mul mm256_hsub mm256_broadcast mm256_unpacklo mm256_unpackhi mm256_permute2f128 mm256_permute MULDQ_NN QCONJ_256D v_of_q q_of_v mm256_zero mm256_xorsign set256].
Lemma store_1 t f o cj al m n e ld v w x xp c1 c2 c3 pos y a0 (src : qarr) a1 buf : let s := stP t o cj al m n e ld v w x xp [c1; c2; c3] in
  call (20 + f) (s, memq a0 src a1 buf) (cStore t o cj) [(qp 1 pos, None); (V (VM y), None)] =
  match vst false a1 buf pos y with Ok b => Some (Ok (PVoid, (s, memq a0 src a1 b))) | UB => Some UB | Abort => Some Abort end.
Proof. intros s. subst s. destruct t, o, cj. all: lz; destruct (vst false a1 buf pos y); reflexivity. Qed.
Lemma args_x t f o cj al m n e ld v w x xp p1 p2 mm : let s := (stP t o cj al m n e ld v w x xp [Some (ptrs p1 p2)], mm) in
  evals (10 + f) (sc o cj) (ebd t) s l_x = Some (Ok ([(cLoad t o cj, Some (if t then 14 else 13)%nat); (ptrs p1 p2, Some (if t then 18 else 17)%nat)], s)).
Proof. intros s. subst s. destruct t, o, cj. all: lz; reflexivity. Qed.
Lemma op_e t f o cj al m n e ld v w x xp col y1 y2 mm : let s := (stP t o cj al m n e ld v w x xp [Some col; Some (PTup [V (VM y1); V (VM y2)])], mm) in
  eval (20 + f) (sc o cj) (exb t) s e_xt = Some (Ok ((PTup [V (VM (fst (packOP o y1 y2))); V (VM (snd (packOP o y1 y2)))], None), s)).
Proof. intros s. subst s. destruct t, o, cj. all: lz; reflexivity. Qed.
Lemma args_st t f o cj al m n e ld v w x xp c1 c2 c3 mm : let s := (stP t o cj al m n e ld v w x xp [Some c1; Some c2; Some c3], mm) in
  evals (10 + f) (sc o cj) (ext_ t) s l_st = Some (Ok ([(cStore t o cj, Some (if t then 16 else 15)%nat); (xp, Some (if t then 12 else 11)%nat); (c3, Some (if t then 20 else 19)%nat)], s)).
Proof. intros s. subst s. destruct t, o, cj. all: lz; reflexivity. Qed.
Definition inc (t : bool) (ld : Z) : Z := if t then 1 else ld.
Lemma tail_e t f o cj al m n e ld v w x pos p1 p2 c2 c3 mm :
  exec (30 + f) (sc o cj) (ext_ t) (stP t o cj al m n e ld v w x (qp 1 pos) [Some (ptrs p1 p2); Some c2; Some c3], mm) T_tl =
  Some (Ok (None, (stP t o cj al m n e ld v w x (qp 1 (pos + 2)) [Some (ptrs (p1 + inc t ld) (option_map (fun p => p + inc t ld) p2)); Some c2; Some c3], mm))).
Proof. destruct t, o, cj, p2. all: lz; reflexivity. Qed.
End E.
