From Coq Require Import ZArith Bool Ascii String List Lia.
From Verif Require Import Num Res ResFacts MQuat MSimd MOptL1 MPack CSyntax CPre CSem CSrc CProg CLinkG TSrc TSyntax TParse TSem MSrcT TEq TEq2 TEq3 TEq4.
Import ListNotations.
Local Open Scope string_scope.
Local Open Scope Z_scope.

Section E.
Context {K : num} (lf : nat).
Local Notation exec := (exec u (K := K) lf).
Local Notation call := (call u (K := K) lf).
Local Notation pval := (pval (K := K)).
Local Notation qarr := (arr (quat K)).
Ltac lz := lazy -[Z.add Z.mul vld vst mm256_mul mm256_hsub mm256_broadcast mm256_unpacklo mm256_unpackhi mm256_permute2f128 mm256_permute MULDQ_NN QCONJ_256D v_of_q q_of_v mm256_zero mm256_xorsign set256].
Definition e_load (t : bool) : env := ("t", if t then 19%nat else 18%nat) :: if t then eT14 else eN13.
Definition x_load : texpr := Eval vm_compute in match T_load with [(_, [SDecl _ [(_, _, Some e)]; _]); _] => e | _ => EInt 0 end.
Lemma load_e t f o cj al m n e ld v w x xp col p a0 (src : qarr) a1 buf : let s := (stP t o cj al m n e ld v w x xp [Some col; Some (qp 0 p)], memq a0 src a1 buf) in
  eval u lf (37 + f) (sc o cj) (e_load t) s x_load = match src p with Some q => Some (Ok ((V (VM (v_of_q q)), None), s)) | None => Some UB end.
Proof. intros s. subst s. destruct t, o, cj. all: lz; rewrite vldf; destruct (src p); reflexivity. Qed.
Definition q_load := Eval vm_compute in match T_load with [(ps, [SDecl t [(k, x, Some e)]; r]); _] => (ps, t, k, x, r) | _ => ([], tn "", O, "", SRet None) end.
Lemma load_1 t f o cj al m n e ld v w x xp col p a0 (src : qarr) a1 buf : let s := (stP t o cj al m n e ld v w x xp [Some col], memq a0 src a1 buf) in
  call (40 + f) s (cLoad t o cj) [(qp 0 p, None)] = match src p with Some q => Some (Ok (V (VM (preOP cj al (v_of_q q))), s)) | None => Some UB end.
Proof.
  intros s. subst s.
  transitivity (call (39 + f) (stP t o cj al m n e ld v w x xp [Some col], memq a0 src a1 buf) (PClo (if t then eT14 else eN13) (sc o cj) (fst (fst (fst (fst q_load)))) [SDecl (snd (fst (fst (fst q_load)))) [(snd (fst (fst q_load)), snd (fst q_load), Some x_load)]; snd q_load]) [(qp 0 p, None)]).
  { destruct t; refine (call_over u lf (39 + f) _ _ _ _ _); reflexivity. }
  change (39 + f)%nat with (S (38 + f))%nat.
  rewrite call_clo with (en' := e_load t) (t := stP t o cj al m n e ld v w x xp [Some col; Some (qp 0 p)]) by (destruct t; reflexivity).
  change (38 + f)%nat with (S (37 + f))%nat. rewrite ex_decl. cbn [snd]. rewrite load_e. destruct (src p) as [q|]; [|reflexivity]. cbn [mb].
  destruct t, o, cj, al as [[a|z|h]|]. all: lz; reflexivity.
Qed.
End E.
