From Coq Require Import ZArith Bool Ascii String List Lia.
From Verif Require Import Num Res ResFacts MQuat MSimd MOptL1 MPack CSyntax CPre CSem CSrc CProg CLinkG TSrc TSyntax TParse TSem MSrcT TEq TEq2 TEq3 TEq4 TEq5 TEq6 TEq7 TEq8 TEq9 TEq10.
Import ListNotations.
Local Open Scope string_scope.
Local Open Scope Z_scope.
Definition pname (t : bool) : string := if t then "TPACK" else "NPACK".
Definition pf (t : bool) : tfunc := if t then fT else fN.
Lemma find_pf (t : bool) : find (fun fn => String.eqb (tf_name fn) (pname t)) (tu_funcs u) = Some (pf t).
Proof. destruct t; vm_compute; reflexivity. Qed.
Definition tys (o : packop) (cj : bool) : list ty := match targs_of (ops_text o cj) with Some l => l | None => [] end.
Lemma tys_ok o cj : targs_of (ops_text o cj) = Some (tys o cj).
Proof. destruct o, cj; vm_compute; reflexivity. Qed.
Definition cts (o : packop) (cj : bool) : list ty := match oseq (map (canon u tfuel (Scope [] None)) (tys o cj)) with Some l => l | None => [] end.
Lemma cts_ok o cj : oseq (map (canon u tfuel (Scope [] None)) (tys o cj)) = Some (cts o cj).
Proof. destruct o, cj; vm_compute; reflexivity. Qed.
Lemma sc_ok t o cj : Scope (combine (tf_tpars (pf t)) (cts o cj)) None = sc o cj.
Proof. destruct t, o, cj; vm_compute; reflexivity. Qed.
Definition pre_ (t : bool) := if t then T_pre else N_pre.
Lemma body_eq t : tf_body (pf t) = (pre_ t ++ rest_ t)%list.
Proof. destruct t; reflexivity. Qed.
Section E.
Context {K : num}.
Local Notation pval := (pval (K := K)).
Local Notation qarr := (arr (quat K)).
Lemma bind_ok t (al : option (scal K)) m n e ld : bind_args (tf_params (pf t))
   (map (fun v => (V v, None)) ([VZ m; VZ n; VP (Ptr (OnQ 0) e 0 TQuat); VZ ld; VP (Ptr (OnQ 1) 0 0 TQuat)] ++ match al with Some al => [val_of al] | None => [] end)) [] [] = Some (eT6, st0 al m n e ld).
Proof. destruct t, al as [[a|z|q]|]; reflexivity. Qed.
Theorem tpack_src_ok (t fma : bool) (fuel : nat) o cj (al : option (scal K)) m n e ld a0 (src : qarr) a1 buf :
  (Z.to_nat (bnd t m n) < fuel)%nat -> (Z.to_nat (Z.quot (cnt t m n) 2) <= fuel)%nat ->
  tpack_src fma fuel (pname t) (ops_text o cj) m n e ld al a0 src a1 buf =
  oput (pack_ t o cj al m n src e ld buf) (fun b => ([(a0, DQ src); (a1, DQ b)], PVoid)).
Proof.
  intros HB HC. unfold tpack_src. rewrite unit_u. cbn [obind]. rewrite tys_ok. cbn [obind]. unfold tcall. rewrite find_pf, cts_ok, sc_ok.
  change 200%nat with (S 199).
  rewrite (call_clo u fuel 199 ([], [(a0, DQ src); (a1, DQ buf)]) [] (sc o cj) _ _ _ _ _ (bind_ok t al m n e ld)).
  rewrite body_eq. cbn [snd].
  assert (EP : exists f, TSem.exec u fuel 199 (sc o cj) eT6 (st0 al m n e ld, [(a0, DQ src); (a1, DQ buf)]) (pre_ t ++ rest_ t) =
     TSem.exec u fuel (100 + f) (sc o cj) (eo t) (stP t o cj al m n e ld None None (qp 0 e) (qp 1 0) [], memq a0 src a1 buf) (rest_ t)).
  { destruct t.
    - exists 73%nat. exact (proj2 (exec_app u fuel 199 T_pre _ _ _ T_rest _ _ _ eq_refl (pre_T fuel 99 o cj al m n e ld _))).
    - exists 77%nat. exact (proj2 (exec_app u fuel 199 N_pre _ _ _ N_rest _ _ _ eq_refl (pre_N fuel 99 o cj al m n e ld _))). }
  destruct EP as [f EP]. rewrite EP.
  pose proof (rest_ok fuel t f o cj al m n e ld a0 src a1 buf HB HC) as HR. unfold gives in HR.
  destruct (pack_ t o cj al m n src e ld buf) as [b| |].
  - destruct HR as [s HR]. rewrite HR. reflexivity.
  - rewrite HR. reflexivity.
  - rewrite HR. reflexivity.
Qed.
End E.
