From Coq Require Import ZArith Bool Ascii String List Lia.
From Verif Require Import Num Res ResFacts MQuat MSimd MOptL1 MPack CSyntax CPre CSem CSrc CProg CLinkG TSrc TSyntax TParse TSem MSrcT TEq.
Import ListNotations.
Local Open Scope string_scope.
Local Open Scope Z_scope.

(** the four packing operations, as written in gemm.cxx *)
Definition ops_text (o : packop) (cj : bool) : string :=
  match o, cj with
  | T1, false => "2,quaternion<double>,GenericPackOps_T1<>" | T1, true => "2,quaternion<double>,ConjPackOps_T1<>"
  | T2, false => "2,quaternion<double>,GenericPackOps_T2<>" | T2, true => "2,quaternion<double>,ConjPackOps_T2<>"
  end.
Definition targs_c (ta : string) : list ty := match targs_of ta with Some l => match oseq (map (canon u tfuel (Scope [] None)) l) with Some l => l | None => [] end | None => [] end.
Definition sc_of (o : packop) (cj : bool) : scope := Scope (combine ["PK"; "T"; "PackOps"; "Args"] (targs_c (ops_text o cj))) None.
Definition sc_T1f := Eval vm_compute in sc_of T1 false.
Definition sc_T1t := Eval vm_compute in sc_of T1 true.
Definition sc_T2f := Eval vm_compute in sc_of T2 false.
Definition sc_T2t := Eval vm_compute in sc_of T2 true.
Definition sc (o : packop) (cj : bool) : scope := match o, cj with T1, false => sc_T1f | T1, true => sc_T1t | T2, false => sc_T2f | T2, true => sc_T2t end.

(** the lambdas of a body: those in the initialiser of the variable [x] *)
Definition lams (b : list tstmt) (x : string) : list (list tparam * list tstmt) :=
  fold_right (fun s l => match s with
    | SDecl _ [(_, y, Some e)] => if String.eqb x y then match e with ELam ps b => [(ps, b)] | ECall _ es => map (fun e => match e with ELam ps b => (ps, b) | _ => ([], []) end) es | _ => l end else l
    | _ => l end) [] b.
Definition lamT x := lams (tf_body fT) x.
Definition lamN x := lams (tf_body fN) x.
Definition T_load := Eval vm_compute in lamT "load_preOP".
Definition T_inc := Eval vm_compute in lamT "ptrInc".
Definition T_store := Eval vm_compute in lamT "store".
Definition T_body := Eval vm_compute in lamT "loopBody".
Definition N_load := Eval vm_compute in lamN "load_preOP".
Definition N_inc := Eval vm_compute in lamN "ptrInc".
Definition N_store := Eval vm_compute in lamN "store".
Definition N_body := Eval vm_compute in lamN "loopBody".
Definition T_names : list string := ["M"; "N"; "X"; "LDX"; "Xp"; "args"; "NLOAD"; "i"; "j"; "_x"; "_x1"; "_x2"; "_xp"; "alpha"; "load_preOP"; "ptrInc"; "store"; "loopBody"].
Definition N_names : list string := ["M"; "N"; "X"; "LDX"; "Xp"; "args"; "i"; "j"; "_x"; "_x1"; "_x2"; "_xp"; "alpha"; "load_preOP"; "ptrInc"; "store"; "loopBody"].
Definition mkenv (l : list string) (n : nat) : env := rev (firstn n (combine l (seq 0 (List.length l)))).
Definition T_env := Eval vm_compute in mkenv T_names.
Definition eT14 := Eval vm_compute in mkenv T_names 14.
Definition eT15 := Eval vm_compute in mkenv T_names 15.
Definition eT16 := Eval vm_compute in mkenv T_names 16.
Definition eT17 := Eval vm_compute in mkenv T_names 17.
Definition eT18 := Eval vm_compute in mkenv T_names 18.
Definition eN13 := Eval vm_compute in mkenv N_names 13.
Definition eN14 := Eval vm_compute in mkenv N_names 14.
Definition eN15 := Eval vm_compute in mkenv N_names 15.
Definition eN16 := Eval vm_compute in mkenv N_names 16.
Definition eN17 := Eval vm_compute in mkenv N_names 17.

Section E.
Context {K : num} (lf : nat).
Local Notation exec := (exec u (K := K) lf).
Local Notation pval := (pval (K := K)).
Definition clo (en : env) (sc : scope) (l : list (list tparam * list tstmt)) : pval := match l with [(ps, b)] => PClo en sc ps b | _ => PVoid end.
Definition clos (en : env) (sc : scope) (l : list (list tparam * list tstmt)) : pval := POver (map (fun '(ps, b) => PClo en sc ps b) l).
Definition alv (al : option (scal K)) : pval :=
  match al with
  | None => PRec "null_t" []
  | Some (SR a) => PRec "real_t" [V (VM (mm256_broadcast a))]
  | Some (SC z) => PRec "complex_t" [V (VM (fst (load_cplx z))); V (VM (snd (load_cplx z)))]
  | Some (SH q) => PRec "quaternion_t" [V (VM (v_of_q q))]
  end.
Definition qp (b : nat) (e : Z) : pval := V (VP (Ptr (OnQ b) e 0 TQuat)).
Definition argv (al : option (scal K)) : pval := PTup (match al with Some al => [V (val_of al)] | None => [] end).
(** the variables of TPACK once the lambdas are made *)
Definition stT (o : packop) (cj : bool) (al : option (scal K)) (m n e ld : Z) (i j : option pval) (x xp : pval) : store :=
  let s := sc o cj in
  [Some (V (VZ m)); Some (V (VZ n)); Some (qp 0 e); Some (V (VZ ld)); Some (qp 1 0); Some (argv al); Some (V (VZ 1)); i; j; Some x; None; None; Some xp; Some (alv al);
   Some (clos eT14 s T_load); Some (clo eT15 s T_inc); Some (clo eT16 s T_store); Some (clo eT17 s T_body)].
Definition stN (o : packop) (cj : bool) (al : option (scal K)) (m n e ld : Z) (i j : option pval) (x xp : pval) : store :=
  let s := sc o cj in
  [Some (V (VZ m)); Some (V (VZ n)); Some (qp 0 e); Some (V (VZ ld)); Some (qp 1 0); Some (argv al); i; j; Some x; None; None; Some xp; Some (alv al);
   Some (clos eN13 s N_load); Some (clo eN14 s N_inc); Some (clo eN15 s N_store); Some (clo eN16 s N_body)].
Definition st0 (al : option (scal K)) (m n e ld : Z) : store := [Some (V (VZ m)); Some (V (VZ n)); Some (qp 0 e); Some (V (VZ ld)); Some (qp 1 0); Some (argv al)].
Definition eT6 := Eval vm_compute in mkenv T_names 6.
Definition T_pre := Eval vm_compute in firstn 14 (tf_body fT).
Definition N_pre := Eval vm_compute in firstn 11 (tf_body fN).
Definition T_rest := Eval vm_compute in skipn 14 (tf_body fT).
Definition N_rest := Eval vm_compute in skipn 11 (tf_body fN).
Ltac lz := lazy -[Z.add Z.mul Z.quot Z.rem Z.ltb Z.leb Z.eqb Z.gtb vld vst mm256_mul mm256_hsub mm256_broadcast mm256_unpacklo mm256_unpackhi mm256_permute2f128 mm256_permute MULDQ_NN QCONJ_256D v_of_q q_of_v mm256_zero mm256_xorsign set256].
Lemma pre_T f o cj al m n e ld mm : exec (100 + f) (sc o cj) eT6 (st0 al m n e ld, mm) (T_pre ++ [probe]) =
  Some (Ok (Some (PClo eT18 (sc o cj) [] []), (stT o cj al m n e ld None None (qp 0 e) (qp 1 0), mm))).
Proof.
  destruct o, cj, al as [[a|z|q]|]. all: lazy; reflexivity.
Qed.
End E.
