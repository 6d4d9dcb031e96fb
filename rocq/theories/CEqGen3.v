(** The generic GEMM template, run from the text, has the outcome of the model of MGenL2.v. *)
From Coq Require Import ZArith Bool Ascii String List Lia.
From Verif Require Import Num Res MQuat MSimd MOptL1 MGenL1 MGenL2 CSyntax CParse CSem CSimFacts CTac CStep CTacG CEqGen2 CProgG CObjGen CLinkG.
Import ListNotations. Local Open Scope string_scope. Local Open Scope Z_scope.

Lemma x_orand2 {K : num} (a b c d : bool) :
  (if a then mret (VB (K:=K) true) else mb (mb (mb (mb (mb (mret b) (fun x : bool => if x then mret (VB (K:=K) true) else mret (VB c))) truth)
     (fun x : bool => if x then mret (VB (K:=K) d) else mret (VB false))) truth) (fun y : bool => mret (VB y)))
  = mret (VB (a || (b || c) && d)).
Proof. destruct a, b, c, d; reflexivity. Qed.
Section S.
Context {K : num}.
(** the text adds the column offset first *)
Ltac gcomm :=
  gnorm;
  lazymatch goal with
  | |- sim _ _ (mb (Some (bind (ld _ (?b * ?c + ?i)) _)) _) => rewrite ?(Z.add_comm (b * c) i)
  | |- sim _ _ (mb (Some (bind (Res.st _ (?b * ?c + ?i) _) _)) _) => rewrite ?(Z.add_comm (b * c) i)
  | _ => idtac
  end.
Ltac grun3 := repeat (gsteps; gcomm; gdata); gsteps.
(** the body of an innermost loop *)
Ltac gin unf := gbody; unf; change (q_addeq (K:=_)) with (@q_add _); grun3; gok; first [reflexivity | eexists; reflexivity].
(** a loop over the rows of a column of C *)
Ltac rowloop MM unf fin :=
  lazymatch goal with |- context [exec _ _ _ _ _ _ (?en, _)] =>
    gfor (fun (i : Z) c s => s = (puts en [(28%nat, Some (VZ i))], MM c)) end;
  [ intros ? ? ? ->; gcond
  | let Hi := fresh "Hi" in intros ? ? ? Hi ->; gbody; unf; grun3; gok; reflexivity
  | reflexivity | lia
  | let c1 := fresh "c" in let s := fresh "s" in let fl := fresh "fl" in let E := fresh "E" in let Es := fresh "Es" in
    intros c1 [s fl] [E (? & ? & Es)]; cbn in E, Es; subst fl s; fin ].
(** the loop over the columns of C *)
Ltac colloop MM :=
  lazymatch goal with |- context [exec _ _ _ _ _ _ (?en, _)] =>
    gfor (fun (j : Z) c s => exists i l h pc pb pr pa, s = (puts en [(28%nat, i); (29%nat, Some (VZ j)); (30%nat, l); (31%nat, h); (32%nat, pc); (33%nat, pb); (34%nat, pr); (35%nat, pa)], MM c)) end;
  [ intros ? ? ? (? & ? & ? & ? & ? & ? & ? & ->); gcond
  | let j := fresh "j" in let c1 := fresh "c" in let Hj := fresh "Hj" in
    intros j c1 ? Hj (? & ? & ? & ? & ? & ? & ? & ->); gbody
  | do 7 eexists; reflexivity | lia
  | let c1 := fresh "c" in let s := fresh "s" in let fl := fresh "fl" in let E := fresh "E" in let Es := fresh "Es" in
    intros c1 [s fl] [E (? & ? & ? & ? & ? & ? & ? & ? & ? & Es)]; cbn in E, Es; subst fl s; gsteps; apply sim_ok; reflexivity ].
Ltac colend := gsteps; gok; do 7 eexists; reflexivity.
Ltac gcase := lazymatch goal with |- sim _ _ (if ?b then _ else _) => destruct b end; cbn [negb]; gsteps.
(** loop over l, columns of A; B is read at a column of its own *)
Ltac lloopN MM unf :=
  lazymatch goal with |- context [exec _ _ _ _ _ _ (?en, _)] =>
    gfor (fun (l : Z) c s => exists i pa, s = (puts en [(28%nat, i); (30%nat, Some (VZ l)); (35%nat, pa)], MM c)) end;
  [ intros ? ? ? (? & ? & ->); gcond
  | intros ? ? ? ? (? & ? & ->); gbody; gsteps; rowloop MM unf ltac:(gsteps; gok; do 2 eexists; reflexivity)
  | do 2 eexists; reflexivity | lia
  | let c1 := fresh "c" in let s := fresh "s" in let fl := fresh "fl" in let E := fresh "E" in let Es := fresh "Es" in
    intros c1 [s fl] [E (? & ? & ? & ? & Es)]; cbn in E, Es; subst fl s; colend ].
Ltac lloopT MM unf :=
  lazymatch goal with |- context [exec _ _ _ _ _ _ (?en, _)] =>
    gfor (fun (l : Z) c s => exists i pb pa, s = (puts en [(28%nat, i); (30%nat, Some (VZ l)); (33%nat, pb); (35%nat, pa)], MM c)) end;
  [ intros ? ? ? (? & ? & ? & ->); gcond
  | intros ? ? ? ? (? & ? & ? & ->); gbody; gsteps; rowloop MM unf ltac:(gsteps; gok; do 3 eexists; reflexivity)
  | do 3 eexists; reflexivity | lia
  | let c1 := fresh "c" in let s := fresh "s" in let fl := fresh "fl" in let E := fresh "E" in let Es := fresh "Es" in
    intros c1 [s fl] [E (? & ? & ? & ? & ? & Es)]; cbn in E, Es; subst fl s; colend ].
Ltac nota MM unf lloop :=
  unfold gemm_nota; cbn [s_eqb]; gsteps; colloop MM; gto_if (EVar 24);
  lazymatch goal with |- context [exec _ _ _ _ _ _ (?en, ?me)] =>
    gcut (fun c (o : st K * flow K) => exists i : option (val K), o = ((puts en [(28%nat, i)], MM c), Next)) end;
  [ rewrite (x_end (exec _ _ _ _ _ _ _)); gsteps; gcase;
    [ rowloop MM ltac:(unf) ltac:(gsteps; apply sim_ok; eexists; reflexivity)
    | gcase; [ rowloop MM ltac:(unf) ltac:(gsteps; apply sim_ok; eexists; reflexivity) | apply sim_ok; eexists; reflexivity ] ]
  | let c1 := fresh "c" in intros c1 ? (? & ->); cbn [puts put]; gsteps; lloop MM unf ].
Ltac transa MM unf :=
  unfold gemm_transa; cbn [s_eqb]; gsteps; colloop MM; gsteps;
  lazymatch goal with |- context [exec _ _ _ _ _ _ (?en, _)] =>
    gfor (fun (i : Z) c s => exists l h pa, s = (puts en [(28%nat, Some (VZ i)); (30%nat, l); (31%nat, h); (35%nat, pa)], MM c)) end;
  [ intros ? ? ? (? & ? & ? & ->); gcond
  | let i := fresh "i" in let c2 := fresh "c" in intros i c2 ? ? (? & ? & ? & ->); gbody; gsteps;
    lazymatch goal with |- context [exec _ _ _ _ _ _ (?en, ?me)] =>
      gfor (fun (l : Z) h s => s = (puts en [(30%nat, Some (VZ l)); (31%nat, Some (VQ h))], me)) end;
    [ intros ? ? ? ->; gcond
    | intros ? ? ? ? ->; gbody; unf; grun3; gok; reflexivity
    | reflexivity | lia
    | let h := fresh "h" in let s := fresh "s" in let fl := fresh "fl" in let E := fresh "E" in let Es := fresh "Es" in
      intros h [s fl] [E (? & ? & Es)]; cbn in E, Es; subst fl s; gsteps; gcase; unf; grun3; gok; do 3 eexists; reflexivity ]
  | do 3 eexists; reflexivity | lia
  | let c1 := fresh "c" in let s := fresh "s" in let fl := fresh "fl" in let E := fresh "E" in let Es := fresh "Es" in
    intros c1 [s fl] [E (? & ? & ? & ? & ? & Es)]; cbn in E, Es; subst fl s; colend ].

Lemma gsrc_gemm_real ta tb m n k (alpha : K) aa a lda ba b ldb (beta : K) ca c ldc fuel :
  (Z.to_nat m < fuel)%nat -> (Z.to_nat n < fuel)%nat -> (Z.to_nat k < fuel)%nat ->
  sim (fun r o => o = ([(aa, DK a); (ba, DQ b); (ca, DQ r)], None))
    (gemm_real q_mul ta tb m n k alpha a lda b ldb beta c ldc)
    (ccall (K:=K) (unit_gemm_g TDouble TDouble TDouble) no_ext fuel "HBLAS_GEMM"
      [VChr ta; VChr tb; VZ m; VZ n; VZ k; VK alpha; VP (Ptr (OnK 0) 0 0 TDouble); VZ lda; ptr 1; VZ ldb; VK beta; ptr 2; VZ ldc]
      [(aa, DK a); (ba, DQ b); (ca, DQ c)]).
Proof.
  intros Hm Hn Hk. gstart (unit_gemm_g TDouble TDouble TDouble) (g_gemm TDouble TDouble TDouble) (unit_gemm_g_eq TDouble TDouble TDouble).
  cbv beta delta [g_gemm]. gopen. gto_if (EVar 13). unfold gemm_real, gemm_gen. cbn [s_eqb].
  lazymatch goal with |- context [exec _ _ _ _ _ _ (?en, ?me)] =>
    gcut0 (fun (_ : unit) (o : st K * flow K) => exists u v, o = ((puts en [(17%nat, u); (18%nat, v)], me), Next)) end.
  { rewrite (x_end (exec _ _ _ _ _ _ _)). gsteps. destruct (ta =? "N")%char; gsteps; apply sim_ok; eexists _, _; reflexivity. }
  intros _ o (u17 & u18 & ->). cbn [puts put]. gto_if (EVar 14).
  lazymatch goal with |- context [exec _ _ _ _ _ _ (?en, ?me)] =>
    gcut0 (fun (_ : unit) (o : st K * flow K) => exists u, o = ((puts en [(19%nat, u)], me), Next)) end.
  { rewrite (x_end (exec _ _ _ _ _ _ _)). gsteps. destruct (tb =? "N")%char; gsteps; apply sim_ok; eexists; reflexivity. }
  intros _ o (u19 & ->). cbn [puts put]. gsteps.
  rewrite x_orand2. gsteps.
  destruct ((m =? 0) || (n =? 0) || (neqb alpha n0 || (k =? 0)) && neqb beta n1); gsteps; [apply sim_ok; reflexivity|].
  destruct (neqb alpha n0); gsteps.
  { gcase; colloop (fun c : arr (quat K) => [(aa, DK a); (ba, DQ b); (ca, DQ c)]); gsteps; rowloop (fun c : arr (quat K) => [(aa, DK a); (ba, DQ b); (ca, DQ c)]) ltac:(unfold gemm_scale; cbn [smul_l]) ltac:(colend). }
  Local Ltac ur := unfold gemm_scale; cbn [smul_l rmulscal]; change (@q_addeq) with (@q_add).
  gcase.
  - gcase; [nota (fun c : arr (quat K) => [(aa, DK a); (ba, DQ b); (ca, DQ c)]) ltac:(ur) lloopN|]. gcase; transa (fun c : arr (quat K) => [(aa, DK a); (ba, DQ b); (ca, DQ c)]) ltac:(ur).
  - gcase.
    + gcase; nota (fun c : arr (quat K) => [(aa, DK a); (ba, DQ b); (ca, DQ c)]) ltac:(ur) lloopT.
    + gcase; gcase; transa (fun c : arr (quat K) => [(aa, DK a); (ba, DQ b); (ca, DQ c)]) ltac:(ur).
Qed.
End S.
