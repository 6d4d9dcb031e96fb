(** The generic GEMV template with a real matrix and real scalars, run from the text, has the outcome of the model of MGenL2.v. *)
From Coq Require Import ZArith Bool Ascii String List Lia FunctionalExtensionality.
From Verif Require Import Num Res MQuat MSimd MOptL1 MGenL1 MGenL2 CSyntax CParse CSem CSimFacts CTac CStep CTacG CProgG CObjGen CLinkG.
Import ListNotations. Local Open Scope string_scope. Local Open Scope Z_scope.

(** stop in front of a statement *)
Ltac gto_if c := repeat (lazymatch goal with |- sim _ _ (mb (exec _ _ _ _ _ (SIf c _ _) _) _) => fail | _ => gstep1 end).
(** cut: the statement at the head of the run does what the head of the model does *)
Ltac gcut R := lazymatch goal with |- sim _ (bind ?r ?f) (mb ?x ?g) => refine (sim_bind R _ r x f g _ _) end.
Ltac gcut0 R := lazymatch goal with |- sim _ ?r (mb ?x ?g) => refine (sim_bind R _ (Ok tt) x (fun _ => r) g _ _) end.

Lemma x_orand {K : num} (a b c : bool) :
  (if a then mret (VB (K:=K) true) else mb (mb (mb (mret b) (fun x : bool => if x then mret (VB (K:=K) c) else mret (VB false))) truth) (fun y : bool => mret (VB y)))
  = mret (VB (a || b && c)).
Proof. destruct a, b, c; reflexivity. Qed.
Lemma x_bool {K : num} (b : bool) (c : val K) : (if b then mret c else mret c) = mret c.
Proof. destruct b; reflexivity. Qed.
Lemma upd_upd {A} (a : arr A) i (v w : A) : upd (upd a i v) i w = upd a i w.
Proof. apply functional_extensionality. intros j. unfold upd. destruct (j =? i); reflexivity. Qed.
Lemma ld_upd_same {A} (a : arr A) i (v : A) : ld (upd a i v) i = Ok v.
Proof. unfold ld, upd. rewrite Z.eqb_refl. reflexivity. Qed.
(** a second access to an element just stored *)
Ltac gdata2 :=
  lazymatch goal with
  | |- sim _ _ (mb (Some (bind (ld (upd ?a ?i ?v) ?i) _)) _) => rewrite (ld_upd_same a i v); cbn [bind]
  | |- sim _ _ (mb (Some (bind (Res.st (upd ?a ?i ?v) ?i ?w) _)) _) => rewrite (st_cases' (upd a i v) i v (ld_upd_same a i v) w), (upd_upd a i v w); cbn [bind]
  | _ => gdata
  end.
Ltac grun2 := repeat (gsteps; gnorm; gdata2); gsteps.
Ltac gdone := intros; gsteps; apply sim_ok; reflexivity.

Section S.
Context {K : num}.
Lemma gsrc_gemv_real trans m n (alpha : K) aa a lda xa x incx (beta : K) ya y incy fuel :
  (Z.to_nat m < fuel)%nat -> (Z.to_nat n < fuel)%nat ->
  sim (fun r o => o = ([(aa, DK a); (xa, DQ x); (ya, DQ r)], None))
    (gemv_real q_mul trans m n alpha a lda x incx beta y incy)
    (ccall (K:=K) (unit_gemv_g TDouble TDouble TDouble) no_ext fuel "HBLAS_GEMV"
      [VChr trans; VZ m; VZ n; VK alpha; VP (Ptr (OnK 0) 0 0 TDouble); VZ lda; ptr 1; VZ incx; VK beta; ptr 2; VZ incy]
      [(aa, DK a); (xa, DQ x); (ya, DQ y)]).
Proof.
  intros Hm Hn. gstart (unit_gemv_g TDouble TDouble TDouble) (g_gemv TDouble TDouble TDouble) (unit_gemv_g_eq TDouble TDouble TDouble).
  cbv beta delta [g_gemv]. gopen. gsteps. unfold gemv_real, gemv_gen. cbn [s_eqb]. rewrite !Z.gtb_ltb.
  rewrite x_orand. gsteps.
  destruct ((m =? 0) || (n =? 0) || neqb alpha n0 && neqb beta n1); gsteps; [apply sim_ok; reflexivity|].
  gassert. gsteps. gassert.
  gto_if (EBin BNe (EVar 0) (EChr "N")).
  lazymatch goal with |- context [exec _ _ _ _ _ _ (?en, ?me)] =>
    gcut0 (fun (_ : unit) (o : st K * flow K) => exists lx, o = ((puts en [(12%nat, lx); (13%nat, Some (VZ (if negb (trans =? "N")%char then n else m)))], me), Next)) end.
  { rewrite (x_end (exec _ _ _ _ _ _ _)). gsteps. destruct (trans =? "N")%char; cbn [negb]; gsteps; apply sim_ok; eexists; reflexivity. }
  intros _ o (lx & ->). cbn [puts put].
  assert (Hl : (Z.to_nat (if negb (trans =? "N")%char then n else m) < fuel)%nat) by (destruct (negb _); assumption).
  set (leny := if negb (trans =? "N")%char then n else m) in *. clearbody leny.
  gto_if (EBin BNe (EVar 8) (ECast TDouble (EFlt 1))).
  lazymatch goal with |- context [exec _ _ _ _ _ _ (?en, ?me)] =>
    gcut (fun (y : arr (quat K)) (o : st K * flow K) => exists i iy, o = ((puts en [(14%nat, i); (16%nat, iy)], [(aa, DK a); (xa, DQ x); (ya, DQ y)]), Next)) end.
  { rewrite (x_end (exec _ _ _ _ _ _ _)). gsteps. unfold gemv_beta. cbn [s_eqb smul_l].
    destruct (neqb beta n1); cbn [negb]; gsteps; [apply sim_ok; eexists _, _; reflexivity|].
    destruct (incy =? 1); gsteps; destruct (neqb beta n0); gsteps;
    (lazymatch goal with |- context [exec _ _ _ _ _ _ (?en, _)] =>
      lazymatch goal with
      | |- sim _ (zfor _ _ _ _) _ => gfor (fun (i : Z) (y : arr (quat K)) (s : st K) => s = (puts en [(14%nat, Some (VZ i))], [(aa, DK a); (xa, DQ x); (ya, DQ y)]));
         [ intros ? ? ? ->; gcond | intros ? ? ? Hi ->; gbody; grun; gok; reflexivity | reflexivity | lia
         | intros y1 [s fl] [E (i & ? & Es)]; cbn in E, Es; subst fl s; gsteps; apply sim_ok; eexists _, _; reflexivity]
      | _ => gfor (fun (i : Z) '(y, iy) (s : st K) => s = (puts en [(14%nat, Some (VZ i)); (16%nat, Some (VZ iy))], [(aa, DK a); (xa, DQ x); (ya, DQ y)]));
         [ intros ? [? ?] ? ->; gcond | intros ? [? ?] ? Hi ->; gbody; grun; gok; reflexivity | reflexivity | lia
         | intros [y1 iy] [s fl] [E (i & ? & Es)]; cbn in E, Es; subst fl s; gsteps; apply sim_ok; eexists _, _; reflexivity]
      end end). }
  intros y1 o (i0 & iy0 & ->). cbn [puts put]. gsteps.
  destruct (neqb alpha n0); gsteps; [apply sim_ok; reflexivity|].
  destruct (trans =? "N")%char; gsteps.
  - unfold gemv_n. destruct (incy =? 1); gsteps.
    + lazymatch goal with |- context [exec _ _ _ _ _ _ (?en, _)] =>
        gfor (fun (j : Z) '(y, jx) (s : st K) => exists i h, s = (puts en [(14%nat, i); (15%nat, Some (VZ j)); (17%nat, Some (VZ jx)); (22%nat, h)], [(aa, DK a); (xa, DQ x); (ya, DQ y)]))
      end; [ intros ? [? ?] ? (? & ? & ->); gcond | | eexists _, _; reflexivity | lia
           | intros [y2 jx] [s fl] [E (j & ? & i & h & Es)]; cbn in E, Es; subst fl s; gsteps; apply sim_ok; reflexivity].
      intros j [y2 jx] s Hj (i & h & ->). gbody. grun.
      lazymatch goal with |- context [exec _ _ _ _ _ _ (?en, _)] =>
        gfor (fun (i : Z) (y : arr (quat K)) (s : st K) => s = (puts en [(14%nat, Some (VZ i))], [(aa, DK a); (xa, DQ x); (ya, DQ y)]))
      end; [ intros ? ? ? ->; gcond | | reflexivity | lia
           | intros y3 [s fl] [E3 (i3 & ? & Es)]; cbn in E3, Es; subst fl s; gsteps; gok; eexists _, _; reflexivity].
      intros i3 y3 s Hi ->. gbody. unfold gemv_n_step. cbv zeta. cbn [smul_l rmulscal rscalmul]. change (@q_addeq K) with (@q_add K). grun2. gok. reflexivity.
    + lazymatch goal with |- context [exec _ _ _ _ _ _ (?en, _)] =>
        gfor (fun (j : Z) '(y, jx) (s : st K) => exists i h iy, s = (puts en [(14%nat, i); (15%nat, Some (VZ j)); (16%nat, iy); (17%nat, Some (VZ jx)); (22%nat, h)], [(aa, DK a); (xa, DQ x); (ya, DQ y)]))
      end; [ intros ? [? ?] ? (? & ? & ? & ->); gcond | | eexists _, _, _; reflexivity | lia
           | intros [y2 jx] [s fl] [E (j & ? & i & h & iy & Es)]; cbn in E, Es; subst fl s; gsteps; apply sim_ok; reflexivity].
      intros j [y2 jx] s Hj (i & h & iy & ->). gbody. grun. rewrite bind_bind.
      lazymatch goal with |- context [exec _ _ _ _ _ _ (?en, _)] =>
        gfor (fun (i : Z) '(y, iy) (s : st K) => s = (puts en [(14%nat, Some (VZ i)); (16%nat, Some (VZ iy))], [(aa, DK a); (xa, DQ x); (ya, DQ y)]))
      end; [ intros ? [? ?] ? ->; gcond | | reflexivity | lia
           | intros [y3 iy3] [s fl] [E3 (i3 & ? & Es)]; cbn in E3, Es; subst fl s; gsteps; gok; eexists _, _, _; reflexivity].
      intros i3 [y3 iy3] s Hi ->. gbody. unfold gemv_n_step. cbv zeta. cbn [smul_l rmulscal rscalmul]. change (@q_addeq K) with (@q_add K). grun2. gok. reflexivity.
  - unfold gemv_t. destruct (incx =? 1); gsteps.
    + lazymatch goal with |- context [exec _ _ _ _ _ _ (?en, _)] =>
        gfor (fun (j : Z) '(y, jy) (s : st K) => exists i h, s = (puts en [(14%nat, i); (15%nat, Some (VZ j)); (19%nat, Some (VZ jy)); (22%nat, h)], [(aa, DK a); (xa, DQ x); (ya, DQ y)]))
      end; [ intros ? [? ?] ? (? & ? & ->); gcond | | eexists _, _; reflexivity | lia
           | intros [y2 jx] [s fl] [E (j & ? & i & h & Es)]; cbn in E, Es; subst fl s; gsteps; apply sim_ok; reflexivity].
      intros j [y2 jy] s Hj (i & h & ->). gbody. gsteps. rewrite bind_bind.
      destruct (trans =? "T")%char eqn:ET; gsteps;
      (lazymatch goal with |- context [exec _ _ _ _ _ _ (?en, _)] =>
        gfor (fun (i : Z) (h : quat K) (s : st K) => s = (puts en [(14%nat, Some (VZ i)); (22%nat, Some (VQ h))], [(aa, DK a); (xa, DQ x); (ya, DQ y2)]))
      end; [ intros ? ? ? ->; gcond | | reflexivity | lia
           | intros h3 [s fl] [E3 (i3 & ? & Es)]; cbn in E3, Es; subst fl s; cbn [smul_l]; change (@q_addeq K) with (@q_add K); grun; gok; eexists _, _; reflexivity]);
      (intros i3 h3 s Hi ->; gbody; unfold gemv_dot; change (@q_addeq K) with (@q_add K); grun; gok; reflexivity).
    + lazymatch goal with |- context [exec _ _ _ _ _ _ (?en, _)] =>
        gfor (fun (j : Z) '(y, jy) (s : st K) => exists i h ix, s = (puts en [(14%nat, i); (15%nat, Some (VZ j)); (18%nat, ix); (19%nat, Some (VZ jy)); (22%nat, h)], [(aa, DK a); (xa, DQ x); (ya, DQ y)]))
      end; [ intros ? [? ?] ? (? & ? & ? & ->); gcond | | eexists _, _, _; reflexivity | lia
           | intros [y2 jx] [s fl] [E (j & ? & i & h & ix & Es)]; cbn in E, Es; subst fl s; gsteps; apply sim_ok; reflexivity].
      intros j [y2 jy] s Hj (i & h & ix & ->). gbody. gsteps. rewrite !bind_bind.
      destruct (trans =? "T")%char eqn:ET; gsteps;
      (lazymatch goal with |- context [exec _ _ _ _ _ _ (?en, _)] =>
        gfor (fun (i : Z) '(h, ix) (s : st K) => s = (puts en [(14%nat, Some (VZ i)); (18%nat, Some (VZ ix)); (22%nat, Some (VQ h))], [(aa, DK a); (xa, DQ x); (ya, DQ y2)]))
      end; [ intros ? [? ?] ? ->; gcond | | reflexivity | lia
           | intros [h3 ix3] [s fl] [E3 (i3 & ? & Es)]; cbn in E3, Es; subst fl s; cbn [smul_l]; change (@q_addeq K) with (@q_add K); grun; gok; eexists _, _, _; reflexivity]);
      (intros i3 [h3 ix3] s Hi ->; gbody; unfold gemv_dot; change (@q_addeq K) with (@q_add K); grun; gok; reflexivity).
Qed.
End S.
