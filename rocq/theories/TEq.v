(** The texts of NPACK and TPACK against the models of MPack.v. *)
From Coq Require Import ZArith Bool Ascii String List Lia.
From Verif Require Import Num Res ResFacts MQuat MSimd MOptL1 MPack CSyntax CPre CSem CSrc CProg CLinkG TSrc TSyntax TParse TSem MSrcT.
Import ListNotations.
Local Open Scope string_scope.
Local Open Scope Z_scope.

Definition u : tunit := Eval vm_compute in match unit_pack true with Some u => u | None => TUnit [] [] [] [] end.
Lemma unit_u fma : unit_pack fma = Some u. Proof. destruct fma; vm_compute; reflexivity. Qed.
Definition fn (x : string) : tfunc := match find (fun f => String.eqb (tf_name f) x) (tu_funcs u) with Some f => f | None => TFunc [] "" (tn "") [] [] end.
Definition fT : tfunc := Eval vm_compute in fn "TPACK".
Definition fN : tfunc := Eval vm_compute in fn "NPACK".

Section E.
Context {K : num} (u : tunit) (lf : nat).
Local Notation exec := (exec u (K := K) lf).

(** ** straight-line statements *)
Definition probe : tstmt := SRet (Some (ELam [] [])).
Definition straight (s : tstmt) : bool := match s with SDecl _ _ | SAsg _ (EName _) _ | SExpr _ | SStatic _ => true | _ => false end.
Definition cost1 (s : tstmt) : nat := match s with SDecl _ l => S (List.length l) | _ => 1 end.
Definition cost (l : list tstmt) : nat := fold_right (fun s n => cost1 s + n)%nat O l.
Lemma mb_ok {A B} (x : option (res A)) (g : A -> option (res B)) b : mb x g = Some (Ok b) -> exists a, x = Some (Ok a) /\ g a = Some (Ok b).
Proof. destruct x as [[a| |]|]; cbn; intros E; try discriminate. eauto. Qed.
Lemma exec_app : forall F l sc en s rest en' sc' s', forallb straight l = true ->
  exec F sc en s (l ++ [probe]) = Some (Ok (Some (PClo en' sc' [] []), s')) ->
  sc' = sc /\ exec F sc en s (l ++ rest) = exec (F - cost l) sc en' s' rest.
Proof.
  induction F as [|F IH]; intros l sc en s rest en' sc' s' Hs E; [discriminate|].
  destruct l as [|a l].
  - cbn [app] in *. unfold probe in E. cbn [TSem.exec] in E. destruct F as [|F]; [discriminate|]. cbn [TSem.eval mb mret] in E. inversion E; subst. split; reflexivity.
  - cbn [forallb] in Hs. apply andb_prop in Hs. destruct Hs as [Ha Hl]. rewrite <- !app_comm_cons in *.
    destruct a as [t ds|o lh e|e|c b|i c p b|b c|e|e]; try discriminate Ha.
    + destruct ds as [|[[k x] [e|]] ds]; cbn [TSem.exec] in E |- *.
      * destruct (IH l _ _ _ rest _ _ _ Hl E) as [E1 E2]. split; [exact E1|]. exact E2.
      * apply mb_ok in E. destruct E as ([[v n] s1] & E1 & E2). rewrite E1. cbn [mb]. destruct (declared t k v); [|discriminate].
        destruct (alloc (fst s1) (Some v)) as [s2 n2]. destruct (IH (SDecl t ds :: l) _ _ _ rest _ _ _ Hl E2) as [E3 E4]. split; [exact E3|]. exact E4.
      * destruct (alloc (fst s) None) as [s2 n2]. destruct (IH (SDecl t ds :: l) _ _ _ rest _ _ _ Hl E) as [E3 E4]. split; [exact E3|]. exact E4.
    + destruct lh; try discriminate Ha. cbn [TSem.exec] in E |- *. destruct (local en q) as [n|]; [|discriminate].
      apply mb_ok in E. destruct E as ([[v n1] s1] & E1 & E2). rewrite E1. cbn [mb]. destruct (IH l _ _ _ rest _ _ _ Hl E2) as [E3 E4]. split; [exact E3|]. exact E4.
    + cbn [TSem.exec] in E |- *. apply mb_ok in E. destruct E as ([v s1] & E1 & E2). rewrite E1. cbn [mb]. destruct (IH l _ _ _ rest _ _ _ Hl E2) as [E3 E4]. split; [exact E3|]. exact E4.
    + cbn [TSem.exec] in E |- *. apply mb_ok in E. destruct E as ([v s1] & E1 & E2). rewrite E1. cbn [mb]. destruct v; [|discriminate].
      destruct (IH l _ _ _ rest _ _ _ Hl E2) as [E3 E4]. split; [exact E3|]. exact E4.
Qed.
End E.
