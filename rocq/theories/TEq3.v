From Coq Require Import ZArith Bool Ascii String List Lia.
From Verif Require Import Num Res ResFacts MQuat MSimd MOptL1 MPack CSyntax CPre CSem CSrc CProg CLinkG TSrc TSyntax TParse TSem MSrcT TEq TEq2.
Import ListNotations.
Local Open Scope string_scope.
Local Open Scope Z_scope.

(** ** one step of the interpreter *)
Section G.
Context {K : num} (w : tunit) (lf : nat).
Local Notation exec := (exec w (K := K) lf).
Local Notation eval := (eval w (K := K) lf).
Local Notation call := (call w (K := K) lf).
Local Notation call_each := (call_each w (K := K) lf).
Local Notation invoke := (invoke w (K := K) lf).
Local Notation evals := (evals w (K := K) lf).
Lemma ex_decl f sc en s t k x e l : exec (S f) sc en s (SDecl t [(k, x, Some e)] :: l) =
  mb (eval f sc en s e) (fun '((v, _), s) => if declared t k v then let '(s1, n) := alloc (fst s) (Some v) in exec f sc ((x, n) :: en) (s1, snd s) (SDecl t [] :: l) else None).
Proof. reflexivity. Qed.
Lemma ex_nil f sc en s t l : exec (S f) sc en s (SDecl t [] :: l) = exec f sc en s l.
Proof. reflexivity. Qed.
Lemma ex_expr f sc en s e l : exec (S f) sc en s (SExpr e :: l) = mb (eval f sc en s e) (fun '(_, s) => exec f sc en s l).
Proof. reflexivity. Qed.
Lemma ev_call f sc en s q l : eval (S f) sc en s (ECall q l) = mb (evals f sc en s l) (fun '(l, s) => mb (invoke f sc en s q l) (fun '(v, s) => mret ((v, None), s))).
Proof. reflexivity. Qed.
Lemma ce_nil f s c : call_each (S f) s c [] = mret ([], s).
Proof. reflexivity. Qed.
Lemma ce_cons f s c l ls : call_each (S f) s c (l :: ls) = mb (call f s c l) (fun '(v, s) => mb (call_each f s c ls) (fun '(vs, s) => mret (v :: vs, s))).
Proof. reflexivity. Qed.
Definition tests f sc en e := fun s : st => mb (eval f sc en s e) (fun '((v, _), s) => match v with V v => mb (truth v) (fun b => mret (b, s)) | _ => None end).
Definition blk f sc en b := fun s : st => mb (exec f sc en s b) (fun '(r, s2) => match r with None => mret (leave (List.length (fst s)) s2) | Some _ => None end).
Lemma ex_if f sc en s c b l : exec (S f) sc en s (SIf c b :: l) = mb (tests f sc en c s) (fun '(t, s) => if t then mb (blk f sc en b s) (fun s => exec f sc en s l) else exec f sc en s l).
Proof. reflexivity. Qed.
Lemma ex_for f sc en s i c p b l : exec (S f) sc en s (SFor i c p b :: l) =
  mb (blk f sc en [i] s) (fun s => mb (while_ lf (tests f sc en c) (fun s => mb (blk f sc en b s) (blk f sc en [p])) s) (fun s => exec f sc en s l)).
Proof. reflexivity. Qed.
Lemma ex_do f sc en s b c l : exec (S f) sc en s (SDo b c :: l) = mb (do_ lf (tests f sc en c) (blk f sc en b) s) (fun s => exec f sc en s l).
Proof. reflexivity. Qed.
Lemma ex_end f sc en s : exec (S f) sc en s [] = mret (None, s).
Proof. reflexivity. Qed.
Lemma inv_local f sc en s q l n c : local en q = Some n -> sget (fst s) n = mret c -> invoke (S f) sc en s q l = call f s c l.
Proof. intros E1 E2. cbn [TSem.invoke]. rewrite E1, E2. reflexivity. Qed.
Lemma inv_apply_n f sc en s t z op n1 vs n2 : canon w tfuel sc t = Some (TyZ z) -> invoke (S f) sc en s (Ty "apply_n" (Some [t]) None) [(op, n1); (PTup vs, n2)] =
  if Z.of_nat (List.length vs) <=? z then
    mb (call_each f s op (map (fun v => [(v, None)]) vs ++ repeat [] (Z.to_nat z - List.length vs))%list) (fun '(vs, s) => mret (PTup vs, s)) else None.
Proof. intros E. cbn [TSem.invoke local casts get0 String.eqb Ascii.eqb Bool.eqb orb]. rewrite E. reflexivity. Qed.
Lemma inv_exec f sc en s op n1 p n2 vs n3 : local en (Ty "array_tuple_execute" None None) = None -> invoke (S f) sc en s (Ty "array_tuple_execute" None None) [(op, n1); (V p, n2); (PTup vs, n3)] =
  mb (fold_right (fun i acc => mb (binary BAdd p (VZ (Z.of_nat i))) (fun v => mb acc (fun ps => mret (V v :: ps)))) (mret []) (seq 0 (List.length vs)))
     (fun ps => mb (call_each f s op (map (fun '(p, v) => [(p, None); (v, None)]) (combine ps vs))) (fun '(_, s) => mret (PVoid, s))).
Proof. intros E. cbn [TSem.invoke]. rewrite E. reflexivity. Qed.
Lemma call_clo f s en sc ps b l en' t : bind_args ps l en (fst s) = Some (en', t) ->
  call (S f) s (PClo en sc ps b) l = mb (exec f sc en' (t, snd s) b) (fun '(r, s2) => mret (match r with Some v => v | None => PVoid end, leave (List.length (fst s)) s2)).
Proof. intros E. cbn [TSem.call]. rewrite E. reflexivity. Qed.
Lemma call_over f s cs l c : find (fun c => match c with PClo _ _ ps _ => Nat.eqb (List.length ps) (List.length l) | _ => false end) cs = Some c -> call (S f) s (POver cs) l = call f s c l.
Proof. intros E. cbn [TSem.call]. rewrite E. reflexivity. Qed.
End G.
