(** Facts about the interpreter of CSem.v used to relate a text to a model: simulation of outcomes, loops. *)
From Coq Require Import ZArith Bool Ascii String List Lia.
From Verif Require Import Num Res MQuat MSimd MOptL1 MOptGemm CSyntax CSem.
Import ListNotations.
Local Open Scope Z_scope.

(** the run [x] has the outcome [r], with related results *)
Definition sim {A B} (P : A -> B -> Prop) (r : res A) (x : M B) : Prop :=
  match r with Ok a => exists b, x = Some (Ok b) /\ P a b | UB => x = Some UB | Abort => x = Some Abort end.

Lemma sim_ok {A B} (P : A -> B -> Prop) a b : P a b -> sim P (Ok a) (Some (Ok b)).
Proof. intros Hp. exists b. split; [reflexivity | exact Hp]. Qed.
Lemma sim_bind {A B A' B'} (P : A -> B -> Prop) (Q : A' -> B' -> Prop) r x (f : A -> res A') (g : B -> M B') :
  sim P r x -> (forall a b, P a b -> sim Q (f a) (g b)) -> sim Q (bind r f) (mb x g).
Proof.
  intros Hs Hf. destruct r as [a| |]; cbn in Hs |- *.
  - destruct Hs as (b & -> & Hp). exact (Hf a b Hp).
  - rewrite Hs. reflexivity.
  - rewrite Hs. reflexivity.
Qed.
Lemma sim_weaken {A B} (P Q : A -> B -> Prop) r x : (forall a b, P a b -> Q a b) -> sim P r x -> sim Q r x.
Proof. intros Hw. destruct r; cbn; auto. intros (b & Hx & Hp). exists b. split; [exact Hx | exact (Hw _ _ Hp)]. Qed.
(** steps common to both sides *)
Lemma sim_lift {A B A' B'} (Q : A' -> B' -> Prop) (r : res A) (f : A -> res A') (h : A -> res B) (g : B -> M B') :
  (forall a, r = Ok a -> sim Q (f a) (mb (lift (h a)) g)) -> sim Q (bind r f) (mb (lift (bind r h)) g).
Proof. intros Hf. destruct r as [a| |]; cbn; [exact (Hf a eq_refl) | reflexivity | reflexivity]. Qed.

Section L.
Context {K : num}.
Lemma wloop_sim {S : Type} (R : Z -> S -> st K -> Prop) (c : st K -> M bool) (b : st K -> M (st K * flow K)) hi (mbody : Z -> S -> res S) :
  (forall i s x, R i s x -> c x = mret (i <? hi)) ->
  (forall i s x, i < hi -> R i s x -> sim (fun s' y => snd y = Next /\ R (i + 1) s' (fst y)) (mbody i s) (b x)) ->
  forall n lo s x fuel, n = Z.to_nat (hi - lo) -> R lo s x -> (n < fuel)%nat ->
  sim (fun s' y => snd y = Next /\ exists i, hi <= i /\ R i s' (fst y)) (floop n lo mbody s) (wloop fuel c b x).
Proof.
  intros Hc Hb. induction n as [|n IH]; intros lo s x fuel Hn Hr Hf; (destruct fuel as [|fuel]; [lia|]); cbn [floop wloop].
  - rewrite (Hc _ _ _ Hr). assert (E : (lo <? hi) = false) by (apply Z.ltb_ge; lia). rewrite E. cbn.
    exists (x, Next). split; [reflexivity|]. split; [reflexivity|]. exists lo. split; [lia | exact Hr].
  - rewrite (Hc _ _ _ Hr). assert (E : (lo <? hi) = true) by (apply Z.ltb_lt; lia). rewrite E. cbn [mb mret].
    eapply sim_bind; [apply (Hb lo s x); [lia | exact Hr] |].
    intros s' [x' fl] [E1 E2]. cbn in E1, E2. subst fl. apply IH; [lia | exact E2 | lia].
Qed.
Lemma wfor_sim {S : Type} (R : Z -> S -> st K -> Prop) (c : st K -> M bool) (b : st K -> M (st K * flow K)) lo hi (mbody : Z -> S -> res S) :
  (forall i s x, R i s x -> c x = mret (i <? hi)) ->
  (forall i s x, i < hi -> R i s x -> sim (fun s' y => snd y = Next /\ R (i + 1) s' (fst y)) (mbody i s) (b x)) ->
  forall s x fuel, R lo s x -> (Z.to_nat (hi - lo) < fuel)%nat ->
  sim (fun s' y => snd y = Next /\ exists i, hi <= i /\ R i s' (fst y)) (zfor lo hi mbody s) (wloop fuel c b x).
Proof. intros Hc Hb s x fuel Hr Hf. unfold zfor. eapply wloop_sim; eauto. Qed.
End L.

(** one call level *)
Section R.
Context {K : num}.
Definition callv (fs : list func) ext fuel d : nat -> list (val K) -> mem K -> M (val K) :=
  fun i vs m => mb (run fs ext fuel d i vs m) (fun '(_, _, v) => match v with Some v => mret v | None => None end).
Definition callp (fs : list func) ext fuel d : nat -> list (val K) -> mem K -> M (env K * mem K) :=
  fun i vs m => mb (run fs ext fuel d i vs m) (fun '(en, m, _) => mret (en, m)).
Definition finish (t : ctype) (n : nat) (y : st K * flow K) : M (env K * mem K * option (val K)) :=
  let '((en, m), fl) := y in
  match fl, t with
  | Return (Some v), t => mb (convert t v) (fun v => mret (firstn n en, m, Some v))
  | Return None, TVoid | Next, TVoid => mret (firstn n en, m, None)
  | _, _ => Some UB
  end.
Lemma run_S fs ext fuel d i (vs : list (val K)) m f :
  nth_error fs i = Some f ->
  run fs ext fuel (S d) i vs m =
  mb (bind_args (f_params f) vs) (fun ps =>
    mb (exec (callv fs ext fuel d) (callp fs ext fuel d) (refs_of fs) ext fuel (f_body f) ((ps ++ repeat None (f_slots f - List.length ps))%list, m))
       (finish (f_ret f) (List.length ps))).
Proof. intros E. cbn [run]. rewrite E. reflexivity. Qed.
Lemma ccall_eq u fs ext fuel n i (vs : list (val K)) m f :
  u = Some fs -> fnum fs n 0 = Some i -> nth_error fs i = Some f ->
  ccall u ext fuel n vs m =
  mb (mb (bind_args (f_params f) vs) (fun ps =>
    mb (exec (callv fs ext fuel (List.length fs)) (callp fs ext fuel (List.length fs)) (refs_of fs) ext fuel (f_body f)
          ((ps ++ repeat None (f_slots f - List.length ps))%list, m))
       (finish (f_ret f) (List.length ps)))) (fun '(_, m, v) => mret (m, v)).
Proof. intros -> E1 E2. unfold ccall. rewrite E1, (run_S _ _ _ _ _ _ _ _ E2). reflexivity. Qed.
End R.
