(** Counted loops with a step. *)
From Coq Require Import ZArith Bool List Lia.
From Verif Require Import Num Res CSyntax CSem CSimFacts.
Import ListNotations. Local Open Scope Z_scope.

Lemma bind_bind {A B C} (r : res A) (f : A -> res B) (g : B -> res C) : bind (bind r f) g = bind r (fun a => bind (f a) g).
Proof. destruct r; reflexivity. Qed.
Section Step.
Context {K : num}.
(** for (i = lo; i < hi; i += step) *)
Lemma ceil_ltb lo hi step t : 0 < step -> (lo + step * t <? hi) = (t <? (hi - lo + step - 1) / step).
Proof.
  intros Hs. pose proof (Z.div_mod (hi - lo + step - 1) step ltac:(lia)) as E. pose proof (Z.mod_pos_bound (hi - lo + step - 1) step Hs) as B.
  set (q := (hi - lo + step - 1) / step) in *. set (r := (hi - lo + step - 1) mod step) in *.
  destruct (Z.ltb_spec (lo + step * t) hi), (Z.ltb_spec t q); try reflexivity; exfalso; nia.
Qed.
Lemma ceil_fuel lo hi step fuel : 0 < step -> (Z.to_nat (hi - lo) < fuel)%nat -> (Z.to_nat ((hi - lo + step - 1) / step - 0) < fuel)%nat.
Proof.
  intros Hs Hf. rewrite Z.sub_0_r. destruct (Z.le_gt_cases hi lo) as [H|H].
  - assert ((hi - lo + step - 1) / step <= 0) by (apply Z.lt_succ_r; apply Z.div_lt_upper_bound; lia). lia.
  - assert ((hi - lo + step - 1) / step <= hi - lo) by (apply Z.div_le_upper_bound; nia). lia.
Qed.
Lemma wfors_sim {S : Type} (R : Z -> S -> st K -> Prop) (c : st K -> M bool) (b : st K -> M (st K * flow K)) lo hi step (mbody : Z -> S -> res S) :
  0 < step ->
  (forall i s x, R i s x -> c x = mret (i <? hi)) ->
  (forall i s x, i < hi -> R i s x -> sim (fun s' y => snd y = Next /\ R (i + step) s' (fst y)) (mbody i s) (b x)) ->
  forall s x fuel, R lo s x -> (Z.to_nat (hi - lo) < fuel)%nat ->
  sim (fun s' y => snd y = Next /\ exists i, R i s' (fst y)) (zforstep lo hi step mbody s) (wloop fuel c b x).
Proof.
  intros Hs Hc Hb s x fuel Hr Hf. unfold zforstep.
  refine (sim_weaken _ _ _ _ _ (wfor_sim (fun t => R (lo + step * t)) c b 0 ((hi - lo + step - 1) / step) _ _ _ s x fuel _ _)).
  - intros a [y fl] [E (t & _ & Ht)]. split; [exact E|]. exists (lo + step * t). exact Ht.
  - intros t s' x' H'. rewrite (Hc _ _ _ H'), ceil_ltb by exact Hs. reflexivity.
  - intros t s' x' Ht H'. replace (lo + step * (t + 1)) with (lo + step * t + step) by ring. apply Hb; [| exact H'].
    apply Z.ltb_lt. rewrite ceil_ltb by exact Hs. apply Z.ltb_lt. exact Ht.
  - replace (lo + step * 0) with lo by ring. exact Hr.
  - apply ceil_fuel; assumption.
Qed.
End Step.
