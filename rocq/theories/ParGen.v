(** Interleavings of threads each of which, run alone on cells it owns or only reads, ends with a given postcondition. *)
From Coq Require Import ZArith Lia Bool List.
From Verif Require Import Res ResFacts SpecPar ParFacts.
Import ListNotations.
Local Open Scope Z_scope.

Section G.
Context {V A : Type}.
Record task := Task { k_th : thread V A; k_reads : Z -> Prop; k_writes : Z -> Prop; k_post : A -> arr V -> Prop }.
Definition behaves (M : arr V) (k : task) : Prop := exists ms wr a ms',
  alone (code (k_th k)) ms = Ok (a, ms') /\ puts_in wr (code (k_th k)) /\
  (forall x m p v, nth_error ms x = Some m -> m p = Some v -> M (base (k_th k) x + p) = Some v) /\
  (forall x m p, nth_error ms x = Some m -> m p <> None -> if wr x : bool then k_writes k (base (k_th k) x + p) else k_reads k (base (k_th k) x + p)) /\
  (forall x y m m' p q, x <> y -> wr x = true -> wr y = true -> nth_error ms x = Some m -> nth_error ms y = Some m' -> m p <> None -> m' q <> None ->
     base (k_th k) x + p <> base (k_th k) y + q) /\
  (forall M', (forall x m p v, nth_error ms' x = Some m -> m p = Some v -> M' (base (k_th k) x + p) = Some v) -> k_post k a M').
Lemma F2n {B C} (R : B -> C -> Prop) l l' i a : Forall2 R l l' -> nth_error l' i = Some a -> exists b, nth_error l i = Some b /\ R b a.
Proof. intros H. revert i. induction H as [|x y l l' Hxy _ IH]; intros [|i] E; cbn [nth_error] in *; try discriminate; eauto. injection E as <-. eauto. Qed.
Lemma F2n' {B C} (R : B -> C -> Prop) l l' i a : Forall2 R l l' -> nth_error l i = Some a -> exists b, nth_error l' i = Some b /\ R a b.
Proof. intros H. revert i. induction H as [|x y l l' Hxy _ IH]; intros [|i] E; cbn [nth_error] in *; try discriminate; eauto. injection E as <-. eauto. Qed.
Definition jobbed (M : arr V) (k : task) (j : job V A) : Prop :=
  start j = k_th k /\ alone (j_code j) (j_arrs j) = Ok (j_res j, j_out j) /\ puts_in (j_wr j) (j_code j) /\
  (forall x m p v, nth_error (j_arrs j) x = Some m -> m p = Some v -> M (j_base j x + p) = Some v) /\
  (forall x z, foot j x z -> if j_wr j x : bool then k_writes k z else k_reads k z) /\
  (forall x y z, x <> y -> j_wr j x = true -> j_wr j y = true -> foot j x z -> ~ foot j y z) /\
  (forall M', (forall x m p v, nth_error (j_out j) x = Some m -> m p = Some v -> M' (j_base j x + p) = Some v) -> k_post k (j_res j) M').
Lemma jobbed_of M k : behaves M k -> exists j, jobbed M k j.
Proof.
  intros (ms & wr & a & ms' & H1 & H2 & H3 & H4 & H5 & H6). exists (Job (code (k_th k)) (base (k_th k)) ms wr a ms'). unfold jobbed, start. cbn [j_code j_base j_arrs j_wr j_res j_out].
  refine (conj _ (conj H1 (conj H2 (conj H3 (conj _ (conj _ H6)))))).
  - destruct (k_th k). reflexivity.
  - intros x z (m & p & E & N & ->). cbn [j_arrs j_base] in *. apply (H4 x m p E N).
  - intros x y z N Wx Wy (m & p & E & Np & ->) (m' & q & E' & Nq & Ez). cbn [j_arrs j_base] in *. apply (H5 x y m m' p q N Wx Wy E E' Np Nq Ez).
Qed.
Theorem tasks_interleave (M : arr V) (ks : list task) :
  (forall k, In k ks -> behaves M k) ->
  (forall k z, In k ks -> k_writes k z -> ~ k_reads k z) ->
  (forall i j k k' z, nth_error ks i = Some k -> nth_error ks j = Some k' -> i <> j -> k_writes k z -> ~ k_reads k' z /\ ~ k_writes k' z) ->
  exists N, forall l c, run (map k_th ks, M) l c ->
    (length l <= N)%nat /\
    (forall i th, nth_error (fst c) i = Some th -> (exists a, finished th a) \/ exists c', step c i c') /\
    ((forall th, In th (fst c) -> exists a, finished th a) ->
      (forall i k, nth_error ks i = Some k -> exists th a, nth_error (fst c) i = Some th /\ finished th a /\ k_post k a (snd c)) /\
      (forall z, (forall k, In k ks -> ~ k_writes k z) -> snd c z = M z)).
Proof.
  intros Hb Hs Hd.
  assert (J : exists js, Forall2 (jobbed M) ks js).
  { clear Hs Hd. induction ks as [|k ks IH]; [exists []; constructor|]. destruct (jobbed_of M k (Hb k (or_introl eq_refl))) as (j & Hj). destruct IH as (js & F); [intros; apply Hb; right; auto|]. exists (j :: js). constructor; auto. }
  destruct J as (js & F).
  assert (G : good js M).
  { refine (conj _ (conj _ _)).
    - intros j Hj. apply In_nth_error in Hj. destruct Hj as (i & Ej). destruct (F2n _ _ _ _ _ F Ej) as (k & _ & _ & H1 & H2 & _). auto.
    - intros j x m p v Hj. apply In_nth_error in Hj. destruct Hj as (i & Ej). destruct (F2n _ _ _ _ _ F Ej) as (k & _ & _ & _ & _ & H3 & _). apply H3.
    - intros i i' j j' x x' z Ej Ej' W N Fz Fz'. destruct (F2n _ _ _ _ _ F Ej) as (k & Ek & _ & _ & _ & _ & H4 & H5 & _). destruct (F2n _ _ _ _ _ F Ej') as (k' & Ek' & _ & _ & _ & _ & H4' & _).
      assert (A1 := H4 x z Fz). rewrite W in A1. assert (A2 := H4' x' z Fz'). destruct (Nat.eq_dec i i') as [<-|Ni].
      + rewrite Ej in Ej'. injection Ej' as <-. rewrite Ek in Ek'. injection Ek' as <-. destruct (j_wr j x') eqn:W'; [apply (H5 x x' z ltac:(congruence) W W' Fz Fz')|apply (Hs k z (nth_error_In _ _ Ek) A1 A2)].
      + destruct (Hd i i' k k' z Ek Ek' Ni A1) as [B1 B2]. destruct (j_wr j' x'); auto. }
  exists (total js). intros l c R.
  assert (Es : map k_th ks = map start js) by (clear - F; induction F as [|k j ks js (E & _) _ IH]; [reflexivity|cbn [map]; rewrite IH, E; reflexivity]).
  rewrite Es in R. destruct (interleave js M l c G R) as (L1 & L2 & L3). refine (conj L1 (conj _ _)).
  - intros i th Eth. destruct (L2 i th Eth) as (j & _ & [Fi|Fi]); [left; eauto|right; exact Fi].
  - intros Fin. destruct (L3 Fin) as (_ & B & C). split.
    + intros i k Ek. destruct (F2n' _ _ _ _ _ F Ek) as (j & Ej & _ & _ & _ & _ & _ & _ & H6). destruct (B i j Ej) as ((th & Eth & Fth) & B2). exists th, (j_res j). refine (conj Eth (conj Fth _)). apply H6. exact B2.
    + intros z Hz. apply C. intros j x Hj W Fz. apply In_nth_error in Hj. destruct Hj as (i & Ej). destruct (F2n _ _ _ _ _ F Ej) as (k & Ek & _ & _ & _ & _ & H4 & _). assert (A1 := H4 x z Fz). rewrite W in A1. apply (Hz k (nth_error_In _ _ Ek) A1).
Qed.
End G.
Arguments task : clear implicits.
