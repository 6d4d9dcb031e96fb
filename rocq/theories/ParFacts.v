(** Interleavings of calls whose written cells nobody else touches end like the calls running alone. *)
From Coq Require Import ZArith Lia Bool List.
From Verif Require Import Res ResFacts SpecPar.
Import ListNotations.
Local Open Scope Z_scope.

Section J.
Context {V A : Type}.
(** a call to be run: program, base addresses, its arguments as arrays of its own, which arguments it may write, and its outcome alone *)
Record job := Job { j_code : io V A; j_base : nat -> Z; j_arrs : list (arr V); j_wr : nat -> bool; j_res : A; j_out : list (arr V) }.
Fixpoint puts_in (wr : nat -> bool) (t : io V A) : Prop :=
  match t with Get _ _ k => forall v, puts_in wr (k v) | Put x _ _ k => wr x = true /\ puts_in wr k | _ => True end.
(** the addresses of argument [x] *)
Definition foot (j : job) (x : nat) (z : Z) : Prop := exists m p, nth_error (j_arrs j) x = Some m /\ m p <> None /\ z = j_base j x + p.
Definition start (j : job) : thread V A := Thread (j_code j) (j_base j).
(** number of accesses of the call alone *)
Fixpoint cost (t : io V A) (ms : list (arr V)) : nat :=
  match t with
  | Get x p k => match nth_error ms x with Some m => match m p with Some v => S (cost (k v) ms) | None => O end | None => O end
  | Put x p v k => match nth_error ms x with Some m => match m p with Some _ => S (cost k (set_nth ms x (upd m p v))) | None => O end | None => O end
  | _ => O
  end.
Definition total (js : list job) : nat := list_sum (map (fun j => cost (j_code j) (j_arrs j)) js).

Definition good (js : list job) (G : arr V) : Prop :=
  (forall j, In j js -> alone (j_code j) (j_arrs j) = Ok (j_res j, j_out j) /\ puts_in (j_wr j) (j_code j)) /\
  (forall j x m p v, In j js -> nth_error (j_arrs j) x = Some m -> m p = Some v -> G (j_base j x + p) = Some v) /\
  (forall i i' j j' x x' z, nth_error js i = Some j -> nth_error js i' = Some j' -> j_wr j x = true -> (i, x) <> (i', x') -> foot j x z -> ~ foot j' x' z).

Definition samedom (ms ms' : list (arr V)) : Prop :=
  forall x, match nth_error ms x, nth_error ms' x with Some m, Some m' => forall p, m p = None <-> m' p = None | None, None => True | _, _ => False end.
Definition inv1 (j : job) (G : arr V) (t : thread V A) (n : nat) : Prop :=
  base t = j_base j /\ exists ms, alone (code t) ms = Ok (j_res j, j_out j) /\ puts_in (j_wr j) (code t) /\ samedom (j_arrs j) ms /\
    (forall x m p v, nth_error ms x = Some m -> m p = Some v -> G (base t x + p) = Some v) /\ n = cost (code t) ms.
Definition inv (js : list job) (G0 : arr V) (c : conf V A) (ns : list nat) : Prop :=
  length (fst c) = length js /\ length ns = length js /\
  (forall i j t n, nth_error js i = Some j -> nth_error (fst c) i = Some t -> nth_error ns i = Some n -> inv1 j (snd c) t n) /\
  (forall z, (forall j x, In j js -> j_wr j x = true -> ~ foot j x z) -> snd c z = G0 z).

Lemma nth_set_nth_eq {B} (l : list B) n b : (n < length l)%nat -> nth_error (set_nth l n b) n = Some b.
Proof. revert n. induction l as [|a l IH]; intros [|n] H; cbn in *; try lia; auto. apply IH. lia. Qed.
Lemma nth_set_nth_neq {B} (l : list B) n k b : n <> k -> nth_error (set_nth l n b) k = nth_error l k.
Proof. revert n k. induction l as [|a l IH]; intros [|n] [|k] H; cbn; try congruence; auto. Qed.
Lemma len_set_nth {B} (l : list B) n b : length (set_nth l n b) = length l.
Proof. revert n. induction l as [|a l IH]; intros [|n]; cbn; auto. Qed.
Lemma sum_set_nth l n k : nth_error l n = Some (S k) -> list_sum l = S (list_sum (set_nth l n k)).
Proof.
  revert n. induction l as [|a l IH]; intros [|n] H; cbn [nth_error set_nth] in *; try discriminate.
  - injection H as ->. reflexivity.
  - change (a + list_sum l = S (a + list_sum (set_nth l n k)))%nat. rewrite (IH _ H). lia.
Qed.
Lemma nth_some {B} (l : list B) n : (n < length l)%nat -> exists b, nth_error l n = Some b.
Proof. intros H. destruct (nth_error l n) eqn:E; eauto. apply nth_error_None in E. lia. Qed.
Lemma nth_len {B} (l : list B) n b : nth_error l n = Some b -> (n < length l)%nat.
Proof. intros H. apply nth_error_Some. congruence. Qed.
Lemma samedom_refl ms : samedom ms ms.
Proof. intros x. destruct (nth_error ms x); auto. intros p. tauto. Qed.
Lemma samedom_put ms ms' x m p v : samedom ms ms' -> nth_error ms' x = Some m -> m p <> None -> samedom ms (set_nth ms' x (upd m p v)).
Proof.
  intros S E H y. destruct (Nat.eq_dec x y) as [<-|N].
  - rewrite (nth_set_nth_eq _ _ _ (nth_len _ _ _ E)). specialize (S x). rewrite E in S. destruct (nth_error ms x); auto. intros q. rewrite (S q). unfold upd. destruct (Z.eqb_spec q p) as [->|]; [|tauto].
    split; [intros; contradiction|discriminate].
  - rewrite (nth_set_nth_neq _ _ _ _ N). apply S.
Qed.
Lemma inv_start js G : good js G -> inv js G (map start js, G) (map (fun j => cost (j_code j) (j_arrs j)) js).
Proof.
  intros (Ga & Gb & _). unfold inv. cbn [fst snd]. rewrite !map_length. refine (conj eq_refl (conj eq_refl (conj _ _))); [|auto].
  intros i j t n Ej Et En. rewrite (map_nth_error _ _ _ Ej) in Et. rewrite (map_nth_error (fun j => cost (j_code j) (j_arrs j)) _ _ Ej) in En. injection Et as <-. injection En as <-.
  assert (Ij := nth_error_In _ _ Ej). refine (conj eq_refl _). exists (j_arrs j). destruct (Ga j Ij) as [U W]. refine (conj U (conj W (conj (samedom_refl _) (conj _ eq_refl)))).
  intros x m p v. cbn [start base]. apply (Gb j x m p v Ij).
Qed.
(** a finished or a moving thread *)
Lemma inv_step js G0 c ns i c' : good js G0 -> inv js G0 c ns -> step c i c' -> exists ns', inv js G0 c' ns' /\ list_sum ns = S (list_sum ns').
Proof.
  intros (Ga & Gb & Gs) (Hl & Hn & Hi & Hf) (t & cd' & Et & Acc & E').
  assert (Lt := nth_len _ _ _ Et). destruct (nth_some js i) as (j & Ej); [lia|]. destruct (nth_some ns i) as (n & En); [lia|].
  destruct (Hi i j t n Ej Et En) as (Eb & ms & Ea & Pu & Sd & Ag & Ec). destruct c' as [ts' G']. cbn [fst snd] in *.
  destruct Acc as [x p k m v Ev|x p v k m w Ev].
  - destruct (nth_error ms x) as [mx|] eqn:Ex; cbn [alone cost] in Ea, Ec; rewrite Ex in Ea, Ec; [|discriminate]. unfold ld in Ea. destruct (mx p) as [v'|] eqn:Emp; cbn [bind] in Ea; [|discriminate].
    assert (v' = v) as -> by (assert (G1 := Ag x mx p v' Ex Emp); congruence).
    exists (set_nth ns i (cost (k v) ms)). split; [|apply sum_set_nth; congruence].
    unfold inv. cbn [fst snd]. rewrite E', !len_set_nth. refine (conj Hl (conj Hn (conj _ Hf))). intros i' j' t' n' Ej' Et' En'. destruct (Nat.eq_dec i i') as [<-|N].
    + rewrite nth_set_nth_eq in Et' by lia. rewrite nth_set_nth_eq in En' by lia. injection Et' as <-. injection En' as <-. assert (j' = j) as -> by congruence.
      refine (conj Eb _). exists ms. cbn [code base]. cbn [puts_in] in Pu. refine (conj Ea (conj (Pu v) (conj Sd (conj Ag eq_refl)))).
    + rewrite nth_set_nth_neq in Et' by auto. rewrite nth_set_nth_neq in En' by auto. apply (Hi i' j' t' n'); auto.
  - destruct (nth_error ms x) as [mx|] eqn:Ex; cbn [alone cost] in Ea, Ec; rewrite Ex in Ea, Ec; [|discriminate]. unfold st in Ea. destruct (mx p) as [v'|] eqn:Emp; cbn [bind] in Ea; [|discriminate].
    cbn [puts_in] in Pu. destruct Pu as [Wx Pu].
    assert (Fx : foot j x (base t x + p)).
    { specialize (Sd x). rewrite Ex in Sd. destruct (nth_error (j_arrs j) x) as [m0|] eqn:E0; [|contradiction]. exists m0, p. rewrite Eb. refine (conj E0 (conj _ eq_refl)). rewrite (Sd p). congruence. }
    exists (set_nth ns i (cost k (set_nth ms x (upd mx p v)))). split; [|apply sum_set_nth; congruence].
    unfold inv. cbn [fst snd]. rewrite E', !len_set_nth. refine (conj Hl (conj Hn (conj _ _))).
    + intros i' j' t' n' Ej' Et' En'. destruct (Nat.eq_dec i i') as [<-|N].
      * rewrite nth_set_nth_eq in Et' by lia. rewrite nth_set_nth_eq in En' by lia. injection Et' as <-. injection En' as <-. assert (j' = j) as -> by congruence.
        refine (conj Eb _). exists (set_nth ms x (upd mx p v)). cbn [code base].
        refine (conj Ea (conj Pu (conj (samedom_put _ _ _ _ _ _ Sd Ex _) (conj _ eq_refl)))); [congruence|].
        intros y my q u Ey Eq. destruct (Nat.eq_dec x y) as [<-|Ny].
        -- rewrite nth_set_nth_eq in Ey by (apply (nth_len _ _ _ Ex)). injection Ey as <-. unfold upd in Eq |- *. destruct (Z.eqb_spec q p) as [->|Nq].
           ++ rewrite Z.eqb_refl. exact Eq.
           ++ rewrite (proj2 (Z.eqb_neq _ _)) by lia. apply (Ag x mx q u Ex Eq).
        -- rewrite nth_set_nth_neq in Ey by auto. unfold upd. destruct (Z.eqb_spec (base t y + q) (base t x + p)) as [Ez|]; [exfalso|apply (Ag y my q u Ey Eq)].
           apply (Gs i i j j x y (base t x + p) Ej Ej Wx); [congruence|exact Fx|]. rewrite <- Ez.
           specialize (Sd y). rewrite Ey in Sd. destruct (nth_error (j_arrs j) y) as [m0|] eqn:E0; [|contradiction]. exists m0, q. rewrite Eb. refine (conj E0 (conj _ eq_refl)). rewrite (Sd q). congruence.
      * rewrite nth_set_nth_neq in Et' by auto. rewrite nth_set_nth_neq in En' by auto. destruct (Hi i' j' t' n' Ej' Et' En') as (Eb' & ms' & Ea' & Pu' & Sd' & Ag' & Ec').
        refine (conj Eb' _). exists ms'. refine (conj Ea' (conj Pu' (conj Sd' (conj _ Ec')))). intros y my q u Ey Eq. unfold upd.
        destruct (Z.eqb_spec (base t' y + q) (base t x + p)) as [Ez|]; [exfalso|apply (Ag' y my q u Ey Eq)].
        apply (Gs i i' j j' x y (base t x + p) Ej Ej' Wx); [congruence|exact Fx|]. rewrite <- Ez.
        specialize (Sd' y). rewrite Ey in Sd'. destruct (nth_error (j_arrs j') y) as [m0|] eqn:E0; [|contradiction]. exists m0, q. rewrite Eb'. refine (conj E0 (conj _ eq_refl)). rewrite (Sd' q). congruence.
    + intros z Hz. unfold upd. destruct (Z.eqb_spec z (base t x + p)) as [->|]; [exfalso; apply (Hz j x (nth_error_In _ _ Ej) Wx); exact Fx|apply Hf; exact Hz].
Qed.
Lemma inv_run js G0 c l c' : run c l c' -> forall ns, good js G0 -> inv js G0 c ns -> exists ns', inv js G0 c' ns' /\ list_sum ns = (length l + list_sum ns')%nat.
Proof.
  induction 1 as [c|c i c1 l c2 S R IH]; intros ns Hg Hi; [exists ns; auto|].
  destruct (inv_step _ _ _ _ _ _ Hg Hi S) as (ns1 & I1 & E1). destruct (IH ns1 Hg I1) as (ns2 & I2 & E2). exists ns2. split; [exact I2|]. cbn [length]. lia.
Qed.
Theorem interleave js G l c : good js G -> run (map start js, G) l c ->
  (length l <= total js)%nat /\
  (forall i t, nth_error (fst c) i = Some t -> exists j, nth_error js i = Some j /\ (finished t (j_res j) \/ exists c', step c i c')) /\
  ((forall t, In t (fst c) -> exists a, finished t a) ->
     length l = total js /\
     (forall i j, nth_error js i = Some j -> (exists t, nth_error (fst c) i = Some t /\ finished t (j_res j)) /\
        forall x m p v, nth_error (j_out j) x = Some m -> m p = Some v -> snd c (j_base j x + p) = Some v) /\
     (forall z, (forall j x, In j js -> j_wr j x = true -> ~ foot j x z) -> snd c z = G z)).
Proof.
  intros Hg R. destruct (inv_run _ _ _ _ _ R _ Hg (inv_start js G Hg)) as (ns & (Hl & Hn & Hi & Hf) & E). unfold total. refine (conj _ (conj _ _)).
  - lia.
  - intros i t Et. assert (Lt := nth_len _ _ _ Et). destruct (nth_some js i) as (j & Ej); [lia|]. destruct (nth_some ns i) as (n & En); [lia|].
    exists j. split; [exact Ej|]. destruct (Hi i j t n Ej Et En) as (Eb & ms & Ea & Pu & Sd & Ag & Ec). destruct t as [cd b]. cbn [SpecPar.code base] in *. unfold finished. cbn [SpecPar.code].
    destruct cd as [a| | |x p k|x p v k]; cbn [alone] in Ea; try discriminate.
    + left. congruence.
    + right. destruct (nth_error ms x) as [mx|] eqn:Ex; [|discriminate]. unfold ld in Ea. destruct (mx p) as [v|] eqn:Ep; [|discriminate].
      exists (set_nth (fst c) i (Thread (k v) b), snd c). exists (Thread (Get x p k) b), (k v). cbn [fst snd base SpecPar.code]. refine (conj Et (conj _ eq_refl)). apply acc_get. apply (Ag x mx p v Ex Ep).
    + right. destruct (nth_error ms x) as [mx|] eqn:Ex; [|discriminate]. unfold st in Ea. destruct (mx p) as [w|] eqn:Ep; [|discriminate].
      exists (set_nth (fst c) i (Thread k b), upd (snd c) (b x + p) v). exists (Thread (Put x p v k) b), k. cbn [fst snd base SpecPar.code]. refine (conj Et (conj _ eq_refl)). eapply acc_put. apply (Ag x mx p w Ex Ep).
  - intros Fin.
    assert (Z0 : forall i j t n, nth_error js i = Some j -> nth_error (fst c) i = Some t -> nth_error ns i = Some n -> n = O /\ finished t (j_res j) /\
       forall x m p v, nth_error (j_out j) x = Some m -> m p = Some v -> snd c (j_base j x + p) = Some v).
    { intros i j t n Ej Et En. destruct (Hi i j t n Ej Et En) as (Eb & ms & Ea & Pu & Sd & Ag & Ec). destruct (Fin t (nth_error_In _ _ Et)) as (a & Fa). unfold finished in *. rewrite Fa in *. cbn [alone cost] in *.
      injection Ea as -> <-. rewrite <- Eb. auto. }
    refine (conj _ (conj _ Hf)).
    + enough (list_sum ns = O) by lia. assert (Zn : forall n, In n ns -> n = O).
      { intros n Hin. apply In_nth_error in Hin. destruct Hin as (i & En). assert (Li := nth_len _ _ _ En). destruct (nth_some js i) as (j & Ej); [lia|]. destruct (nth_some (fst c) i) as (t & Et); [lia|]. apply (Z0 i j t n Ej Et En). }
      clear -Zn. induction ns as [|n ns IH]; [reflexivity|]. cbn [list_sum fold_right]. change (fold_right Nat.add 0%nat ns) with (list_sum ns). rewrite IH by (intros; apply Zn; right; auto). rewrite (Zn n) by (left; auto). reflexivity.
    + intros i j Ej. assert (Lj := nth_len _ _ _ Ej). destruct (nth_some (fst c) i) as (t & Et); [lia|]. destruct (nth_some ns i) as (n & En); [lia|]. destruct (Z0 i j t n Ej Et En) as (_ & F & B). eauto.
Qed.
End J.
Arguments job : clear implicits.
