(** Concurrent calls of the Fortran texts: from ParFacts.interleave and FIoFacts. *)
From Coq Require Import ZArith Lia Bool Ascii String List.
From Verif Require Import Num Res ResFacts SpecPar ParFacts FSyntax FParse FSem FIo FIoFacts FProg MPar.
Import ListNotations.
Local Open Scope string_scope.
Local Open Scope Z_scope.

Definition is_slot (o : nat) (s : argslot) : bool := match s with AAr x => Nat.eqb x o | _ => false end.
Fixpoint find_pos {A} (f : A -> bool) (l : list A) : option nat :=
  match l with [] => None | a :: r => if f a then Some O else option_map S (find_pos f r) end.
Definition slots (l : list argslot) : list nat := flat_map (fun s => match s with AAr x => [x] | ASc _ => [] end) l.
Fixpoint nodupb (l : list nat) : bool := match l with [] => true | a :: r => negb (existsb (Nat.eqb a) r) && nodupb r end.
Definition check (k : string * string * string * nat) : bool :=
  let '(name, src, out, n) := k in
  match program name src with
  | Some p => match find_pos (fun d => String.eqb out (fst (fst d))) (p_ar p) with
              | Some o => forallb (only o) (p_body p) && (match find_pos (is_slot o) (p_args p) with Some n' => Nat.eqb n n' | None => false end) && nodupb (slots (p_args p))
              | None => false end
  | None => false
  end.
Lemma kernels_ok : forallb check kernels = true.
Proof. vm_cast_no_check (eq_refl true). Qed.

Lemma find_pos_nth {A} (f : A -> bool) l n : find_pos f l = Some n -> exists a, nth_error l n = Some a /\ f a = true.
Proof.
  revert n. induction l as [|a l IH]; intros n; cbn [find_pos]; [discriminate|]. destruct (f a) eqn:E; [intros [= <-]; exists a; auto|].
  destruct (find_pos f l) as [k|]; cbn [option_map]; [|discriminate]. intros [= <-]. apply (IH k eq_refl).
Qed.
Lemma nodup_at l n n' x : nodupb (slots l) = true -> nth_error l n = Some (AAr x) -> nth_error l n' = Some (AAr x) -> n = n'.
Proof.
  revert n n'. induction l as [|s l IH]; intros n n' Hd E E'; [destruct n; discriminate|].
  assert (Hl : nodupb (slots l) = true) by (destruct s; cbn [slots flat_map app] in Hd; [exact Hd|apply andb_prop in Hd; apply Hd]).
  assert (In1 : forall k, nth_error l k = Some (AAr x) -> In x (slots l)) by (intros k Hk; unfold slots; apply in_flat_map; exists (AAr x); split; [apply (nth_error_In _ _ Hk)|left; reflexivity]).
  assert (Hx : forall k, s = AAr x -> nth_error l k = Some (AAr x) -> False).
  { intros k -> Hk. cbn [slots flat_map app] in Hd. apply andb_prop in Hd. destruct Hd as [Hd _]. apply negb_true_iff in Hd. assert (existsb (Nat.eqb x) (slots l) = true) by (apply existsb_exists; exists x; split; [apply (In1 k Hk)|apply Nat.eqb_refl]). unfold slots in *. congruence. }
  destruct n as [|n], n' as [|n']; cbn [nth_error] in E, E'; auto.
  - exfalso. injection E as ->. apply (Hx n' eq_refl E').
  - exfalso. injection E' as ->. apply (Hx n eq_refl E).
Qed.
Section P.
Context {K : num}.
Lemma bind_arrs_at fs (ys : list (actual K)) ms x m : nth_error (bind_arrs fs ys ms) x = Some m ->
  (exists n, nth_error fs n = Some (AAr x) /\ nth_error ys n = Some (AM m)) \/ nth_error ms x = Some m.
Proof.
  revert ys ms. induction fs as [|s fs IH]; intros ys ms H; [auto|]. destruct ys as [|y ys]; [destruct s; auto|].
  destruct s as [s|s]; cbn [bind_arrs] in H.
  - destruct (IH _ _ H) as [(n & A & B)|A]; [left; exists (S n); auto|auto].
  - destruct y as [v|m0]; [destruct (IH _ _ H) as [(n & A & B)|A]; [left; exists (S n); auto|auto]|].
    destruct (IH _ _ H) as [(n & A & B)|A]; [left; exists (S n); auto|]. destruct (Nat.eq_dec s x) as [->|N].
    + destruct (le_lt_dec (length ms) x) as [Hl|Hl].
      * exfalso. apply nth_len in A. rewrite len_set_nth in A. lia.
      * rewrite nth_set_nth_eq in A by exact Hl. injection A as ->. left. exists O. auto.
    + rewrite nth_set_nth_neq in A by exact N. auto.
Qed.
Lemma slot_base_at fs (xs : list (farg K)) n x a : nodupb (slots fs) = true -> nth_error fs n = Some (AAr x) -> nth_error xs n = Some (FPtr a) -> slot_base fs xs x = a.
Proof.
  revert xs n. induction fs as [|s fs IH]; intros xs n Hd E Ex; [destruct n; discriminate|]. destruct xs as [|y xs]; [destruct n; discriminate|].
  assert (Hl : nodupb (slots fs) = true) by (destruct s; cbn [slots flat_map app] in Hd; [exact Hd|apply andb_prop in Hd; apply Hd]).
  destruct n as [|n]; cbn [nth_error] in E, Ex.
  - injection E as ->. injection Ex as ->. cbn [slot_base]. rewrite Nat.eqb_refl. reflexivity.
  - destruct s as [s|s]; cbn [slot_base]; [apply (IH _ n); auto|]. destruct y as [v|z]; [apply (IH _ n); auto|]. destruct (Nat.eqb_spec x s) as [->|]; [|apply (IH _ n); auto].
    exfalso. assert (D := nodup_at (AAr s :: fs) O (S n) s Hd eq_refl E). discriminate.
Qed.
Lemma find_array_at out ds (ms : list (arr K)) o m : find_pos (fun d : string * ty * list rexpr => String.eqb out (fst (fst d))) ds = Some o -> find_array out ds ms = Ok m -> nth_error ms o = Some m.
Proof.
  revert ms o. induction ds as [|[[y t] d] ds IH]; intros ms o; cbn [find_pos]; [discriminate|]. destruct ms as [|m0 ms]; [discriminate|]. cbn [find_array fst]. destruct (String.eqb out y); [intros [= <-] [= ->]; reflexivity|].
  destruct (find_pos _ ds) as [k|]; cbn [option_map]; [|discriminate]. intros [= <-] H. apply (IH ms k eq_refl H).
Qed.
Lemma part_arg_ok G (xs : list (farg K)) ys : Forall2 (part_of G) xs ys -> Forall2 arg_ok xs ys.
Proof. induction 1 as [|x y xs ys H _ IH]; constructor; auto. destruct x, y; cbn in *; auto. Qed.

(** the job of a call *)
Definition call_job (t : tcall K) (ys : list (actual K)) (p : prog) (o : nat) (out : list (arr K)) : job K unit :=
  Job (ioprog lsame_ext p (t_args t)) (slot_base (p_args p) (t_args t)) (bind_arrs (p_args p) ys (none_arrs p)) (fun x => Nat.eqb x o) tt out.
Record ok (G : arr K) (t : tcall K) (ys : list (actual K)) (mem : arr K) (j : job K unit) : Prop := mk_ok {
  ok_p : prog; ok_o : nat; ok_out : list (arr K);
  ok_j : j = call_job t ys ok_p ok_o ok_out;
  ok_prog : program (t_name t) (t_src t) = Some ok_p;
  ok_pos : nth_error (p_args ok_p) (t_pos t) = Some (AAr ok_o);
  ok_nd : nodupb (slots (p_args ok_p)) = true;
  ok_only : forallb (only ok_o) (p_body ok_p) = true;
  ok_run : alone (j_code j) (j_arrs j) = Ok (tt, ok_out);
  ok_mem : nth_error ok_out ok_o = Some mem;
  ok_part : Forall2 (part_of G) (t_args t) ys }.
Lemma job_of G t ys mem : In (t_name t, t_src t, t_out t, t_pos t) kernels -> Forall2 (part_of G) (t_args t) ys -> fcall (t_name t) (t_src t) ys (t_out t) = Ok mem -> exists j, ok G t ys mem j.
Proof.
  intros Hk Hp Hc. assert (C := proj1 (forallb_forall check kernels) kernels_ok _ Hk). unfold check in C. unfold fcall in Hc.
  destruct (program (t_name t) (t_src t)) as [p|] eqn:Ep; [|discriminate].
  destruct (find_pos (fun d => String.eqb (t_out t) (fst (fst d))) (p_ar p)) as [o|] eqn:Eo; [|discriminate].
  apply andb_prop in C. destruct C as [C Cn]. apply andb_prop in C. destruct C as [Co Cp].
  destruct (find_pos (is_slot o) (p_args p)) as [n'|] eqn:En; [|discriminate]. apply Nat.eqb_eq in Cp. subst n'.
  rewrite (alone_prog lsame_ext p (t_args t) ys (part_arg_ok _ _ _ Hp)) in Hc.
  destruct (alone (ioprog lsame_ext p (t_args t)) (bind_arrs (p_args p) ys (none_arrs p))) as [[[] out]| |] eqn:Ea; try discriminate. cbn [bind] in Hc.
  exists (call_job t ys p o out).
  refine (mk_ok _ _ _ _ _ p o out eq_refl Ep _ Cn Co Ea _ Hp).
  - destruct (find_pos_nth _ _ _ En) as (s & Es & Fs). destruct s as [x|x]; [discriminate|]. cbn [is_slot] in Fs. apply Nat.eqb_eq in Fs. subst x. exact Es.
  - apply (find_array_at _ _ _ _ _ Eo Hc).
Qed.
Lemma ok_start G t ys mem j : ok G t ys mem j -> start j = call_thread t.
Proof. intros [p o out -> Ep _ _ _ _ _ _]. unfold call_thread. rewrite Ep. reflexivity. Qed.
Lemma foot_uses G t ys mem j x z : ok G t ys mem j -> foot j x z -> exists n, uses t ys n z /\ (j_wr j x = true -> n = t_pos t) /\ (n = t_pos t -> j_wr j x = true).
Proof.
  intros [p o out -> Ep Epos Nd On _ _ Pt] (m & q & Em & Hq & ->). cbn [j_arrs j_base j_wr call_job] in *.
  destruct (bind_arrs_at _ _ _ _ _ Em) as [(n & En & Ey)|En].
  - exists n. split; [|split].
    + clear - Pt En Ey Nd Hq. revert n En Ey. intros n En Ey.
      assert (exists a, nth_error (t_args t) n = Some (FPtr a)) as (a & Ea).
      { clear - Pt Ey. revert n Ey. induction Pt as [|u y xs ys H _ IH]; intros [|n] Ey; cbn [nth_error] in *; try discriminate; [|apply (IH n Ey)]. injection Ey as ->. destruct u; [contradiction|]. eexists; reflexivity. }
      exists a, m, q. rewrite (slot_base_at _ _ _ _ _ Nd En Ea). auto.
    + intros E. apply Nat.eqb_eq in E. subst x. apply (nodup_at _ _ _ _ Nd En Epos).
    + intros ->. rewrite Epos in En. injection En as ->. apply Nat.eqb_refl.
  - exfalso. unfold none_arrs in En. apply nth_error_In in En. apply in_map_iff in En. destruct En as (d & <- & _). apply Hq. reflexivity.
Qed.
Lemma ok_base G t ys mem j p q v a : ok G t ys mem j -> nth_error (t_args t) (t_pos t) = Some (FPtr a) -> program (t_name t) (t_src t) = Some p -> forall c : conf K unit,
  (forall x m p v, nth_error (j_out j) x = Some m -> m p = Some v -> snd c (j_base j x + p) = Some v) -> mem q = Some v -> snd c (a + q) = Some v.
Proof.
  intros [p' o out -> Ep Epos Nd On _ Em Pt] Ea _ c H E. cbn [j_out j_base call_job] in *. specialize (H o mem q v Em E). rewrite (slot_base_at _ _ _ _ _ Nd Epos Ea) in H. exact H.
Qed.

Definition cok (G : arr K) (c : tcall K * list (actual K) * arr K) (j : job K unit) : Prop := ok G (fst (fst c)) (snd (fst c)) (snd c) j.
Lemma jobs_of (G : arr K) (cs : list (tcall K * list (actual K) * arr K)) : (forall t ys mem, In (t, ys, mem) cs -> In (t_name t, t_src t, t_out t, t_pos t) kernels /\ Forall2 (part_of G) (t_args t) ys /\ fcall (t_name t) (t_src t) ys (t_out t) = Ok mem) ->
  exists js, Forall2 (cok G) cs js.
Proof.
  induction cs as [|[[t ys] mem] cs IH]; intros H; [exists []; constructor|]. destruct (H t ys mem (or_introl eq_refl)) as (A & B & C). destruct (job_of G t ys mem A B C) as (j & Hj).
  destruct IH as (js & Hs); [intros; apply H; right; auto|]. exists (j :: js). constructor; auto.
Qed.
Lemma F2_nth {A B} (R : A -> B -> Prop) l l' i a : Forall2 R l l' -> nth_error l' i = Some a -> exists b, nth_error l i = Some b /\ R b a.
Proof. intros H. revert i. induction H as [|x y l l' Hxy _ IH]; intros [|i] E; cbn [nth_error] in *; try discriminate; eauto. injection E as <-. eauto. Qed.
Lemma F2_nth' {A B} (R : A -> B -> Prop) l l' i a : Forall2 R l l' -> nth_error l i = Some a -> exists b, nth_error l' i = Some b /\ R a b.
Proof. intros H. revert i. induction H as [|x y l l' Hxy _ IH]; intros [|i] E; cbn [nth_error] in *; try discriminate; eauto. injection E as <-. eauto. Qed.
Lemma jobs_good G cs js : Forall2 (cok G) cs js ->
  (forall i i' t ys mem t' ys' mem' n z, nth_error cs i = Some (t, ys, mem) -> nth_error cs i' = Some (t', ys', mem') -> uses t ys (t_pos t) z -> uses t' ys' n z -> i = i' /\ n = t_pos t) -> good js G.
Proof.
  intros HF Hd. refine (conj _ (conj _ _)).
  - intros j Hj. apply In_nth_error in Hj. destruct Hj as (i & Ej). destruct (F2_nth _ _ _ _ _ HF Ej) as ([[t ys] mem] & _ & Ok1). unfold cok in Ok1. cbn [fst snd] in Ok1.
    destruct Ok1 as [p o out Ej' Ep Epos Nd On Er Em Pt]. subst j. cbn [j_code j_arrs j_res j_out j_wr call_job] in *. split; [exact Er|apply puts_prog; exact On].
  - intros j x m q v Hj Em Ev. apply In_nth_error in Hj. destruct Hj as (i & Ej). destruct (F2_nth _ _ _ _ _ HF Ej) as ([[t ys] mem] & _ & Ok1). unfold cok in Ok1. cbn [fst snd] in Ok1.
    destruct Ok1 as [p o out Ej' Ep Epos Nd On Er Emm Pt]. subst j. cbn [j_base j_arrs call_job] in *.
    destruct (bind_arrs_at _ _ _ _ _ Em) as [(n & En & Ey)|En].
    + destruct (F2_nth _ _ _ _ _ Pt Ey) as (u & Eu & Pu). destruct u as [|a]; [contradiction|]. cbn [part_of] in Pu. rewrite (slot_base_at _ _ _ _ _ Nd En Eu). apply Pu. exact Ev.
    + exfalso. unfold none_arrs in En. apply nth_error_In in En. apply in_map_iff in En. destruct En as (d & <- & _). discriminate.
  - intros i i' j j' x x' z Ej Ej' W N Fz Fz'. destruct (F2_nth _ _ _ _ _ HF Ej) as ([[t ys] mem] & Ec & O1). destruct (F2_nth _ _ _ _ _ HF Ej') as ([[t' ys'] mem'] & Ec' & O2). unfold cok in O1, O2. cbn [fst snd] in O1, O2.
    destruct (foot_uses _ _ _ _ _ _ _ O1 Fz) as (n & U & Un & _). rewrite (Un W) in U. destruct (foot_uses _ _ _ _ _ _ _ O2 Fz') as (n' & U' & Un' & Un2).
    destruct (Hd i i' t ys mem t' ys' mem' n' z Ec Ec' U U') as [-> En']. apply N. f_equal.
    rewrite Ej in Ej'. injection Ej' as <-. rewrite Ec in Ec'. injection Ec' as <- <- <-. specialize (Un2 En').
    destruct O1 as [p o out -> Ep Epos Nd On Er Emm Pt]. cbn [j_wr call_job] in W, Un2. apply Nat.eqb_eq in W. apply Nat.eqb_eq in Un2. congruence.
Qed.
Theorem texts_interleave (G : arr K) (cs : list (tcall K * list (actual K) * arr K)) :
  (forall t ys mem, In (t, ys, mem) cs -> In (t_name t, t_src t, t_out t, t_pos t) kernels /\ Forall2 (part_of G) (t_args t) ys /\ fcall (t_name t) (t_src t) ys (t_out t) = Ok mem) ->
  (forall i i' t ys mem t' ys' mem' n z, nth_error cs i = Some (t, ys, mem) -> nth_error cs i' = Some (t', ys', mem') -> uses t ys (t_pos t) z -> uses t' ys' n z -> i = i' /\ n = t_pos t) ->
  exists N, forall l c, run (map (fun k => call_thread (fst (fst k))) cs, G) l c ->
    (length l <= N)%nat /\
    (forall i th, nth_error (fst c) i = Some th -> finished th tt \/ exists c', step c i c') /\
    ((forall th, In th (fst c) -> finished th tt) ->
      (forall t ys mem a q v, In (t, ys, mem) cs -> nth_error (t_args t) (t_pos t) = Some (FPtr a) -> mem q = Some v -> snd c (a + q) = Some v) /\
      (forall z, (forall t ys mem, In (t, ys, mem) cs -> ~ uses t ys (t_pos t) z) -> snd c z = G z)).
Proof.
  intros H Hd. destruct (jobs_of G cs H) as (js & HF). assert (Hg := jobs_good G cs js HF Hd). exists (total js). intros l c R.
  assert (Es : map (fun k : tcall K * list (actual K) * arr K => call_thread (fst (fst k))) cs = map start js).
  { clear - HF. induction HF as [|[[t ys] mem] j cs js O1 _ IH]; [reflexivity|]. cbn [map]. rewrite IH. f_equal. symmetry. apply (ok_start _ _ _ _ _ O1). }
  rewrite Es in R. destruct (interleave js G l c Hg R) as (L1 & L2 & L3). refine (conj L1 (conj _ _)).
  - intros i th Eth. destruct (L2 i th Eth) as (j & _ & [F|F]); [|right; exact F]. left. unfold finished in *. rewrite F. f_equal. destruct (j_res j). reflexivity.
  - intros Fin. destruct L3 as (_ & B & C); [intros th Ith; exists tt; apply Fin; exact Ith|]. split.
    + intros t ys mem a q v Hin Ea Ev. apply In_nth_error in Hin. destruct Hin as (i & Ei). destruct (F2_nth' _ _ _ _ _ HF Ei) as (j & Ej & O1). unfold cok in O1. cbn [fst snd] in O1. destruct (B i j Ej) as (_ & B2).
      assert (Ep : exists p, program (t_name t) (t_src t) = Some p) by (destruct O1; eauto). destruct Ep as (p & Ep). apply (ok_base _ _ _ _ _ p q v a O1 Ea Ep c B2 Ev).
    + intros z Hz. apply C. intros j x Hj W Fz. apply In_nth_error in Hj. destruct Hj as (i & Ej). destruct (F2_nth _ _ _ _ _ HF Ej) as ([[t ys] mem] & Ec & O1). unfold cok in O1. cbn [fst snd] in O1.
      destruct (foot_uses _ _ _ _ _ _ _ O1 Fz) as (n & U & Un & _). rewrite (Un W) in U. apply (Hz t ys mem (nth_error_In _ _ Ec) U).
Qed.
End P.
