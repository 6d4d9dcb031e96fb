(** Running the access tree of a Fortran program alone is running the program (FSem.v); a program writes only the arrays its assignments name. *)
From Coq Require Import ZArith Lia Bool Ascii String List.
From Verif Require Import Num Res ResFacts SpecPar ParFacts MForL1 FSyntax FSem FIo.
Import ListNotations.
Local Open Scope Z_scope.

Section Ind.
Variable P : rexpr -> Prop.
Hypothesis (h1 : forall z, P (RInt z)) (h2 : forall n, P (RRl n)) (h3 : forall a b, P (RCx a b)) (h4 : forall c, P (RChr c)) (h5 : forall x, P (RVar x))
  (h6 : forall x es, Forall P es -> P (RArr x es)) (h7 : forall f es, Forall P es -> P (RFun f es)) (h8 : forall o a b, P a -> P b -> P (RBin o a b))
  (h9 : forall a, P a -> P (RNeg a)) (h10 : forall a, P a -> P (RNot a)).
Fixpoint rexpr_nest (e : rexpr) : P e :=
  let all := fix all (l : list rexpr) : Forall P l := match l with [] => Forall_nil _ | e :: r => Forall_cons e (rexpr_nest e) (all r) end in
  match e with
  | RInt z => h1 z | RRl n => h2 n | RCx a b => h3 a b | RChr c => h4 c | RVar x => h5 x
  | RArr x es => h6 x es (all es) | RFun f es => h7 f es (all es) | RBin o a b => h8 o a b (rexpr_nest a) (rexpr_nest b)
  | RNeg a => h9 a (rexpr_nest a) | RNot a => h10 a (rexpr_nest a)
  end.
End Ind.
Section Ind2.
Variable P : rstmt -> Prop.
Hypothesis (h1 : forall x e, P (RAsg x e)) (h2 : forall x es e, P (RPut x es e)) (h3 : forall e s1 s2, Forall P s1 -> Forall P s2 -> P (RIf e s1 s2))
  (h4 : forall x lo hi b, Forall P b -> P (RDo x lo hi b)) (h5 : P RRet).
Fixpoint rstmt_nest (s : rstmt) : P s :=
  let all := fix all (l : list rstmt) : Forall P l := match l with [] => Forall_nil _ | e :: r => Forall_cons e (rstmt_nest e) (all r) end in
  match s with RAsg x e => h1 x e | RPut x es e => h2 x es e | RIf e s1 s2 => h3 e s1 s2 (all s1) (all s2) | RDo x lo hi b => h4 x lo hi b (all b) | RRet => h5 end.
End Ind2.

Section T.
Context {V : Type}.
Lemma alone_bind {A B} (t : io V A) (f : A -> io V B) ms : alone (iobind t f) ms = ('(a, ms') <- alone t ms ;; alone (f a) ms').
Proof.
  revert ms. induction t as [a| | |x p k IH|x p v k IH]; intros ms; cbn [iobind alone bind]; auto.
  - destruct (nth_error ms x); auto. destruct (ld a p); cbn [bind]; auto.
  - destruct (nth_error ms x); auto. destruct (st a p v); cbn [bind]; auto.
Qed.
Lemma alone_lift {A} (r : res A) ms : alone (lift (V := V) r) ms = (a <- r ;; Ok (a, ms)).
Proof. destruct r; reflexivity. Qed.
Lemma bind_assoc {A B C} (r : res A) (f : A -> res B) (g : B -> res C) : bind (bind r f) g = bind r (fun a => bind (f a) g).
Proof. destruct r; reflexivity. Qed.
Lemma bind_ext {A B} (r : res A) (f g : A -> res B) : (forall a, f a = g a) -> bind r f = bind r g.
Proof. destruct r; cbn; auto. Qed.
Lemma alone_loop {S S'} n i (b : Z -> S -> io V S) (b' : Z -> S' -> res S') (f : S -> list (arr V) -> S') (g : S' -> S * list (arr V)) (Hg : forall s ms, g (f s ms) = (s, ms)) (Hf : forall s', f (fst (g s')) (snd (g s')) = s') :
  (forall i s ms, alone (b i s) ms = (s' <- b' i (f s ms) ;; Ok (g s'))) -> forall s ms, alone (ioloop n i b s) ms = (s' <- floop n i b' (f s ms) ;; Ok (g s')).
Proof.
  intros Hb. revert i. induction n as [|n IH]; intros i s ms; cbn [ioloop floop alone bind]; [rewrite Hg; reflexivity|].
  rewrite alone_bind, Hb, !bind_assoc. apply bind_ext. intros s'. cbn [bind]. destruct (g s') as [s1 ms1] eqn:E. rewrite IH. assert (F := Hf s'). rewrite E in F. cbn [fst snd] in F. rewrite F. reflexivity.
Qed.
Lemma puts_bind {A B} wr (t : io V A) (f : A -> io V B) : puts_in wr t -> (forall a, puts_in wr (f a)) -> puts_in wr (iobind t f).
Proof. intros Ht Hf. induction t; cbn [iobind puts_in] in *; auto. destruct Ht; auto. Qed.
Lemma puts_lift {A} wr (r : res A) : puts_in wr (lift (V := V) r).
Proof. destruct r; exact I. Qed.
Lemma puts_loop {S} wr n i (b : Z -> S -> io V S) s : (forall i s, puts_in wr (b i s)) -> puts_in wr (ioloop n i b s).
Proof. intros Hb. revert i s. induction n; intros; cbn [ioloop]; [exact I|]. apply puts_bind; auto. Qed.
End T.

Section F.
Context {K : num} (ext : string -> list (val K) -> res (val K)).
Local Notation pair_st := (fun s : state K => (sv s, av s)).
Ltac bs := rewrite !alone_bind, ?bind_assoc; cbn [bind].
Lemma alone_eval c vs e ms : alone (ioeval ext c vs e) ms = (v <- eval ext c (St vs ms) e ;; Ok (v, ms)).
Proof.
  induction e as [z|n|a b|x|x|x es IH|f es IH|o a b IHa IHb|a IHa|a IHa] using rexpr_nest; try reflexivity.
  - cbn [ioeval eval]. rewrite alone_bind, alone_lift. destruct (lit n); reflexivity.
  - destruct a; try reflexivity. destruct b; try reflexivity. cbn [ioeval eval]. rewrite alone_bind, alone_lift. destruct (lit n); try reflexivity. cbn [bind]. rewrite alone_bind, alone_lift. destruct (lit n0); reflexivity.
  - cbn [ioeval eval sv]. destruct (nth_error vs x) as [[v|]|]; reflexivity.
  - cbn [ioeval eval av]. rewrite alone_bind.
    match goal with |- bind (alone (?f es) ms) _ = bind (bind (?g es) _) _ => assert (E : alone (f es) ms = (zs <- g es ;; Ok (zs, ms))) end.
    { induction IH as [|e l He _ IHl]; [reflexivity|]. cbn [alone]. rewrite alone_bind, He, !bind_assoc. apply bind_ext. intros v. cbn [bind]. rewrite alone_bind, alone_lift, !bind_assoc. apply bind_ext. intros z. cbn [bind]. rewrite alone_bind, IHl, !bind_assoc. apply bind_ext. intros zs. reflexivity. }
    rewrite E, !bind_assoc. apply bind_ext. intros zs. cbn [bind]. destruct (nth_error c x) as [[t d]|]; [|reflexivity].
    destruct (nth_error ms x) as [m|] eqn:Em; unfold ioget, aget; destruct t; cbn [alone bind]; rewrite ?Em; try reflexivity.
    + destruct (ld m (off d zs)); reflexivity.
    + destruct (ld m (2 * off d zs)); cbn [bind alone]; try reflexivity. rewrite ?Em. destruct (ld m (2 * off d zs + 1)); reflexivity.
  - cbn [ioeval eval]. rewrite alone_bind.
    match goal with |- bind (alone (?f es) ms) _ = bind (bind (?g es) _) _ => assert (E : alone (f es) ms = (zs <- g es ;; Ok (zs, ms))) end.
    { induction IH as [|e l He _ IHl]; [reflexivity|]. cbn [alone]. rewrite alone_bind, He, !bind_assoc. apply bind_ext. intros v. cbn [bind]. rewrite alone_bind, IHl, !bind_assoc. apply bind_ext. intros zs. reflexivity. }
    rewrite E, !bind_assoc. apply bind_ext. intros zs. cbn [bind]. apply alone_lift.
  - cbn [ioeval eval]. rewrite alone_bind, IHa, !bind_assoc. apply bind_ext. intros x. cbn [bind]. rewrite alone_bind, IHb, !bind_assoc. apply bind_ext. intros y. cbn [bind]. apply alone_lift.
  - cbn [ioeval eval]. rewrite alone_bind, IHa, !bind_assoc. apply bind_ext. intros x. cbn [bind]. apply alone_lift.
  - cbn [ioeval eval]. rewrite alone_bind, IHa, !bind_assoc. apply bind_ext. intros x. cbn [bind]. rewrite alone_bind, alone_lift, !bind_assoc. apply bind_ext. intros b. reflexivity.
Qed.
Lemma alone_ints c vs l ms : alone (ioints ext c vs l) ms = (v <- eval_ints ext c (St vs ms) l ;; Ok (v, ms)).
Proof.
  induction l as [|e l IHl]; [reflexivity|]. cbn [ioints eval_ints]. rewrite alone_bind, alone_eval, !bind_assoc. apply bind_ext. intros v. cbn [bind]. rewrite alone_bind, alone_lift, !bind_assoc. apply bind_ext. intros z. cbn [bind].
  rewrite alone_bind, IHl, !bind_assoc. apply bind_ext. intros zs. reflexivity.
Qed.
Lemma alone_assign tys (vs : list (option (val K))) x v ms : alone (ioassign (K := K) tys vs x v) ms = (s <- assign tys (St vs ms) x v ;; Ok (sv s, av s)).
Proof. unfold ioassign, assign. destruct (nth_error tys x); [|reflexivity]. rewrite alone_bind, alone_lift, !bind_assoc. apply bind_ext. intros o. reflexivity. Qed.
Lemma alone_put t x o (v : val K) ms (m : arr K) : nth_error ms x = Some m -> alone (ioput t x o v) ms = (m' <- aput t m o v ;; Ok (tt, SpecPar.set_nth ms x m')).
Proof.
  intros Em. unfold ioput, aput. destruct t, v; cbn [alone]; try reflexivity; rewrite Em.
  - destruct (st m o a); reflexivity.
  - destruct (st m (2 * o) (re z)) as [m1| |]; cbn [bind alone]; try reflexivity. rewrite (nth_set_nth_eq ms x m1) by (apply (nth_len _ _ _ Em)).
    destruct (st m1 (2 * o + 1) (im z)) as [m2| |]; cbn [bind alone]; try reflexivity. do 2 f_equal.
    clear. revert x. induction ms as [|a ms IH]; intros [|x]; cbn [SpecPar.set_nth]; auto. f_equal. apply IH.
Qed.
Lemma alone_put0 t x o (v : val K) (ms : list (arr K)) : nth_error ms x = None -> alone (ioput t x o v) ms = Abort.
Proof. intros Em. unfold ioput. destruct t, v; cbn [alone]; rewrite ?Em; reflexivity. Qed.
Lemma block_of tys c l : (forall p, In p l -> forall vs ms, alone (ioexec ext tys c p vs) ms = ('(s, b) <- exec ext tys c p (St vs ms) ;; Ok ((sv s, b), av s))) ->
  forall vs ms, alone (ioblock ext tys c l vs) ms = ('(s, b) <- block ext tys c l (St vs ms) ;; Ok ((sv s, b), av s)).
Proof.
  induction l as [|p l IHl]; intros H vs ms; [reflexivity|]. cbn [ioblock block]. rewrite alone_bind, H by (left; auto). rewrite !bind_assoc. apply bind_ext. intros [[vs' ms'] b]. cbn [bind sv av].
  destruct b; [reflexivity|]. apply IHl. intros; apply H; right; auto.
Qed.
Lemma alone_exec tys c p : forall vs ms, alone (ioexec ext tys c p vs) ms = ('(s, b) <- exec ext tys c p (St vs ms) ;; Ok ((sv s, b), av s)).
Proof.
  induction p as [x e|x es e|e s1 s2 I1 I2|x lo hi b Ib|] using rstmt_nest; intros vs ms; try reflexivity.
  - cbn [ioexec exec]. rewrite alone_bind, alone_eval, !bind_assoc. apply bind_ext. intros v. cbn [bind]. rewrite alone_bind, alone_assign, !bind_assoc. apply bind_ext. intros s. reflexivity.
  - cbn [ioexec exec av sv]. rewrite alone_bind, alone_eval, !bind_assoc. apply bind_ext. intros v. cbn [bind]. rewrite alone_bind, alone_ints, !bind_assoc. apply bind_ext. intros zs. cbn [bind].
    destruct (nth_error c x) as [[t d]|]; [|reflexivity]. rewrite alone_bind. destruct (nth_error ms x) as [m|] eqn:Em.
    + rewrite (alone_put _ _ _ _ _ _ Em), !bind_assoc. apply bind_ext. intros m'. reflexivity.
    + rewrite (alone_put0 _ _ _ _ _ Em). reflexivity.
  - cbn [ioexec exec]. rewrite alone_bind, alone_eval, !bind_assoc. apply bind_ext. intros v. cbn [bind]. rewrite alone_bind, alone_lift, !bind_assoc. apply bind_ext. intros b. cbn [bind].
    rewrite Forall_forall in I1, I2. destruct b; [exact (block_of tys c s1 I1 vs ms)|exact (block_of tys c s2 I2 vs ms)].
  - rewrite Forall_forall in Ib. cbn [ioexec exec].
    rewrite alone_bind, alone_eval, !bind_assoc. apply bind_ext. intros v. cbn [bind]. rewrite alone_bind, alone_lift, !bind_assoc. apply bind_ext. intros a. cbn [bind].
    rewrite alone_bind, alone_eval, !bind_assoc. apply bind_ext. intros v'. cbn [bind]. rewrite alone_bind, alone_lift, !bind_assoc. apply bind_ext. intros a'. cbn [bind].
    rewrite alone_bind. unfold iofor, fdo, zfor.
    rewrite (alone_loop _ _ _ (fun i s => s0 <- assign tys s x (VI i) ;; '(s1, r) <- block ext tys c b s0 ;; (if r : bool then Abort else Ok s1)) (@St K) (fun s => (sv s, av s))).
    + rewrite !bind_assoc. apply bind_ext. intros [vs1 ms1]. cbn [bind]. rewrite alone_bind, alone_assign, !bind_assoc. apply bind_ext. intros s. reflexivity.
    + reflexivity.
    + intros []. reflexivity.
    + intros i vs1 ms1. rewrite alone_bind, alone_assign, !bind_assoc. apply bind_ext. intros [vs2 ms2]. cbn [bind sv av]. rewrite alone_bind.
      change (bind (alone (ioblock ext tys c b vs2) ms2) (fun '(a0, ms') => alone (let '(vs3, r) := a0 in if r : bool then Stop else Ret vs3) ms') =
        (s' <- ('(s1, r) <- block ext tys c b (St vs2 ms2) ;; (if r : bool then Abort else Ok s1)) ;; Ok (sv s', av s'))).
      rewrite (block_of tys c b Ib), !bind_assoc. apply bind_ext. intros [s r]. cbn [bind]. destruct r; reflexivity.
Qed.
Lemma alone_block tys c l vs ms : alone (ioblock ext tys c l vs) ms = ('(s, b) <- block ext tys c l (St vs ms) ;; Ok ((sv s, b), av s)).
Proof. apply block_of. intros. apply alone_exec. Qed.

(** the extents do not depend on the arrays *)
Lemma eval_nil vs ms e : eval ext [] (St vs ms) e = eval ext [] (St vs []) e.
Proof.
  induction e as [z|n|a b|x|x|x es IH|f es IH|o a b IHa IHb|a IHa|a IHa] using rexpr_nest; try reflexivity.
  - cbn [eval av]. match goal with |- bind (?f es) _ = bind (?g es) _ => assert (E : f es = g es) end.
    { induction IH as [|e l He _ IHl]; [reflexivity|]. rewrite He. apply bind_ext. intros v. apply bind_ext. intros z. rewrite IHl. reflexivity. }
    rewrite E. apply bind_ext. intros zs. destruct x; reflexivity.
  - cbn [eval]. match goal with |- bind (?f es) _ = bind (?g es) _ => assert (E : f es = g es) end.
    { induction IH as [|e l He _ IHl]; [reflexivity|]. rewrite He. apply bind_ext. intros v. rewrite IHl. reflexivity. }
    rewrite E. reflexivity.
  - cbn [eval]. rewrite IHa, IHb. reflexivity.
  - cbn [eval]. rewrite IHa. reflexivity.
  - cbn [eval]. rewrite IHa. reflexivity.
Qed.
Lemma dims_nil vs ms ds : eval_dims ext (St vs ms) ds = eval_dims ext (St vs []) ds.
Proof.
  induction ds as [|[[x t] d] ds IH]; [reflexivity|]. cbn [eval_dims]. rewrite IH. f_equal.
  induction d as [|e d IHd]; [reflexivity|]. cbn [eval_ints]. rewrite eval_nil, IHd. reflexivity.
Qed.
(** arguments *)
Definition arg_ok (x : farg K) (y : actual K) : Prop := match x, y with FVal v, AV v' => v = v' | FPtr _, AM _ => True | _, _ => False end.
Fixpoint bind_arrs (fs : list argslot) (ys : list (actual K)) (ms : list (arr K)) : list (arr K) :=
  match fs, ys with
  | AAr x :: fs, AM m :: ys => bind_arrs fs ys (SpecPar.set_nth ms x m)
  | _ :: fs, _ :: ys => bind_arrs fs ys ms
  | _, _ => ms
  end.
Lemma bind_args_split fs xs ys vs ms : Forall2 arg_ok xs ys -> bind_args fs ys (St vs ms) = (vs' <- iobind_args fs xs vs ;; Ok (St vs' (bind_arrs fs ys ms))).
Proof.
  intros H. revert fs vs ms. induction H as [|x y xs ys Hxy _ IH]; intros [|[s|s] fs] vs ms; try reflexivity.
  - destruct x, y; try contradiction; cbn [bind_args iobind_args sv av bind_arrs]; [|reflexivity]. cbn [arg_ok] in Hxy. subst. apply IH.
  - destruct x, y; try contradiction; cbn [bind_args iobind_args sv av bind_arrs]; [reflexivity|]. apply IH.
Qed.
Definition none_arrs (p : prog) : list (arr K) := map (fun _ _ => None) (p_ar p).
Theorem alone_prog p xs ys : Forall2 arg_ok xs ys ->
  run_sub ext p ys = ('(_, ms) <- alone (ioprog ext p xs) (bind_arrs (p_args p) ys (none_arrs p)) ;; Ok ms).
Proof.
  intros H. unfold run_sub, run_state, ioprog. rewrite (bind_args_split _ _ _ _ _ H), alone_bind, alone_lift, !bind_assoc. apply bind_ext. intros vs. cbn [bind].
  rewrite dims_nil, alone_bind, alone_lift, !bind_assoc. apply bind_ext. intros c. cbn [bind]. rewrite alone_bind, alone_block, !bind_assoc. apply bind_ext. intros [s b]. reflexivity.
Qed.

(** ** what a program writes *)
Section W.
Variable o : nat.
Fixpoint only (s : rstmt) : bool :=
  match s with RPut x _ _ => Nat.eqb x o | RIf _ s1 s2 => forallb only s1 && forallb only s2 | RDo _ _ _ b => forallb only b | _ => true end.
Local Notation wr := (fun x => Nat.eqb x o).
Lemma puts_eval c vs e : puts_in wr (ioeval ext c vs e).
Proof.
  induction e as [z|n|a b|x|x|x es IH|f es IH|op a b IHa IHb|a IHa|a IHa] using rexpr_nest; try exact I.
  - cbn [ioeval]. apply puts_bind; [apply puts_lift|intros; exact I].
  - destruct a; try exact I. destruct b; try exact I. cbn [ioeval]. apply puts_bind; [apply puts_lift|intros]. apply puts_bind; [apply puts_lift|intros; exact I].
  - cbn [ioeval]. destruct (nth_error vs x) as [[v|]|]; exact I.
  - cbn [ioeval]. apply puts_bind.
    + induction IH as [|e l He _ IHl]; [exact I|]. apply puts_bind; [exact He|intros v]. apply puts_bind; [apply puts_lift|intros z]. apply puts_bind; [exact IHl|intros; exact I].
    + intros zs. destruct (nth_error c x) as [[t d]|]; [|exact I]. destruct t; try exact I; intros v; try exact I; intros w; exact I.
  - cbn [ioeval]. apply puts_bind; [|intros; apply puts_lift].
    induction IH as [|e l He _ IHl]; [exact I|]. apply puts_bind; [exact He|intros v]. apply puts_bind; [exact IHl|intros; exact I].
  - cbn [ioeval]. apply puts_bind; [exact IHa|intros]. apply puts_bind; [exact IHb|intros; apply puts_lift].
  - cbn [ioeval]. apply puts_bind; [exact IHa|intros; apply puts_lift].
  - cbn [ioeval]. apply puts_bind; [exact IHa|intros]. apply puts_bind; [apply puts_lift|intros; exact I].
Qed.
Lemma puts_ints c vs l : puts_in wr (ioints ext c vs l).
Proof. induction l as [|e l IH]; [exact I|]. cbn [ioints]. apply puts_bind; [apply puts_eval|intros v]. apply puts_bind; [apply puts_lift|intros z]. apply puts_bind; [exact IH|intros; exact I]. Qed.
Lemma puts_assign tys vs x v : puts_in wr (ioassign (K := K) tys vs x v).
Proof. unfold ioassign. destruct (nth_error tys x); [|exact I]. apply puts_bind; [apply puts_lift|intros; exact I]. Qed.
Lemma puts_block_of tys c l : (forall p, In p l -> only p = true -> forall vs, puts_in wr (ioexec ext tys c p vs)) -> forallb only l = true -> forall vs, puts_in wr (ioblock ext tys c l vs).
Proof.
  induction l as [|p l IH]; intros H Hl vs; [exact I|]. cbn [forallb] in Hl. apply andb_prop in Hl. destruct Hl as [H1 H2]. cbn [ioblock]. apply puts_bind; [apply H; [left; auto|exact H1]|].
  intros [vs' b]. destruct b; [exact I|]. apply IH; [|exact H2]. intros q Hq. apply H. right. exact Hq.
Qed.
Lemma puts_exec tys c p : only p = true -> forall vs, puts_in wr (ioexec ext tys c p vs).
Proof.
  induction p as [x e|x es e|e s1 s2 I1 I2|x lo hi b Ib|] using rstmt_nest; intros Ho vs; try exact I.
  - cbn [ioexec]. apply puts_bind; [apply puts_eval|intros]. apply puts_bind; [apply puts_assign|intros; exact I].
  - cbn [ioexec]. apply puts_bind; [apply puts_eval|intros]. apply puts_bind; [apply puts_ints|intros zs]. destruct (nth_error c x) as [[t d]|]; [|exact I]. cbn [only] in Ho.
    apply puts_bind; [|intros; exact I]. destruct t, a; try exact I; cbn [ioput puts_in]; auto.
  - cbn [only] in Ho. apply andb_prop in Ho. destruct Ho as [H1 H2]. rewrite Forall_forall in I1, I2. cbn [ioexec]. apply puts_bind; [apply puts_eval|intros]. apply puts_bind; [apply puts_lift|intros b].
    destruct b; [exact (puts_block_of tys c s1 I1 H1 vs)|exact (puts_block_of tys c s2 I2 H2 vs)].
  - cbn [only] in Ho. rewrite Forall_forall in Ib. cbn [ioexec]. apply puts_bind; [apply puts_eval|intros]. apply puts_bind; [apply puts_lift|intros]. apply puts_bind; [apply puts_eval|intros]. apply puts_bind; [apply puts_lift|intros].
    apply puts_bind; [|intros; apply puts_bind; [apply puts_assign|intros; exact I]]. apply puts_loop. intros i s. apply puts_bind; [apply puts_assign|intros vs']. apply puts_bind; [exact (puts_block_of tys c b Ib Ho vs')|].
    intros [vs2 r]. destruct r; exact I.
Qed.
Theorem puts_prog p xs : forallb only (p_body p) = true -> puts_in wr (ioprog ext p xs).
Proof.
  intros H. unfold ioprog. apply puts_bind; [apply puts_lift|intros vs]. apply puts_bind; [apply puts_lift|intros c]. apply puts_bind; [|intros; exact I]. apply puts_block_of; [|exact H]. intros q _ Hq vs'. apply puts_exec. exact Hq.
Qed.
End W.
End F.
