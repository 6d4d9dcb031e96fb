(** Symbolic execution of interpreted Fortran programs. *)
From Coq Require Import ZArith Lia Bool Ascii String List.
From Verif Require Import Num Res ResFacts MForL1 MForL2 MForL3 FSyntax FParse FSem FProg FSimFacts.
Import ListNotations.
Local Open Scope Z_scope.

Section L.
Context {K : num}.
Lemma lsame_src : forall (a b : ascii), lsame_ext (K := K) "LSAME" [VC a; VC b] = Ok (VL (lsame a b)).
Proof.
  intros a b. unfold lsame_ext. cbn [String.eqb Ascii.eqb Bool.eqb].
  let p := eval vm_compute in (program "LSAME" SrcUtil.src_lsame) in change (program "LSAME" SrcUtil.src_lsame) with p.
  unfold run_fun, run_state, block. cbn [p_args p_sc p_ar p_res p_body bind_args map snd sv av set_nth eval_dims bind exec eval nth_error veq bin conv assign as_log].
  unfold lsame. destruct (Ascii.eqb a b); [reflexivity|].
  cbn -[ichar Z.leb Z.geb Z.eqb Z.sub]. change (ichar "Z") with 90. cbn -[ichar Z.leb Z.geb Z.sub].
  rewrite !Z.geb_leb.
  destruct ((97 <=? ichar a) && (ichar a <=? 122)); cbn -[ichar Z.leb Z.geb Z.sub]; rewrite !Z.geb_leb; destruct ((97 <=? ichar b) && (ichar b <=? 122)); reflexivity.
Qed.
End L.
Section G.
Context {K : num}.
Local Notation qarr := (arr (quat K)).
Lemma h1_hq (a b : cplx K) : h1 (hq a b) = a. Proof. destruct a; reflexivity. Qed.
Lemma h2_hq (a b : cplx K) : h2 (hq a b) = b. Proof. destruct b; reflexivity. Qed.
Definition gotc (q : qarr) p (f : quat K -> cplx K) : res (val K) := match q p with Some v => Ok (VZ (f v)) | None => UB end.
Definition gotr (q : qarr) p (f : quat K -> K) : res (val K) := match q p with Some v => Ok (VR (f v)) | None => UB end.
(** X(t,i), A(t,i,j) of COMPLEX*16 arrays with first extent 2; ALPHA(t) *)
Lemma get_z1_1 m (q : qarr) : rep m q -> aget TCplx m (off [] [1]) = gotc q 0 h1. Proof. intros R. apply (getc m q 0 1); auto. Qed.
Lemma get_z2_1 m (q : qarr) : rep m q -> aget TCplx m (off [] [2]) = gotc q 0 h2. Proof. intros R. apply (getc m q 0 2); auto. Qed.
Lemma get_z1_2 m (q : qarr) i : rep m q -> aget TCplx m (off [2] [1; i]) = gotc q (i - 1) h1.
Proof. intros R. apply (getc m q (i - 1) 1); auto; cbn [off tl]; ring. Qed.
Lemma get_z2_2 m (q : qarr) i : rep m q -> aget TCplx m (off [2] [2; i]) = gotc q (i - 1) h2.
Proof. intros R. apply (getc m q (i - 1) 2); auto; cbn [off tl]; ring. Qed.
Lemma get_z1_3 m (q : qarr) d i j : rep m q -> aget TCplx m (off [2; d] [1; i; j]) = gotc q (i - 1 + (j - 1) * d) h1.
Proof. intros R. apply (getc m q (i - 1 + (j - 1) * d) 1); auto. cbn [off tl]. ring. Qed.
Lemma get_z2_3 m (q : qarr) d i j : rep m q -> aget TCplx m (off [2; d] [2; i; j]) = gotc q (i - 1 + (j - 1) * d) h2.
Proof. intros R. apply (getc m q (i - 1 + (j - 1) * d) 2); auto. cbn [off tl]. ring. Qed.
(** the same for REAL*8 arrays with first extent 4 *)
Definition cf (t : Z) (v : quat K) : K := comp v (t - 1).
Lemma get_r_1 m (q : qarr) t : rep m q -> 1 <= t <= 4 -> aget TReal m (off [] [t]) = gotr q 0 (cf t). Proof. intros R Ht. apply (getr m q 0 t); auto. cbn [off]. ring. Qed.
Lemma get_r_2 m (q : qarr) t i : rep m q -> 1 <= t <= 4 -> aget TReal m (off [4] [t; i]) = gotr q (i - 1) (cf t).
Proof. intros R Ht. apply (getr m q (i - 1) t); auto; cbn [off tl]; ring. Qed.
Lemma get_r_3 m (q : qarr) t d i j : rep m q -> 1 <= t <= 4 -> aget TReal m (off [4; d] [t; i; j]) = gotr q (i - 1 + (j - 1) * d) (cf t).
Proof. intros R Ht. apply (getr m q (i - 1 + (j - 1) * d) t); auto. cbn [off tl]. ring. Qed.
(** stores *)
Definition putq (m : arr K) (q : qarr) p (f : quat K -> quat K) (r : res (arr K)) : Prop :=
  match q p with Some v => exists m', r = Ok m' /\ rep m' (upd q p (f v)) | None => r = UB end.
Lemma put_c_ok m (q : qarr) p t o z : rep m q -> o = (t - 1) + 2 * p -> t = 1 \/ t = 2 -> putq m q p (sethalf t z) (aput TCplx m o (VZ z)).
Proof. intros R Ho Ht. unfold putq. destruct (q p) eqn:E; [eapply putc; eauto|eapply putc_none; eauto]. Qed.
Lemma put_r_ok m (q : qarr) p t o a : rep m q -> o = (t - 1) + 4 * p -> 1 <= t <= 4 -> putq m q p (setcomp t a) (aput TReal m o (VR a)).
Proof. intros R Ho Ht. unfold putq. destruct (q p) eqn:E; [eapply putr; eauto|eapply putr_none; eauto]. Qed.
Lemma put_z1_2 m (q : qarr) i z : rep m q -> putq m q (i - 1) (fun v => hq z (h2 v)) (aput TCplx m (off [2] [1; i]) (VZ z)).
Proof. intros R. apply (put_c_ok m q (i - 1) 1); auto; cbn [off tl]; ring. Qed.
Lemma put_z2_2 m (q : qarr) i z : rep m q -> putq m q (i - 1) (fun v => hq (h1 v) z) (aput TCplx m (off [2] [2; i]) (VZ z)).
Proof. intros R. apply (put_c_ok m q (i - 1) 2); auto; cbn [off tl]; ring. Qed.
Lemma put_z1_3 m (q : qarr) d i j z : rep m q -> putq m q (i - 1 + (j - 1) * d) (fun v => hq z (h2 v)) (aput TCplx m (off [2; d] [1; i; j]) (VZ z)).
Proof. intros R. apply (put_c_ok m q _ 1); auto. cbn [off tl]. ring. Qed.
Lemma put_z2_3 m (q : qarr) d i j z : rep m q -> putq m q (i - 1 + (j - 1) * d) (fun v => hq (h1 v) z) (aput TCplx m (off [2; d] [2; i; j]) (VZ z)).
Proof. intros R. apply (put_c_ok m q _ 2); auto. cbn [off tl]. ring. Qed.
Lemma put_r_1 m (q : qarr) t a : rep m q -> 1 <= t <= 4 -> putq m q 0 (setcomp t a) (aput TReal m (off [] [t]) (VR a)).
Proof. intros R Ht. apply (put_r_ok m q _ t); auto. cbn [off]. ring. Qed.
Lemma put_r_2 m (q : qarr) t i a : rep m q -> 1 <= t <= 4 -> putq m q (i - 1) (setcomp t a) (aput TReal m (off [4] [t; i]) (VR a)).
Proof. intros R Ht. apply (put_r_ok m q _ t); auto; cbn [off tl]; ring. Qed.
Lemma call_conjg ext (z : cplx K) : call ext "CONJG" [VZ z] = Ok (VZ (conjg z)). Proof. reflexivity. Qed.
Lemma call_abs ext (z : cplx K) : call ext "ABS" [VZ z] = Ok (VAbs z). Proof. reflexivity. Qed.
Lemma call_lsame (a b : ascii) : call (lsame_ext (K := K)) "LSAME" [VC a; VC b] = Ok (VL (lsame a b)). Proof. exact (lsame_src a b). Qed.

(** the end of a call: array [w] holds [q t] *)
Definition fin {T} (w : nat) (q : T -> qarr) (t : T) (sb : state K * bool) : Prop := exists m, nth_error (av (fst sb)) w = Some m /\ rep m (q t).
Lemma fin_call {T} name src p args out w (q : T -> qarr) s c m : program name src = Some p ->
  bind_args (p_args p) args (St (map (fun _ => None) (p_sc p)) (map (fun _ _ => None) (p_ar p))) = Ok s ->
  eval_dims lsame_ext s (p_ar p) = Ok c ->
  (forall (l : list (arr K)) k, nth_error l w = Some k -> find_array out (p_ar p) l = Ok k) ->
  simr (fin w q) (block lsame_ext (map snd (p_sc p)) c (p_body p) s) m ->
  simr (fun t mm => forall z, mm z = cells (q t) z) (fcall name src args out) m.
Proof.
  intros Ep Es Ec Eo H. unfold fcall. rewrite Ep. unfold run_sub, run_state. rewrite Es. cbn [bind]. rewrite Ec. cbn [bind].
  destruct (block _ _ _ _ _) as [[s1 b]| |], m; cbn [simr bind] in *; try contradiction; auto.
  destruct H as (k & E & R). cbn [fst] in E. rewrite (Eo _ _ E). exact R.
Qed.
Lemma simr_let {T S} (R : T -> S -> Prop) (r : res S) (m m' : res T) : m = m' -> simr R r m' -> simr R r m. Proof. intros ->. auto. Qed.
End G.

Ltac fcbn := cbn [exec eval eval_ints bind as_int as_log nth_error sv av lit veq bin neg conv assign set_nth].
Ltac fcalls := repeat first [rewrite call_conjg | rewrite call_abs | rewrite call_lsame]; fcbn.
(** know the value of array q at position p *)
Ltac at_ q p :=
  lazymatch goal with
  | E : q p = _ |- _ => rewrite !E
  | _ => lazymatch q with
         | upd _ p _ => rewrite !upd_same
         | one ?v => change (one v p) with (Some v)
         | _ => let E := fresh "E" in destruct (q p) eqn:E
         end
  end.
Ltac fget1 :=
  match goal with
  | E : aget ?t ?m ?o = _ |- context [aget ?t ?m ?o] => rewrite E
  | R : rep ?m _ |- context [aget TCplx ?m (off [] [1])] => rewrite (get_z1_1 m _ R)
  | R : rep ?m _ |- context [aget TCplx ?m (off [] [2])] => rewrite (get_z2_1 m _ R)
  | R : rep ?m _ |- context [aget TCplx ?m (off [2] [1; ?i])] => rewrite (get_z1_2 m _ i R)
  | R : rep ?m _ |- context [aget TCplx ?m (off [2] [2; ?i])] => rewrite (get_z2_2 m _ i R)
  | R : rep ?m _ |- context [aget TCplx ?m (off [2; ?d] [1; ?i; ?j])] => rewrite (get_z1_3 m _ d i j R)
  | R : rep ?m _ |- context [aget TCplx ?m (off [2; ?d] [2; ?i; ?j])] => rewrite (get_z2_3 m _ d i j R)
  | R : rep ?m _ |- context [aget TReal ?m (off [] [?t])] => rewrite (get_r_1 m _ t R ltac:(lia))
  | R : rep ?m _ |- context [aget TReal ?m (off [4] [?t; ?i])] => rewrite (get_r_2 m _ t i R ltac:(lia))
  | R : rep ?m _ |- context [aget TReal ?m (off [4; ?d] [?t; ?i; ?j])] => rewrite (get_r_3 m _ t d i j R ltac:(lia))
  end.
Ltac fgot :=
  match goal with
  | |- context [gotc ?q ?p ?f] => unfold gotc at 1; at_ q p
  | |- context [gotr ?q ?p ?f] => unfold gotr at 1; at_ q p
  end; try (match goal with |- context [h1 (hq _ _)] => rewrite !h1_hq end); try (match goal with |- context [h2 (hq _ _)] => rewrite !h2_hq end); cbn [bind].

(** store: the value of array q at position p must be known or becomes known *)
Ltac putknow H q p :=
  lazymatch goal with
  | E : q p = _ |- _ => rewrite E in H
  | _ => lazymatch q with
         | upd _ p _ => rewrite upd_same in H
         | one ?v => change (one v p) with (Some v) in H
         | _ => let E := fresh "E" in destruct (q p) eqn:E
         end
  end.
Ltac putgo H q p :=
  unfold putq in H; putknow H q p;
  first [ let m' := fresh "mm" in let E := fresh "Em" in let R := fresh "Rm" in destruct H as (m' & E & R); rewrite !E; clear E; rewrite ?h1_hq, ?h2_hq in R
        | rewrite H; clear H ];
  cbn [bind].
Ltac fput :=
  let H := fresh "HP" in
  match goal with
  | R : rep ?m ?q |- context [aput TCplx ?m (off [2] [1; ?i]) (VZ ?z)] => pose proof (put_z1_2 m q i z R) as H; putgo H q (i - 1)
  | R : rep ?m ?q |- context [aput TCplx ?m (off [2] [2; ?i]) (VZ ?z)] => pose proof (put_z2_2 m q i z R) as H; putgo H q (i - 1)
  | R : rep ?m ?q |- context [aput TCplx ?m (off [2; ?d] [1; ?i; ?j]) (VZ ?z)] => pose proof (put_z1_3 m q d i j z R) as H; putgo H q (i - 1 + (j - 1) * d)
  | R : rep ?m ?q |- context [aput TCplx ?m (off [2; ?d] [2; ?i; ?j]) (VZ ?z)] => pose proof (put_z2_3 m q d i j z R) as H; putgo H q (i - 1 + (j - 1) * d)
  | R : rep ?m ?q |- context [aput TReal ?m (off [] [?t]) (VR ?z)] => pose proof (put_r_1 m q t z R ltac:(lia)) as H; putgo H q 0
  | R : rep ?m ?q |- context [aput TReal ?m (off [4] [?t; ?i]) (VR ?z)] => pose proof (put_r_2 m q t i z R ltac:(lia)) as H; putgo H q (i - 1)
  end.
(** evaluate: all array reads first, then the arithmetic *)
Ltac fcalls1 := repeat match goal with
  | |- context [call _ "CONJG" [VZ _]] => rewrite !call_conjg
  | |- context [call _ "ABS" [VZ _]] => rewrite !call_abs
  | |- context [call _ "LSAME" [VC _; VC _]] => rewrite !call_lsame
  end.
Ltac feval := fcbn; repeat (progress (repeat fget1; repeat fgot; fcbn; fcalls1; fcbn)).
(** one assignment *)
Ltac fasg :=
  rewrite block_cons;
  lazymatch goal with
  | |- context [exec _ _ _ (RAsg _ _) _] => idtac
  | |- context [exec _ _ _ (RPut _ _ _) _] => idtac
  end;
  feval; try fput; fcbn; cbn [bind].

Section H.
Context {K : num}.
Local Notation qarr := (arr (quat K)).
Lemma block_app ext tys c l l' (s : state K) : block ext tys c (l ++ l') s = ('(s, b) <- block ext tys c l s ;; if b : bool then Ok (s, true) else block ext tys c l' s).
Proof.
  revert s. induction l as [|p l IH]; intros s; [reflexivity|]. cbn [app]. rewrite !block_cons. destruct (exec ext tys c p s) as [[s1 [|]]| |]; cbn [bind]; try reflexivity. apply IH.
Qed.
Lemma block_if ext tys c e s1 s2 l (s : state K) : block ext tys c (RIf e s1 s2 :: l) s =
  (v <- eval ext c s e ;; b <- as_log v ;; block ext tys c ((if b : bool then s1 else s2) ++ l) s).
Proof.
  rewrite block_cons, exec_if. destruct (eval ext c s e) as [v| |]; try reflexivity. cbn [bind]. destruct (as_log v) as [b| |]; try reflexivity. cbn [bind].
  rewrite block_app. destruct b; reflexivity.
Qed.
Lemma block_nil ext tys c (s : state K) : block ext tys c [] s = Ok (s, false). Proof. reflexivity. Qed.
Lemma block_ret ext tys c l (s : state K) : block ext tys c (RRet :: l) s = Ok (s, true). Proof. reflexivity. Qed.
(** the slots of an invariant, with unknown values [f] in the free ones *)
Fixpoint mk (ws : list nat) (pins : list (nat * val K)) (f : nat -> option (val K)) (k : nat) (l0 : list (option (val K))) : list (option (val K)) :=
  match l0 with
  | [] => []
  | a :: l0 => match pin k pins with Some v => Some v | None => if memb k ws then f k else a end :: mk ws pins f (S k) l0
  end.
Lemma mk_ext ws pins f g l0 : forall k, (forall j, (k <= j)%nat -> f j = g j) -> mk ws pins f k l0 = mk ws pins g k l0.
Proof. induction l0 as [|a l0 IH]; intros k E; [reflexivity|]. cbn [mk]. rewrite (E k) by auto. f_equal. apply IH. intros j Hj. apply E. lia. Qed.
Lemma slots_mk ws pins l0 : forall k l, slots ws pins k l0 l -> exists f, l = mk ws pins f k l0.
Proof.
  induction l0 as [|a l0 IH]; intros k [|b l]; cbn [slots]; [intros _; exists (fun _ => None); reflexivity|contradiction|contradiction|].
  intros [H1 H2]. destruct (IH _ _ H2) as (f & ->). exists (fun j => if Nat.eqb j k then b else f j). cbn [mk]. rewrite Nat.eqb_refl. f_equal.
  - unfold slotrel in H1. destruct (pin k pins); [exact H1|]. destruct (memb k ws); auto.
  - apply mk_ext. intros j Hj. rewrite (proj2 (Nat.eqb_neq j k)) by lia. reflexivity.
Qed.
Lemma mk_slots ws pins f l0 : forall k, slots ws pins k l0 (mk ws pins f k l0).
Proof. induction l0 as [|a l0 IH]; intros k; [exact I|]. cbn [mk slots]. split; [|apply IH]. unfold slotrel. destruct (pin k pins); [reflexivity|]. destruct (memb k ws); reflexivity || exact I. Qed.
Lemma slots_by ws pins l0 l : l = mk ws pins (fun k => nth k l None) 0 l0 -> slots ws pins 0 l0 l.
Proof. intros ->. apply mk_slots. Qed.
Fixpoint mka (w : nat) (m : arr K) (l0 : list (arr K)) : list (arr K) :=
  match l0, w with [], _ => [] | _ :: l0, O => m :: l0 | a :: l0, S w => a :: mka w m l0 end.
Lemma arrs_mk w (q : qarr) l0 : forall l, arrs w q l0 l -> (w < length l0)%nat -> exists m, l = mka w m l0 /\ rep m q.
Proof.
  revert w. induction l0 as [|a l0 IH]; intros w [|b l]; cbn [length]; [intros _ Hw; lia|destruct w; intros []|destruct w; intros []|]. destruct w as [|w].
  - intros [R ->] _. exists b. auto.
  - intros [-> H] Hw. destruct (IH w l H ltac:(lia)) as (m & -> & R). exists m. auto.
Qed.
Lemma inv_mk {T} (s0 : state K) ws pins w q (t : T) (s : state K) : inv s0 ws pins w q t s -> (w <? length (av s0))%nat = true ->
  exists f m, s = St (mk ws (pins t) f 0 (sv s0)) (mka w m (av s0)) /\ rep m (q t).
Proof.
  intros [A B] Hw. apply Nat.ltb_lt in Hw. destruct (slots_mk _ _ _ _ _ A) as (f & E). destruct (arrs_mk _ _ _ _ B Hw) as (m & E2 & R).
  exists f, m. destruct s as [vs0 ms0]; cbn [sv av] in *. subst. auto.
Qed.
Lemma bind_ret {A} (r : res A) : (x <- r ;; Ok x) = r. Proof. destruct r; reflexivity. Qed.
(** IF (...) IX = e, with IX already set *)
Lemma block_kstart ext tys c x e (b : bool) l (s : state K) v v0 : nth_error (sv s) x = Some (Some (VI v0)) -> eval ext c s e = Ok (VI v) -> nth_error tys x = Some TInt ->
  block ext tys c ((if b then [RAsg x e] else []) ++ l) s = block ext tys c l (St (set_nth (sv s) x (Some (VI (if b then v else v0)))) (av s)).
Proof.
  intros E0 Ee Et. destruct b; cbn [app].
  - rewrite block_cons. cbn [exec]. rewrite Ee. cbn [bind]. unfold assign. rewrite Et. reflexivity.
  - replace (set_nth (sv s) x (Some (VI v0))) with (sv s); [destruct s; reflexivity|]. destruct s as [l0 m]. cbn [sv] in *. clear -E0.
    revert x E0. induction l0 as [|a l0 IH]; intros [|x] E0; cbn in *; try congruence. f_equal; auto.
Qed.
(** IF (b) x = e1 ELSE x = e2, and the same for two variables *)
Lemma block_if1 ext tys c x e1 e2 (b : bool) l (s : state K) v1 v2 : eval ext c s e1 = Ok (VI v1) -> eval ext c s e2 = Ok (VI v2) -> nth_error tys x = Some TInt ->
  block ext tys c ((if b then [RAsg x e1] else [RAsg x e2]) ++ l) s = block ext tys c l (St (set_nth (sv s) x (Some (VI (if b then v1 else v2)))) (av s)).
Proof.
  intros A B T. destruct b; cbn [app]; rewrite block_cons; cbn [exec]; rewrite ?A, ?B; cbn [bind]; unfold assign; rewrite T; reflexivity.
Qed.
Lemma block_if2 ext tys c x y e1 e2 e3 e4 (b : bool) l (s : state K) v1 v2 v3 v4 : 
  let f x v s := St (set_nth (sv s) x (Some (VI v))) (av s) in
  eval ext c s e1 = Ok (VI v1) -> eval ext c s e3 = Ok (VI v3) ->
  eval ext c (f x v1 s) e2 = Ok (VI v2) -> eval ext c (f x v3 s) e4 = Ok (VI v4) -> nth_error tys x = Some TInt -> nth_error tys y = Some TInt ->
  block ext tys c ((if b then [RAsg x e1; RAsg y e2] else [RAsg x e3; RAsg y e4]) ++ l) s = block ext tys c l (f y (if b then v2 else v4) (f x (if b then v1 else v3) s)).
Proof.
  intros f A B A' B' T T'. destruct b; cbn [app]; rewrite block_cons; cbn [exec]; rewrite ?A, ?B; cbn [bind]; unfold assign at 1; rewrite T; cbn [bind conv];
    rewrite block_cons; cbn [exec]; unfold f in A', B'; cbn [sv av] in *; rewrite ?A', ?B'; cbn [bind]; unfold assign; rewrite T'; reflexivity.
Qed.
(** a statement that may leave a changed array, then the rest *)
Lemma block_seq {T U} ext tys c p l (s : state K) (m : res T) (k : T -> res U) (R : U -> state K * bool -> Prop) ws pins w q :
  norm (inv s ws pins w q) (block ext tys c [p] s) m -> (forall t s', inv s ws pins w q t s' -> simr R (block ext tys c l s') (k t)) ->
  simr R (block ext tys c (p :: l) s) (t <- m ;; k t).
Proof.
  intros A B. change (p :: l) with ([p] ++ l). rewrite block_app. eapply simr_bind; [exact A|]. intros t [s1 b] [Eb I1]. cbn [fst snd] in *. subst b. apply B. exact I1.
Qed.
Lemma bind_assoc {A B C} (m : res A) (f : A -> res B) (g : B -> res C) : bind (bind m f) g = bind m (fun x => bind (f x) g). Proof. destruct m; reflexivity. Qed.
Lemma flag_d0 (a : K) : neqb (@n0 K) n0 = true -> ceq (Cplx a n0) (Cplx n0 n0) = fzero (SR a).
Proof. intros E. unfold ceq. cbn [re im]. rewrite E, andb_true_r. reflexivity. Qed.
Lemma flag_d1 (a : K) : neqb (@n0 K) n0 = true -> ceq (Cplx a n0) (Cplx n1 n0) = fone (SR a).
Proof. intros E. unfold ceq. cbn [re im]. rewrite E, andb_true_r. reflexivity. Qed.
Lemma flag_z0 (z : cplx K) : ceq z (Cplx n0 n0) = fzero (SC z). Proof. reflexivity. Qed.
Lemma flag_z1 (z : cplx K) : ceq z (Cplx n1 n0) = fone (SC z). Proof. reflexivity. Qed.
Lemma flag_h0 (q : quat K) : ceq (h1 q) (Cplx n0 n0) && ceq (h2 q) (Cplx n0 n0) = fzero (SH q).
Proof. unfold ceq. cbn [re im h1 h2 fzero]. rewrite !andb_assoc. reflexivity. Qed.
Lemma flag_h1 (q : quat K) : ceq (h1 q) (Cplx n1 n0) && ceq (h2 q) (Cplx n0 n0) = fone (SH q). Proof. reflexivity. Qed.
(** DO followed by more statements *)
Lemma block_do {T U} ext tys c x lo hi body l (s : state K) a b (g : Z -> T -> res T) (t : T) (k : T -> res U) (R : U -> state K * bool -> Prop) ws pins w q :
  eval ext c s lo = Ok (VI a) -> eval ext c s hi = Ok (VI b) -> nth_error tys x = Some TInt -> (forall t, pin x (pins t) = None) -> memb x ws = true ->
  inv s ws pins w q t s ->
  (forall i t s', a <= i <= b -> inv s ws pins w q t s' ->
     norm (inv s ws pins w q) (block ext tys c body (St (set_nth (sv s') x (Some (VI i))) (av s'))) (g i t)) ->
  (forall t s', inv s ws pins w q t s' -> simr R (block ext tys c l s') (k t)) ->
  simr R (block ext tys c (RDo x lo hi body :: l) s) (t <- fdo a b g t ;; k t).
Proof.
  intros Ea Eb Hx Hp Hm H0 B C. rewrite block_cons.
  assert (D := do_sim ext tys c x lo hi body s a b g t s ws pins w q Ea Eb Hx Hp Hm H0 B).
  unfold norm in D. eapply simr_bind; [exact D|]. intros t1 [s1 b1] [Eb1 I1]. cbn [fst snd] in *. subst b1. apply C. exact I1.
Qed.
Lemma block_do_end {T} ext tys c x lo hi body l (s : state K) a b (g : Z -> T -> res T) (t : T) (R : T -> state K * bool -> Prop) ws pins w q :
  eval ext c s lo = Ok (VI a) -> eval ext c s hi = Ok (VI b) -> nth_error tys x = Some TInt -> (forall t, pin x (pins t) = None) -> memb x ws = true ->
  inv s ws pins w q t s ->
  (forall i t s', a <= i <= b -> inv s ws pins w q t s' ->
     norm (inv s ws pins w q) (block ext tys c body (St (set_nth (sv s') x (Some (VI i))) (av s'))) (g i t)) ->
  (forall t s', inv s ws pins w q t s' -> simr R (block ext tys c l s') (Ok t)) ->
  simr R (block ext tys c (RDo x lo hi body :: l) s) (fdo a b g t).
Proof. intros. rewrite <- (bind_ret (fdo a b g t)). eapply block_do; eauto. Qed.
End H.
Ltac fif := rewrite block_if; feval; cbn [bind].
Ltac fbr := cbn [app].
(** make the state of an invariant explicit *)
Ltac fexpl s H :=
  let f := fresh "f" in let m := fresh "mw" in let E := fresh "E" in let R := fresh "Rw" in
  apply inv_mk in H; [|reflexivity]; destruct H as (f & m & E & R); rewrite E; clear E; cbn [mk mka pin memb existsb Nat.eqb orb sv av set_nth].
(** prove an invariant of an explicit state *)
Ltac finv := split; [apply slots_by; cbn [sv]; reflexivity
                    | cbn [av arrs]; repeat (split; [reflexivity|]); try (split; [|reflexivity])].
Ltac frep := first [ assumption | eapply rep_ext; [eassumption|]; let p := fresh "p" in intros p; unfold upd, one; destruct (p =? _); [|reflexivity] ; try reflexivity ].

(** finish the model's side of a loop body *)
Ltac fmod := unfold ld, st; repeat (match goal with E : _ = Some _ |- _ => rewrite !E | E : _ = None |- _ => rewrite !E end; cbn [bind]);
  repeat (match goal with |- context [match ?x with Some _ => _ | None => UB end] => destruct x; cbn [bind] end);
  lazymatch goal with |- norm _ UB UB => exact I | |- simr _ UB UB => exact I | |- _ => idtac end.
Ltac fend := rewrite block_nil; fmod; cbn [norm simr fst snd].
Ltac fks := erewrite block_kstart; [|reflexivity|cbn [eval bind bin nth_error sv neg]; reflexivity|reflexivity]; cbn [sv av set_nth].
Ltac fdone := intros; match goal with I1 : inv _ _ _ _ _ _ ?s |- _ => fexpl s I1 end; rewrite ?block_nil, ?block_ret; eexists; split; [reflexivity|frep].
(** a loop body without branches *)
Ltac fbody := intros; match goal with I1 : inv _ _ _ _ _ _ ?s |- _ => fexpl s I1 end; cbn [fst snd] in *; repeat (fasg; try (solve [fmod])); 
  (fend; split; [reflexivity|]; finv; cbn [fst snd]; frep).
Ltac fstart P w q := eapply (fin_call _ _ P _ _ w q); [vm_compute; reflexivity|reflexivity|reflexivity
    |let ll := fresh "ll" in let kk := fresh "kk" in let E := fresh "E" in intros ll kk E; do 6 (destruct ll as [|? ll]; [cbn in E |- *; congruence|]); cbn in E |- *; congruence|];
  cbn [map snd p_sc p_body P p_ar set_nth sv av].
Ltac fret := rewrite block_ret; eexists; split; [reflexivity|frep].
Ltac floop ws pins w q := eapply (block_do _ _ _ _ _ _ _ _ _ _ _ _ _ _ _ ws pins w q); [reflexivity|reflexivity|reflexivity|reflexivity|reflexivity|finv; frep| | ].
Ltac floope ws pins w q := eapply (block_do_end _ _ _ _ _ _ _ _ _ _ _ _ _ _ ws pins w q); [reflexivity|reflexivity|reflexivity|reflexivity|reflexivity|finv; frep| | ].

(** slots by name *)
Fixpoint slot_at (l : list (string * ty)) (k : nat) (x : string) : list nat :=
  match l with [] => [] | (y, _) :: l => if String.eqb x y then [k] else slot_at l (S k) x end.
Definition sl (p : prog) (xs : list string) : list nat := flat_map (slot_at (p_sc p) 0) xs.
Definition sl1 (p : prog) (x : string) : nat := hd 0%nat (sl p [x]).
Fixpoint arr_at (l : list (string * ty * list rexpr)) (k : nat) (x : string) : nat :=
  match l with [] => 0 | (y, _, _) :: l => if String.eqb x y then k else arr_at l (S k) x end%nat.
Definition ar (p : prog) (x : string) : nat := arr_at (p_ar p) 0 x.
Ltac fif1 := fif; erewrite block_if1; [|cbn [eval bind bin nth_error sv neg]; reflexivity|cbn [eval bind bin nth_error sv neg]; reflexivity|reflexivity]; cbn [sv av set_nth].
Ltac fif2 := fif; erewrite block_if2; [|reflexivity|reflexivity|reflexivity|reflexivity|reflexivity|reflexivity]; cbn [sv av set_nth].
Ltac fflag e00 := rewrite ?(flag_d0 _ e00), ?(flag_d1 _ e00), ?flag_h0, ?flag_h1, ?flag_z0, ?flag_z1.
Ltac fseq ws pins w q := eapply (block_seq _ _ _ _ _ _ _ _ _ ws pins w q).
(** end of a block that keeps an invariant *)
Ltac fkeep := rewrite ?block_nil; cbn [norm simr fst snd]; split; [reflexivity|]; finv; cbn [fst snd]; frep.
Ltac fkeeps := intros; match goal with I1 : inv _ _ _ _ _ _ ?s |- _ => fexpl s I1 end; cbn [fst snd] in *; fkeep.
