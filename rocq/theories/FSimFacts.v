(** Simulation rules between the interpreted Fortran programs and the hand-written model functions. *)
From Coq Require Import ZArith Lia Bool Ascii String List.
From Verif Require Import Num Res ResFacts MForL1 MForL2 FSyntax FParse FSem FProg.
Import ListNotations.
Local Open Scope Z_scope.

Section F.
Context {K : num}.
Local Notation qarr := (arr (quat K)).
Local Notation mem := (arr K).
Definition rep (m : mem) (q : qarr) : Prop := forall z, m z = cells q z.
Lemma rep_cells q : rep (cells q) q. Proof. intros z. reflexivity. Qed.
Lemma rep_ext m q q' : rep m q -> (forall p, q p = q' p) -> rep m q'.
Proof. intros H E z. rewrite H. unfold cells. rewrite E. reflexivity. Qed.

Lemma cells_at (q : qarr) p t : 0 <= t < 4 -> cells q (4 * p + t) = option_map (fun v => comp v t) (q p).
Proof.
  intros Ht. unfold cells. replace (4 * p + t) with (t + p * 4) by ring. rewrite Z.div_add, Z.mod_add by lia.
  rewrite (Z.div_small t 4), (Z.mod_small t 4) by lia. reflexivity.
Qed.
Lemma cells_split z : exists p t, z = 4 * p + t /\ 0 <= t < 4.
Proof. exists (z / 4), (z mod 4). split; [apply Z.div_mod; lia|apply Z.mod_pos_bound; lia]. Qed.

(** reading *)
Definition half (t : Z) (v : quat K) : cplx K := if t =? 1 then h1 v else h2 v.
Lemma getc m q (p t o : Z) : rep m q -> o = (t - 1) + 2 * p -> t = 1 \/ t = 2 ->
  aget TCplx m o = match q p with Some v => Ok (VZ (half t v)) | None => UB end.
Proof.
  intros R -> Ht. unfold aget, ld. rewrite !R.
  assert (cells q (2 * (t - 1 + 2 * p)) = option_map (fun v => comp v (2 * (t - 1))) (q p)) as -> by (rewrite <- cells_at by lia; f_equal; lia).
  assert (cells q (2 * (t - 1 + 2 * p) + 1) = option_map (fun v => comp v (2 * (t - 1) + 1)) (q p)) as -> by (rewrite <- cells_at by lia; f_equal; lia).
  destruct (q p) as [[a b c d]|]; [|reflexivity]. destruct Ht as [-> | ->]; reflexivity.
Qed.
Lemma getr m q (p t o : Z) : rep m q -> o = (t - 1) + 4 * p -> 1 <= t <= 4 ->
  aget TReal m o = match q p with Some v => Ok (VR (comp v (t - 1))) | None => UB end.
Proof.
  intros R -> Ht. unfold aget, ld. rewrite !R.
  assert (cells q (t - 1 + 4 * p) = option_map (fun v => comp v (t - 1)) (q p)) as -> by (rewrite <- cells_at by lia; f_equal; lia).
  destruct (q p) as [[a b c d]|]; reflexivity.
Qed.
(** writing *)
Definition sethalf (t : Z) (z : cplx K) (v : quat K) : quat K := if t =? 1 then hq z (h2 v) else hq (h1 v) z.
Definition setcomp (t : Z) (a : K) (v : quat K) : quat K :=
  if t =? 1 then Quat a (qi v) (qj v) (qk v) else if t =? 2 then Quat (qr v) a (qj v) (qk v) else
  if t =? 3 then Quat (qr v) (qi v) a (qk v) else Quat (qr v) (qi v) (qj v) a.
Lemma rep_upd m q p t (a : K) v (w : quat K) : rep m q -> q p = Some v -> 0 <= t < 4 ->
  (forall u, 0 <= u < 4 -> comp w u = if u =? t then a else comp v u) -> rep (upd m (4 * p + t) a) (upd q p w).
Proof.
  intros R E Ht W z. destruct (cells_split z) as (p' & u & -> & Hu). rewrite cells_at by lia. unfold upd.
  destruct (p' =? p) eqn:Ep.
  - apply Z.eqb_eq in Ep. subst p'. cbn [option_map]. rewrite W by lia. destruct (u =? t) eqn:Eu.
    + apply Z.eqb_eq in Eu. subst u. rewrite Z.eqb_refl. reflexivity.
    + apply Z.eqb_neq in Eu. rewrite (proj2 (Z.eqb_neq _ _)) by lia. rewrite R, cells_at, E by lia. reflexivity.
  - apply Z.eqb_neq in Ep. rewrite (proj2 (Z.eqb_neq _ _)) by lia. rewrite R, cells_at by lia. reflexivity.
Qed.
Lemma st_cell m q p t a : rep m q -> 0 <= t < 4 -> st m (4 * p + t) a = match q p with Some _ => Ok (upd m (4 * p + t) a) | None => UB end.
Proof. intros R Ht. unfold st. rewrite R, cells_at by lia. destruct (q p); reflexivity. Qed.
Lemma upd_same {A} (m : arr A) i v : upd m i v i = Some v. Proof. unfold upd. rewrite Z.eqb_refl. reflexivity. Qed.
Lemma putr m q p t o a v : rep m q -> o = (t - 1) + 4 * p -> 1 <= t <= 4 -> q p = Some v ->
  exists m', aput TReal m o (VR a) = Ok m' /\ rep m' (upd q p (setcomp t a v)).
Proof.
  intros R -> Ht E. exists (upd m (4 * p + (t - 1)) a). split.
  - cbn [aput]. replace (t - 1 + 4 * p) with (4 * p + (t - 1)) by ring. rewrite (st_cell m q) by (auto; lia). rewrite E. reflexivity.
  - apply (rep_upd m q p (t - 1) a v); auto; [lia|]. intros u Hu. unfold setcomp, comp.
    assert (t = 1 \/ t = 2 \/ t = 3 \/ t = 4) as [-> |[-> |[-> | ->]]] by lia;
      assert (u = 0 \/ u = 1 \/ u = 2 \/ u = 3) as [-> |[-> |[-> | ->]]] by lia; destruct v; reflexivity.
Qed.
Lemma putr_none m q p t o a : rep m q -> o = (t - 1) + 4 * p -> 1 <= t <= 4 -> q p = None -> aput TReal m o (VR a) = UB.
Proof. intros R -> Ht E. cbn [aput]. replace (t - 1 + 4 * p) with (4 * p + (t - 1)) by ring. rewrite (st_cell m q) by (auto; lia). rewrite E. reflexivity. Qed.
Lemma putc m q p t o z v : rep m q -> o = (t - 1) + 2 * p -> t = 1 \/ t = 2 -> q p = Some v ->
  exists m', aput TCplx m o (VZ z) = Ok m' /\ rep m' (upd q p (sethalf t z v)).
Proof.
  intros R -> Ht E. destruct z as [x y]. set (u := 2 * (t - 1)).
  exists (upd (upd m (4 * p + u) x) (4 * p + (u + 1)) y).
  set (w1 := if t =? 1 then Quat x (qi v) (qj v) (qk v) else Quat (qr v) (qi v) x (qk v)).
  assert (R1 : rep (upd m (4 * p + u) x) (upd q p w1)).
  { apply (rep_upd m q p u x v); auto; [lia|]. intros s Hs. unfold w1, u, comp.
    destruct Ht as [-> | ->]; assert (s = 0 \/ s = 1 \/ s = 2 \/ s = 3) as [-> |[-> |[-> | ->]]] by lia; destruct v; reflexivity. }
  split.
  - cbn [aput re im]. replace (2 * (t - 1 + 2 * p)) with (4 * p + u) by (unfold u; ring). rewrite (st_cell m q) by (auto; unfold u; lia). rewrite E. cbn [bind].
    replace (4 * p + u + 1) with (4 * p + (u + 1)) by ring. rewrite (st_cell _ _ _ _ _ R1) by (unfold u; lia). rewrite upd_same. reflexivity.
  - eapply rep_ext.
    + apply (rep_upd _ _ p (u + 1) y w1 (sethalf t (Cplx x y) v) R1 (upd_same _ _ _)); [unfold u; lia|].
      intros s Hs. unfold w1, u, comp, sethalf, hq, h1, h2.
      destruct Ht as [-> | ->]; assert (s = 0 \/ s = 1 \/ s = 2 \/ s = 3) as [-> |[-> |[-> | ->]]] by lia; destruct v; reflexivity.
    + intros p'. unfold upd. destruct (p' =? p); reflexivity.
Qed.
Lemma putc_none m q p t o z : rep m q -> o = (t - 1) + 2 * p -> t = 1 \/ t = 2 -> q p = None -> aput TCplx m o (VZ z) = UB.
Proof.
  intros R -> Ht E. cbn [aput]. replace (2 * (t - 1 + 2 * p)) with (4 * p + 2 * (t - 1)) by ring. rewrite (st_cell m q) by (auto; lia).
  rewrite E. reflexivity.
Qed.

(** ** Loops *)
Definition simr {T S} (R : T -> S -> Prop) (r : res S) (m : res T) : Prop :=
  match r, m with Ok s, Ok t => R t s | UB, UB => True | _, _ => False end.
Lemma floop_sim {T S} (R : T -> S -> Prop) f g n : forall i t s, R t s ->
  (forall j t s, i <= j < i + Z.of_nat n -> R t s -> simr R (f j s) (g j t)) -> simr R (floop n i f s) (floop n i g t).
Proof.
  induction n as [|n IH]; intros i t s Rs B; [exact Rs|]. cbn [floop].
  assert (B0 := B i t s ltac:(lia) Rs). destruct (f i s) as [s1| |], (g i t) as [t1| |]; cbn [simr bind] in *; try contradiction; auto.
  apply IH; auto. intros j t' s' Hj. apply B. lia.
Qed.
Lemma fdo_sim {T S} (R : T -> S -> Prop) f g lo hi t s : R t s ->
  (forall j t s, lo <= j <= hi -> R t s -> simr R (f j s) (g j t)) -> simr R (fdo lo hi f s) (fdo lo hi g t).
Proof. intros Rs B. unfold fdo, zfor. apply floop_sim; auto. intros j t' s' Hj. apply B. lia. Qed.
Lemma simr_bind {T S T' S'} (R : T -> S -> Prop) (R' : T' -> S' -> Prop) r m f g : simr R r m -> (forall t s, R t s -> simr R' (f s) (g t)) -> simr R' (bind r f) (bind m g).
Proof. destruct r, m; cbn [simr bind]; try contradiction; auto. Qed.
Lemma simr_weaken {T S} (R R' : T -> S -> Prop) r m : simr R r m -> (forall t s, R t s -> R' t s) -> simr R' r m.
Proof. destruct r, m; cbn [simr]; auto. Qed.

(** ** States *)
Local Notation val := (val K).
Local Notation state := (state K).
(** slot [k]: pinned to a value, free (its index is listed) or unchanged *)
Fixpoint pin (k : nat) (pins : list (nat * val)) : option val :=
  match pins with [] => None | (j, v) :: r => if Nat.eqb k j then Some v else pin k r end.
Definition memb (k : nat) (ws : list nat) : bool := existsb (Nat.eqb k) ws.
Definition slotrel (ws : list nat) (pins : list (nat * val)) (k : nat) (a b : option val) : Prop :=
  match pin k pins with Some v => b = Some v | None => if memb k ws then True else b = a end.
Fixpoint slots (ws : list nat) (pins : list (nat * val)) (k : nat) (l0 l : list (option val)) : Prop :=
  match l0, l with
  | [], [] => True
  | a :: l0, b :: l => slotrel ws pins k a b /\ slots ws pins (S k) l0 l
  | _, _ => False
  end.
(** arrays: unchanged, except that number [w] holds the quaternions [q] *)
Fixpoint arrs (w : nat) (q : qarr) (l0 l : list mem) : Prop :=
  match l0, l with
  | [], [] => True
  | a :: l0, b :: l => match w with O => rep b q /\ l = l0 | S w => b = a /\ arrs w q l0 l end
  | _, _ => False
  end.
Definition inv {T} (s0 : state) (ws : list nat) (pins : T -> list (nat * val)) (w : nat) (q : T -> qarr) (t : T) (s : state) : Prop :=
  slots ws (pins t) 0 (sv s0) (sv s) /\ arrs w (q t) (av s0) (av s).
(** the outcome of a block that does not return early *)
Definition norm {T} (R : T -> state -> Prop) (r : res (state * bool)) (m : res T) : Prop := simr (fun t sb => snd sb = false /\ R t (fst sb)) r m.
Variable ext : string -> list val -> res val.
Lemma block_cons tys c p l (s : state) : block ext tys c (p :: l) s = ('(s, b) <- exec ext tys c p s ;; if b : bool then Ok (s, true) else block ext tys c l s).
Proof. reflexivity. Qed.
Lemma exec_if tys c e s1 s2 (s : state) : exec ext tys c (RIf e s1 s2) s =
  (v <- eval ext c s e ;; b <- as_log v ;; if b : bool then block ext tys c s1 s else block ext tys c s2 s).
Proof. reflexivity. Qed.
Lemma exec_do tys c x lo hi body (s : state) : exec ext tys c (RDo x lo hi body) s =
  (a <- eval ext c s lo ;; a <- as_int a ;; b <- eval ext c s hi ;; b <- as_int b ;;
      s <- fdo a b (fun i s => s <- assign tys s x (VI i) ;; '(s, r) <- block ext tys c body s ;; if r : bool then Abort else Ok s) s ;;
      s <- assign tys s x (VI (Z.max a (b + 1))) ;; Ok (s, false)).
Proof. reflexivity. Qed.
Lemma assign_slots ws pins tys (s0 s s' : list (option val)) A x v : nth_error tys x = Some TInt -> pin x pins = None -> memb x ws = true ->
  slots ws pins 0 s0 s -> assign tys (St s A) x (VI v) = Ok (St (set_nth s x (Some (VI v))) A) /\ slots ws pins 0 s0 (set_nth s x (Some (VI v))).
Proof.
  intros Hx Hp Hm HS. unfold assign. rewrite Hx. cbn [conv bind sv av]. split; [reflexivity|]. revert HS.
  enough (G : forall k y, (k + y)%nat = x -> slots ws pins k s0 s -> slots ws pins k s0 (set_nth s y (Some (VI v)))) by (intros HS; apply (G 0%nat x); auto).
  clear Hx. revert s. induction s0 as [|a s0 IH]; intros [|b s] k y E; cbn [slots set_nth]; try contradiction; [destruct y; auto|].
  intros [S1 S2]. destruct y as [|y]; cbn [slots].
  - split; [|exact S2]. assert (k = x) as -> by lia. unfold slotrel. rewrite Hp, Hm. exact I.
  - split; [exact S1|]. apply IH; auto. lia.
Qed.
(** the DO rule: the loop body, started in any state that satisfies the invariant with the loop variable set, simulates the model's body *)
Lemma do_sim {T} tys c x lo hi body (s : state) a b (g : Z -> T -> res T) (t : T) s0 ws pins w q :
  eval ext c s lo = Ok (VI a) -> eval ext c s hi = Ok (VI b) -> nth_error tys x = Some TInt -> (forall t, pin x (pins t) = None) -> memb x ws = true ->
  inv s0 ws pins w q t s ->
  (forall i t s, a <= i <= b -> inv s0 ws pins w q t s ->
     norm (inv s0 ws pins w q) (block ext tys c body (St (set_nth (sv s) x (Some (VI i))) (av s))) (g i t)) ->
  norm (inv s0 ws pins w q) (exec ext tys c (RDo x lo hi body) s) (fdo a b g t).
Proof.
  intros Ea Eb Hx Hp Hm H0 B. rewrite exec_do, Ea, Eb. cbn [bind as_int]. unfold norm.
  replace (fdo a b g t) with (bind (fdo a b g t) (fun t => Ok t)) by (destruct (fdo a b g t); reflexivity).
  apply (simr_bind (inv s0 ws pins w q)).
  - apply fdo_sim; [exact H0|]. intros i t1 s1 Hi I1. destruct s1 as [v1 m1]. destruct (assign_slots ws (pins t1) tys (sv s0) v1 v1 m1 x i Hx (Hp t1) Hm (proj1 I1)) as [-> _]. cbn [bind].
    assert (B1 := B i t1 _ Hi I1). cbn [sv av] in B1. destruct (block ext tys c body _) as [[s2 r]| |], (g i t1) as [t2| |]; cbn [norm simr bind fst snd] in *; try contradiction; auto.
    destruct B1 as [-> B1]. exact B1.
  - intros t1 [v1 m1] I1. destruct (assign_slots ws (pins t1) tys (sv s0) v1 v1 m1 x (Z.max a (b + 1)) Hx (Hp t1) Hm (proj1 I1)) as [-> S1]. cbn [bind simr fst snd].
    split; [reflexivity|]. split; [exact S1|exact (proj2 I1)].
Qed.
End F.
