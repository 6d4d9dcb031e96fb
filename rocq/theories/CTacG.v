(** Symbolic execution of the generic templates: the scalar arguments are of any of the three types. *)
From Coq Require Import ZArith Bool Ascii String List Lia.
From Verif Require Import Num Res MQuat MSimd MOptL1 MGenL1 CSyntax CParse CSem CSimFacts CTac CStep CLinkG.
Import ListNotations. Local Open Scope string_scope. Local Open Scope Z_scope.

Global Arguments binary {K} o a b : simpl nomatch.
Global Arguments arith {K} o a b : simpl nomatch.
Global Arguments convert {K} t v : simpl nomatch.
Global Arguments cast {K} m t v : simpl nomatch.
Global Arguments mb {A B} x f : simpl nomatch.

Section S.
Context {K : num}.
(** the number k in the type of a scalar *)
Definition cst (a : scal K) (k : K) : val K := match a with SR _ => VK k | SC _ => VC (Cplx k n0) | SH _ => VQ (q_of_real k) end.
Lemma conv_scal a : convert (ty a) (val_of (K:=K) a) = mret (val_of a). Proof. destruct a; reflexivity. Qed.
Lemma conv_cst a k : convert (ty a) (cst a k) = mret (cst a k). Proof. destruct a; reflexivity. Qed.
Lemma cast_scal a k m : cast m (ty a) (VK k) = mret (cst a k). Proof. destruct a; reflexivity. Qed.
Lemma eq_scal a k : binary BEq (val_of a) (cst a k) = mret (VB (s_eqb a k)). Proof. destruct a; reflexivity. Qed.
Lemma ne_scal a k : binary BNe (val_of a) (cst a k) = mret (VB (negb (s_eqb a k))). Proof. destruct a; reflexivity. Qed.
Lemma mul_scal_l a x : binary BMul (val_of a) (VQ (K:=K) x) = mret (VQ (smul_l q_mul a x)). Proof. destruct a; reflexivity. Qed.
Lemma mul_scal_r a x : arith BMul (VQ (K:=K) x) (val_of a) = mret (VQ (smul_r q_mul x a)). Proof. destruct a; reflexivity. Qed.
Lemma x_or (a b : bool) : (if a then mret (VB (K := K) true) else mret (VB b)) = mret (VB (a || b)).
Proof. destruct a; reflexivity. Qed.
Lemma x_lor (a b : bool) : mb (mb (mret (VB (K:=K) a)) truth) (fun x : bool => if x then mret (VB (K:=K) true) else mret (VB b)) = mret (VB (a || b)).
Proof. destruct a; reflexivity. Qed.
Lemma assertb_sim {B C} (c : bool) (P : B -> C -> Prop) r x :
  (c = true -> sim P r x) -> sim P (_ <- assertb c ;; r) (if c then x else Some Abort).
Proof. destruct c; intros H; [exact (H eq_refl) | reflexivity]. Qed.
Lemma zfor_nil {S} lo hi (b : Z -> S -> res S) s : hi <= lo -> zfor lo hi b s = Ok s.
Proof. intros H. unfold zfor. replace (Z.to_nat (hi - lo)) with 0%nat by lia. reflexivity. Qed.
(** for (i = 0; i < n*step; i += step) *)
Lemma wfors_sim' {S : Type} (R : Z -> S -> st K -> Prop) (c : st K -> M bool) (b : st K -> M (st K * flow K)) lo hi step (mbody : Z -> S -> res S) :
  0 < step ->
  (forall i s x, R i s x -> c x = mret (i <? hi)) ->
  (forall i s x, i < hi -> R i s x -> sim (fun s' y => snd y = Next /\ R (i + step) s' (fst y)) (mbody i s) (b x)) ->
  forall s x fuel, R lo s x -> (Z.to_nat ((hi - lo + step - 1) / step) < fuel)%nat ->
  sim (fun s' y => snd y = Next /\ exists i, R i s' (fst y)) (zforstep lo hi step mbody s) (wloop fuel c b x).
Proof.
  intros Hs Hc Hb s x fuel Hr Hf. unfold zforstep.
  refine (sim_weaken _ _ _ _ _ (wfor_sim (fun t => R (lo + step * t)) c b 0 ((hi - lo + step - 1) / step) _ _ _ s x fuel _ _)).
  - intros a [y fl] [E (t & _ & Ht)]. split; [exact E|]. exists (lo + step * t). exact Ht.
  - intros t s' x' H'. rewrite (Hc _ _ _ H'), ceil_ltb by exact Hs. reflexivity.
  - intros t s' x' Ht H'. replace (lo + step * (t + 1)) with (lo + step * t + step) by ring. apply Hb; [| exact H'].
    apply Z.ltb_lt. rewrite ceil_ltb by exact Hs. apply Z.ltb_lt. exact Ht.
  - replace (lo + step * 0) with lo by ring. exact Hr.
  - rewrite Z.sub_0_r. exact Hf.
Qed.
Lemma mult_fuel n step fuel : 0 < step -> (Z.to_nat n < fuel)%nat -> (Z.to_nat ((n * step - 0 + step - 1) / step) < fuel)%nat.
Proof.
  intros Hs Hf. replace (n * step - 0 + step - 1) with ((step - 1) + n * step) by ring. rewrite Z.div_add by lia.
  rewrite Z.div_small by lia. exact Hf.
Qed.
End S.

Lemma mb_ret {A B} (a : A) (f : A -> M B) : mb (mret a) f = f a.
Proof. reflexivity. Qed.
Lemma mb_ok {A B} (a : A) (f : A -> M B) : mb (Some (Ok a)) f = f a.
Proof. reflexivity. Qed.
Lemma ld_cases {A} (a : arr A) i : (exists v, ld a i = Ok v) \/ ld a i = UB.
Proof. unfold ld. destruct (a i) as [v|]; [left; exists v; reflexivity | right; reflexivity]. Qed.
Lemma st_cases {A} (a : arr A) i v w : ld a i = Ok w -> Res.st a i v = Ok (upd a i v).
Proof. unfold ld, Res.st. destruct (a i); [reflexivity | discriminate]. Qed.
Lemma st_cases' {A} (a : arr A) i w : ld a i = Ok w -> forall v, Res.st a i v = Ok (upd a i v).
Proof. intros H v. exact (st_cases a i v w H). Qed.
Lemma st_ub {A} (a : arr A) i v : ld a i = UB -> Res.st a i v = UB.
Proof. unfold ld, Res.st. destruct (a i); [discriminate | reflexivity]. Qed.
Ltac gcbn X :=
  eval cbn [exec eval evals mb mret get put convert truth unary binary padd intrin cast addr_of qblock nth_error lift fst snd index store store256 mput
       app repeat List.length Nat.sub test bind_args firstn negb andb orb finish bind Z.eqb Pos.eqb arith] in X.
(** rewriting at scalar operations *)
Ltac gscal := rewrite ?conv_scal, ?conv_cst, ?cast_scal, ?eq_scal, ?ne_scal, ?mul_scal_l, ?mul_scal_r.
(** one step at the head of the run *)
Ltac gstep1 :=
  lazymatch goal with
  | |- sim _ _ (mb (exec ?rv ?rp ?rr ?ext ?fuel (SSeq ?a ?b) ?s) ?k) => rewrite (x_seq rv rp rr ext fuel a b s k)
  | |- sim _ _ (mb (exec ?rv ?rp ?rr ?ext ?fuel (SIf ?c ?a ?b) ?s) ?k) => rewrite (x_if rv rp rr ext fuel c a b s k)
  | |- sim _ _ (mb (exec ?rv ?rp ?rr ?ext ?fuel SSkip ?s) ?k) => rewrite (x_skip rv rp rr ext fuel s k)
  | |- sim _ _ (mb (exec _ _ _ _ _ (SWhile _ _) _) _) => fail
  | |- sim _ _ (mb (exec _ _ _ _ _ (SExt _ _ _) _) _) => fail
  | |- sim _ _ (mb (test ?rv ?c (?en, ?m)) ?k) => change (test rv c (en, m)) with (mb (eval rv en m c) truth)
  | |- sim _ _ (mb (mb ?x ?f) ?k) => rewrite (mb_mb x f k)
  | |- sim _ _ (mb (lift ?r) ?k) => change (lift r) with (Some r)
  | |- sim _ _ (mb (mret ?a) ?k) => rewrite (mb_ret a k); cbv beta
  | |- sim _ _ (mb (Some (Ok ?a)) ?k) => rewrite (mb_ok a k); cbv beta
  | |- sim _ _ (then_ ?rv ?rp ?rr ?ext ?fuel ?b ?k (?s, Next)) => rewrite (x_next rv rp rr ext fuel b s k)
  | |- sim _ _ (then_ ?rv ?rp ?rr ?ext ?fuel ?b ?k (?s, Return ?v)) => rewrite (x_ret rv rp rr ext fuel b s v k)
  | |- sim _ _ (mb (if _ then mret (VB true) else mret (VB _)) _) => rewrite x_or
  | |- sim _ _ (mb (if _ then mret (VB _) else mret (VB false)) _) => rewrite x_and
  | |- sim _ _ (mb (Some (bind (ld ?a ?i) _)) _) => fail
  | |- sim _ _ (mb (Some (bind (Res.st ?a ?i _) _)) _) => fail
  | |- sim _ _ (mb ?x ?k) => let y := gcbn x in first [progress (change x with y); gscal | progress gscal]
  | |- sim _ _ (finish _ _ _) => cbn [finish firstn mb mret convert]
  | |- sim _ _ (if _ then _ else _) => fail
  | |- sim _ _ ?x => let y := gcbn x in progress (change x with y)
  end.
Ltac gsteps := repeat gstep1.
(** loads and stores of the run; the model's use the same cells *)
Ltac gnorm := rewrite ?Z.add_0_l.
Ltac gub := repeat (cbn [bind];
  lazymatch goal with
  | E : ld ?a ?i = UB |- context [ld ?a ?i] => rewrite E
  | E : ld ?a ?i = Ok _ |- context [ld ?a ?i] => rewrite E
  | E : ld ?a ?i = UB |- context [Res.st ?a ?i _] => rewrite (st_ub a i _ E)
  | |- context [bind (ld ?a ?i) _] => let v := fresh "v" in let E := fresh "Eu" in destruct (ld_cases a i) as [[v E] | E]
  end); try reflexivity.
Ltac gdata :=
  gnorm;
  lazymatch goal with
  | E : ld ?a ?i = Ok _ |- sim _ _ (mb (Some (bind (ld ?a ?i) _)) _) => rewrite !E; cbn [bind]
  | |- sim _ _ (mb (Some (bind (ld ?a ?i) _)) _) =>
      let v := fresh "v" in let E := fresh "E" in
      destruct (ld_cases a i) as [[v E] | E]; rewrite ?E; [cbn [bind] | cbn [bind]; gub]
  | E : ld ?a ?i = Ok _ |- sim _ _ (mb (Some (bind (Res.st ?a ?i ?w) _)) _) => rewrite !(st_cases' a i _ E); cbn [bind]
  | |- sim _ _ (mb (Some (bind (Res.st ?a ?i ?w) _)) _) =>
      let v := fresh "v" in let E := fresh "E" in
      destruct (ld_cases a i) as [[v E] | E]; [rewrite ?E; cbn [bind]; rewrite !(st_cases' a i _ E); cbn [bind] | rewrite ?E, ?(st_ub a i _ E); cbn [bind]; gub]
  end.
Ltac grun := repeat (gsteps; gdata); gsteps.
Ltac gassert := lazymatch goal with |- sim _ _ (mb (if ?c then _ else Some Abort) _) => destruct c eqn:?; [cbn [assertb bind] | reflexivity] | |- sim _ _ (if ?c then _ else Some Abort) => destruct c eqn:?; [cbn [assertb bind] | reflexivity] end.
Lemma bind_ok {A} (r : res A) : bind r Ok = r.
Proof. destruct r; reflexivity. Qed.
(** a loop with the invariant R; goals: condition, body, entry, fuel, what follows *)
Ltac gloop :=
  lazymatch goal with
  | |- sim _ _ (mb (exec ?rv ?rp ?rr ?ext ?fuel (SWhile ?c ?b) ?s) ?k) => rewrite (x_while rv rp rr ext fuel c b s k)
  end;
  lazymatch goal with |- sim _ (bind _ _) _ => idtac | |- sim _ ?r _ => rewrite <- (bind_ok r) end;
  lazymatch goal with |- sim _ (bind ?r ?f) (mb ?x ?g) => refine (sim_bind _ _ r x f g _ _) end.
Ltac gfor R := gloop; [eapply (wfor_sim R) |].
Ltac gfors R := gloop; [eapply (wfors_sim R); [try lia | | | |] |].
Ltac gfors' R := gloop; [eapply (wfors_sim' R); [try lia | | | |] |].
(** the state of the run is known *)
Ltac gcond := cbn [puts put]; unfold test; cbn [fst snd];
  lazymatch goal with |- mb ?x ?k = _ => let y := gcbn (mb x k) in change (mb x k) with y; reflexivity end.
Ltac gbody := cbn [puts put]; rewrite (x_end (exec _ _ _ _ _ _ _)).
Ltac gok := apply sim_ok; refine (conj eq_refl _).
Ltac gstart u f UE :=
  lazymatch goal with |- context [ccall u ?ext ?fuel ?n ?args ?m] =>
    rewrite (ccall_eq u [f] ext fuel n 0 args m f UE eq_refl eq_refl); change (List.length [f]) with 1%nat;
    generalize (callv [f] ext fuel 1), (callp [f] ext fuel 1), (refs_of [f]) end;
  intros rv rp rr.
Ltac gopen :=
  cbv beta; unfold CLinkG.ptr; cbn [bind_args mb mret convert f_params f_body f_slots f_ret];
  repeat (rewrite ?conv_scal; cbn [bind_args mb mret convert]); cinit.
