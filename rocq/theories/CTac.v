(** Symbolic execution of C++ statements, one at a time. *)
From Coq Require Import ZArith Bool Ascii String List Lia.
From Verif Require Import Num Res MQuat MSimd MOptL1 MOptGemm CSyntax CParse CSem CSimFacts.
Import ListNotations.
Local Open Scope Z_scope.

Section T.
Context {K : num}.
Variable rv : nat -> list (val K) -> mem K -> M (val K).
Variable rp : nat -> list (val K) -> mem K -> M (env K * mem K).
Variable rr : nat -> list bool.
Variable ext : string -> string -> list (val K) -> mem K -> M (mem K).
Variable fuel : nat.
(** what is left to do after a statement: [b], then [k] *)
Definition then_ {B} (b : stmt) (k : st K * flow K -> M B) : st K * flow K -> M B :=
  fun y => match snd y with Next => mb (exec rv rp rr ext fuel b (fst y)) k | _ => k y end.
Lemma mb_mb {A B C} (x : M A) (f : A -> M B) (g : B -> M C) : mb (mb x f) g = mb x (fun a => mb (f a) g).
Proof. destruct x as [[a| |]|]; reflexivity. Qed.
Lemma mb_ext {A B} (x : M A) (f g : A -> M B) : (forall a, f a = g a) -> mb x f = mb x g.
Proof. intros E. destruct x as [[a| |]|]; cbn; auto. Qed.
Lemma x_seq {B} a b s (k : _ -> M B) : mb (exec rv rp rr ext fuel (SSeq a b) s) k = mb (exec rv rp rr ext fuel a s) (then_ b k).
Proof.
  destruct s as [en m]. cbn [exec]. rewrite mb_mb. apply mb_ext. intros [s' fl]. unfold then_. cbn [fst snd].
  destruct fl; reflexivity.
Qed.
Lemma x_next {B} b (s : st K) (k : _ -> M B) : then_ b k (s, Next) = mb (exec rv rp rr ext fuel b s) k.
Proof. reflexivity. Qed.
Lemma x_ret {B} b (s : st K) v (k : _ -> M B) : then_ b k (s, Return v) = k (s, Return v).
Proof. reflexivity. Qed.
Lemma x_if {B} c a b s (k : _ -> M B) :
  mb (exec rv rp rr ext fuel (SIf c a b) s) k =
  mb (test rv c s) (fun t : bool => if t then mb (exec rv rp rr ext fuel a s) k else mb (exec rv rp rr ext fuel b s) k).
Proof. destruct s as [en m]. cbn [exec]. rewrite mb_mb. apply mb_ext. intros [|]; reflexivity. Qed.
Lemma x_skip {B} s (k : _ -> M B) : mb (exec rv rp rr ext fuel SSkip s) k = k (s, Next).
Proof. destruct s. reflexivity. Qed.
Lemma x_while {B} c b s (k : _ -> M B) : mb (exec rv rp rr ext fuel (SWhile c b) s) k = mb (wloop fuel (test rv c) (exec rv rp rr ext fuel b) s) k.
Proof. destruct s. reflexivity. Qed.
Lemma x_do {B} b c s (k : _ -> M B) :
  mb (exec rv rp rr ext fuel (SDo b c) s) k =
  mb (exec rv rp rr ext fuel b s) (fun y => match snd y with Next => mb (wloop fuel (test rv c) (exec rv rp rr ext fuel b) (fst y)) k | _ => k y end).
Proof. destruct s as [en m]. cbn [exec]. rewrite mb_mb. apply mb_ext. intros [s' fl]. destruct fl; reflexivity. Qed.
Lemma x_ifdo {B} c b s (k : _ -> M B) :
  mb (exec rv rp rr ext fuel (SIf c (SDo b c) SSkip) s) k = mb (wloop (S fuel) (test rv c) (exec rv rp rr ext fuel b) s) k.
Proof. destruct s as [en m]. reflexivity. Qed.
(** end of a loop body *)
Lemma x_end (x : M (st K * flow K)) : x = mb x (fun y => mret y).
Proof. destruct x as [[a| |]|]; reflexivity. Qed.
Lemma aligned_at0 a : (Z.land (a + 32 * 0 + 8 * 0) (32 - 1) =? 0) = IS_ALIGNED a.
Proof. unfold IS_ALIGNED, REQ_ALIGN. replace (a + 32 * 0 + 8 * 0) with a by lia. reflexivity. Qed.
Lemma x_and (a b : bool) : (if a then mret (VB b) else mret (VB (K := K) false)) = mret (VB (a && b)).
Proof. destruct a; reflexivity. Qed.
End T.

Ltac cleaf :=
  cbn [exec eval evals mb mret get put convert truth unary binary padd intrin cast addr_of qblock nth_error lift fst snd index store store256 mput
       app repeat List.length Nat.sub test bind_args firstn f_params f_body f_slots f_ret map distinct var_args flat_map existsb negb andb orb Nat.eqb
       write_back finish bind signbit Z.eqb Pos.eqb arith].
Ltac cinit := cbn [bind_args mb mret convert app repeat List.length Nat.sub f_params f_body f_slots f_ret]; rewrite mb_mb.
Ltac cstep1 :=
  lazymatch goal with
  | |- context [if _ then mret (VB _) else mret (VB false)] => rewrite x_and
  | |- context [then_ _ _ _ _ _ _ _ (_, Next)] => rewrite x_next
  | |- context [then_ _ _ _ _ _ _ _ (_, Return _)] => rewrite x_ret
  | |- context [mb (exec _ _ _ _ _ (SSeq _ _) _) _] => rewrite x_seq
  | |- context [mb (wloop _ _ _ _) _] => fail
  | |- context [mb (exec _ _ _ _ _ (SIf _ (SDo _ _) SSkip) _) _] => rewrite x_ifdo
  | |- context [mb (exec _ _ _ _ _ (SIf _ _ _) _) _] => rewrite x_if
  | |- context [mb (exec _ _ _ _ _ SSkip _) _] => rewrite x_skip
  | |- context [mb (exec _ _ _ _ _ (SWhile _ _) _) _] => fail
  | |- context [mb (exec _ _ _ _ _ (SDo _ _) _) _] => fail
  | |- _ => progress cleaf
  end.
Ltac csteps := repeat cstep1.
Fixpoint puts {K} (en : env K) (l : list (nat * option (val K))) : env K := match l with [] => en | (x, v) :: l => puts (put en x v) l end.
(** a memory access made by both sides *)
Ltac cdata :=
  lazymatch goal with
  | |- sim _ (bind (vld ?a ?b ?c ?d) _) _ => destruct (vld a b c d) as [? | |]; [| reflexivity | reflexivity]
  | |- sim _ (bind (vst ?a ?b ?c ?d ?e) _) _ => destruct (vst a b c d e) as [? | |]; [| reflexivity | reflexivity]
  | |- sim _ (bind (vld128 ?a ?b ?c ?d) _) _ => destruct (vld128 a b c d) as [? | |]; [| reflexivity | reflexivity]
  | |- sim _ (bind (ld ?a ?b) _) _ => destruct (ld a b) as [? | |]; [| reflexivity | reflexivity]
  | |- sim _ (bind (Res.st ?a ?b ?c) _) _ => destruct (Res.st a b c) as [? | |]; [| reflexivity | reflexivity]
  end.
Ltac crun := csteps; repeat (cdata; csteps).
(** a counted loop with the invariant R *)
Ltac cwhile R := rewrite x_while; eapply sim_bind; [eapply (wfor_sim R) |].
