(** Reasoning rules for [Res]. *)
From Coq Require Import ZArith Lia.
From Verif Require Import Res.
Local Open Scope Z_scope.

Lemma returns_ok {A} (a : A) (P : A -> Prop) : P a -> returns (Ok a) P.
Proof. exact (fun H => H). Qed.

Lemma returns_bind {A B} (r : res A) (f : A -> res B) (P : A -> Prop) (Q : B -> Prop) :
  returns r P -> (forall a, P a -> returns (f a) Q) -> returns (bind r f) Q.
Proof. destruct r; cbn; auto; contradiction. Qed.

Lemma returns_mono {A} (r : res A) (P Q : A -> Prop) :
  returns r P -> (forall a, P a -> Q a) -> returns r Q.
Proof. destruct r; cbn; auto. Qed.

Lemma returns_ex {A} (r : res A) (P : A -> Prop) :
  returns r P <-> exists a, r = Ok a /\ P a.
Proof.
  destruct r; cbn; split; try contradiction; eauto;
    intros (? & ? & ?); congruence.
Qed.

Lemma returns_ld {A} (m : arr A) i v (P : A -> Prop) :
  m i = Some v -> P v -> returns (ld m i) P.
Proof. unfold ld; intros ->; auto. Qed.

Lemma bind_ok {A B} (a : A) (f : A -> res B) : bind (Ok a) f = f a.
Proof. reflexivity. Qed.

Lemma ld_some {A} (m : arr A) i v : m i = Some v -> ld m i = Ok v.
Proof. unfold ld; intros ->; auto. Qed.

Lemma st_some {A} (m : arr A) i v w : m i = Some w -> st m i v = Ok (upd m i v).
Proof. unfold st; intros ->; auto. Qed.

Lemma upd_same {A} (m : arr A) i v : upd m i v i = Some v.
Proof. unfold upd; rewrite Z.eqb_refl; auto. Qed.

Lemma upd_diff {A} (m : arr A) i v k : k <> i -> upd m i v k = m k.
Proof. unfold upd; intros H; destruct (Z.eqb_spec k i); congruence. Qed.

Lemma floop_inv {S} (I : Z -> S -> Prop) n lo body s :
  I lo s ->
  (forall i s, lo <= i < lo + Z.of_nat n -> I i s -> returns (body i s) (I (i + 1))) ->
  returns (floop n lo body s) (I (lo + Z.of_nat n)).
Proof.
  revert lo s; induction n as [|n IH]; intros lo s H0 Hb; cbn [floop].
  - cbn. replace (lo + 0) with lo by lia. exact H0.
  - eapply returns_bind; [apply Hb; [lia|exact H0]|].
    intros s' Hs'. replace (lo + Z.of_nat (Datatypes.S n)) with (lo + 1 + Z.of_nat n) by lia.
    apply IH; [exact Hs'|]. intros; apply Hb; [lia|auto].
Qed.

(** Invariant rule. *)
Lemma zfor_inv {S} (I : Z -> S -> Prop) lo hi body s :
  lo <= hi -> I lo s ->
  (forall i s, lo <= i < hi -> I i s -> returns (body i s) (I (i + 1))) ->
  returns (zfor lo hi body s) (I hi).
Proof.
  intros Hle H0 Hb. unfold zfor.
  replace hi with (lo + Z.of_nat (Z.to_nat (hi - lo))) at 2 by lia.
  apply floop_inv; [exact H0|]. intros; apply Hb; [lia|auto].
Qed.

Lemma zfor_none {S} lo hi (body : Z -> S -> res S) s : hi <= lo -> zfor lo hi body s = Ok s.
Proof. intros H. unfold zfor. replace (Z.to_nat (hi - lo)) with O by lia. reflexivity. Qed.

Lemma zfor_max {S} lo hi (body : Z -> S -> res S) s :
  zfor lo hi body s = zfor lo (Z.max lo hi) body s.
Proof. unfold zfor. f_equal. lia. Qed.

Lemma zfor_step1 {S} lo hi (body : Z -> S -> res S) s :
  lo < hi -> zfor lo hi body s = bind (body lo s) (fun s' => zfor (lo + 1) hi body s').
Proof.
  intros H. unfold zfor. replace (Z.to_nat (hi - lo)) with (Datatypes.S (Z.to_nat (hi - (lo + 1)))) by lia.
  reflexivity.
Qed.

Lemma zforstep_inv {S} (I : Z -> S -> Prop) lo hi step body s :
  0 < step -> lo <= hi -> I 0 s ->
  (forall t s, 0 <= t -> lo + step * t < hi -> I t s -> returns (body (lo + step * t) s) (I (t + 1))) ->
  returns (zforstep lo hi step body s) (I ((hi - lo + step - 1) / step)).
Proof.
  intros Hs Hle H0 Hb. unfold zforstep. apply zfor_inv; auto.
  - apply Z.div_pos; lia.
  - intros t s' Ht HI. apply Hb; auto; [lia|].
    assert (step * (t + 1) <= hi - lo + step - 1).
    { transitivity (step * ((hi - lo + step - 1) / step)).
      - apply Z.mul_le_mono_nonneg_l; lia.
      - apply Z.mul_div_le; lia. }
    lia.
Qed.

Lemma bind_assoc {A B C} (r : res A) (f : A -> res B) (g : B -> res C) :
  bind (bind r f) g = bind r (fun a => bind (f a) g).
Proof. destruct r; reflexivity. Qed.

Lemma floop_ext {S} n lo (b1 b2 : Z -> S -> res S) s :
  (forall i s, lo <= i < lo + Z.of_nat n -> b1 i s = b2 i s) -> floop n lo b1 s = floop n lo b2 s.
Proof.
  revert lo s; induction n as [|n IH]; intros lo s H; cbn [floop]; auto.
  rewrite H by lia. destruct (b2 lo s); cbn [bind]; auto. apply IH. intros; apply H; lia.
Qed.

Lemma zfor_ext {S} lo hi (b1 b2 : Z -> S -> res S) s :
  (forall i s, lo <= i < hi -> b1 i s = b2 i s) -> zfor lo hi b1 s = zfor lo hi b2 s.
Proof. intros H. apply floop_ext. intros; apply H; lia. Qed.
