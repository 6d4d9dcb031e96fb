(** Algebra of the specification: ring laws of [Hmul]/[Hadd], sums, positions. *)
From Coq Require Import ZArith Lia Ring.
From Verif Require Import Num Res ResFacts Spec.
Local Open Scope Z_scope.

Ltac hdes := intros; repeat match goal with
  | q : quat _ |- _ => destruct q | z : cplx _ |- _ => destruct z | p : (_ * _)%type |- _ => destruct p end.
Ltac hunf := unfold Hmul, Hadd, Hsub, Hopp, Hconj, H0, H1, Hi, Hj, Hk, Hre, Hc, Hnsq, mkH, add3, scale3, cross3, dot3,
  vec_part, scal_part in *; cbn [qr qi qj qk re im] in *.

Section F.
Context {K : num} (L : laws K).
Add Ring Kr : (l_ring K L).
Local Notation H := (quat K).

Ltac hring := hdes; hunf; try (f_equal; ring).

Lemma Hmul_assoc (p q r : H) : Hmul p (Hmul q r) = Hmul (Hmul p q) r. Proof. hring. Qed.
Lemma Hmul_add_l (p q r : H) : Hmul p (Hadd q r) = Hadd (Hmul p q) (Hmul p r). Proof. hring. Qed.
Lemma Hmul_add_r (p q r : H) : Hmul (Hadd p q) r = Hadd (Hmul p r) (Hmul q r). Proof. hring. Qed.
Lemma Hmul_sub_l (p q r : H) : Hmul p (Hsub q r) = Hsub (Hmul p q) (Hmul p r). Proof. hring. Qed.
Lemma Hmul_sub_r (p q r : H) : Hmul (Hsub p q) r = Hsub (Hmul p r) (Hmul q r). Proof. hring. Qed.
Lemma Hmul_1_l (p : H) : Hmul H1 p = p. Proof. hring. Qed.
Lemma Hmul_1_r (p : H) : Hmul p H1 = p. Proof. hring. Qed.
Lemma Hmul_0_l (p : H) : Hmul H0 p = H0. Proof. hring. Qed.
Lemma Hmul_0_r (p : H) : Hmul p H0 = H0. Proof. hring. Qed.
Lemma Hadd_0_l (p : H) : Hadd H0 p = p. Proof. hring. Qed.
Lemma Hadd_0_r (p : H) : Hadd p H0 = p. Proof. hring. Qed.
Lemma Hadd_comm (p q : H) : Hadd p q = Hadd q p. Proof. hring. Qed.
Lemma Hadd_assoc (p q r : H) : Hadd p (Hadd q r) = Hadd (Hadd p q) r. Proof. hring. Qed.
Lemma Hadd_swap (a b c d : H) : Hadd (Hadd a b) (Hadd c d) = Hadd (Hadd a c) (Hadd b d). Proof. hring. Qed.
Lemma Hadd_opp (p : H) : Hadd p (Hopp p) = H0. Proof. hring. Qed.
Lemma Hsub_add_opp (p q : H) : Hsub p q = Hadd p (Hopp q). Proof. hring. Qed.
Lemma Hmul_opp_l (p q : H) : Hmul (Hopp p) q = Hopp (Hmul p q). Proof. hring. Qed.
Lemma Hmul_opp_r (p q : H) : Hmul p (Hopp q) = Hopp (Hmul p q). Proof. hring. Qed.
Lemma Hconj_mul (p q : H) : Hconj (Hmul p q) = Hmul (Hconj q) (Hconj p). Proof. hring. Qed.
Lemma Hconj_add (p q : H) : Hconj (Hadd p q) = Hadd (Hconj p) (Hconj q). Proof. hring. Qed.
Lemma Hconj_conj (p : H) : Hconj (Hconj p) = p. Proof. hring. Qed.
Lemma Hconj_0 : Hconj (K:=K) H0 = H0. Proof. hring. Qed.
Lemma Hre_0 : Hre (K:=K) n0 = H0. Proof. reflexivity. Qed.
Lemma Hre_1 : Hre (K:=K) n1 = H1. Proof. reflexivity. Qed.
Lemma Hre_comm (a : K) (q : H) : Hmul (Hre a) q = Hmul q (Hre a). Proof. hring. Qed.
Lemma Hre_mul (a b : K) : Hmul (Hre a) (Hre b) = Hre (nmul a b). Proof. hring. Qed.
Lemma Hre_add (a b : K) : Hadd (Hre a) (Hre b) = Hre (nadd a b). Proof. hring. Qed.
Lemma Hconj_re (a : K) : Hconj (Hre a) = Hre a. Proof. hring. Qed.
Lemma Hnsq_conj (q : H) : Hmul q (Hconj q) = Hre (Hnsq q). Proof. hring. Qed.
Lemma Hnsq_conj' (q : H) : Hmul (Hconj q) q = Hre (Hnsq q). Proof. hring. Qed.
Lemma Hnsq_mul (p q : H) : Hnsq (Hmul p q) = nmul (Hnsq p) (Hnsq q). Proof. hdes; hunf; ring. Qed.

(** sums *)
Lemma Hsum_0 f : Hsum (K:=K) 0 f = H0. Proof. reflexivity. Qed.
Lemma Hsum_neg n f : n <= 0 -> Hsum (K:=K) n f = H0.
Proof. intros Hn; unfold Hsum; replace (Z.to_nat n) with O by lia; reflexivity. Qed.
Lemma Hsum_succ n f : 0 <= n -> Hsum (K:=K) (n + 1) f = Hadd (Hsum n f) (f n).
Proof.
  intros Hn; unfold Hsum. replace (Z.to_nat (n + 1)) with (S (Z.to_nat n)) by lia.
  cbn [Hsum_nat]. rewrite Z2Nat.id by lia. reflexivity.
Qed.
Lemma Hsum_ext n f g : (forall i, 0 <= i < n -> f i = g i) -> Hsum (K:=K) n f = Hsum n g.
Proof.
  intros Hfg. destruct (Z_lt_le_dec n 0) as [Hn|Hn]; [rewrite !Hsum_neg; auto; lia|].
  revert Hfg. pattern n. apply natlike_ind; auto.
  intros m Hm IH Hfg. unfold Z.succ. rewrite !Hsum_succ by lia. rewrite IH, Hfg; auto; try lia.
  intros; apply Hfg; lia.
Qed.
Lemma Hsum_ind (P : Z -> H -> Prop) f n :
  P 0 H0 -> (forall i s, 0 <= i -> P i s -> P (i + 1) (Hadd s (f i))) -> 0 <= n -> P n (Hsum n f).
Proof.
  intros H0' HS Hn. pattern n. apply natlike_ind; auto.
  intros m Hm IH. unfold Z.succ. rewrite Hsum_succ by lia. apply HS; auto.
Qed.
Lemma Hmul_sum_l a n f : Hmul a (Hsum (K:=K) n f) = Hsum n (fun i => Hmul a (f i)).
Proof.
  unfold Hsum. induction (Z.to_nat n) as [|m IH]; cbn [Hsum_nat]; [apply Hmul_0_r|].
  rewrite Hmul_add_l, IH; reflexivity.
Qed.
Lemma Hmul_sum_r a n f : Hmul (Hsum (K:=K) n f) a = Hsum n (fun i => Hmul (f i) a).
Proof.
  unfold Hsum. induction (Z.to_nat n) as [|m IH]; cbn [Hsum_nat]; [apply Hmul_0_l|].
  rewrite Hmul_add_r, IH; reflexivity.
Qed.
Lemma Hsum_add n f g : Hsum (K:=K) n (fun i => Hadd (f i) (g i)) = Hadd (Hsum n f) (Hsum n g).
Proof.
  unfold Hsum. induction (Z.to_nat n) as [|m IH]; cbn [Hsum_nat]; [rewrite Hadd_0_l; auto|].
  rewrite IH. apply Hadd_swap.
Qed.
Lemma Hconj_sum n f : Hconj (Hsum (K:=K) n f) = Hsum n (fun i => Hconj (f i)).
Proof.
  unfold Hsum. induction (Z.to_nat n) as [|m IH]; cbn [Hsum_nat]; [apply Hconj_0|].
  rewrite Hconj_add, IH; reflexivity.
Qed.
Lemma Hsum_zero n f : (forall i, 0 <= i < n -> f i = H0) -> Hsum (K:=K) n f = H0.
Proof.
  intros Hf. rewrite (Hsum_ext n f (fun _ => H0)) by auto.
  unfold Hsum. induction (Z.to_nat n) as [|m IH]; cbn [Hsum_nat]; auto. rewrite IH; apply Hadd_0_l.
Qed.
Lemma Hsum_split n m f : 0 <= n -> 0 <= m ->
  Hsum (K:=K) (n + m) f = Hadd (Hsum n f) (Hsum m (fun i => f (n + i))).
Proof.
  intros Hn Hm. pattern m. apply natlike_ind; auto.
  - rewrite Z.add_0_r, Hsum_0, Hadd_0_r; auto.
  - intros p Hp IH. unfold Z.succ. rewrite Z.add_assoc, !Hsum_succ by lia.
    rewrite IH, Hadd_assoc; auto.
Qed.
End F.

(** positions *)
Lemma vpos_pos n inc i : 0 < inc -> vpos n inc i = i * inc.
Proof. intros; unfold vpos; destruct (Z.ltb_spec inc 0); lia. Qed.
Lemma vpos_inj n inc i j : inc <> 0 -> vpos n inc i = vpos n inc j -> i = j.
Proof.
  unfold vpos; intros Hi. destruct (Z.ltb_spec inc 0); intros He;
    apply Z.mul_reg_r in He; lia.
Qed.
Lemma mpos_inj ldim m i j i' j' : m <= ldim -> 0 <= i < m -> 0 <= i' < m ->
  i + j * ldim = i' + j' * ldim -> i = i' /\ j = j'.
Proof.
  intros Hl Hi Hi' He. assert (j = j') as ->; [|lia].
  assert (Hm : (j - j') * ldim = i' - i) by lia.
  destruct (Z.lt_trichotomy j j') as [Hlt|[?|Hlt]]; auto; exfalso; nia.
Qed.
