(** What the optimised dot products compute, operation by operation, for any arithmetic. *)
From Coq Require Import ZArith Lia Bool Ascii.
From Verif Require Import Num Res ResFacts Spec SpecFacts VecFacts LoopFacts MQuat MSimd SimdFacts MOptL1 L1Facts L1Facts2 L1Facts3 MPack PackFacts
  MOptGemm OptGemmFacts ErrFacts3.
Local Open Scope Z_scope.

Section A.
Context {K : num}.
Local Notation qarr := (arr (quat K)).
Local Notation H := (quat K).
(** accumulator of lane t after b batches *)
Definition dinc (cnj : bool) (x y r : H) : H := if cnj then qincc x y r else qinc x y r.
Fixpoint dlane_nat (cnj : bool) (b : nat) (t : Z) (v w : Z -> H) : H :=
  match b with O => H0 | S b => dinc cnj (v (4 * Z.of_nat b + t)) (w (4 * Z.of_nat b + t)) (dlane_nat cnj b t v w) end.
Definition dlane cnj b t v w := dlane_nat cnj (Z.to_nat b) t v w.
Lemma dlane_succ cnj b t v w : 0 <= b -> dlane cnj (b + 1) t v w = dinc cnj (v (4 * b + t)) (w (4 * b + t)) (dlane cnj b t v w).
Proof. intros Hb. unfold dlane. replace (Z.to_nat (b + 1)) with (S (Z.to_nat b)) by lia. cbn [dlane_nat]. rewrite Z2Nat.id by lia. reflexivity. Qed.
(** one product of the remainder loop *)
Definition dprod (cnj : bool) (x y : H) : H := q_of_v (if cnj then MULDQ_CN (v_of_q x) (v_of_q y) else MULDQ_NN (v_of_q x) (v_of_q y)).
Fixpoint drest_nat (cnj : bool) (i : nat) (s : Z) (v w : Z -> H) (r : H) : H :=
  match i with O => r | S i => Hadd (drest_nat cnj i s v w r) (dprod cnj (v (s + Z.of_nat i)) (w (s + Z.of_nat i))) end.
Definition drest cnj i s v w r := drest_nat cnj (Z.to_nat i) s v w r.
Lemma drest_succ cnj i s v w r : 0 <= i -> drest cnj (i + 1) s v w r = Hadd (drest cnj i s v w r) (dprod cnj (v (s + i)) (w (s + i))).
Proof. intros Hb. unfold drest. replace (Z.to_nat (i + 1)) with (S (Z.to_nat i)) by lia. cbn [drest_nat]. rewrite Z2Nat.id by lia. reflexivity. Qed.
Definition dot_val (cnj : bool) (n : Z) (v w : Z -> H) : H :=
  let L t := dlane cnj (n / 4) t v w in
  drest cnj (n mod 4) (4 * (n / 4)) v w (Hadd (Hadd (Hadd (L 0) (L 1)) (L 2)) (L 3)).

Lemma dot_opt_raw cnj n xa (x : qarr) incx ya y incy (v w : Z -> H) :
  0 <= n -> 0 < incx -> 0 < incy -> holds_vec x n incx v -> holds_vec y n incy w ->
  dot_opt cnj n xa x incx ya y incy = Ok (dot_val cnj n v w).
Proof.
  intros Hn Hix Hiy Hx Hy.
  enough (X : returns (dot_opt cnj n xa x incx ya y incy) (fun r => r = dot_val cnj n v w)).
  { destruct (dot_opt cnj n xa x incx ya y incy); cbn [returns] in X; try contradiction. subst; reflexivity. }
  unfold dot_opt. rewrite Z.rem_mod_nonneg, Z.quot_div_nonneg by lia.
  set (al := IS_ALIGNED xa && IS_ALIGNED ya).
  assert (Ha : al = true -> IS_ALIGNED xa = true /\ IS_ALIGNED ya = true) by apply andb_true_iff.
  pose proof (Z.div_mod n 4 ltac:(lia)) as Hd. pose proof (Z.mod_pos_bound n 4 ltac:(lia)) as Hm.
  pose proof (Z.div_pos n 4 ltac:(lia) ltac:(lia)) as Hnb.
  assert (Lx : forall i p, 0 <= i < n -> p = i * incx -> vld al xa x p = Ok (v_of_q (v i))).
  { intros i p Hi ->. apply vld_ok; [apply Ha|]. rewrite <- (vpos_pos n) by auto. auto. }
  assert (Ly : forall i p, 0 <= i < n -> p = i * incy -> vld al ya y p = Ok (v_of_q (w i))).
  { intros i p Hi ->. apply vld_ok; [apply Ha|]. rewrite <- (vpos_pos n) by auto. auto. }
  pose (J := fun (b : Z) (r : m4 K) => forall t, 0 <= t < 4 -> soa r t = dlane cnj b t v w).
  eapply returns_bind with (P := fun '(r, lx, ly) => J (n / 4) r /\ lx = 4 * (n / 4) * incx /\ ly = 4 * (n / 4) * incy).
  - apply (zfor_inv (fun b '(r, lx, ly) => J b r /\ lx = 4 * b * incx /\ ly = 4 * b * incy)); auto.
    + refine (conj _ (conj _ _)); try reflexivity. intros t Ht.
      assert (t = 0 \/ t = 1 \/ t = 2 \/ t = 3) as [->|[->|[->| ->]]] by lia; reflexivity.
    + intros b [[r lx] ly] Hb (HI & -> & ->).
      assert (Hb4 : 4 * b + 4 <= n) by lia.
      rewrite (Lx (4 * b)), (Lx (4 * b + 1)), (Lx (4 * b + 2)), (Lx (4 * b + 3)) by lia. cbn [bind].
      rewrite (Ly (4 * b)), (Ly (4 * b + 1)), (Ly (4 * b + 2)), (Ly (4 * b + 3)) by lia. cbn [bind returns].
      refine (conj _ (conj _ _)); try lia.
      set (X := M4 _ _ _ _). set (Y := M4 _ _ _ _). intros t Ht. specialize (HI t Ht).
      assert (EX : aos X t = v (4 * b + t)).
      { assert (Et : t = 0 \/ t = 1 \/ t = 2 \/ t = 3) by lia.
        destruct Et as [->|[->|[->| ->]]]; unfold X, aos; cbn [Z.eqb Pos.eqb w1 w2 w3 w4]; rewrite !q_of_v_of_q, ?Z.add_0_r; reflexivity. }
      assert (EY : aos Y t = w (4 * b + t)).
      { assert (Et : t = 0 \/ t = 1 \/ t = 2 \/ t = 3) by lia.
        destruct Et as [->|[->|[->| ->]]]; unfold Y, aos; cbn [Z.eqb Pos.eqb w1 w2 w3 w4]; rewrite !q_of_v_of_q, ?Z.add_0_r; reflexivity. }
      rewrite dlane_succ, <- HI by lia. unfold dinc.
      destruct cnj; [rewrite INC_qincc by auto|rewrite INC_qinc by auto]; rewrite !transpose_soa, EX, EY by auto; reflexivity.
  - intros [[r lx] ly] (HI & -> & ->).
    set (R := TRANSPOSE_4x4 r).
    assert (EA : forall u w : m256 K, q_of_v (mm256_add u w) = Hadd (q_of_v u) (q_of_v w)) by (intros [] []; reflexivity).
    set (r0 := mm256_add _ (w4 R)).
    assert (E0 : q_of_v r0 = Hadd (Hadd (Hadd (dlane cnj (n / 4) 0 v w) (dlane cnj (n / 4) 1 v w)) (dlane cnj (n / 4) 2 v w)) (dlane cnj (n / 4) 3 v w)).
    { unfold r0. rewrite !EA, <- !HI by lia. rewrite <- !(transpose_aos r) by lia. reflexivity. }
    eapply returns_bind with (P := fun r1 => q_of_v r1 = dot_val cnj n v w).
    + unfold dot_val. rewrite <- E0.
      apply (zfor_inv (fun i r1 => q_of_v r1 = drest cnj i (4 * (n / 4)) v w (q_of_v r0))); [lia|reflexivity|].
      intros i r1 Hi Hr1.
      rewrite (Lx (4 * (n / 4) + i)), (Ly (4 * (n / 4) + i)) by lia. cbn [bind returns].
      rewrite drest_succ, EA, Hr1 by lia. reflexivity.
    + intros r1 Hr1. cbn [returns]. exact Hr1.
Qed.

(** the value depends on the elements only *)
Lemma dlane_ext cnj b t v w v' w' n : 0 <= b -> 0 <= t < 4 -> 4 * b <= n -> (forall i, 0 <= i < n -> v i = v' i) -> (forall i, 0 <= i < n -> w i = w' i) ->
  dlane cnj b t v w = dlane cnj b t v' w'.
Proof.
  intros Hb Ht. pattern b. apply natlike_ind; auto.
  clear b Hb. intros b Hb IH Hbn E1 E2. unfold Z.succ in *. rewrite !dlane_succ, E1, E2, IH by lia || (auto; lia). reflexivity.
Qed.
Lemma drest_ext cnj i s v w v' w' n r : 0 <= i -> 0 <= s -> s + i <= n -> (forall i, 0 <= i < n -> v i = v' i) -> (forall i, 0 <= i < n -> w i = w' i) ->
  drest cnj i s v w r = drest cnj i s v' w' r.
Proof.
  intros Hb Hs. pattern i. apply natlike_ind; auto.
  clear i Hb. intros i Hb IH Hbn E1 E2. unfold Z.succ in *. rewrite !drest_succ, E1, E2 by lia. rewrite IH; auto. lia.
Qed.
Lemma dot_val_ext cnj n v w v' w' : 0 <= n -> (forall i, 0 <= i < n -> v i = v' i) -> (forall i, 0 <= i < n -> w i = w' i) -> dot_val cnj n v w = dot_val cnj n v' w'.
Proof.
  intros Hn E1 E2. unfold dot_val. pose proof (Z.div_mod n 4 ltac:(lia)) as Hd. pose proof (Z.mod_pos_bound n 4 ltac:(lia)) as Hm.
  pose proof (Z.div_pos n 4 ltac:(lia) ltac:(lia)) as Hnb.
  rewrite !(fun t Ht => dlane_ext cnj (n / 4) t v w v' w' n Hnb Ht ltac:(lia) E1 E2) by lia.
  apply drest_ext with (n := n); auto; lia.
Qed.
End A.
