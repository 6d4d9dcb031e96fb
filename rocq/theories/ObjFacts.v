(** Proofs about quaternion objects in memory. *)
From Coq Require Import ZArith Bool Lia.
From Verif Require Import Num Res Spec SpecObj MQuat MSimd MObj QuatFacts SimdFacts.
Local Open Scope Z_scope.

Ltac cells :=
  unfold upd in *;
  repeat (match goal with
  | |- context [?a =? ?b] =>
      first [ replace (a =? b) with true by (symmetry; apply Z.eqb_eq; lia)
            | replace (a =? b) with false by (symmetry; apply Z.eqb_neq; lia) ]
  end; cbn [bind]).
Ltac rd := match goal with
  | Hx : ?m ?a = Some _ |- context [?m ?b] =>
      replace (m b) with (m a) by (f_equal; lia); rewrite Hx; cbn [bind]
  end.
Ltac steps := unfold ld, st; repeat (cbn [bind]; cells; try rd); cbn [bind returns].
Ltac fin := repeat match goal with |- _ /\ _ => split end;
  try (unfold only_obj; intros; unfold upd; cells; reflexivity); unfold obj_at; cbn [qr qi qj qk];
  repeat match goal with |- _ /\ _ => split end; cells; reflexivity.

Ltac conc := split; [unfold obj_at; cbn [qr qi qj qk re im]; repeat split; cells; try reflexivity; assumption|fin].
Ltac ops := unfold opeq, ld, st; repeat (cbn [bind]; cells; try rd); cbn [bind returns].

Section O.
Context {K : num}.
Implicit Types (m : arr K) (x y : quat K).

Lemma getters m p x : obj_at m p x ->
  g_real m p = Ok (qr x) /\ g_i m p = Ok (qi x) /\ g_j m p = Ok (qj x) /\ g_k m p = Ok (qk x) /\
  g_imag m p = Ok (qi x, qj x, qk x).
Proof.
  intros (E0 & E1 & E2 & E3). unfold g_real, g_i, g_j, g_k, g_imag, ld. rewrite E0, E1, E2, E3. repeat split; reflexivity.
Qed.
Lemma setters m p x v : obj_at m p x ->
  returns (s_real m p v) (fun m' => obj_at m' p (Quat v (qi x) (qj x) (qk x)) /\ only_obj m m' p) /\
  returns (s_i m p v) (fun m' => obj_at m' p (Quat (qr x) v (qj x) (qk x)) /\ only_obj m m' p) /\
  returns (s_j m p v) (fun m' => obj_at m' p (Quat (qr x) (qi x) v (qk x)) /\ only_obj m m' p) /\
  returns (s_k m p v) (fun m' => obj_at m' p (Quat (qr x) (qi x) (qj x) v) /\ only_obj m m' p).
Proof.
  intros (E0 & E1 & E2 & E3). unfold s_real, s_i, s_j, s_k.
  refine (conj _ (conj _ (conj _ _))); steps; (split; [unfold obj_at; cbn [qr qi qj qk]; repeat split; cells; try reflexivity; assumption|fin]).
Qed.
Lemma setter_imag m p x a b c d : obj_at m p x -> m a = Some b -> m (a + 1) = Some c -> m (a + 2) = Some d ->
  a = p + 1 \/ a + 3 <= p + 1 \/ p + 4 <= a ->
  returns (s_imag m p a) (fun m' => obj_at m' p (Quat (qr x) b c d) /\ only_obj m m' p).
Proof.
  intros (E0 & E1 & E2 & E3) Ea Eb Ec Hd. unfold s_imag. destruct Hd as [->|Hd].
  - replace (p + 1 + 1) with (p + 2) in * by lia. replace (p + 1 + 2) with (p + 3) in * by lia.
    rewrite E1 in Ea; rewrite E2 in Eb; rewrite E3 in Ec. injection Ea as <-; injection Eb as <-; injection Ec as <-.
    steps. split; [unfold obj_at; cbn [qr qi qj qk]; repeat split; cells; try reflexivity; assumption|fin].
  - steps. split; [unfold obj_at; cbn [qr qi qj qk]; repeat split; cells; try reflexivity; assumption|fin].
Qed.
Lemma ctor4_ok m p a b c d va vb vc vd : storage m p ->
  m a = Some va -> m b = Some vb -> m c = Some vc -> m d = Some vd ->
  (forall z, z = a \/ z = b \/ z = c \/ z = d -> ~ (p <= z < p + 4)) ->
  returns (ctor4 m p a b c d) (fun m' => obj_at m' p (Quat va vb vc vd) /\ only_obj m m' p).
Proof.
  intros (x & E0 & E1 & E2 & E3) Ea Eb Ec Ed Hd.
  pose proof (Hd a (or_introl eq_refl)). pose proof (Hd b (or_intror (or_introl eq_refl))).
  pose proof (Hd c (or_intror (or_intror (or_introl eq_refl)))). pose proof (Hd d (or_intror (or_intror (or_intror eq_refl)))). clear Hd.
  unfold ctor4. ops. conc.
Qed.
Lemma ctor_cc_ok m p a b u v : storage m p -> cplx_at m a u -> cplx_at m b v ->
  (a + 2 <= p \/ p + 4 <= a) -> (b + 2 <= p \/ p + 4 <= b) ->
  returns (ctor_cc m p a b) (fun m' => obj_at m' p (Quat (re u) (im u) (re v) (im v)) /\ only_obj m m' p).
Proof.
  intros (x & E0 & E1 & E2 & E3) [Ea1 Ea2] [Eb1 Eb2] Da Db. unfold ctor_cc. ops. conc.
Qed.
Lemma ctor_arr_ok m p a x : storage m p -> obj_at m a x -> (a + 4 <= p \/ p + 4 <= a) ->
  returns (ctor_arr m p a) (fun m' => obj_at m' p x /\ only_obj m m' p).
Proof.
  intros (x0 & E0 & E1 & E2 & E3) (Ea & Eb & Ec & Ed) Da. unfold ctor_arr, ctor4. ops. conc.
Qed.
Lemma ctor_carr_ok m p a u v : storage m p -> cplx_at m a u -> cplx_at m (a + 2) v -> (a + 4 <= p \/ p + 4 <= a) ->
  returns (ctor_carr m p a) (fun m' => obj_at m' p (Quat (re u) (im u) (re v) (im v)) /\ only_obj m m' p).
Proof.
  intros S Hu Hv Da. apply ctor_cc_ok; auto; lia.
Qed.
Lemma copy_obj_ok m p q x : storage m p -> obj_at m q x -> same_or_apart p q ->
  returns (copy_obj m p q) (fun m' => obj_at m' p x /\ only_obj m m' p).
Proof.
  intros (x0 & E0 & E1 & E2 & E3) (Ea & Eb & Ec & Ed) [->|Hd]; unfold copy_obj; [clear E0 E1 E2 E3 x0|]; ops; conc.
Qed.
Lemma set_r_ok m p t x v : obj_at m p x -> m t = Some v ->
  returns (set_r m p t) (fun m' => obj_at m' p (Hre v) /\ only_obj m m' p).
Proof. intros (E0 & E1 & E2 & E3) Et. unfold set_r, Hre. ops. conc. Qed.
Lemma addeq_r_ok m p t x v : obj_at m p x -> m t = Some v ->
  returns (addeq_r m p t) (fun m' => obj_at m' p (Quat (qr x + v)%num (qi x) (qj x) (qk x)) /\ only_obj m m' p) /\
  returns (subeq_r m p t) (fun m' => obj_at m' p (Quat (qr x - v)%num (qi x) (qj x) (qk x)) /\ only_obj m m' p).
Proof.
  intros (E0 & E1 & E2 & E3) Et. unfold addeq_r, subeq_r, opeq, ld. rewrite E0, Et. cbn [bind]. split; unfold st; rewrite E0; cbn [returns]; conc.
Qed.
(** a reference to a cell that is not one of the first three components (so: anything outside, or the k component itself) *)
Lemma opall_ok (op : K -> K -> K) m p t x v : obj_at m p x -> m t = Some v -> ~ (p <= t < p + 3) ->
  returns (m <- opeq op m p t ;; m <- opeq op m (p + 1) t ;; m <- opeq op m (p + 2) t ;; opeq op m (p + 3) t)
    (fun m' => obj_at m' p (Quat (op (qr x) v) (op (qi x) v) (op (qj x) v) (op (qk x) v)) /\ only_obj m m' p).
Proof.
  intros (E0 & E1 & E2 & E3) Et Ht. destruct (Z.eq_dec t (p + 3)) as [->|Hn].
  - rewrite E3 in Et. injection Et as <-. ops. conc.
  - ops. conc.
Qed.
(** what happens when the reference is the object's own real part *)
Lemma opall_self (op : K -> K -> K) m p x : obj_at m p x ->
  returns (m <- opeq op m p p ;; m <- opeq op m (p + 1) p ;; m <- opeq op m (p + 2) p ;; opeq op m (p + 3) p)
    (fun m' => obj_at m' p (let s := op (qr x) (qr x) in Quat s (op (qi x) s) (op (qj x) s) (op (qk x) s)) /\ only_obj m m' p).
Proof. intros (E0 & E1 & E2 & E3). ops. conc. Qed.
Lemma set_c_ok m p t x z : obj_at m p x -> cplx_at m t z -> t + 1 <> p ->
  returns (set_c m p t) (fun m' => obj_at m' p (Hc z) /\ only_obj m m' p).
Proof.
  intros (E0 & E1 & E2 & E3) [Et1 Et2] Ht. unfold set_c, Hc. ops. conc.
Qed.
Lemma opc_ok (op : K -> K -> K) m p t x z : obj_at m p x -> cplx_at m t z -> t + 1 <> p ->
  returns (m <- opeq op m p t ;; opeq op m (p + 1) (t + 1))
    (fun m' => obj_at m' p (Quat (op (qr x) (re z)) (op (qi x) (im z)) (qj x) (qk x)) /\ only_obj m m' p).
Proof.
  intros (E0 & E1 & E2 & E3) [Et1 Et2] Ht. unfold opeq, ld, st. rewrite E0, Et1. cbn [bind].
  assert (Eu : upd m p (op (qr x) (re z)) (p + 1) = Some (qi x)) by (cells; exact E1).
  assert (Ev : upd m p (op (qr x) (re z)) (t + 1) = Some (im z)) by (cells; exact Et2).
  rewrite Eu, Ev. cbn [bind returns]. conc.
Qed.
Lemma opq_ok (op : K -> K -> K) m p q x y : obj_at m p x -> obj_at m q y -> same_or_apart p q ->
  returns (m <- opeq op m p q ;; m <- opeq op m (p + 1) (q + 1) ;; m <- opeq op m (p + 2) (q + 2) ;; opeq op m (p + 3) (q + 3))
    (fun m' => obj_at m' p (Quat (op (qr x) (qr y)) (op (qi x) (qi y)) (op (qj x) (qj y)) (op (qk x) (qk y))) /\ only_obj m m' p).
Proof.
  intros (E0 & E1 & E2 & E3) (Ea & Eb & Ec & Ed) [->|Hd].
  - rewrite E0 in Ea; rewrite E1 in Eb; rewrite E2 in Ec; rewrite E3 in Ed.
    injection Ea as <-; injection Eb as <-; injection Ec as <-; injection Ed as <-. ops. conc.
  - ops. conc.
Qed.
Lemma load_obj_ok m p x : obj_at m p x -> load_obj m p = Ok x.
Proof.
  intros (E0 & E1 & E2 & E3). unfold load_obj, g_real, g_i, g_j, g_k, ld. rewrite E0, E1, E2, E3. destruct x; reflexivity.
Qed.
Lemma store_obj_ok m p r : storage m p -> returns (store_obj m p r) (fun m' => obj_at m' p r /\ only_obj m m' p).
Proof. intros (x & E0 & E1 & E2 & E3). unfold store_obj. ops. conc. Qed.
Lemma stmt2_ok (f : quat K -> quat K -> quat K) m d a b x y : storage m d -> obj_at m a x -> obj_at m b y ->
  returns (vx <- load_obj m a ;; vy <- load_obj m b ;; store_obj m d (f vx vy)) (fun m' => obj_at m' d (f x y) /\ only_obj m m' d).
Proof. intros S Ha Hb. rewrite (load_obj_ok _ _ _ Ha), (load_obj_ok _ _ _ Hb). cbn [bind]. apply store_obj_ok, S. Qed.
Lemma stmt1_ok (f : quat K -> quat K) m d a x : storage m d -> obj_at m a x ->
  returns (vx <- load_obj m a ;; store_obj m d (f vx)) (fun m' => obj_at m' d (f x) /\ only_obj m m' d).
Proof. intros S Ha. rewrite (load_obj_ok _ _ _ Ha). cbn [bind]. apply store_obj_ok, S. Qed.
Lemma stmtr_ok (f : quat K -> K -> quat K) m d a t x v : storage m d -> obj_at m a x -> m t = Some v ->
  returns (vx <- load_obj m a ;; w <- ld m t ;; store_obj m d (f vx w)) (fun m' => obj_at m' d (f x v) /\ only_obj m m' d).
Proof. intros S Ha Ht. unfold ld. rewrite (load_obj_ok _ _ _ Ha), Ht. cbn [bind]. apply store_obj_ok, S. Qed.
End O.

Section Mixed.
Context {F G : num}.
Lemma convert_ok (cv : G -> F) (mg : arr G) (m : arr F) p q x : storage m p -> obj_at mg q x ->
  returns (convert_obj cv mg m p q) (fun m' => obj_at m' p (Quat (cv (qr x)) (cv (qi x)) (cv (qj x)) (cv (qk x))) /\ only_obj m m' p).
Proof.
  intros (x0 & E0 & E1 & E2 & E3) (Ea & Eb & Ec & Ed). unfold convert_obj, g_real, g_i, g_j, g_k. ops. conc.
Qed.
Lemma opeq_obj_ok (op2 : F -> G -> F) (mg : arr G) (m : arr F) p q x y : obj_at m p x -> obj_at mg q y ->
  returns (opeq_obj op2 mg m p q)
    (fun m' => obj_at m' p (Quat (op2 (qr x) (qr y)) (op2 (qi x) (qi y)) (op2 (qj x) (qj y)) (op2 (qk x) (qk y))) /\ only_obj m m' p).
Proof.
  intros (E0 & E1 & E2 & E3) (Ea & Eb & Ec & Ed). unfold opeq_obj, opeq2, g_real, g_i, g_j, g_k. ops. conc.
Qed.
End Mixed.
