(** C56: member functions of quaternion objects, including calls whose argument is (part of) the object itself. *)
From Coq Require Import ZArith Bool Lia.
From Verif Require Import Num Res Spec SpecObj MQuat MSimd QuatFacts SimdFacts MObj ObjFacts.
Local Open Scope Z_scope.

(** no laws: these hold for IEEE doubles, bit for bit *)
Theorem C56_accessors : forall (K : num) (m : arr K) (p : Z) (x : quat K) (v : K), obj_at m p x ->
  (g_real m p = Ok (qr x) /\ g_i m p = Ok (qi x) /\ g_j m p = Ok (qj x) /\ g_k m p = Ok (qk x) /\ g_imag m p = Ok (qi x, qj x, qk x)) /\
  returns (s_real m p v) (fun m' => obj_at m' p (Quat v (qi x) (qj x) (qk x)) /\ only_obj m m' p) /\
  returns (s_i m p v) (fun m' => obj_at m' p (Quat (qr x) v (qj x) (qk x)) /\ only_obj m m' p) /\
  returns (s_j m p v) (fun m' => obj_at m' p (Quat (qr x) (qi x) v (qk x)) /\ only_obj m m' p) /\
  returns (s_k m p v) (fun m' => obj_at m' p (Quat (qr x) (qi x) (qj x) v) /\ only_obj m m' p) /\
  (forall a b c d, m a = Some b -> m (a + 1) = Some c -> m (a + 2) = Some d -> a = p + 1 \/ a + 3 <= p + 1 \/ p + 4 <= a ->
   returns (s_imag m p a) (fun m' => obj_at m' p (Quat (qr x) b c d) /\ only_obj m m' p)).
Proof.
  intros K m p x v Hx. destruct (setters m p x v Hx) as (S1 & S2 & S3 & S4).
  refine (conj (getters m p x Hx) (conj S1 (conj S2 (conj S3 (conj S4 _))))). intros. eapply setter_imag; eassumption.
Qed.
Print Assumptions C56_accessors.

Theorem C56_constructors : forall (K : num) (m : arr K) (p : Z), storage m p ->
  (forall a b c d va vb vc vd, m a = Some va -> m b = Some vb -> m c = Some vc -> m d = Some vd ->
     (forall z, z = a \/ z = b \/ z = c \/ z = d -> ~ (p <= z < p + 4)) ->
     returns (ctor4 m p a b c d) (fun m' => obj_at m' p (Quat va vb vc vd) /\ only_obj m m' p)) /\
  (forall a b u v, cplx_at m a u -> cplx_at m b v -> (a + 2 <= p \/ p + 4 <= a) -> (b + 2 <= p \/ p + 4 <= b) ->
     returns (ctor_cc m p a b) (fun m' => obj_at m' p (Quat (re u) (im u) (re v) (im v)) /\ only_obj m m' p)) /\
  (forall a x, obj_at m a x -> (a + 4 <= p \/ p + 4 <= a) -> returns (ctor_arr m p a) (fun m' => obj_at m' p x /\ only_obj m m' p)) /\
  (forall a u v, cplx_at m a u -> cplx_at m (a + 2) v -> (a + 4 <= p \/ p + 4 <= a) ->
     returns (ctor_carr m p a) (fun m' => obj_at m' p (Quat (re u) (im u) (re v) (im v)) /\ only_obj m m' p)) /\
  (forall q x, obj_at m q x -> same_or_apart p q -> returns (copy_obj m p q) (fun m' => obj_at m' p x /\ only_obj m m' p)).
Proof.
  intros K m p S. refine (conj _ (conj _ (conj _ (conj _ _)))); intros.
  - apply ctor4_ok; assumption.
  - apply ctor_cc_ok; assumption.
  - apply ctor_arr_ok; assumption.
  - apply ctor_carr_ok; assumption.
  - apply copy_obj_ok; assumption.
Qed.
Print Assumptions C56_constructors.

(** p += q and p -= q, q a different object or p itself *)
Theorem C56_quaternion_argument : forall (K : num) (m : arr K) (p q : Z) (x y : quat K),
  obj_at m p x -> obj_at m q y -> same_or_apart p q ->
  returns (addeq_q m p q) (fun m' => obj_at m' p (Hadd x y) /\ only_obj m m' p) /\
  returns (subeq_q m p q) (fun m' => obj_at m' p (Hsub x y) /\ only_obj m m' p).
Proof. intros K m p q x y Hx Hy Hs. split; [exact (opq_ok nadd m p q x y Hx Hy Hs)|exact (opq_ok nsub m p q x y Hx Hy Hs)]. Qed.
Print Assumptions C56_quaternion_argument.

(** a scalar argument by reference: = += -= for any cell; *= and /= for any cell but the first three components of *this *)
Theorem C56_scalar_argument_partial : forall (K : num) (m : arr K) (p t : Z) (x : quat K) (v : K),
  obj_at m p x -> m t = Some v ->
  returns (set_r m p t) (fun m' => obj_at m' p (Hre v) /\ only_obj m m' p) /\
  returns (addeq_r m p t) (fun m' => obj_at m' p (Quat (qr x + v)%num (qi x) (qj x) (qk x)) /\ only_obj m m' p) /\
  returns (subeq_r m p t) (fun m' => obj_at m' p (Quat (qr x - v)%num (qi x) (qj x) (qk x)) /\ only_obj m m' p) /\
  (~ (p <= t < p + 3) ->
   returns (muleq_r m p t) (fun m' => obj_at m' p (Quat (qr x * v)%num (qi x * v)%num (qj x * v)%num (qk x * v)%num) /\ only_obj m m' p) /\
   returns (diveq_r m p t) (fun m' => obj_at m' p (Quat (ndiv (qr x) v) (ndiv (qi x) v) (ndiv (qj x) v) (ndiv (qk x) v)) /\ only_obj m m' p)).
Proof.
  intros K m p t x v Hx Ht. destruct (addeq_r_ok m p t x v Hx Ht) as [A B].
  refine (conj (set_r_ok m p t x v Hx Ht) (conj A (conj B _))).
  intros Hn. split; [exact (opall_ok nmul m p t x v Hx Ht Hn)|exact (opall_ok ndiv m p t x v Hx Ht Hn)].
Qed.
Print Assumptions C56_scalar_argument_partial.
(** q *= (reference to q's own real part), q = 2+3i+5j+7k: the real part is squared first, the others are multiplied by 4, not 2.
    What is stored in general: *)
Theorem C56_scalar_self : forall (K : num) (m : arr K) (p : Z) (x : quat K), obj_at m p x ->
  returns (muleq_r m p p) (fun m' =>
    obj_at m' p (let s := (qr x * qr x)%num in Quat s (qi x * s)%num (qj x * s)%num (qk x * s)%num) /\ only_obj m m' p) /\
  returns (diveq_r m p p) (fun m' =>
    obj_at m' p (let s := ndiv (qr x) (qr x) in Quat s (ndiv (qi x) s) (ndiv (qj x) s) (ndiv (qk x) s)) /\ only_obj m m' p).
Proof. intros K m p x Hx. split; [exact (opall_self nmul m p x Hx)|exact (opall_self ndiv m p x Hx)]. Qed.
Print Assumptions C56_scalar_self.
Theorem C56_scalar_self_refuted : ~ (forall (K : num), laws K -> forall (m : arr K) (p t : Z) (x : quat K) (v : K),
  obj_at m p x -> m t = Some v ->
  returns (muleq_r m p t) (fun m' => obj_at m' p (Quat (qr x * v)%num (qi x * v)%num (qj x * v)%num (qk x * v)%num))).
Proof.
  intros F.
  pose (m := (fun a => if a =? 0 then Some 2 else if a =? 1 then Some 3 else if a =? 2 then Some 5 else if a =? 3 then Some 7 else None) : arr Znum).
  specialize (F Znum Zlaws m 0 0 (zq 2 3 5 7) 2 ltac:(repeat split) eq_refl).
  vm_compute in F. destruct F as (_ & F & _). discriminate.
Qed.
Print Assumptions C56_scalar_self_refuted.

(** a complex argument by reference: anywhere except starting one cell before *this (no C++ object lies there);
    in particular the first (t = p) or second (t = p + 2) complex half of *this itself *)
Theorem C56_complex_argument : forall (K : num) (m : arr K) (p t : Z) (x : quat K) (z : cplx K),
  obj_at m p x -> cplx_at m t z -> t + 1 <> p ->
  returns (set_c m p t) (fun m' => obj_at m' p (Hc z) /\ only_obj m m' p) /\
  returns (addeq_c m p t) (fun m' => obj_at m' p (Quat (qr x + re z)%num (qi x + im z)%num (qj x) (qk x)) /\ only_obj m m' p) /\
  returns (subeq_c m p t) (fun m' => obj_at m' p (Quat (qr x - re z)%num (qi x - im z)%num (qj x) (qk x)) /\ only_obj m m' p).
Proof.
  intros K m p t x z Hx Hz Ht.
  refine (conj (set_c_ok m p t x z Hx Hz Ht) (conj _ _)); [exact (opc_ok nadd m p t x z Hx Hz Ht)|exact (opc_ok nsub m p t x z Hx Hz Ht)].
Qed.
Print Assumptions C56_complex_argument.

(** d = x * y; etc.: the destination may be either operand, and the operands may coincide *)
Theorem C56_assignment_statements : forall (K : num), laws K -> forall (m : arr K) (d a b t : Z) (x y : quat K) (v : K),
  storage m d -> obj_at m a x -> obj_at m b y -> m t = Some v ->
  returns (stmt_mul m d a b) (fun m' => obj_at m' d (Hmul x y) /\ only_obj m m' d) /\
  returns (stmt_mul_avx m d a b) (fun m' => obj_at m' d (Hmul x y) /\ only_obj m m' d) /\
  returns (stmt_add m d a b) (fun m' => obj_at m' d (Hadd x y) /\ only_obj m m' d) /\
  returns (stmt_sub m d a b) (fun m' => obj_at m' d (Hsub x y) /\ only_obj m m' d) /\
  returns (stmt_conj m d a) (fun m' => obj_at m' d (Hconj x) /\ only_obj m m' d) /\
  returns (stmt_mul_r m d a t) (fun m' => obj_at m' d (Hmul x (Hre v)) /\ only_obj m m' d) /\
  returns (stmt_div_r m d a t) (fun m' => obj_at m' d (Quat (ndiv (qr x) v) (ndiv (qi x) v) (ndiv (qj x) v) (ndiv (qk x) v)) /\ only_obj m m' d).
Proof.
  intros K L m d a b t x y v S Ha Hb Ht.
  refine (conj _ (conj _ (conj _ (conj _ (conj _ (conj _ _)))))).
  - rewrite <- (q_mul_H L). apply (stmt2_ok q_mul m d a b x y S Ha Hb).
  - rewrite <- (q_mul_avx_H L). apply (stmt2_ok q_mul_avx m d a b x y S Ha Hb).
  - apply (stmt2_ok q_add m d a b x y S Ha Hb).
  - apply (stmt2_ok q_sub m d a b x y S Ha Hb).
  - apply (stmt1_ok q_conj m d a x S Ha).
  - rewrite <- (q_mul_r_H L). apply (stmtr_ok q_muleq_r m d a t x v S Ha Ht).
  - apply (stmtr_ok q_diveq_r m d a t x v S Ha Ht).
Qed.
Print Assumptions C56_assignment_statements.

(** quaternions of another component type: each component is converted (or combined) separately and in place *)
Theorem C56_other_component_type : forall (F G : num) (mg : arr G) (m : arr F) (p q : Z) (y : quat G),
  obj_at mg q y ->
  (forall cv : G -> F, storage m p ->
     returns (convert_obj cv mg m p q) (fun m' => obj_at m' p (Quat (cv (qr y)) (cv (qi y)) (cv (qj y)) (cv (qk y))) /\ only_obj m m' p)) /\
  (forall (op2 : F -> G -> F) (x : quat F), obj_at m p x ->
     returns (opeq_obj op2 mg m p q)
       (fun m' => obj_at m' p (Quat (op2 (qr x) (qr y)) (op2 (qi x) (qi y)) (op2 (qj x) (qj y)) (op2 (qk x) (qk y))) /\ only_obj m m' p)).
Proof.
  intros F G mg m p q y Hy. split.
  - intros cv S. apply convert_ok; assumption.
  - intros op2 x Hx. apply opeq_obj_ok; assumption.
Qed.
Print Assumptions C56_other_component_type.

(** non-vacuity: p += p on a concrete memory doubles p and leaves the neighbour alone; x = x * x; p /= its own k component *)
Definition mem56 : arr Znum := fun a => if (0 <=? a) && (a <? 9) then Some (a * a) else None.
Example C56_concrete :
  obj_at mem56 2 (zq 4 9 16 25) /\
  returns (addeq_q mem56 2 2) (fun m' => obj_at m' 2 (zq 8 18 32 50) /\ m' 6 = Some 36 /\ m' 1 = Some 1) /\
  returns (stmt_mul mem56 2 2 2) (fun m' => obj_at m' 2 (zq (16 - 81 - 256 - 625) 72 128 200) /\ m' 6 = Some 36) /\
  returns (addeq_c mem56 2 4) (fun m' => obj_at m' 2 (zq 20 34 16 25)) /\
  returns (muleq_r mem56 2 5) (fun m' => obj_at m' 2 (zq 100 225 400 625)).
Proof. vm_compute. repeat split; reflexivity. Qed.
