(** Specification vocabulary for quaternion objects in a memory of scalar cells: cell a holds one value of type _F. *)
From Coq Require Import ZArith.
From Verif Require Import Num Res.
Local Open Scope Z_scope.

Section S.
Context {K : num}.
(** the object at p holds q: four consecutive cells, real, i, j, k *)
Definition obj_at (m : arr K) (p : Z) (q : quat K) : Prop :=
  m p = Some (qr q) /\ m (p + 1) = Some (qi q) /\ m (p + 2) = Some (qj q) /\ m (p + 3) = Some (qk q).
(** the std::complex object at p holds z: real part, imaginary part *)
Definition cplx_at (m : arr K) (p : Z) (z : cplx K) : Prop := m p = Some (re z) /\ m (p + 1) = Some (im z).
(** nothing outside the object at p has changed *)
Definition only_obj (m m' : arr K) (p : Z) : Prop := forall a, ~ (p <= a < p + 4) -> m' a = m a.
(** four allocated cells, contents irrelevant (raw storage) *)
Definition storage (m : arr K) (p : Z) : Prop := exists q, obj_at m p q.
End S.
(** two objects of a C++ program: the same one, or without a common cell *)
Definition same_or_apart (p q : Z) : Prop := p = q \/ p + 4 <= q \/ q + 4 <= p.
