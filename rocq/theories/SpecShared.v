(** Specification vocabulary for operands that live in one memory.  A pointer is an element index p; a vector operand with
    stride inc occupies p, p + inc, p + 2 inc, ...; a matrix operand is column-major. *)
From Coq Require Import ZArith.
From Verif Require Import Num Res Spec.
Local Open Scope Z_scope.

Section S.
Context {A : Type}.
Definition vec_at (m : arr A) (p n inc : Z) (v : Z -> A) : Prop := forall i, 0 <= i < n -> m (p + i * inc) = Some (v i).
Definition changes_vec (m m' : arr A) (p n inc : Z) : Prop :=
  forall q, (forall i, 0 <= i < n -> q <> p + i * inc) -> m' q = m q.
Definition mat_at (m : arr A) (p ldim inc r c : Z) (f : Z -> Z -> A) : Prop :=
  forall i j, 0 <= i < r -> 0 <= j < c -> m (p + i * inc + j * ldim) = Some (f i j).
Definition changes_mat (m m' : arr A) (p ldim inc r c : Z) : Prop :=
  forall q, (forall i j, 0 <= i < r -> 0 <= j < c -> q <> p + i * inc + j * ldim) -> m' q = m q.
End S.
(** no element of X lies on an element of Y *)
Definition vec_apart (n px incx py incy : Z) : Prop :=
  forall i j, 0 <= i < n -> 0 <= j < n -> px + i * incx <> py + j * incy.
(** X(i) never lies on a Y(j) that comes before it: X and Y disjoint, identical, or Y a copy of X moved towards its start *)
Definition not_behind (n px incx py incy : Z) : Prop :=
  forall i j, 0 <= j < i -> i < n -> px + i * incx <> py + j * incy.
(** a position shared by the two windows holds corresponding elements: disjoint or identical windows *)
Definition mat_aligned (r c pa lda inca pb ldb incb : Z) : Prop :=
  forall i j i' j', 0 <= i < r -> 0 <= j < c -> 0 <= i' < r -> 0 <= j' < c ->
    pa + i * inca + j * lda = pb + i' * incb + j' * ldb -> i = i' /\ j = j'.
(** the r x c window at pa and the r' x c' window at pb have no common element *)
Definition win_apart (pa lda r c pb ldb r' c' : Z) : Prop :=
  forall i j i' j', 0 <= i < r -> 0 <= j < c -> 0 <= i' < r' -> 0 <= j' < c' -> pa + i + j * lda <> pb + i' + j' * ldb.
