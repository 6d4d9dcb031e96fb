(** Specification vocabulary for calls on sub-blocks; independent of the model. *)
From Coq Require Import ZArith.
From Verif Require Import Num Res Spec.
Local Open Scope Z_scope.

(** the stored element that element (i,l) of op(A) is read from *)
Definition stored {X : Type} (o : mop) (A : Z -> Z -> X) (i l : Z) : X := match o with OpN | OpR => A i l | OpT | OpC => A l i end.
(** distance from the first element of A to the element that op(A)(i,l) is read from *)
Definition op_offset (o : mop) (ldim i l : Z) : Z := match o with OpN | OpR => i + l * ldim | OpT | OpC => l + i * ldim end.
(** what a pointer advanced by off elements points to *)
Definition shifted {X : Type} (x : arr X) (off : Z) : arr X := fun p => x (p + off).
