(** Vocabulary of C61. *)
From Coq Require Import ZArith Ascii.
From Verif Require Import Num.
Local Open Scope Z_scope.

(** The shapes and strides for which the Fortran GEMV computes anything sensible (C23): a square matrix unless TRANS = 'C' or both scalars
    are real, and, when INCY <> 1, neither real ALPHA with quaternion BETA nor quaternion ALPHA with TRANS = 'N'. *)
Definition gemv_usable {K : num} (c : ascii) (alpha beta : scal K) (m n incy : Z) : Prop :=
  (m = n \/ c = "C"%char \/ exists a b, alpha = SR a /\ beta = SR b) /\
  (incy = 1 \/ ~ (exists r q, alpha = SR r /\ beta = SH q) /\ ~ (c = "N"%char /\ exists q, alpha = SH q)).
