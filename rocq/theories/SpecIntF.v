(** Specification vocabulary: integer data small enough for the Fortran GEMV and GER to be exact. *)
From Coq Require Import ZArith.
From Verif Require Import Num F64 Spec SpecInt.
Local Open Scope Z_scope.
(** element i of alpha*op(A)*x + beta*y: ALPHA times any element of x used, the plain sum of products, and the whole expression *)
Definition gemv_small (o : mop) (n : Z) (alpha : scal Znum) (A : Z -> Z -> quat Znum) (x : Z -> quat Znum) (beta : scal Znum) (y : Z -> quat Znum) (i : Z) : Prop :=
  (forall j, 0 <= j < n -> Z1 (emb alpha) * Z1 (x j) <= exact_max) /\
  Zsum n (fun j => Z1 (opm o A i j) * Z1 (x j)) <= exact_max /\
  Z1 (emb beta) * Z1 (y i) + Z1 (emb alpha) * Zsum n (fun j => Z1 (opm o A i j) * Z1 (x j)) <= exact_max.
(** element (i,j) of A + alpha*x*y' *)
Definition ger_small (alpha : scal Znum) (x y : Z -> quat Znum) (A : Z -> Z -> quat Znum) (i j : Z) : Prop :=
  Z1 (emb alpha) * Z1 (y j) <= exact_max /\ Z1 (A i j) + Z1 (x i) * (Z1 (emb alpha) * Z1 (y j)) <= exact_max.
