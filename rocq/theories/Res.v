(** Outcomes, memory and counted loops used by every model file. *)
From Coq Require Import ZArith Lia.
Local Open Scope Z_scope.

(** [UB]: undefined behaviour (out-of-bounds access, misaligned aligned-load, use of an
    undefined variable).  [Abort]: a failed assert. *)
Inductive res (A : Type) := Ok (a : A) | UB | Abort.
Arguments Ok {A} _. Arguments UB {A}. Arguments Abort {A}.

(** sequencing: a statement after UB or Abort is not reached *)
Definition bind {A B} (r : res A) (f : A -> res B) : res B :=
  match r with Ok a => f a | UB => UB | Abort => Abort end.
Notation "x <- r ;; k" := (bind r (fun x => k)) (at level 61, r at next level, right associativity).
Notation "' p <- r ;; k" := (bind r (fun p => k)) (at level 61, p pattern, r at next level, right associativity).

(** assert(b) *)
Definition assertb (b : bool) : res unit := if b then Ok tt else Abort.

(** One array per pointer argument, indexed in elements relative to the pointer. *)
Definition arr (A : Type) := Z -> option A.

(** m[i] as an rvalue: UB outside the allocated elements *)
Definition ld {A} (m : arr A) (i : Z) : res A :=
  match m i with Some a => Ok a | None => UB end.
(** the array after m[i] = v *)
Definition upd {A} (m : arr A) (i : Z) (v : A) : arr A :=
  fun k => if k =? i then Some v else m k.
(** m[i] = v: UB outside the allocated elements *)
Definition st {A} (m : arr A) (i : Z) (v : A) : res (arr A) :=
  match m i with Some _ => Ok (upd m i v) | None => UB end.

(** for (i = lo; i < hi; ++i) *)
Fixpoint floop {S} (n : nat) (i : Z) (body : Z -> S -> res S) (s : S) : res S :=
  match n with
  | O => Ok s
  | Datatypes.S n' => s' <- body i s ;; floop n' (i + 1) body s'
  end.
(** for (i = lo; i < hi; ++i), trip count max(0, hi-lo) *)
Definition zfor {S} (lo hi : Z) (body : Z -> S -> res S) (s : S) : res S :=
  floop (Z.to_nat (hi - lo)) lo body s.

(** for (i = lo; i < hi; i += step), step > 0: trip count ceil((hi-lo)/step) *)
Definition zforstep {S} (lo hi step : Z) (body : Z -> S -> res S) (s : S) : res S :=
  zfor 0 ((hi - lo + step - 1) / step) (fun t s => body (lo + step * t) s) s.

(** Total-correctness reading of an outcome. *)
Definition returns {A} (r : res A) (P : A -> Prop) : Prop :=
  match r with Ok a => P a | _ => False end.
