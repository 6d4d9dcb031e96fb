(** Concurrent calls: programs as trees of single memory accesses, and their interleavings on one shared memory.  Independent of the kernels. *)
From Coq Require Import ZArith List.
From Verif Require Import Res.
Import ListNotations.
Local Open Scope Z_scope.

(** a call in progress: finished with a result, undefined behaviour, failed assertion, or about to access cell [p] of its array argument [x] *)
Inductive io (V A : Type) : Type :=
| Ret (a : A) | Bad | Stop
| Get (x : nat) (p : Z) (k : V -> io V A)
| Put (x : nat) (p : Z) (v : V) (k : io V A).
Arguments Ret {V A} _. Arguments Bad {V A}. Arguments Stop {V A}. Arguments Get {V A} _ _ _. Arguments Put {V A} _ _ _ _.

(** the call running alone; argument [x] is the array [ms x] of its own (None: no such argument) *)
Fixpoint set_nth {A} (l : list A) (n : nat) (a : A) : list A :=
  match l, n with [], _ => [] | _ :: r, O => a :: r | x :: r, S n => x :: set_nth r n a end.
Fixpoint alone {V A} (t : io V A) (ms : list (arr V)) : res (A * list (arr V)) :=
  match t with
  | Ret a => Ok (a, ms)
  | Bad => UB
  | Stop => Abort
  | Get x p k => match nth_error ms x with Some m => v <- ld m p ;; alone (k v) ms | None => Abort end
  | Put x p v k => match nth_error ms x with Some m => m <- st m p v ;; alone k (set_nth ms x m) | None => Abort end
  end.

(** a thread: a call whose array argument [x] starts at address [base x] of the shared memory *)
Record thread (V A : Type) := Thread { code : io V A; base : nat -> Z }.
Arguments Thread {V A} _ _. Arguments code {V A} _. Arguments base {V A} _ _.
Definition conf (V A : Type) : Type := list (thread V A) * arr V.
(** one access of one thread *)
Inductive access {V A} (b : nat -> Z) : io V A -> arr V -> io V A -> arr V -> Prop :=
| acc_get x p k m v : m (b x + p) = Some v -> access b (Get x p k) m (k v) m
| acc_put x p v k m w : m (b x + p) = Some w -> access b (Put x p v k) m k (upd m (b x + p) v).
(** thread number [i] is scheduled *)
Definition step {V A} (c : conf V A) (i : nat) (c' : conf V A) : Prop :=
  exists t cd', nth_error (fst c) i = Some t /\ access (base t) (code t) (snd c) cd' (snd c') /\ fst c' = set_nth (fst c) i (Thread cd' (base t)).
(** a schedule: the numbers of the threads in the order of their accesses *)
Inductive run {V A} : conf V A -> list nat -> conf V A -> Prop :=
| run_nil c : run c [] c
| run_cons c i c1 l c2 : step c i c1 -> run c1 l c2 -> run c (i :: l) c2.
Definition finished {V A} (t : thread V A) (a : A) : Prop := code t = Ret a.
