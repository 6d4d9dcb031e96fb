(** The tuple helpers of include/util/boilerplate.hpp, function by function, for tuples of every size.  A tuple is a list; the pieces of code the helpers are given
    read and change a state.  C++ does not fix the order in which the arguments of a call are evaluated: every function below that writes a call with several
    arguments takes the order as a parameter.  Simplified: an access std::get<I> beyond the end, which does not compile, is UB here. *)
From Coq Require Import ZArith List Bool Lia.
From Verif Require Import Num Res MQuat MSimd MOptL1 MPack.
Import ListNotations.
Local Open Scope Z_scope.

Section T.
Context {S A B : Type}.
(** a piece of code with a result *)
Definition code (R : Type) := S -> res (R * S).
Definition unordered := list nat.
(** the arguments of one call, evaluated in the order [order] *)
Fixpoint eval_in (order : unordered) (arg : nat -> code B) : code (list (nat * B)) :=
  match order with
  | [] => fun s => Ok ([], s)
  | i :: r => fun s => '(b, s) <- arg i s ;; '(l, s) <- eval_in r arg s ;; Ok ((i, b) :: l, s)
  end.
Fixpoint find_arg (i : nat) (l : list (nat * B)) : option B :=
  match l with [] => None | (j, b) :: r => if Nat.eqb i j then Some b else find_arg i r end.
(** ... and put in their places *)
Definition args_in (n : nat) (order : unordered) (arg : nat -> code B) : code (list B) := fun s =>
  '(l, s) <- eval_in order arg s ;;
  Ok (flat_map (fun i => match find_arg i l with Some b => [b] | None => [] end) (seq 0 n), s).

(** boilerplate.hpp:55-61, apply_impl: std::make_tuple( op(std::get<Is>(t))... ) *)
Definition apply_impl (order : unordered) (op : A -> code B) (t : list A) (Is : list nat) : code (list B) :=
  args_in (length Is) order (fun k => match nth_error t (nth k Is (length t)) with Some a => op a | None => fun _ => UB end).
(** boilerplate.hpp:69-75, apply, with std::make_index_sequence<std::tuple_size<Tuple>::value> *)
Definition apply (order : unordered) (op : A -> code B) (t : list A) : code (list B) := apply_impl order op t (seq 0 (length t)).
(** boilerplate.hpp:83-104, apply_n_impl: the case N > 0 is std::tuple_cat( apply_n_impl<N-1>(op,prev), std::make_tuple(op()) ), whose arguments are evaluated in either
    order ([late] says which, for each N); the case N == 0 is apply(op,prev).  [op] without an argument is [op0] *)
Fixpoint apply_n_impl (N : nat) (late : nat -> bool) (order : unordered) (op : A -> code B) (op0 : code B) (prev : list A) : code (list B) :=
  match N with
  | O => apply order op prev
  | Datatypes.S N' =>
      if late N then fun s => '(l, s) <- apply_n_impl N' late order op op0 prev s ;; '(b, s) <- op0 s ;; Ok (l ++ [b], s)
      else fun s => '(b, s) <- op0 s ;; '(l, s) <- apply_n_impl N' late order op op0 prev s ;; Ok (l ++ [b], s)
  end.
(** boilerplate.hpp:112-122, apply_n: the static_assert, then apply_n_impl<N - size>; None: does not compile *)
Definition apply_n (N : nat) (late : nat -> bool) (order : unordered) (op : A -> code B) (op0 : code B) (t : list A) : option (code (list B)) :=
  if Nat.leb (length t) N then Some (apply_n_impl (N - length t) late order op op0 t) else None.
(** boilerplate.hpp:131-147, array_tuple_execute_impl, the case of several arguments and the case of one; with none, no overload fits *)
Fixpoint execute_impl (op : Z -> A -> code unit) (ptr : Z) (params : list A) : code unit :=
  match params with
  | [] => fun _ => UB
  | [a] => op ptr a
  | a :: args => fun s => '(_, s) <- op ptr a s ;; execute_impl op (ptr + 1) args s
  end.
(** boilerplate.hpp:153-158, 169-174: the elements of the tuple, in order, become the arguments *)
Definition array_tuple_execute (op : Z -> A -> code unit) (ptr : Z) (t : list A) : code unit :=
  execute_impl op ptr (flat_map (fun i => match nth_error t i with Some a => [a] | None => [] end) (seq 0 (length t))).
End T.
Arguments code : clear implicits.

(** boilerplate.hpp:22-43, pointer_sequence and pointer_sequence_impl: std::make_tuple( (seed + Is*INC)... ) on byte addresses.  INC is a size_t, so a HAXX_INT argument
    is reduced modulo 2^64, and so is Is*INC; the addresses wrap modulo 2^64; [sz] is the size of an element *)
Definition pointer_sequence (sz : Z) (N : nat) (seed INC : Z) : list Z :=
  map (fun i => (seed + sz * ((Z.of_nat i * (INC mod 2^64)) mod 2^64)) mod 2^64) (seq 0 N).

Section P.
Context {K : num}.
Local Notation qarr := (arr (quat K)).
(** include/hblas/pack/pack.hpp:62-96, 156-182: one iteration of loopBody with PK = 2, written with the helpers: load_preOP (62-72), store (76), ptrInc (74; [inc] is 1 or
    LDX).  The state is the packed buffer.  [xCol] is the tuple of one or two pointers *)
Definition body (late : nat -> bool) (order order' : unordered) (o : packop) (cnj : bool) (alpha : option (scal K)) (inc : Z) (x : qarr) (xCol : list Z) (xp : Z)
    (buf : qarr) : option (res (list Z * Z * qarr)) :=
  let load_preOP := fun p (b : qarr) => v <- vld false 0 x p ;; Ok (preOP cnj alpha v, b) in
  let load_preOP0 := fun (b : qarr) => Ok (preOP cnj alpha mm256_zero, b) in
  let store := fun p v (b : qarr) => b <- vst false 0 b p v ;; Ok (tt, b) in
  let ptrInc := fun p (b : qarr) => Ok (p + inc, b) in
  match apply_n 2 late order load_preOP load_preOP0 xCol with
  | None => None
  | Some load => Some (
      '(xs, buf) <- load buf ;;
      let x_t := match xs with [x1; x2] => let '(t1, t2) := packOP o x1 x2 in [t1; t2] | _ => [] end in
      '(_, buf) <- array_tuple_execute store xp x_t buf ;;
      '(xCol, buf) <- apply order' ptrInc xCol buf ;;
      Ok (xCol, xp + 2, buf))
  end.
End P.
