(** Calls of the quaternion headers as source texts (HSrc.v, HProg.v): a call of a free function, member function or constructor of include/haxx.hpp and the headers
    it includes, with objects in a heap of scalar cells (as in MObj.v).  A call is no definition of /repo: these are the argument lists of users of the library. *)
From Coq Require Import ZArith Ascii String List.
From Verif Require Import Num Res MQuat MObj FParse CPre HParse HProg HSem.
Import ListNotations.
Local Open Scope string_scope.

(** an argument: the object at an address (bound by reference), or a temporary holding a value *)
Inductive opnd (V : Type) := Obj (p : Z) | Val (v : V).
Arguments Obj {V} _. Arguments Val {V} _.

Section C.
Context {K : num}.
(** deep enough for every definition of the headers *)
Definition depth : nat := 60.
(** the outcome: the heap and the result; [this]: the address of the object of a member function *)
Definition hcall (avx : bool) (k : kind) (f : string) (this : option Z) (args : list (eres K)) (m : arr K) : option (res (arr K * eres K)) :=
  match haxx_unit avx with
  | None => None
  | Some u => match run (call u depth [] k f (option_map At this) args) m with
              | Some (Ok (m', (_, r))) => Some (Ok (m', r))
              | Some UB => Some UB
              | Some Abort => Some Abort
              | None => None
              end
  end.
(** f(args) *)
Definition hfree (avx : bool) (f : string) (args : list (eres K)) (m : arr K) := hcall avx Free f None args m.
(** p.f(args), p the object at address p *)
Definition hmethod (avx : bool) (f : string) (p : Z) (args : list (eres K)) (m : arr K) := hcall avx Method f (Some p) args m.
(** the constructor running at address p *)
Definition hctor (avx : bool) (p : Z) (args : list (eres K)) (m : arr K) := hcall avx Ctor "quaternion" (Some p) args m.
Definition aq (x : opnd (quat K)) : eres K := match x with Obj p => LV HQ (At p) | Val q => RV (VQ q) end.
Definition ac (x : opnd (cplx K)) : eres K := match x with Obj p => LV HC (At p) | Val z => RV (VC z) end.
Definition ar (x : opnd K) : eres K := match x with Obj p => LV HR (At p) | Val a => RV (VR a) end.
(** its value on a heap *)
Definition getq (m : arr K) (x : opnd (quat K)) : res (quat K) := match x with Obj p => load_obj m p | Val q => Ok q end.
Definition getc (m : arr K) (x : opnd (cplx K)) : res (cplx K) := match x with Obj p => a <- ld m p ;; b <- ld m (p + 1)%Z ;; Ok (Cplx a b) | Val z => Ok z end.
Definition getr (m : arr K) (x : opnd K) : res K := match x with Obj p => ld m p | Val a => Ok a end.
(** results *)
Definition vq (q : quat K) : eres K := RV (VQ q).
Definition vr (a : K) : eres K := RV (VR a).
Definition vb (b : bool) : eres K := RV (VB b).

(** A user's program text: an expression, or statements, over objects x, y, z, d, ... of the heap, with the headers included *)
Definition hexp (avx : bool) (vars : list (string * Z)) (text : string) (m : arr K) : option (res (arr K * hval K)) :=
  match haxx_unit avx, lex_line (explode text) with
  | Some u, Some ts =>
      match pexpr pfuel 0 ts with
      | Some (e, []) =>
          match run (mbind (eval u depth [] (map (fun v => (fst v, (HQ, At (snd v)))) vars) None e) (fun sr => rvalue (fst sr) (snd sr))) m with
          | Some (Ok (m', v)) => Some (Ok (m', v))
          | Some UB => Some UB
          | Some Abort => Some Abort
          | None => None
          end
      | _ => None
      end
  | _, _ => None
  end.
Definition hstmts (avx : bool) (vars : list (string * Z)) (text : string) (m : arr K) : option (res (arr K)) :=
  match haxx_unit avx, lex_line (explode (text ++ "}")) with
  | Some u, Some ts =>
      match pbody pfuel ts with
      | Some (ss, []) =>
          match run (exec u depth [] (map (fun v => (fst v, (HQ, At (snd v)))) vars) None ss) m with
          | Some (Ok (m', _)) => Some (Ok m')
          | Some UB => Some UB
          | Some Abort => Some Abort
          | None => None
          end
      | _ => None
      end
  | _, _ => None
  end.
End C.
