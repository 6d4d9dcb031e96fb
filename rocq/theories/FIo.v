(** The Fortran subset of FSyntax.v again, with the arrays outside: a statement is a tree of single REAL*8 accesses (SpecPar.v), scalar variables are
    local to the call.  Same cases in the same order as FSem.v; FIoFacts.v proves that running the tree alone is running FSem.v. *)
From Coq Require Import ZArith Bool Ascii String List.
From Verif Require Import Num Res SpecPar MForL1 FSyntax FSem.
Import ListNotations.
Local Open Scope Z_scope.

(** sequencing of trees; an outcome without memory accesses *)
Fixpoint iobind {V A B} (t : io V A) (f : A -> io V B) : io V B :=
  match t with Ret a => f a | Bad => Bad | Stop => Stop | Get x p k => Get x p (fun v => iobind (k v) f) | Put x p v k => Put x p v (iobind k f) end.
Definition lift {V A} (r : res A) : io V A := match r with Ok a => Ret a | UB => Bad | Abort => Stop end.
Notation "x <~ r ;; k" := (iobind r (fun x => k)) (at level 61, r at next level, right associativity).
Notation "' p <~ r ;; k" := (iobind r (fun p => k)) (at level 61, p pattern, r at next level, right associativity).
(** DO loops and for loops: floop of Res.v *)
Fixpoint ioloop {V S} (n : nat) (i : Z) (body : Z -> S -> io V S) (s : S) : io V S :=
  match n with O => Ret s | Datatypes.S n' => s' <~ body i s ;; ioloop n' (i + 1) body s' end.
Definition iofor {V S} (lo hi : Z) (body : Z -> S -> io V S) (s : S) : io V S := ioloop (Z.to_nat (hi - lo)) lo body s.

Section S.
Context {K : num}.
Local Notation vars := (list (option (val K))).
Variable ext : string -> list (val K) -> res (val K).
(** FSem.aget, FSem.aput *)
Definition ioget (t : ty) (x : nat) (o : Z) : io K (val K) :=
  match t with
  | TReal => Get x o (fun a => Ret (VR a))
  | TCplx => Get x (2 * o) (fun a => Get x (2 * o + 1) (fun b => Ret (VZ (Cplx a b))))
  | _ => Stop
  end.
Definition ioput (t : ty) (x : nat) (o : Z) (v : val K) : io K unit :=
  match t, v with
  | TReal, VR a => Put x o a (Ret tt)
  | TCplx, VZ z => Put x (2 * o) (re z) (Put x (2 * o + 1) (im z) (Ret tt))
  | _, _ => Stop
  end.
(** FSem.eval *)
Fixpoint ioeval (c : ctx) (vs : vars) (e : rexpr) : io K (val K) :=
  let evals := fix evals (l : list rexpr) : io K (list (val K)) :=
    match l with [] => Ret [] | e :: r => v <~ ioeval c vs e ;; l <~ evals r ;; Ret (v :: l) end in
  let ints := fix ints (l : list rexpr) : io K (list Z) :=
    match l with [] => Ret [] | e :: r => v <~ ioeval c vs e ;; z <~ lift (as_int v) ;; zs <~ ints r ;; Ret (z :: zs) end in
  match e with
  | RInt z => Ret (VI z)
  | RRl n => a <~ lift (lit n) ;; Ret (VR a)
  | RCx (RRl a) (RRl b) => a <~ lift (lit a) ;; b <~ lift (lit b) ;; Ret (VZ (Cplx a b))
  | RCx _ _ => Stop
  | RChr x => Ret (VC x)
  | RVar x => match nth_error vs x with Some (Some v) => Ret v | Some None => Bad | None => Stop end
  | RArr x es => zs <~ ints es ;; match nth_error c x with Some (t, d) => ioget t x (off d zs) | None => Stop end
  | RFun f es => vs <~ evals es ;; lift (call ext f vs)
  | RBin o a b => x <~ ioeval c vs a ;; y <~ ioeval c vs b ;; lift (bin o x y)
  | RNeg a => x <~ ioeval c vs a ;; lift (neg x)
  | RNot a => x <~ ioeval c vs a ;; b <~ lift (as_log x) ;; Ret (VL (negb b))
  end.
Fixpoint ioints (c : ctx) (vs : vars) (l : list rexpr) : io K (list Z) :=
  match l with [] => Ret [] | e :: r => v <~ ioeval c vs e ;; z <~ lift (as_int v) ;; zs <~ ioints c vs r ;; Ret (z :: zs) end.
Definition ioassign (tys : list ty) (vs : vars) (x : nat) (v : val K) : io K vars :=
  match nth_error tys x with Some t => v <~ lift (conv t v) ;; Ret (SpecPar.set_nth vs x v) | None => Stop end.
(** FSem.exec *)
Fixpoint ioexec (tys : list ty) (c : ctx) (p : rstmt) (vs : vars) : io K (vars * bool) :=
  let block := fix block (l : list rstmt) (vs : vars) : io K (vars * bool) :=
    match l with [] => Ret (vs, false) | p :: r => '(vs, b) <~ ioexec tys c p vs ;; if b : bool then Ret (vs, true) else block r vs end in
  match p with
  | RAsg x e => v <~ ioeval c vs e ;; vs <~ ioassign tys vs x v ;; Ret (vs, false)
  | RPut x es e =>
      v <~ ioeval c vs e ;; zs <~ ioints c vs es ;;
      match nth_error c x with Some (t, d) => _ <~ ioput t x (off d zs) v ;; Ret (vs, false) | None => Stop end
  | RIf e s1 s2 => v <~ ioeval c vs e ;; b <~ lift (as_log v) ;; if b : bool then block s1 vs else block s2 vs
  | RDo x lo hi body =>
      a <~ ioeval c vs lo ;; a <~ lift (as_int a) ;; b <~ ioeval c vs hi ;; b <~ lift (as_int b) ;;
      vs <~ iofor a (b + 1) (fun i vs => vs <~ ioassign tys vs x (VI i) ;; '(vs, r) <~ block body vs ;; if r : bool then Stop else Ret vs) vs ;;
      vs <~ ioassign tys vs x (VI (Z.max a (b + 1))) ;; Ret (vs, false)
  | RRet => Ret (vs, true)
  end.
Definition ioblock (tys : list ty) (c : ctx) : list rstmt -> vars -> io K (vars * bool) := fix block (l : list rstmt) (vs : vars) : io K (vars * bool) :=
  match l with [] => Ret (vs, false) | p :: r => '(vs, b) <~ ioexec tys c p vs ;; if b : bool then Ret (vs, true) else block r vs end.

(** an argument at the call: a value, or the address of an array *)
Inductive farg := FVal (v : val K) | FPtr (z : Z).
Fixpoint iobind_args (fs : list argslot) (xs : list farg) (vs : vars) : res vars :=
  match fs, xs with
  | [], [] => Ok vs
  | ASc x :: fs, FVal v :: xs => iobind_args fs xs (SpecPar.set_nth vs x (Some v))
  | AAr x :: fs, FPtr _ :: xs => iobind_args fs xs vs
  | _, _ => Abort
  end.
(** the tree of a whole call; the extents of the arrays use scalar arguments only *)
Definition ioprog (p : prog) (xs : list farg) : io K unit :=
  vs <~ lift (iobind_args (p_args p) xs (map (fun _ => None) (p_sc p))) ;;
  c <~ lift (eval_dims ext (St vs []) (p_ar p)) ;;
  _ <~ ioblock (map snd (p_sc p)) c (p_body p) vs ;;
  Ret tt.
(** where array number [x] starts *)
Fixpoint slot_base (fs : list argslot) (xs : list farg) (x : nat) : Z :=
  match fs, xs with
  | AAr y :: fs, FPtr z :: xs => if Nat.eqb x y then z else slot_base fs xs x
  | _ :: fs, _ :: xs => slot_base fs xs x
  | _, _ => 0
  end.
End S.
Arguments farg : clear implicits.
