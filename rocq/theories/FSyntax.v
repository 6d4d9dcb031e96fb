(** Abstract syntax of the fixed-form Fortran subset the kernels under src/hblas/fortran are written in. *)
From Coq Require Import ZArith Ascii String List.
Import ListNotations.

(** TReal4: default REAL, which the kernels never mention but implicit typing can produce (HTMPI in hgerud.f:53) *)
Inductive ty := TInt | TReal | TCplx | TLog | TChar | TReal4.
Inductive binop := OAdd | OSub | OMul | OEq | ONe | OLt | OLe | OGt | OGe | OAnd | OOr.

(** parsed form: names are the identifiers of the source, in upper case *)
Inductive expr :=
| EInt (z : Z)
| ERl (n : Z)                        (* a real literal whose value is the integer n *)
| ECx (a b : expr)                   (* (a,b): a complex literal *)
| EChr (c : ascii)
| EVar (x : string)
| EApp (f : string) (args : list expr)   (* array element or function reference *)
| EBin (o : binop) (a b : expr)
| ENeg (a : expr)
| ENot (a : expr).
Inductive stmt :=
| SAsg (x : string) (subs : list expr) (e : expr)
| SIf (e : expr) (s1 s2 : list stmt)
| SDo (x : string) (lo hi : expr) (body : list stmt)
| SRet.
(** declarations: DDim is a DIMENSION statement; a dimension is None when it is * *)
Inductive decl :=
| DType (t : ty) (xs : list (string * list (option expr)))
| DDim (xs : list (string * list (option expr)))
| DPar (xs : list (string * expr))
| DImp (t : ty) (ranges : list (ascii * ascii))
| DExt (xs : list string).
(** a program unit; [u_res] is the result type of a FUNCTION *)
Record unit_ := MkUnit { u_name : string; u_args : list string; u_res : option ty; u_decls : list decl; u_body : list stmt }.

(** resolved form: scalar variables and arrays are numbered *)
Inductive rexpr :=
| RInt (z : Z) | RRl (n : Z) | RCx (a b : rexpr) | RChr (c : ascii)
| RVar (x : nat)
| RArr (x : nat) (subs : list rexpr)
| RFun (f : string) (args : list rexpr)
| RBin (o : binop) (a b : rexpr) | RNeg (a : rexpr) | RNot (a : rexpr).
Inductive rstmt :=
| RAsg (x : nat) (e : rexpr)
| RPut (x : nat) (subs : list rexpr) (e : rexpr)
| RIf (e : rexpr) (s1 s2 : list rstmt)
| RDo (x : nat) (lo hi : rexpr) (body : list rstmt)
| RRet.
(** dummy arguments: scalar slot or array slot; [p_sc] the scalar variables with their types (source names kept for reference); [p_ar] the
    arrays: element type and extents of all dimensions but the last; [p_res] the slot of a FUNCTION's result *)
Inductive argslot := ASc (x : nat) | AAr (x : nat).
Record prog := MkProg { p_args : list argslot; p_sc : list (string * ty); p_ar : list (string * ty * list rexpr); p_res : option nat; p_body : list rstmt }.
