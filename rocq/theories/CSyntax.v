(** Abstract syntax of the C++ subset used by src/hblas/cxx and the headers it includes: after preprocessing, with names resolved.
    No code of /repo is modelled here; CParse.v produces these trees from the texts of CSrc.v. *)
From Coq Require Import ZArith Ascii String List.

(** types; [TPtr t] is t*, a reference parameter or variable is marked where it is declared *)
Inductive ctype := TInt | TBool | TChar | TDouble | TCplx | TQuat | TM256 | TM128 | TM256i | TULong | TVoid | TAuto | TPtr (t : ctype).

Inductive binop := BAdd | BSub | BMul | BDiv | BMod | BAnd | BEq | BNe | BLt | BLe | BGt | BGe | BLand | BLor.
Inductive unop := UNeg | UNot.

(** names as written *)
Inductive nexpr :=
| NVar (x : string) | NInt (z : Z) | NFlt (z : Z) | NChr (c : ascii)
| NUn (o : unop) (e : nexpr) | NBin (o : binop) (a b : nexpr) | NCond (c a b : nexpr)
| NCall (f : string) (targs : string) (args : list nexpr)   (* targs: the text between < and > of an explicit template call *)
| NIdx (p i : nexpr) | NAddr (e : nexpr) | NCast (t : ctype) (e : nexpr) | NSizeof (t : ctype).
Inductive nstmt :=
| NSkip | NSeq (a b : nstmt) | NBlock (s : nstmt)
| NDecl (t : ctype) (x : string) (init : option nexpr)
| NRef (x y : string)                                  (* T &x = y; *)
| NAsg (op : option binop) (l e : nexpr)               (* l = e, l op= e *)
| NExpr (e : nexpr) | NIf (c : nexpr) (a b : nstmt)
| NFor (init : nstmt) (c : nexpr) (step body : nstmt) | NDo (body : nstmt) (c : nexpr)
| NRet (e : option nexpr) | NAssert (e : nexpr).
(** a parameter: type, is it a reference to non-const, name *)
Record nfunc := NFunc { nf_ret : ctype; nf_name : string; nf_params : list (ctype * bool * string); nf_body : nstmt }.

(** the intrinsics and library functions that occur *)
Inductive intr :=
| I_load256 (aligned : bool) | I_load128 (aligned : bool) | I_broadcast | I_setzero
| I_add | I_sub | I_mul | I_fmadd | I_fmsub | I_fnmadd | I_hsub | I_xor | I_unpacklo | I_unpackhi
| I_shuffle256 | I_shuffle128 | I_permute | I_permute2f128 | I_lo128 | I_extract128 | I_insert128 | I_widen128 | I_same | I_setmask
| I_conj | I_min | I_smartconj | I_ctor.
Inductive expr :=
| EVar (s : nat) | EInt (z : Z) | EFlt (z : Z) | EChr (c : ascii)
| EUn (o : unop) (e : expr) | EBin (o : binop) (a b : expr) | ECond (c a b : expr)
| EIntr (i : intr) (args : list expr) | EUser (f : nat) (args : list expr)
| EIdx (p i : expr) | EAddr (s : nat) | ECast (t : ctype) (e : expr).
Inductive stmt :=
| SSkip | SSeq (a b : stmt)
| SUndef (s : nat)                                     (* T x; *)
| SSet (t : ctype) (s : nat) (e : expr)                (* initialisation or assignment, converted to t *)
| SAlloc (t : ctype) (s : nat) (al size : expr)          (* T *x = (T* )aligned_alloc(al,size); *)
| SStoreIdx (p i : expr) (op : option binop) (e : expr)  (* p[i] op= e *)
| SStore256 (aligned : bool) (p e : expr)              (* _mm256_store[u]_pd(p,e) *)
| SCall (f : nat) (args : list expr)                   (* f(args); *)
| SExt (f : string) (targs : string) (args : list expr)  (* a call left to the caller of the interpreter *)
| SIf (c : expr) (a b : stmt) | SWhile (c : expr) (body : stmt) | SDo (body : stmt) (c : expr)
| SRet (e : option expr) | SAssert (e : expr).
(** a function: result type, name, parameters (type, reference to non-const), number of variables, body; parameters are slots 0, 1, ... *)
Record func := Func { f_ret : ctype; f_name : string; f_params : list (ctype * bool); f_slots : nat; f_body : stmt }.
