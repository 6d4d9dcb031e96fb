(** Abstract syntax of the C++ subset used by include/hblas/pack/pack.hpp, include/hblas/pack/packops.hpp and include/util/types.hpp: class templates
    with static member functions, function templates, generic lambdas.  No code of /repo is modelled here; TParse.v produces these trees from the texts of TSrc.v. *)
From Coq Require Import ZArith Bool String List.
From Verif Require Import CSyntax.
Import ListNotations.

(** a possibly qualified name with template arguments, x<a>::r; a type, a variable or a function *)
Inductive ty := Ty (x : string) (a : option (list ty)) (r : option ty) | TyPtr (t : ty) | TyZ (z : Z).
(** a parameter: type, reference?, parameter pack?, name *)
Record tparam := TParam { tp_ty : ty; tp_ref : bool; tp_pack : bool; tp_name : string }.
Inductive texpr :=
| EName (q : ty) | EInt (z : Z) | EFlt (z : Z) | EBin (o : binop) (a b : texpr)
| EAddr (e : texpr) | EDeref (e : texpr) | ESizeof (t : ty)
| ECall (q : ty) (args : list texpr)        (* f(args) *)
| EBrace (q : ty) (args : list texpr)       (* T{args} *)
| EField (e : texpr) (x : string)
| ELam (ps : list tparam) (body : list tstmt)   (* [](ps){body}, [&](ps){body} *)
| EPack (e : texpr)                         (* e... *)
with tstmt :=
| SDecl (t : ty) (l : list (nat * string * option texpr))   (* number of stars, name, initialiser *)
| SAsg (o : option binop) (l e : texpr)
| SExpr (e : texpr) | SIf (c : texpr) (b : list tstmt)
| SFor (i : tstmt) (c : texpr) (s : tstmt) (b : list tstmt) | SDo (b : list tstmt) (c : texpr)
| SRet (e : option texpr) | SStatic (e : texpr).            (* static_assert *)
Record tfunc := TFunc { tf_tpars : list string; tf_name : string; tf_ret : ty; tf_params : list tparam; tf_body : list tstmt }.
(** a class template or one of its explicit specialisations: template parameters with defaults, arguments of the specialisation, base class, typedefs, nested
    structs with their fields, members imported by a using declaration, static member functions *)
Record tclass := TClass { tc_name : string; tc_pars : list (string * option ty); tc_spec : option (list ty); tc_base : option ty;
                          tc_types : list (string * ty); tc_structs : list (string * list string); tc_using : list string; tc_funcs : list tfunc }.
(** a unit: classes, forward declarations of class templates, alias templates, functions *)
Record tunit := TUnit { tu_classes : list tclass; tu_fwd : list (string * list (string * option ty));
                        tu_alias : list (string * (list (string * option ty) * ty)); tu_funcs : list tfunc }.
