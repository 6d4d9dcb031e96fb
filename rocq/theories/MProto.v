(** The extern "C" prototypes of include/hblas/hblas1.hpp:14-46, hblas2.hpp:14-74, hblas3.hpp:13-51 and hblas_util.hpp:15-28, read off the preprocessed texts; the dummy
    arguments of the Fortran subroutines, read off their declarations; the calls in the forwarding functions (MBuild.v).
    Simplified: const is dropped; INTEGER is INTEGER*4 (no -fdefault-integer-8: CMakeLists.txt sets none) and HAXX_INT is int (MBuild.v);
    the lengths of CHARACTER arguments, which gfortran adds behind the argument list, are not looked at. *)
From Coq Require Import ZArith Bool Ascii String List.
From Verif Require Import FSyntax FParse CSyntax CPre CParse MPar DSrc PSrc MBuild SpecProto.
Import ListNotations.
Local Open Scope string_scope.
Local Open Scope Z_scope.

(** ** prototypes *)
(** HAXX :: is a qualifier of names *)
Fixpoint unqualify (ts : toks) : toks :=
  match ts with
  | TId w :: ((TPun p :: r) as r0) => if String.eqb w "HAXX" && String.eqb p "::" then unqualify r else TId w :: unqualify r0
  | t :: r => t :: unqualify r
  | [] => []
  end.
(** T name(types); up to the closing brace *)
Fixpoint p_protos (fuel : nat) (ts : toks) : option (list (string * list ctype) * toks) :=
  match fuel with
  | O => None
  | S f =>
      match ts with
      | TPun p :: r => if String.eqb p ";" then p_protos f r else if String.eqb p "}" then Some ([], r) else None
      | _ => do (t, r) <- p_type f [] ts;
             match t, r with
             | TVoid, TId n :: r => do r <- eat "(" r; do (ps, r) <- d_params f r; do r <- eat ";" r; do (l, r) <- p_protos f r; Some ((n, map fst ps) :: l, r)
             | _, _ => None
             end
      end
  end.
(** all extern "C" blocks of a token list *)
Fixpoint externs (fuel : nat) (ts : toks) : option (list (string * list ctype)) :=
  match fuel with
  | O => None
  | S f =>
      match ts with
      | [] => Some []
      | TId w :: TStr s :: TPun b :: r =>
          if String.eqb w "extern" && String.eqb s "C" && String.eqb b "{" then do (l, r) <- p_protos f r; do k <- externs f r; Some (app l k) else None
      | TId w :: r => if String.eqb w "extern" then None else externs f r
      | _ :: r => externs f r
      end
  end.
Definition protos_of (src : string) : option (list (string * list ctype)) :=
  do ts <- preprocess [] [] src; externs pfuel (unqualify (paste ts)).
Definition prototypes : option (list (string * list ctype)) := concat_opt protos_of [psrc_hblas1; psrc_hblas2; psrc_hblas3; psrc_util].

(** ** dummy arguments *)
(** the implicit type of a name: IMPLICIT statements, else INTEGER for I-N and REAL*4 *)
Definition in_range (c : ascii) (r : ascii * ascii) : bool := (N_of_ascii (fst r) <=? N_of_ascii c)%N && (N_of_ascii c <=? N_of_ascii (snd r))%N.
Fixpoint implicit (ds : list decl) (c : ascii) : ty :=
  match ds with
  | DImp t rs :: r => if existsb (in_range c) rs then t else implicit r c
  | _ :: r => implicit r c
  | [] => if in_range c ("I"%char, "N"%char) then FSyntax.TInt else TReal4
  end.
Fixpoint explicit (ds : list decl) (x : string) : option ty :=
  match ds with
  | DType t xs :: r => if existsb (fun p => String.eqb (fst p) x) xs then Some t else explicit r x
  | _ :: r => explicit r x
  | [] => None
  end.
Fixpoint extents (ds : list decl) (x : string) : list (option FSyntax.expr) :=
  match ds with
  | DType _ xs :: r | DDim xs :: r => match assoc xs x with Some (e :: l) => e :: l | _ => extents r x end
  | _ :: r => extents r x
  | [] => []
  end.
Definition elt_of (t : ty) : option elt :=
  match t with FSyntax.TChar => Some Character | FSyntax.TInt => Some Integer4 | TReal => Some Real8 | FSyntax.TCplx => Some Complex16 | _ => None end.
Definition dummy_of (ds : list decl) (x : string) : option dummy :=
  match explode x with
  | [] => None
  | c :: _ =>
      do t <- elt_of (match explicit ds x with Some t => t | None => implicit ds c end);
      Some (match extents ds x with
            | [] => Scalar t
            | Some (FSyntax.EInt n) :: _ => Array t (Some (Z.to_nat n))
            | _ => Array t None
            end)
  end.
Fixpoint all_opt {A B} (f : A -> option B) (l : list A) : option (list B) :=
  match l with [] => Some [] | a :: r => do x <- f a; do y <- all_opt f r; Some (x :: y) end.
(** the dummies of SUBROUTINE n in the text src; a FUNCTION has a result *)
Definition dummies (n src : string) : option (list dummy) :=
  do us <- parse_source src; do u <- find_unit n us;
  match u_res u with None => all_opt (dummy_of (u_decls u)) (u_args u) | Some _ => None end.

(** ** calls *)
(** names a function body declares: T x; and what it calls *)
Fixpoint locals (s : nstmt) : list (string * ctype) :=
  match s with NDecl t x _ => [(x, t)] | NSeq a b | NIf _ a b => app (locals a) (locals b) | NBlock a => locals a | NFor a _ b c => app (locals a) (app (locals b) (locals c)) | NDo a _ => locals a | _ => [] end.
Fixpoint ncalls (s : nstmt) : list (string * list nexpr) :=
  match s with NExpr (NCall f _ es) => [(f, es)] | NSeq a b | NIf _ a b => app (ncalls a) (ncalls b) | NBlock a => ncalls a | NFor a _ b c => app (ncalls a) (app (ncalls b) (ncalls c)) | NDo a _ => ncalls a | _ => [] end.
Definition arg_type (env : list (string * ctype)) (e : nexpr) : option ctype :=
  match e with NAddr (NVar x) => option_map TPtr (assoc env x) | NVar x => assoc env x | _ => None end.
(** the calls of a definition of the library: callee and the types of the arguments *)
Definition calls_of (d : defn) : option (list (string * list ctype)) :=
  match snd d with
  | Body ps b => all_opt (fun c => do ts <- all_opt (arg_type (app (combine ps (snd (fst d))) (locals b))) (snd c); Some (fst c, ts)) (ncalls b)
  | _ => Some []
  end.
