(** The function templates that the public headers declare (include/hblas/hblas1.hpp:75-128, hblas2.hpp:87-110, hblas3.hpp:64-72, hblas_util.hpp:44-60), and their instances.
    Simplified: result types and const are dropped; a call is taken to deduce or name the type arguments it means. *)
From Coq Require Import ZArith Bool Ascii String List.
From Verif Require Import FSyntax FParse CSyntax CPre CParse MPar DSrc PSrc MBuild SpecProto MProto.
Import ListNotations.
Local Open Scope string_scope.

(** template: name, type parameters, tokens behind the opening parenthesis *)
Record tdecl := TDecl { t_name : string; t_tparams : list string; t_rest : list tok }.
Fixpoint t_typenames (fuel : nat) (ts : toks) : option (list string * toks) :=
  match fuel with
  | O => None
  | S f => match ts with
           | TId w :: TId x :: r =>
               if String.eqb w "typename" then
                 match eat "," r with
                 | Some r => do (l, r) <- t_typenames f r; Some (x :: l, r)
                 | None => do r <- eat ">" r; Some ([x], r)
                 end
               else None
           | _ => None
           end
  end.
Fixpoint tdecls (fuel : nat) (ts : toks) : option (list tdecl) :=
  match fuel with
  | O => None
  | S f =>
      match ts with
      | [] => Some []
      | TId w :: r =>
          if String.eqb w "template" then
            do r <- eat "<" r; do (xs, r) <- t_typenames f r; do (_, r) <- p_type f (map (fun x => (x, TDouble)) xs) r;
            match r with TId n :: r => do r <- eat "(" r; do k <- tdecls f r; Some (TDecl n xs r :: k) | _ => None end
          else tdecls f r
      | _ :: r => tdecls f r
      end
  end.
Definition templates_of (src : string) : option (list tdecl) := do ts <- preprocess [] [] src; tdecls (S (List.length ts)) ts.
Definition templates : option (list tdecl) := concat_opt templates_of [psrc_hblas1; psrc_hblas2; psrc_hblas3; psrc_util].
(** parameter types once the type parameters are bound; up to the closing parenthesis and the semicolon *)
Fixpoint i_params (fuel : nat) (te : tenv) (ts : toks) : option (list ctype) :=
  match fuel with
  | O => None
  | S f =>
      do (t, r) <- p_type f te ts;
      let r := match r with TId _ :: r => r | _ => r end in
      match eat "," r with
      | Some r => do l <- i_params f te r; Some (t :: l)
      | None => do r <- eat ")" r; do r <- eat ";" r; Some [t]
      end
  end.
Definition instance (t : tdecl) (args : list ctype) : option (list ctype) :=
  if Nat.eqb (List.length args) (List.length (t_tparams t)) then i_params 100 (combine (t_tparams t) args) (t_rest t) else None.
(** the instance the linker finds *)
Definition linked (fma : bool) (t : tdecl) (args : list ctype) : Prop := exists ts i, instance t args = Some ts /\ implementation fma (t_name t) ts = Some i.
