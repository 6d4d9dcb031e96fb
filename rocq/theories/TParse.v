(** A parser for the C++ subset of TSyntax.v.  Everything outside the subset makes it return None. *)
From Coq Require Import ZArith Bool Ascii String List.
From Verif Require Import CSyntax CPre TSyntax.
From Verif Require CParse.
Import ListNotations.
Local Open Scope string_scope.
Local Open Scope Z_scope.

Definition toks := list tok.
Notation "'do' x <- m ; k" := (match m with Some x => k | None => None end) (at level 200, x pattern, m at level 100, k at level 200).
Definition eat := CParse.eat.
Definition sees := CParse.sees.
Definition eat_id (s : string) (ts : toks) : option toks := match ts with TId x :: r => if String.eqb x s then Some r else None | _ => None end.
Definition mem_s (l : list string) (s : string) : bool := existsb (String.eqb s) l.
Definition quals : list string := ["const"; "inline"; "static"; "typename"; "constexpr"].
Fixpoint skip_quals (ts : toks) : toks := match ts with TId s :: r => if mem_s quals s then skip_quals r else ts | _ => ts end.
(** * and const after a type *)
Fixpoint stars (ts : toks) (t : ty) : ty * toks :=
  match ts with
  | TPun p :: r => if String.eqb p "*" then stars r (TyPtr t) else (t, ts)
  | TId s :: r => if String.eqb s "const" then stars r t else (t, ts)
  | _ => (t, ts)
  end.
(** names after which < opens template arguments, in an expression *)
Definition templates : list string := ["get"; "apply_n"; "pointer_sequence"; "const_cast"; "reinterpret_cast"; "PackOps"; "quaternion"; "complex"; "GenericType"; "AVXType"].
(** [ex]: in an expression *)
Fixpoint p_name (fuel : nat) (ex : bool) (ts : toks) {struct fuel} : option (ty * toks) :=
  match fuel with
  | O => None
  | S f =>
      match ts with
      | TId x :: r =>
          do (a, r) <- (if sees "<" r && (negb ex || mem_s templates x)
                        then match eat "<" r with Some r => match p_targs f r with Some (l, r) => Some (Some l, r) | None => None end | None => None end
                        else Some (None, r));
          match eat "::" r with
          | Some r => do (t, r) <- p_name f ex r; Some (Ty x a (Some t), r)
          | None => Some (Ty x a None, r)
          end
      | _ => None
      end
  end
with p_targs (fuel : nat) (ts : toks) {struct fuel} : option (list ty * toks) :=
  match fuel with
  | O => None
  | S f =>
      match eat ">" ts with
      | Some r => Some ([], r)
      | None =>
          do (t, r) <- p_targ f ts;
          match eat "," r with
          | Some r => do (l, r) <- p_targs f r; Some (t :: l, r)
          | None => do r <- eat ">" r; Some ([t], r)
          end
      end
  end
with p_targ (fuel : nat) (ts : toks) {struct fuel} : option (ty * toks) :=
  match fuel with
  | O => None
  | S f =>
      match ts with
      | CPre.TInt z :: r => Some (TyZ z, r)
      | _ => do (t, r) <- p_name f false (skip_quals ts); Some (stars r t)
      end
  end.
Definition p_type (fuel : nat) (ts : toks) : option (ty * toks) := do (t, r) <- p_name fuel false (skip_quals ts); Some (stars r t).
(** parameters, after the opening parenthesis *)
Fixpoint p_params (fuel : nat) (ts : toks) : option (list tparam * toks) :=
  match fuel with
  | O => None
  | S f =>
      match eat ")" ts with
      | Some r => Some ([], r)
      | None =>
          do (t, r) <- p_type f ts;
          let '(pk, r) := match eat "..." r with Some r => (true, r) | None => (false, r) end in
          let '(rf, r) := match eat "&" r with Some r => (true, r) | None => (false, r) end in
          match r with
          | TId x :: r =>
              let p := TParam t rf pk x in
              match eat "," r with
              | Some r => do (l, r) <- p_params f r; Some (p :: l, r)
              | None => do r <- eat ")" r; Some ([p], r)
              end
          | _ => None
          end
      end
  end.
(** words that begin a declaration *)
Definition type_words : list string := ["auto"; "const"; "constexpr"; "HAXX_INT"; "T"; "__m256d"; "__m128d"; "__m256i"; "size_t"].
Definition asg_ops : list (string * option binop) := [("=", None); ("+=", Some BAdd); ("-=", Some BSub); ("*=", Some BMul)].
Fixpoint p_expr (fuel : nat) (level : Z) (ts : toks) {struct fuel} : option (texpr * toks) :=
  match fuel with
  | O => None
  | S f => if level <? 7 then do (a, r) <- p_expr f (level + 1) ts; p_left f level a r else p_unary f ts
  end
with p_left (fuel : nat) (level : Z) (a : texpr) (ts : toks) {struct fuel} : option (texpr * toks) :=
  match fuel with
  | O => None
  | S f =>
      match ts with
      | TPun p :: r => match CParse.assoc (CParse.ops level) p with
                       | Some o => do (b, r) <- p_expr f (level + 1) r; p_left f level (EBin o a b) r
                       | None => Some (a, ts)
                       end
      | _ => Some (a, ts)
      end
  end
with p_unary (fuel : nat) (ts : toks) {struct fuel} : option (texpr * toks) :=
  match fuel with
  | O => None
  | S f =>
      match ts with
      | TPun p :: r =>
          if String.eqb p "&" then do (e, r) <- p_unary f r; Some (EAddr e, r)
          else if String.eqb p "*" then do (e, r) <- p_unary f r; Some (EDeref e, r)
          else if String.eqb p "(" then do (e, r) <- p_expr f 0 r; do r <- eat ")" r; p_post f e r
          else if String.eqb p "[" then
            let r := match eat "&" r with Some r => r | None => r end in
            do r <- eat "]" r; do r <- eat "(" r; do (ps, r) <- p_params f r; do r <- eat "{" r; do (b, r) <- p_stmts f r; Some (ELam ps b, r)
          else None
      | CPre.TInt z :: r => Some (EInt z, r)
      | TFlt z :: r => Some (EFlt z, r)
      | TId x :: r =>
          if String.eqb x "sizeof" then do r <- eat "(" r; do (t, r) <- p_type f r; do r <- eat ")" r; Some (ESizeof t, r)
          else
          do (q, r) <- p_name f true ts;
          match eat "(" r with
          | Some r => do (l, r) <- p_args f ")" r; p_post f (ECall q l) r
          | None => match eat "{" r with
                    | Some r => do (l, r) <- p_args f "}" r; p_post f (EBrace q l) r
                    | None => p_post f (EName q) r
                    end
          end
      | _ => None
      end
  end
with p_post (fuel : nat) (e : texpr) (ts : toks) {struct fuel} : option (texpr * toks) :=
  match fuel with
  | O => None
  | S f => match ts with
           | TPun p :: r => if String.eqb p "." then match r with TId x :: r => p_post f (EField e x) r | _ => None end else Some (e, ts)
           | _ => Some (e, ts)
           end
  end
with p_args (fuel : nat) (close : string) (ts : toks) {struct fuel} : option (list texpr * toks) :=
  match fuel with
  | O => None
  | S f =>
      match eat close ts with
      | Some r => Some ([], r)
      | None =>
          do (e, r) <- p_expr f 0 ts;
          let '(e, r) := match eat "..." r with Some r => (EPack e, r) | None => (e, r) end in
          match eat "," r with
          | Some r => do (l, r) <- p_args f close r; Some (e :: l, r)
          | None => do r <- eat close r; Some ([e], r)
          end
      end
  end
(** declarators after the type *)
with p_decls (fuel : nat) (ts : toks) {struct fuel} : option (list (nat * string * option texpr) * toks) :=
  match fuel with
  | O => None
  | S f =>
      match ts with
      | TPun p :: r => if String.eqb p "*" then do (l, r) <- p_decls f r; match l with (n, x, i) :: l => Some ((S n, x, i) :: l, r) | [] => None end else None
      | TId x :: r =>
          do (i, r) <- match eat "=" r with Some r => do (e, r) <- p_expr f 0 r; Some (Some e, r) | None => Some (None, r) end;
          match eat "," r with
          | Some r => do (l, r) <- p_decls f r; Some ((O, x, i) :: l, r)
          | None => Some ([(O, x, i)], r)
          end
      | _ => None
      end
  end
(** an assignment, x++, x-- or an expression *)
with p_simple (fuel : nat) (ts : toks) {struct fuel} : option (tstmt * toks) :=
  match fuel with
  | O => None
  | S f =>
      do (e, r) <- p_expr f 0 ts;
      match r with
      | TPun p :: k =>
          if String.eqb p "++" then Some (SAsg (Some BAdd) e (EInt 1), k)
          else if String.eqb p "--" then Some (SAsg (Some BSub) e (EInt 1), k)
          else match CParse.assoc asg_ops p with
               | Some o => do (b, r) <- p_expr f 0 k; Some (SAsg o e b, r)
               | None => Some (SExpr e, r)
               end
      | _ => Some (SExpr e, r)
      end
  end
with p_stmt (fuel : nat) (ts : toks) {struct fuel} : option (list tstmt * toks) :=
  match fuel with
  | O => None
  | S f =>
      match ts with
      | TPun p :: r =>
          if String.eqb p ";" then Some ([], r)
          else if String.eqb p "{" then p_stmts f r
          else do (s, r) <- p_simple f ts; do r <- eat ";" r; Some ([s], r)
      | TId w :: r =>
          if String.eqb w "if" then
            do r <- eat "(" r; do (c, r) <- p_expr f 0 r; do r <- eat ")" r; do (b, r) <- p_stmt f r; Some ([SIf c b], r)
          else if String.eqb w "for" then
            do r <- eat "(" r; do (i, r) <- p_simple f r; do r <- eat ";" r; do (c, r) <- p_expr f 0 r; do r <- eat ";" r;
            do (s, r) <- p_simple f r; do r <- eat ")" r; do (b, r) <- p_stmt f r; Some ([SFor i c s b], r)
          else if String.eqb w "do" then
            do (b, r) <- p_stmt f r; do r <- eat_id "while" r; do r <- eat "(" r; do (c, r) <- p_expr f 0 r; do r <- eat ")" r; do r <- eat ";" r; Some ([SDo b c], r)
          else if String.eqb w "return" then
            match eat ";" r with
            | Some r => Some ([SRet None], r)
            | None => do (e, r) <- p_expr f 0 r; do r <- eat ";" r; Some ([SRet (Some e)], r)
            end
          else if String.eqb w "static_assert" then
            do r <- eat "(" r; do (e, r) <- p_expr f 0 r; do r <- eat "," r;
            match r with TStr _ :: r => do r <- eat ")" r; do r <- eat ";" r; Some ([SStatic e], r) | _ => None end
          else if mem_s type_words w then
            do (t, r) <- p_name f false (skip_quals ts); do (l, r) <- p_decls f r; do r <- eat ";" r; Some ([SDecl t l], r)
          else do (s, r) <- p_simple f ts; do r <- eat ";" r; Some ([s], r)
      | _ => None
      end
  end
with p_stmts (fuel : nat) (ts : toks) {struct fuel} : option (list tstmt * toks) :=
  match fuel with
  | O => None
  | S f => match eat "}" ts with
           | Some r => Some ([], r)
           | None => do (a, r) <- p_stmt f ts; do (l, r) <- p_stmts f r; Some ((a ++ l)%list, r)
           end
  end.
Definition p_func (f : nat) (tps : list string) (ts : toks) : option (tfunc * toks) :=
  do (t, r) <- p_type f ts;
  match r with
  | TId x :: r => do r <- eat "(" r; do (ps, r) <- p_params f r; do r <- eat "{" r; do (b, r) <- p_stmts f r; Some (TFunc tps x t ps b, r)
  | _ => None
  end.
(** template parameters after template <: typename T, typename T = d, class T, typename... Ts, size_t N, template<typename,typename> class T = d *)
Fixpoint p_tpars (fuel : nat) (ts : toks) : option (list (string * option ty) * toks) :=
  match fuel with
  | O => None
  | S f =>
      match eat ">" ts with
      | Some r => Some ([], r)
      | None =>
          do r <- match ts with
                  | TId w :: r =>
                      if mem_s ["typename"; "class"; "size_t"] w then Some (match eat "..." r with Some r => r | None => r end)
                      else if String.eqb w "template" then do r <- eat "<" r; do (_, r) <- CParse.targ_text r 0 ""; eat_id "class" r
                      else None
                  | _ => None
                  end;
          match r with
          | TId x :: r =>
              do (d, r) <- match eat "=" r with Some r => do (t, r) <- p_targ f r; Some (Some t, r) | None => Some (None, r) end;
              match eat "," r with
              | Some r => do (l, r) <- p_tpars f r; Some ((x, d) :: l, r)
              | None => do r <- eat ">" r; Some ([(x, d)], r)
              end
          | _ => None
          end
      end
  end.
Definition p_template (f : nat) (ts : toks) : option (option (list (string * option ty)) * toks) :=
  match eat_id "template" ts with
  | Some r => do r <- eat "<" r; do (l, r) <- p_tpars f r; Some (Some l, r)
  | None => Some (None, ts)
  end.
Fixpoint skip_to_semi (ts : toks) : option toks := match ts with TPun p :: r => if String.eqb p ";" then Some r else skip_to_semi r | _ :: r => skip_to_semi r | [] => None end.
(** fields of a nested struct: type name; ... *)
Fixpoint p_fields (fuel : nat) (ts : toks) : option (list string * toks) :=
  match fuel with
  | O => None
  | S f => match eat "}" ts with
           | Some r => Some ([], r)
           | None => do (_, r) <- p_type f ts; match r with TId x :: r => do r <- eat ";" r; do (l, r) <- p_fields f r; Some (x :: l, r) | _ => None end
           end
  end.
Fixpoint last_name (t : ty) : string := match t with Ty x _ None => x | Ty _ _ (Some r) => last_name r | _ => "" end.
(** members of a class, added to [c] *)
Fixpoint p_members (fuel : nat) (c : tclass) (ts : toks) : option (tclass * toks) :=
  match fuel with
  | O => None
  | S f =>
      let 'TClass n pp sp ba tys sts us fs := c in
      match ts with
      | TPun p :: r => if String.eqb p "}" then Some (c, r) else if String.eqb p ";" then p_members f c r else None
      | TId w :: r =>
          if String.eqb w "typedef" then
            do (t, r) <- p_type f r; match r with TId x :: r => do r <- eat ";" r; p_members f (TClass n pp sp ba ((x, t) :: tys) sts us fs) r | _ => None end
          else if String.eqb w "using" then
            match r with
            | TId x :: TPun e :: k =>
                if String.eqb e "=" then do (t, r) <- p_type f k; do r <- eat ";" r; p_members f (TClass n pp sp ba ((x, t) :: tys) sts us fs) r
                else do (t, r) <- p_name f false r; do r <- eat ";" r; p_members f (TClass n pp sp ba tys sts (last_name t :: us) fs) r
            | _ => None
            end
          else if String.eqb w "struct" then
            match r with TId x :: r => do r <- eat "{" r; do (l, r) <- p_fields f r; p_members f (TClass n pp sp ba tys ((x, l) :: sts) us fs) r | _ => None end
          else if String.eqb w "static_assert" then do r <- skip_to_semi r; p_members f c r
          else match r with
               | TId k :: _ => if String.eqb w "static" && String.eqb k "constexpr" then do r <- skip_to_semi r; p_members f c r
                               else do (tp, r) <- p_template f ts;
                                    do (fn, r) <- p_func f (match tp with Some l => map fst l | None => [] end) r; p_members f (TClass n pp sp ba tys sts us (fs ++ [fn])%list) r
               | _ => do (tp, r) <- p_template f ts;
                      do (fn, r) <- p_func f (match tp with Some l => map fst l | None => [] end) r; p_members f (TClass n pp sp ba tys sts us (fs ++ [fn])%list) r
               end
      | _ => None
      end
  end.
Fixpoint p_unit (fuel : nat) (u : tunit) (ts : toks) : option tunit :=
  match fuel with
  | O => None
  | S f =>
      let 'TUnit cs fw al fs := u in
      match ts with
      | [] => Some u
      | TPun p :: r => if String.eqb p ";" || String.eqb p "}" then p_unit f u r else None
      | _ =>
          match eat_id "namespace" ts with
          | Some (TId _ :: r) => do r <- eat "{" r; p_unit f u r
          | Some _ => None
          | None =>
              do (tp, r) <- p_template fuel ts;
              let ps := match tp with Some l => l | None => [] end in
              match eat_id "struct" r with
              | Some (TId x :: r) =>
                  match eat ";" r with
                  | Some r => p_unit f (TUnit cs ((x, ps) :: fw) al fs) r
                  | None =>
                      do (sp, r) <- match eat "<" r with Some r => do (l, r) <- p_targs fuel r; Some (Some l, r) | None => Some (None, r) end;
                      do (ba, r) <- match eat ":" r with Some r => do r <- eat_id "public" r; do (t, r) <- p_type fuel r; Some (Some t, r) | None => Some (None, r) end;
                      do r <- eat "{" r;
                      do (c, r) <- p_members fuel (TClass x ps sp ba [] [] [] []) r; p_unit f (TUnit (c :: cs) fw al fs) r
                  end
              | Some _ => None
              | None =>
                  match eat_id "using" r with
                  | Some (TId x :: r) => do r <- eat "=" r; do (t, r) <- p_type fuel r; do r <- eat ";" r; p_unit f (TUnit cs fw ((x, (ps, t)) :: al) fs) r
                  | Some _ => None
                  | None => do (fn, r) <- p_func fuel (map fst ps) r; p_unit f (TUnit cs fw al (fn :: fs)) r
                  end
              end
          end
      end
  end.
(** the text [src] preprocessed with the options [defs] and the headers [inc] *)
Definition tcompile (defs inc : list (string * string)) (src : string) : option tunit :=
  do ts <- preprocess defs inc src; p_unit 1000 (TUnit [] [] [] []) ts.
