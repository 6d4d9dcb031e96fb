(** A parser and name resolver for the C++ subset of CSyntax.v.  Everything outside the subset makes it return None. *)
From Coq Require Import ZArith Bool Ascii String List.
From Verif Require Import CSyntax CPre.
Import ListNotations.
Local Open Scope string_scope.
Local Open Scope Z_scope.

Definition toks := list tok.
Notation "'do' x <- m ; k" := (match m with Some x => k | None => None end) (at level 200, x pattern, m at level 100, k at level 200).
Definition eat (s : string) (ts : toks) : option toks :=
  match ts with TPun p :: r => if String.eqb p s then Some r else None | _ => None end.
Definition sees (s : string) (ts : toks) : bool := match ts with TPun p :: _ => String.eqb p s | _ => false end.
Definition sees_id (s : string) (ts : toks) : bool := match ts with TId p :: _ => String.eqb p s | _ => false end.
Definition assoc {A} (l : list (string * A)) (s : string) : option A :=
  match find (fun p => String.eqb (fst p) s) l with Some p => Some (snd p) | None => None end.

(** type names of the language, the intrinsics header and the library; HAXX_INT is a typedef of int32_t (include/haxx/haxx_config.hpp) *)
Definition base_types : list (string * ctype) :=
  [("HAXX_INT", CSyntax.TInt); ("int", CSyntax.TInt); ("size_t", CSyntax.TInt); ("bool", TBool); ("char", TChar); ("double", TDouble); ("void", TVoid); ("auto", TAuto);
   ("__m256d", TM256); ("__m128d", TM128); ("__m256i", TM256i)].
Definition quals : list string := ["const"; "inline"; "static"; "__restrict__"; "typename"; "constexpr"].
Definition is_qual (s : string) : bool := existsb (String.eqb s) quals.
(** [te]: types of template parameters in this instantiation *)
Definition tenv := list (string * ctype).
Fixpoint starts_type (te : tenv) (ts : toks) : bool :=
  match ts with
  | TId s :: r =>
      if is_qual s then true else
      if String.eqb s "std" then match r with TPun _ :: TId c :: _ => String.eqb c "complex" | _ => false end else
      if String.eqb s "quaternion" || String.eqb s "unsigned" then true else
      match assoc base_types s, assoc te s with None, None => false | _, _ => true end
  | _ => false
  end.
(** the tokens after qualifiers; is const among them *)
Fixpoint skip_quals (ts : toks) (c : bool) : bool * toks :=
  match ts with TId s :: r => if is_qual s then skip_quals r (c || String.eqb s "const") else (c, ts) | _ => (c, ts) end.
(** stars and qualifiers after a base type *)
Fixpoint stars (ts : toks) (t : ctype) : ctype * toks :=
  match ts with
  | TPun p :: r => if String.eqb p "*" then stars r (TPtr t) else (t, ts)
  | TId s :: r => if is_qual s then stars r t else (t, ts)
  | _ => (t, ts)
  end.
(** a type without stars: (was it const, the type) *)
Fixpoint p_base (fuel : nat) (te : tenv) (ts : toks) : option (bool * ctype * toks) :=
  match fuel with
  | O => None
  | S f =>
      let '(c, ts) := skip_quals ts false in
      let '(c, t, r) :=
        match ts with
        | TId s :: r =>
            if String.eqb s "quaternion" then
              match eat "<" r with
              | Some r => match p_base f te r with
                          | Some (_, TDouble, r) => match eat ">" r with Some r => (c, Some TQuat, r) | None => (c, None, r) end
                          | _ => (c, None, r) end
              | None => (c, None, r) end
            else if String.eqb s "std" then
              match r with
              | TPun _ :: TId k :: r => if String.eqb k "complex" then
                  match eat "<" r with
                  | Some r => match p_base f te r with
                              | Some (_, TDouble, r) => match eat ">" r with Some r => (c, Some TCplx, r) | None => (c, None, r) end
                              | _ => (c, None, r) end
                  | None => (c, None, r) end else (c, None, r)
              | _ => (c, None, r) end
            else if String.eqb s "unsigned" then match r with TId l :: r => (c, (if String.eqb l "long" then Some TULong else None), r) | _ => (c, None, r) end
            else match assoc te s with Some t => (c, Some t, r) | None => (c, assoc base_types s, r) end
        | _ => (c, None, ts)
        end in
      match t with
      | Some t => let '(c2, r) := skip_quals r false in Some (c || c2, t, r)
      | None => None
      end
  end.
Definition p_type (fuel : nat) (te : tenv) (ts : toks) : option (ctype * toks) :=
  do (_, t, r) <- p_base fuel te ts; Some (stars r t).

(** binary operators by level, loosest first *)
Definition ops (level : Z) : list (string * binop) :=
  if level =? 0 then [("||", BLor)] else if level =? 1 then [("&&", BLand)] else if level =? 2 then [("&", BAnd)]
  else if level =? 3 then [("==", BEq); ("!=", BNe)] else if level =? 4 then [("<", BLt); (">", BGt); ("<=", BLe); (">=", BGe)]
  else if level =? 5 then [("+", BAdd); ("-", BSub)] else [("*", BMul); ("/", BDiv); ("%", BMod)].
(** text of template arguments up to the matching >, for information in the call *)
Fixpoint targ_text (ts : toks) (depth : Z) (acc : string) : option (string * toks) :=
  match ts with
  | [] => None
  | t :: r =>
      if is_pun "<" t then targ_text r (depth + 1) (acc ++ "<")
      else if is_pun ">" t then if depth =? 0 then Some (acc, r) else targ_text r (depth - 1) (acc ++ ">")
      else targ_text r depth (acc ++ match t with TId s => s | TPun s => s | CPre.TInt z => if z =? 2 then "2" else "?" | _ => "?" end)
  end.
(** the type of a constructor call with several arguments; T() is the zero of T *)
Definition tname (t : ctype) : string := match t with TQuat => "quaternion" | TCplx => "complex" | _ => "?" end.
Definition template_funs : list string := ["TPACK"; "NPACK"].
Fixpoint p_expr (fuel : nat) (te : tenv) (level : Z) (ts : toks) {struct fuel} : option (nexpr * toks) :=
  match fuel with
  | O => None
  | S f =>
      if level =? -1 then
        do (c, r) <- p_expr f te 0 ts;
        match eat "?" r with
        | Some r => do (a, r) <- p_expr f te (-1) r; do r <- eat ":" r; do (b, r) <- p_expr f te (-1) r; Some (NCond c a b, r)
        | None => Some (c, r)
        end
      else if level <? 7 then do (a, r) <- p_expr f te (level + 1) ts; p_left f te level a r
      else p_unary f te ts
  end
with p_left (fuel : nat) (te : tenv) (level : Z) (a : nexpr) (ts : toks) {struct fuel} : option (nexpr * toks) :=
  match fuel with
  | O => None
  | S f =>
      match ts with
      | TPun p :: r => match assoc (ops level) p with
                       | Some o => do (b, r) <- p_expr f te (level + 1) r; p_left f te level (NBin o a b) r
                       | None => Some (a, ts)
                       end
      | _ => Some (a, ts)
      end
  end
with p_unary (fuel : nat) (te : tenv) (ts : toks) {struct fuel} : option (nexpr * toks) :=
  match fuel with
  | O => None
  | S f =>
      match eat "-" ts, eat "!" ts, eat "&" ts with
      | Some r, _, _ => do (e, r) <- p_unary f te r; Some (NUn UNeg e, r)
      | _, Some r, _ => do (e, r) <- p_unary f te r; Some (NUn UNot e, r)
      | _, _, Some r => do (e, r) <- p_unary f te r; Some (NAddr e, r)
      | _, _, _ => do (e, r) <- p_prim f te ts; p_post f te e r
      end
  end
with p_post (fuel : nat) (te : tenv) (e : nexpr) (ts : toks) {struct fuel} : option (nexpr * toks) :=
  match fuel with
  | O => None
  | S f => match eat "[" ts, eat "." ts with
           | Some r, _ => do (i, r) <- p_expr f te (-1) r; do r <- eat "]" r; p_post f te (NIdx e i) r
           | _, Some (TId g :: r) => do r <- eat "(" r; do (a, r) <- p_args f te r; p_post f te (NCall ("." ++ g) "" (e :: a)) r   (* e.g(a) *)
           | _, Some _ => None
           | _, None => Some (e, ts)
           end
  end
with p_prim (fuel : nat) (te : tenv) (ts : toks) {struct fuel} : option (nexpr * toks) :=
  match fuel with
  | O => None
  | S f =>
      match ts with
      | CPre.TInt z :: r => Some (NInt z, r)
      | TFlt z :: r => Some (NFlt z, r)
      | TChr c :: r => Some (NChr c, r)
      | TPun p :: r =>
          if String.eqb p "(" then
            if starts_type te r then do (t, r) <- p_type f te r; do r <- eat ")" r; do (e, r) <- p_unary f te r; Some (NCast t e, r)
            else do (e, r) <- p_expr f te (-1) r; do r <- eat ")" r; Some (e, r)
          else None
      | TId s :: r =>
          if String.eqb s "const_cast" || String.eqb s "reinterpret_cast" then
            do r <- eat "<" r; do (t, r) <- p_type f te r; do r <- eat ">" r; do r <- eat "(" r;
            do (e, r) <- p_expr f te (-1) r; do r <- eat ")" r; Some (NCast t e, r)
          else if String.eqb s "sizeof" then do r <- eat "(" r; do (t, r) <- p_type f te r; do r <- eat ")" r; Some (NSizeof t, r)
          else if starts_type te ts then
            do (t, r) <- p_type f te ts; do r <- eat "(" r; do (a, r) <- p_args f te r;
            match a with [] => Some (NCast t (NFlt 0), r) | [e] => Some (NCast t e, r) | _ => Some (NCall "ctor" (tname t) a, r) end
          else if String.eqb s "std" then
            match r with
            | TPun c :: TId g :: r => if String.eqb c "::" then do r <- eat "(" r; do (a, r) <- p_args f te r; Some (NCall ("std::" ++ g) "" a, r) else None
            | _ => None
            end
          else if existsb (String.eqb s) template_funs then
            do r <- eat "<" r; do (x, r) <- targ_text r 0 ""; do r <- eat "(" r; do (a, r) <- p_args f te r; Some (NCall s x a, r)
          else match eat "(" r with
               | Some r => do (a, r) <- p_args f te r; Some (NCall s "" a, r)
               | None => Some (NVar s, r)
               end
      | _ => None
      end
  end
with p_args (fuel : nat) (te : tenv) (ts : toks) {struct fuel} : option (list nexpr * toks) :=
  match fuel with
  | O => None
  | S f =>
      match eat ")" ts with
      | Some r => Some ([], r)
      | None => do (e, r) <- p_expr f te (-1) ts;
                match eat "," r with
                | Some r => if sees ")" r then None else do (l, r) <- p_args f te r; Some (e :: l, r)
                | None => do r <- eat ")" r; Some ([e], r)
                end
      end
  end.

Definition asg_ops : list (string * option binop) :=
  [("=", None); ("+=", Some BAdd); ("-=", Some BSub); ("*=", Some BMul); ("/=", Some BDiv)].
(** an expression statement, without its semicolon *)
Definition p_simple (fuel : nat) (te : tenv) (ts : toks) : option (nstmt * toks) :=
  match eat "++" ts, eat "--" ts with
  | Some r, _ => do (e, r) <- p_unary fuel te r; Some (NAsg (Some BAdd) e (NInt 1), r)
  | _, Some r => do (e, r) <- p_unary fuel te r; Some (NAsg (Some BSub) e (NInt 1), r)
  | _, _ =>
      do (e, r) <- p_expr fuel te (-1) ts;
      match eat "++" r, eat "--" r with
      | Some r, _ => Some (NAsg (Some BAdd) e (NInt 1), r)
      | _, Some r => Some (NAsg (Some BSub) e (NInt 1), r)
      | _, _ =>
          match r with
          | TPun p :: r' => match assoc asg_ops p with
                            | Some o => do (v, r) <- p_expr fuel te (-1) r'; Some (NAsg o e v, r)
                            | None => Some (NExpr e, r)
                            end
          | _ => Some (NExpr e, r)
          end
      end
  end.
(** expression statements separated by commas *)
Fixpoint p_simples (fuel : nat) (te : tenv) (ts : toks) : option (nstmt * toks) :=
  match fuel with
  | O => None
  | S f => do (s, r) <- p_simple f te ts;
           match eat "," r with
           | Some r => do (s2, r) <- p_simples f te r; Some (NSeq s s2, r)
           | None => Some (s, r)
           end
  end.
(** declarators up to and including the semicolon *)
Fixpoint p_decls (fuel : nat) (te : tenv) (t : ctype) (ts : toks) : option (nstmt * toks) :=
  match fuel with
  | O => None
  | S f =>
      let more s r := match eat "," r with
                      | Some r => do (s2, r) <- p_decls f te t r; Some (NSeq s s2, r)
                      | None => do r <- eat ";" r; Some (s, r)
                      end in
      match eat "&" ts with
      | Some (TId x :: r) => do r <- eat "=" r; match r with TId y :: r => more (NRef x y) r | _ => None end
      | Some _ => None
      | None =>
          match stars ts t with
          | (t, TId x :: r) =>
              match eat "=" r, eat "(" r with
              | Some r, _ => do (e, r) <- p_expr f te (-1) r; more (NDecl t x (Some e)) r
              | _, Some r => do (a, r) <- p_args f te r; more (NDecl t x (Some match a with [e] => e | _ => NCall "ctor" (tname t) a end)) r
              | _, _ => more (NDecl t x None) r
              end
          | _ => None
          end
      end
  end.
Fixpoint p_stmt (fuel : nat) (te : tenv) (ts : toks) {struct fuel} : option (nstmt * toks) :=
  match fuel with
  | O => None
  | S f =>
      match ts with
      | TPun p :: r =>
          if String.eqb p ";" then Some (NSkip, r)
          else if String.eqb p "{" then do (s, r) <- p_stmts f te r; Some (NBlock s, r)
          else do (s, r) <- p_simple f te ts; do r <- eat ";" r; Some (s, r)
      | TId w :: r =>
          if String.eqb w "if" then
            do r <- eat "(" r; do (c, r) <- p_expr f te (-1) r; do r <- eat ")" r; do (a, r) <- p_stmt f te r;
            if sees_id "else" r then do (b, r) <- p_stmt f te (tl r); Some (NIf c (NBlock a) (NBlock b), r) else Some (NIf c (NBlock a) NSkip, r)
          else if String.eqb w "for" then
            do r <- eat "(" r;
            do (i, r) <- match eat ";" r with Some r => Some (NSkip, r)
                         | None => if starts_type te r then do (_, t, r) <- p_base f te r; p_decls f te t r
                                   else do (i, r) <- p_simples f te r; do r <- eat ";" r; Some (i, r) end;
            do (c, r) <- p_expr f te (-1) r; do r <- eat ";" r;
            do (st, r) <- p_simples f te r; do r <- eat ")" r; do (b, r) <- p_stmt f te r;
            Some (NBlock (NFor i c st (NBlock b)), r)
          else if String.eqb w "do" then
            do (b, r) <- p_stmt f te r;
            if sees_id "while" r then
              do r <- eat "(" (tl r); do (c, r) <- p_expr f te (-1) r; do r <- eat ")" r; do r <- eat ";" r; Some (NDo (NBlock b) c, r)
            else None
          else if String.eqb w "return" then
            match eat ";" r with Some r => Some (NRet None, r)
            | None => do (e, r) <- p_expr f te (-1) r; do r <- eat ";" r; Some (NRet (Some e), r) end
          else if String.eqb w "assert" then
            do r <- eat "(" r; do (e, r) <- p_expr f te (-1) r; do r <- eat ")" r; do r <- eat ";" r; Some (NAssert e, r)
          else if starts_type te ts then do (_, t, r) <- p_base f te ts; p_decls f te t r
          else do (s, r) <- p_simple f te ts; do r <- eat ";" r; Some (s, r)
      | _ => None
      end
  end
with p_stmts (fuel : nat) (te : tenv) (ts : toks) {struct fuel} : option (nstmt * toks) :=
  match fuel with
  | O => None
  | S f => match eat "}" ts with
           | Some r => Some (NSkip, r)
           | None => do (s, r) <- p_stmt f te ts; do (k, r) <- p_stmts f te r; Some (NSeq s k, r)
           end
  end.
Fixpoint p_params (fuel : nat) (te : tenv) (ts : toks) : option (list (ctype * bool * string) * toks) :=
  match fuel with
  | O => None
  | S f =>
      match eat ")" ts with
      | Some r => Some ([], r)
      | None =>
          do (c, t, r) <- p_base f te ts;
          let '(t, r) := stars r t in
          let '(isref, r) := match eat "&" r with Some r => (negb c, r) | None => (false, r) end in
          match r with
          | TId x :: r =>
              match eat "," r with
              | Some r => if sees ")" r then None else do (l, r) <- p_params f te r; Some ((t, isref, x) :: l, r)
              | None => do r <- eat ")" r; Some ([(t, isref, x)], r)
              end
          | _ => None
          end
      end
  end.
(** declarations of a translation unit: namespaces are entered, template heads skipped, forward declarations dropped.
    [skip]: a declaration whose parameters use a template parameter without a type in [te] is skipped when it has no body *)
Fixpoint skip_decl (ts : toks) : option toks :=
  match ts with
  | TPun p :: r => if String.eqb p ";" then Some r else if String.eqb p "{" then None else skip_decl r
  | _ :: r => skip_decl r
  | [] => None
  end.
Definition p_func (fuel : nat) (te : tenv) (ts : toks) : option (nfunc * toks) :=
  do (t, r) <- p_type fuel te ts;
  match r with
  | TId n :: r => do r <- eat "(" r; do (ps, r) <- p_params fuel te r; do r <- eat "{" r; do (b, r) <- p_stmts fuel te r; Some (NFunc t n ps b, r)
  | _ => None
  end.
Fixpoint p_unit (fuel : nat) (te : tenv) (ts : toks) : option (list nfunc) :=
  match fuel with
  | O => None
  | S f =>
      match ts with
      | [] => Some []
      | TPun p :: r => if String.eqb p ";" || String.eqb p "}" then p_unit f te r else None
      | TId w :: r =>
          if String.eqb w "namespace" then match r with TId _ :: r => do r <- eat "{" r; p_unit f te r | _ => None end
          else if String.eqb w "template" then do r <- eat "<" r; do (_, r) <- targ_text r 0 ""; p_unit f te r
          else match p_func fuel te ts with
               | Some (fn, r) => do l <- p_unit f te r; Some (fn :: l)
               | None => do r <- skip_decl ts; p_unit f te r
               end
      | _ => None
      end
  end.

(** ** names *)
Definition intrinsics : list (string * intr) :=
  [("_mm256_load_pd", I_load256 true); ("_mm256_loadu_pd", I_load256 false); ("_mm_load_pd", I_load128 true); ("_mm_loadu_pd", I_load128 false);
   ("_mm256_broadcast_sd", I_broadcast); ("_mm256_setzero_pd", I_setzero); ("_mm256_add_pd", I_add); ("_mm256_sub_pd", I_sub); ("_mm256_mul_pd", I_mul);
   ("_mm256_fmadd_pd", I_fmadd); ("_mm256_fmsub_pd", I_fmsub); ("_mm256_fnmadd_pd", I_fnmadd); ("_mm256_hsub_pd", I_hsub); ("_mm256_xor_pd", I_xor);
   ("_mm256_unpacklo_pd", I_unpacklo); ("_mm256_unpackhi_pd", I_unpackhi); ("_mm256_shuffle_pd", I_shuffle256); ("_mm_shuffle_pd", I_shuffle128);
   ("_mm256_permute_pd", I_permute); ("_mm256_permute2f128_pd", I_permute2f128); ("_mm256_castpd256_pd128", I_lo128); ("_mm256_extractf128_pd", I_extract128);
   ("_mm256_insertf128_ps", I_insert128); ("_mm256_castps128_ps256", I_widen128); ("_mm_castpd_ps", I_same); ("_mm256_castps_pd", I_same);
   ("_mm256_castsi256_pd", I_same); ("_mm256_set_epi64x", I_setmask); ("std::conj", I_conj); ("conj", I_conj); ("SmartConj", I_smartconj); ("std::min", I_min);
   ("ctor", I_ctor)].
(** sizeof, in bytes *)
Fixpoint sizeof (t : ctype) : option Z :=
  match t with
  | CSyntax.TInt => Some 4 | TBool => Some 1 | TChar => Some 1 | TDouble => Some 8 | TCplx => Some 16 | TQuat => Some 32
  | TM256 => Some 32 | TM256i => Some 32 | TM128 => Some 16 | TULong => Some 8 | TPtr _ => Some 8 | TVoid => None | TAuto => None
  end.
Definition scope := list (string * (nat * ctype)).
Fixpoint findf (fs : list func) (n : string) (i : nat) : option (nat * func) :=
  match fs with [] => None | f :: r => if String.eqb (f_name f) n then Some (i, f) else findf r n (S i) end.
(** does a body leave its parameters and the memory alone *)
Fixpoint pure (np : nat) (s : stmt) : bool :=
  match s with
  | SSkip | SUndef _ | SRet _ | SAssert _ => true
  | SSeq a b => pure np a && pure np b
  | SSet _ x _ => Nat.leb np x
  | SAlloc _ _ _ _ | SStoreIdx _ _ _ _ | SStore256 _ _ _ | SCall _ _ | SExt _ _ _ => false
  | SIf _ a b => pure np a && pure np b
  | SWhile _ b => pure np b
  | SDo b _ => pure np b
  end.
Fixpoint r_expr (fs : list func) (sc : scope) (e : nexpr) : option expr :=
  let fix r_list (l : list nexpr) : option (list expr) :=
    match l with [] => Some [] | a :: l => do a <- r_expr fs sc a; do l <- r_list l; Some (a :: l) end in
  match e with
  | NVar x => do (s, _) <- assoc sc x; Some (EVar s)
  | NInt z => Some (EInt z) | NFlt z => Some (EFlt z) | NChr c => Some (EChr c)
  | NUn o e => do e <- r_expr fs sc e; Some (EUn o e)
  | NBin o a b => do a <- r_expr fs sc a; do b <- r_expr fs sc b; Some (EBin o a b)
  | NCond c a b => do c <- r_expr fs sc c; do a <- r_expr fs sc a; do b <- r_expr fs sc b; Some (ECond c a b)
  | NCall f _ args =>
      do args <- r_list args;
      match findf fs f 0 with
      | Some (i, fn) => if pure (List.length (f_params fn)) (f_body fn) then Some (EUser i args) else None
      | None => do i <- assoc intrinsics f; Some (EIntr i args)
      end
  | NIdx p i => do p <- r_expr fs sc p; do i <- r_expr fs sc i; Some (EIdx p i)
  | NAddr e => match e with NVar x => do (s, _) <- assoc sc x; Some (EAddr s) | _ => None end
  | NCast t e => do e <- r_expr fs sc e; Some (ECast t e)
  | NSizeof t => do n <- sizeof t; Some (EInt n)
  end.
Fixpoint r_list (fs : list func) (sc : scope) (l : list nexpr) : option (list expr) :=
  match l with [] => Some [] | a :: l => do a <- r_expr fs sc a; do l <- r_list fs sc l; Some (a :: l) end.
(** statements: the scope after them and the next free slot *)
Fixpoint r_stmt (fs : list func) (sc : scope) (n : nat) (s : nstmt) : option (stmt * scope * nat) :=
  match s with
  | NSkip => Some (SSkip, sc, n)
  | NSeq a b => do (a, sc, n) <- r_stmt fs sc n a; do (b, sc, n) <- r_stmt fs sc n b; Some (SSeq a b, sc, n)
  | NBlock s => do (s, _, n) <- r_stmt fs sc n s; Some (s, sc, n)
  | NDecl t x None => Some (SUndef n, (x, (n, t)) :: sc, S n)
  | NDecl t x (Some (NCast t2 (NCall "aligned_alloc" _ [a; k]))) =>
      do a <- r_expr fs sc a; do k <- r_expr fs sc k; Some (SAlloc t2 n a k, (x, (n, t)) :: sc, S n)
  | NDecl t x (Some e) => do e <- r_expr fs sc e; Some (SSet t n e, (x, (n, t)) :: sc, S n)
  | NRef x y => do v <- assoc sc y; Some (SSkip, (x, v) :: sc, n)
  | NAsg o l e =>
      do e <- r_expr fs sc e;
      match l with
      | NVar x => do (s, t) <- assoc sc x; Some (SSet t s (match o with None => e | Some o => EBin o (EVar s) e end), sc, n)
      | NIdx p i => do p <- r_expr fs sc p; do i <- r_expr fs sc i; Some (SStoreIdx p i o e, sc, n)
      | _ => None
      end
  | NExpr e =>
      match e with
      | NCall f ta args =>
          do args <- r_list fs sc args;
          match findf fs f 0 with
          | Some (i, _) => Some (SCall i args, sc, n)
          | None =>
              if String.eqb f "_mm256_store_pd" then match args with [p; v] => Some (SStore256 true p v, sc, n) | _ => None end
              else if String.eqb f "_mm256_storeu_pd" then match args with [p; v] => Some (SStore256 false p v, sc, n) | _ => None end
              else Some (SExt f ta args, sc, n)
          end
      | _ => None
      end
  | NIf c a b => do c <- r_expr fs sc c; do (a, _, n) <- r_stmt fs sc n a; do (b, _, n) <- r_stmt fs sc n b; Some (SIf c a b, sc, n)
  | NFor i c st b =>
      do (i, sc1, n) <- r_stmt fs sc n i; do c <- r_expr fs sc1 c; do (b, _, n) <- r_stmt fs sc1 n b; do (st, _, n) <- r_stmt fs sc1 n st;
      Some (SSeq i (SWhile c (SSeq b st)), sc, n)
  | NDo b c => do (b, _, n) <- r_stmt fs sc n b; do c <- r_expr fs sc c; Some (SDo b c, sc, n)
  | NRet None => Some (SRet None, sc, n)
  | NRet (Some e) => do e <- r_expr fs sc e; Some (SRet (Some e), sc, n)
  | NAssert e => do e <- r_expr fs sc e; Some (SAssert e, sc, n)
  end.
Fixpoint param_scope (ps : list (ctype * bool * string)) (n : nat) : scope :=
  match ps with [] => [] | (t, _, x) :: r => (x, (n, t)) :: param_scope r (S n) end.
Definition r_func (fs : list func) (f : nfunc) : option func :=
  let np := List.length (nf_params f) in
  do (b, _, n) <- r_stmt fs (param_scope (nf_params f) 0) np (nf_body f);
  Some (Func (nf_ret f) (nf_name f) (map fst (nf_params f)) n b).
(** functions in order of definition: a body may call the ones before it *)
Definition r_unit (l : list nfunc) : option (list func) :=
  fold_left (fun fs f => do fs <- fs; do f <- r_func fs f; Some (fs ++ [f])%list) l (Some []).

(** [compile te defs inc src]: the functions of the text [src] preprocessed with the options [defs] and the headers [inc],
    template parameters instantiated by [te] *)
Definition pfuel : nat := 400.
Definition compile (te : tenv) (defs inc : list (string * string)) (src : string) : option (list func) :=
  do ts <- preprocess defs inc src; do l <- p_unit pfuel te ts; r_unit l.
