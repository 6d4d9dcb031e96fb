(** Translation phases 2-4 of C++ for the texts of CSrc.v: line splices, comments, tokens, preprocessor directives, macro expansion.
    Simplification: macro arguments are substituted unexpanded and the result is rescanned; with no # or ## operator and no macro that
    mentions itself (there is none in these texts) this gives the tokens the standard prescribes.  #include: a name in the table is replaced by its text,
    any other (the standard library, immintrin.h, and the project headers that only declare) is skipped.  What is not understood makes it return None. *)
From Coq Require Import ZArith Bool Ascii String List.
From Verif Require Import FParse.
Import ListNotations.
Local Open Scope char_scope.
Local Open Scope Z_scope.

Inductive tok := TId (s : string) | TInt (z : Z) | TFlt (z : Z) | TChr (c : ascii) | TStr (s : string) | TPun (s : string).

(** line splices: a backslash before a newline disappears with it (blanks between them are tolerated, as by the usual compilers) *)
Definition nl : ascii := ascii_of_N 10.
Fixpoint drop_blanks (l : chars) : chars := match l with c :: r => if is_blank c then drop_blanks r else l | [] => [] end.
Fixpoint splice (fuel : nat) (l : chars) : chars :=
  match fuel with
  | O => l
  | S f => match l with
           | [] => []
           | c :: r => if Ascii.eqb c "\" then match drop_blanks r with
                                               | d :: k => if Ascii.eqb d nl then splice f k else c :: splice f r
                                               | [] => [c] end
                       else c :: splice f r
           end
  end.
(** comments become one blank; character and string literals are left alone.  mode 0: code, 1: line comment, 2: block comment,
    3: string literal, 4: character literal *)
Definition dquote : ascii := ascii_of_N 34.
Fixpoint uncomment (mode : Z) (l : chars) : chars :=
  match l with
  | [] => []
  | c :: r =>
      if mode =? 0 then
        match c, r with
        | "/", "/" :: _ => uncomment 1 r
        | "/", "*" :: r2 => " " :: uncomment 5 r
        | _, _ => c :: uncomment (if Ascii.eqb c dquote then 3 else if Ascii.eqb c quote then 4 else 0) r
        end
      else if mode =? 1 then if Ascii.eqb c nl then c :: uncomment 0 r else uncomment 1 r
      else if mode =? 5 then uncomment 2 r
      else if mode =? 2 then match c, r with "*", "/" :: _ => uncomment 6 r | _, _ => uncomment 2 r end
      else if mode =? 6 then uncomment 0 r
      else if mode =? 3 then c :: uncomment (if Ascii.eqb c dquote then 0 else 3) r
      else c :: uncomment (if Ascii.eqb c quote then 0 else 4) r
  end.

(** tokens of a line *)
Definition is_alpha (c : ascii) : bool := is_upper c || is_lower c || Ascii.eqb c "_".
Definition is_alnum (c : ascii) : bool := is_alpha c || is_digit c.
Definition hexval (c : ascii) : option Z :=
  if is_digit c then Some (code c - 48) else
  let u := upcase c in if (65 <=? code u) && (code u <=? 70) then Some (code u - 55) else None.
Fixpoint hexnum (l : chars) (acc : Z) : option Z :=
  match l with [] => Some acc | c :: r => match hexval c with Some d => hexnum r (16 * acc + d) | None => None end end.
Definition puns : list string :=
  ["..."; "::"; "->"; "++"; "--"; "+="; "-="; "*="; "/="; "%="; "=="; "!="; "<="; ">="; "&&"; "||";
   "+"; "-"; "*"; "/"; "%"; "="; "<"; ">"; "!"; "~"; "&"; "|"; "("; ")"; "{"; "}"; "["; "]"; ";"; ","; ":"; "?"; "."; "#"]%string.
Fixpoint find_pun (ps : list string) (l : chars) : option (string * chars) :=
  match ps with [] => None | p :: r => match stripS p l with Some k => Some (p, k) | None => find_pun r l end end.
(** and, or, not are spellings of &&, ||, ! *)
Definition word (s : string) : tok :=
  if String.eqb s "and" then TPun "&&" else if String.eqb s "or" then TPun "||" else if String.eqb s "not" then TPun "!" else TId s.
Definition lex_num (l : chars) : option (tok * chars) :=
  match l with
  | "0" :: "x" :: r => let '(ds, k) := span is_alnum r in match hexnum ds 0 with Some z => Some (TInt z, k) | None => None end
  | _ => let '(ds, r) := span is_digit l in
         match number ds 0, r with
         | Some n, "." :: r2 => let '(fr, k) := span is_digit r2 in if all_zero fr then Some (TFlt n, k) else None
         | Some n, c :: _ => if is_alpha c then None else Some (TInt n, r)
         | Some n, [] => Some (TInt n, r)
         | None, _ => None
         end
  end.
Fixpoint lex (fuel : nat) (l : chars) : option (list tok) :=
  match fuel with
  | O => None
  | S f =>
      match l with
      | [] => Some []
      | c :: r =>
          if is_blank c then lex f r
          else if is_alpha c then let '(a, b) := span is_alnum l in option_map (cons (word (implode a))) (lex f b)
          else if is_digit c then match lex_num l with Some (t, b) => option_map (cons t) (lex f b) | None => None end
          else if Ascii.eqb c quote then
            match r with x :: q :: b => if Ascii.eqb q quote then option_map (cons (TChr x)) (lex f b) else None | _ => None end
          else if Ascii.eqb c dquote then
            let '(a, b) := span (fun d => negb (Ascii.eqb d dquote)) r in
            match b with _ :: b' => option_map (cons (TStr (implode a))) (lex f b') | [] => None end
          else match find_pun puns l with Some (p, b) => option_map (cons (TPun p)) (lex f b) | None => None end
      end
  end.
Definition lex_line (l : chars) : option (list tok) := lex (S (List.length l)) l.

(** macros: parameters (None: object-like) and replacement list *)
Definition macro := (option (list string) * list tok)%type.
Definition macros := list (string * macro).
Definition mfind (ms : macros) (s : string) : option macro :=
  match find (fun p => String.eqb (fst p) s) ms with Some p => Some (snd p) | None => None end.
Definition mdrop (ms : macros) (s : string) : macros := filter (fun p => negb (String.eqb (fst p) s)) ms.
Definition is_pun (s : string) (t : tok) : bool := match t with TPun p => String.eqb p s | _ => false end.
(** the arguments of an invocation, after its opening parenthesis *)
Fixpoint margs (ts : list tok) (depth : Z) (cur : list tok) (acc : list (list tok)) : option (list (list tok) * list tok) :=
  match ts with
  | [] => None
  | t :: r =>
      if is_pun "(" t then margs r (depth + 1) (t :: cur) acc
      else if is_pun ")" t then if depth =? 0 then Some (rev (rev cur :: acc), r) else margs r (depth - 1) (t :: cur) acc
      else if is_pun "," t && (depth =? 0) then margs r depth [] (rev cur :: acc)
      else margs r depth (t :: cur) acc
  end.
Fixpoint subst_of (ps : list string) (as_ : list (list tok)) (s : string) : option (list tok) :=
  match ps, as_ with p :: ps, a :: as_ => if String.eqb p s then Some a else subst_of ps as_ s | _, _ => None end.
Definition msubst (ps : list string) (as_ : list (list tok)) (body : list tok) : list tok :=
  flat_map (fun t => match t with TId s => match subst_of ps as_ s with Some a => a | None => [t] end | _ => [t] end) body.
Fixpoint expand (fuel : nat) (ms : macros) (ts : list tok) : option (list tok) :=
  match fuel with
  | O => None
  | S f =>
      match ts with
      | [] => Some []
      | TId s :: r =>
          match mfind ms s with
          | None => option_map (cons (TId s)) (expand f ms r)
          | Some (None, body) => expand f ms (body ++ r)
          | Some (Some ps, body) =>
              match r with
              | t :: r1 => if is_pun "(" t then
                             match margs r1 0 [] [] with
                             | Some (as_, k) => if Nat.eqb (List.length as_) (List.length ps) then expand f ms (msubst ps as_ body ++ k) else None
                             | None => None
                             end
                           else option_map (cons (TId s)) (expand f ms r)
              | [] => option_map (cons (TId s)) (expand f ms r)
              end
          end
      | t :: r => option_map (cons t) (expand f ms r)
      end
  end.
Definition xfuel : nat := 200 * 200.

(** #if conditions: integers, defined, ==, !, &&, ||, parentheses; an identifier left after expansion counts as 0 *)
Fixpoint undefined (ms : macros) (ts : list tok) : list tok :=
  match ts with
  | [] => []
  | TId d :: r =>
      if String.eqb d "defined" then
        match r with
        | TPun _ :: TId s :: TPun _ :: k => TInt (match mfind ms s with Some _ => 1 | None => 0 end) :: undefined ms k
        | _ => []
        end
      else TId d :: undefined ms r
  | t :: r => t :: undefined ms r
  end.
(** level 0: ||, 1: &&, 2: ==, 3: !, parentheses, integers, identifiers *)
Fixpoint cond (fuel : nat) (level : Z) (ts : list tok) : option (Z * list tok) :=
  match fuel with
  | O => None
  | S f =>
      if level =? 3 then
        match ts with
        | TInt z :: r => Some (z, r)
        | TId _ :: r => Some (0, r)
        | TPun p :: r =>
            if String.eqb p "!" then match cond f 3 r with Some (v, k) => Some (if v =? 0 then 1 else 0, k) | None => None end
            else if String.eqb p "(" then
              match cond f 0 r with Some (v, t :: k) => if is_pun ")" t then Some (v, k) else None | _ => None end
            else None
        | _ => None
        end
      else
        match cond f (level + 1) ts with
        | Some (v, t :: k) =>
            if is_pun (if level =? 0 then "||"%string else if level =? 1 then "&&"%string else "=="%string) t then
              match cond f level k with
              | Some (w, k2) => Some ((if (if level =? 0 then negb (v =? 0) || negb (w =? 0)
                                          else if level =? 1 then negb (v =? 0) && negb (w =? 0) else v =? w) then 1 else 0), k2)
              | None => None
              end
            else Some (v, t :: k)
        | o => o
        end
  end.
Definition eval_cond (ms : macros) (ts : list tok) : option bool :=
  match expand xfuel ms (undefined ms ts) with
  | Some ts => match cond xfuel 0 ts with Some (v, []) => Some (negb (v =? 0)) | _ => None end
  | None => None
  end.

(** the lines of a text after splicing and comment removal *)
Definition lines (s : string) : list chars := let l := explode s in lines_of (uncomment 0 (splice (List.length l) l)) [].
(** #define X body, #define X(a,b) body: the parenthesis must follow the name at once *)
Fixpoint mparams (ts : list tok) : option (list string * list tok) :=
  match ts with
  | TId s :: TPun p :: r =>
      if String.eqb p ")" then Some ([s], r)
      else if String.eqb p "," then match mparams r with Some (l, k) => Some (s :: l, k) | None => None end
      else None
  | _ => None
  end.
Definition mdefine (ms : macros) (l : chars) : option macros :=
  let '(n, r) := span is_alnum (drop_blanks l) in
  match lex_line r with
  | None => None
  | Some ts =>
      match r with
      | "(" :: _ => match mparams (tl ts) with Some (ps, body) => Some ((implode n, (Some ps, body)) :: mdrop ms (implode n)) | None => None end
      | _ => Some ((implode n, (None, ts)) :: mdrop ms (implode n))
      end
  end.
Definition directive (l : chars) : option (string * chars) :=
  match drop_blanks l with
  | "#" :: r => let '(n, k) := span is_alpha (drop_blanks r) in Some (implode n, k)
  | _ => None
  end.
Definition first_id (l : chars) : string := implode (fst (span is_alnum (drop_blanks l))).
(** the name between quotes or angle brackets *)
Definition inc_name (l : chars) : string :=
  match drop_blanks l with _ :: r => implode (fst (span (fun c => negb (Ascii.eqb c dquote) && negb (Ascii.eqb c ">")) r)) | [] => EmptyString end.
(** conditions: (lines of this group are active, a group of this #if has been taken) *)
Definition active (cs : list (bool * bool)) : bool := forallb fst cs.
(** [pend]: tokens seen since the last directive, not yet expanded, in reverse *)
Fixpoint pp (fuel : nat) (inc : list (string * string)) (ls : list chars) (ms : macros) (cs : list (bool * bool)) (pend : list tok) : option (list tok) :=
  match fuel with
  | O => None
  | S f =>
      match ls with
      | [] => match cs with [] => expand xfuel ms (rev pend) | _ => None end
      | l :: r =>
          match directive l with
          | None =>
              if active cs then match lex_line l with Some ts => pp f inc r ms cs (rev_append ts pend) | None => None end
              else pp f inc r ms cs pend
          | Some (d, a) =>
              match expand xfuel ms (rev pend) with
              | None => None
              | Some out =>
                  let go ls ms cs := option_map (app out) (pp f inc ls ms cs []) in
                  let test := match lex_line a with Some ts => eval_cond ms ts | None => None end in
                  let isdef := match mfind ms (first_id a) with Some _ => true | None => false end in
                  if String.eqb d "ifdef" then go r ms ((isdef, isdef) :: cs)
                  else if String.eqb d "ifndef" then go r ms ((negb isdef, negb isdef) :: cs)
                  else if String.eqb d "if" then match test with Some b => go r ms ((b, b) :: cs) | None => None end
                  else if String.eqb d "elif" then
                    match cs, test with (_, t) :: k, Some b => go r ms ((negb t && b, t || b) :: k) | _, _ => None end
                  else if String.eqb d "else" then match cs with (_, t) :: k => go r ms ((negb t, true) :: k) | [] => None end
                  else if String.eqb d "endif" then match cs with _ :: k => go r ms k | [] => None end
                  else if negb (active cs) then go r ms cs
                  else if String.eqb d "define" then match mdefine ms a with Some ms => go r ms cs | None => None end
                  else if String.eqb d "undef" then go r (mdrop ms (first_id a)) cs
                  else if String.eqb d "include" then
                    match find (fun p => String.eqb (fst p) (inc_name a)) inc with
                    | Some p => go (lines (snd p) ++ r)%list ms cs
                    | None => go r ms cs
                    end
                  else if String.eqb d "pragma" then go r ms cs
                  else None
              end
          end
      end
  end.
(** [preprocess defs inc src]: the tokens of the text [src]; [defs]: the -D options, name and value; [inc]: texts of the headers *)
Definition cmd_macros (defs : list (string * string)) : option macros :=
  fold_right (fun d ms => match ms, lex_line (explode (snd d)) with Some ms, Some ts => Some ((fst d, (None, ts)) :: ms) | _, _ => None end) (Some []) defs.
Definition preprocess (defs : list (string * string)) (inc : list (string * string)) (src : string) : option (list tok) :=
  match cmd_macros defs with Some ms => pp xfuel inc (lines src) ms [] [] | None => None end.
