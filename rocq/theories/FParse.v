(** A parser for the fixed-form Fortran subset of src/hblas/fortran: preprocessor lines, comment and continuation lines, labels,
    expressions with Fortran's precedences, DO loops ended by labelled CONTINUE statements (also shared ones), block and logical IF.
    Everything outside the subset makes the parser return None. *)
From Coq Require Import ZArith Bool Ascii String List.
From Verif Require Import FSyntax.
Import ListNotations.
Local Open Scope char_scope.
Local Open Scope Z_scope.

Definition chars := list ascii.
Fixpoint explode (s : string) : chars := match s with EmptyString => [] | String c r => c :: explode r end.
Fixpoint implode (l : chars) : string := match l with [] => EmptyString | c :: r => String c (implode r) end.
Definition code (c : ascii) : Z := Z.of_N (N_of_ascii c).
Definition is_digit (c : ascii) : bool := (48 <=? code c) && (code c <=? 57).
Definition is_upper (c : ascii) : bool := (65 <=? code c) && (code c <=? 90).
Definition is_lower (c : ascii) : bool := (97 <=? code c) && (code c <=? 122).
Definition upcase (c : ascii) : ascii := if is_lower c then ascii_of_N (N_of_ascii c - 32) else c.
Definition is_blank (c : ascii) : bool := (code c =? 32) || (code c =? 9) || (code c =? 13).
Definition quote : ascii := "'".

(** lines of a text (separator: code 10) *)
Fixpoint lines_of (l acc : chars) : list chars :=
  match l with
  | [] => [rev acc]
  | c :: r => if code c =? 10 then rev acc :: lines_of r [] else lines_of r (c :: acc)
  end.
Fixpoint all_blank (l : chars) : bool := match l with [] => true | c :: r => is_blank c && all_blank r end.
Fixpoint eq_chars (a b : chars) : bool :=
  match a, b with [], [] => true | x :: a, y :: b => Ascii.eqb x y && eq_chars a b | _, _ => false end.
(** [strip p l]: l without its prefix p *)
Fixpoint strip (p l : chars) : option chars :=
  match p, l with
  | [], _ => Some l
  | x :: p, y :: l => if Ascii.eqb x y then strip p l else None
  | _, [] => None
  end.
Definition stripS (p : string) (l : chars) : option chars := strip (explode p) l.
Fixpoint trim (l : chars) : chars := match l with [] => [] | c :: r => if is_blank c then trim r else c :: trim r end.

(** the C preprocessor: #define X, #ifndef X, #ifdef X, #else, #endif; other lines are kept when every enclosing condition holds *)
Fixpoint preproc (ls : list chars) (defs : list chars) (conds : list bool) : option (list chars) :=
  match ls with
  | [] => match conds with [] => Some [] | _ => None end
  | l :: r =>
      let active := forallb (fun b => b) conds in
      match l with
      | "#" :: d =>
          match stripS "define" d, stripS "ifndef" d, stripS "ifdef" d with
          | Some x, _, _ => preproc r (if active then trim x :: defs else defs) conds
          | _, Some x, _ => preproc r defs (negb (existsb (eq_chars (trim x)) defs) :: conds)
          | _, _, Some x => preproc r defs (existsb (eq_chars (trim x)) defs :: conds)
          | _, _, _ =>
              if eq_chars (trim d) (explode "else") then match conds with b :: bs => preproc r defs (negb b :: bs) | [] => None end
              else if eq_chars (trim d) (explode "endif") then match conds with _ :: bs => preproc r defs bs | [] => None end
              else None
          end
      | _ => match preproc r defs conds with Some k => Some (if active then l :: k else k) | None => None end
      end
  end.

(** statement text: upper case, blanks removed, inline comment removed, character constants untouched *)
Fixpoint squash (l : chars) (inq : bool) : chars :=
  match l with
  | [] => []
  | c :: r =>
      if Ascii.eqb c quote then c :: squash r (negb inq)
      else if inq then c :: squash r inq
      else if Ascii.eqb c "!" then []
      else if is_blank c then squash r inq else upcase c :: squash r inq
  end.
Fixpoint number (l : chars) (acc : Z) : option Z :=
  match l with [] => Some acc | c :: r => if is_digit c then number r (10 * acc + (code c - 48)) else None end.
(** labelled statements: columns 1-5 label, column 6 continuation mark, columns 7-72 text *)
Inductive raw := Skip | Init (lbl : option Z) (txt : chars) | Cont (txt : chars) | Bad.
Definition classify (l : chars) : raw :=
  match l with
  | [] => Skip
  | c :: _ =>
      if existsb (Ascii.eqb c) ["C"; "c"; "*"; "!"] then Skip else
      if all_blank l then Skip else
      let l := firstn 72 l in
      let lab := trim (firstn 5 l) in
      let txt := squash (skipn 6 l) false in
      match nth_error l 5 with
      | Some m => if is_blank m || Ascii.eqb m "0"
                  then match lab with [] => Init None txt | _ => match number lab 0 with Some n => Init (Some n) txt | None => Bad end end
                  else match lab with [] => Cont txt | _ => Bad end
      | None => Bad
      end
  end.
(** statements in order, continuation lines joined *)
Fixpoint statements (ls : list chars) (cur : option (option Z * chars)) : option (list (option Z * chars)) :=
  let flush k := match cur with Some s => option_map (cons s) k | None => k end in
  match ls with
  | [] => flush (Some [])
  | l :: r =>
      match classify l with
      | Skip => statements r cur
      | Init lb t => flush (statements r (Some (lb, t)))
      | Cont t => match cur with Some (lb, t0) => statements r (Some (lb, (t0 ++ t)%list)) | None => None end
      | Bad => None
      end
  end.

(** tokens of a statement *)
Inductive tok := KId (s : string) | KInt (z : Z) | KRl (z : Z) | KChr (c : ascii) | KOp (o : binop) | KNot | KLP | KRP | KComma | KAsg.
Fixpoint span (p : ascii -> bool) (l : chars) : chars * chars :=
  match l with [] => ([], []) | c :: r => if p c then let '(a, b) := span p r in (c :: a, b) else ([], l) end.
Definition is_id (c : ascii) : bool := is_upper c || is_digit c || Ascii.eqb c "_".
Definition dotops : list (string * tok) :=
  [(".EQ.", KOp OEq); (".NE.", KOp ONe); (".LT.", KOp OLt); (".LE.", KOp OLe); (".GT.", KOp OGt); (".GE.", KOp OGe);
   (".AND.", KOp OAnd); (".OR.", KOp OOr); (".NOT.", KNot)]%string.
Fixpoint find_op (ops : list (string * tok)) (l : chars) : option (tok * chars) :=
  match ops with
  | [] => None
  | (s, t) :: r => match stripS s l with Some k => Some (t, k) | None => find_op r l end
  end.
(** after the integer part of a number: fraction and exponent of a double-precision literal; only zero fractions and exponents occur *)
Definition all_zero (l : chars) : bool := forallb (Ascii.eqb "0") l.
Definition lex_number (l : chars) : option (tok * chars) :=
  let '(ds, r) := span is_digit l in
  match number ds 0, r with
  | Some n, "." :: c :: r' =>
      if is_digit c then
        let '(fr, r2) := span is_digit (c :: r') in
        match r2 with
        | "D" :: r3 =>
            let r4 := match r3 with "+" :: k => k | "-" :: k => k | _ => r3 end in
            let '(ex, r5) := span is_digit r4 in
            if all_zero fr && all_zero ex && negb (eq_chars ex []) then Some (KRl n, r5) else None
        | _ => None
        end
      else Some (KInt n, r)
  | Some n, _ => Some (KInt n, r)
  | None, _ => None
  end.
Fixpoint lex (fuel : nat) (l : chars) : option (list tok) :=
  match fuel with
  | O => None
  | S f =>
      match l with
      | [] => Some []
      | c :: r =>
          let one t := option_map (cons t) (lex f r) in
          if is_upper c then let '(a, b) := span is_id l in option_map (cons (KId (implode a))) (lex f b)
          else if is_digit c then match lex_number l with Some (t, b) => option_map (cons t) (lex f b) | None => None end
          else if Ascii.eqb c quote then
            match r with x :: q :: b => if Ascii.eqb q quote then option_map (cons (KChr x)) (lex f b) else None | _ => None end
          else if Ascii.eqb c "." then match find_op dotops l with Some (t, b) => option_map (cons t) (lex f b) | None => None end
          else if Ascii.eqb c "(" then one KLP
          else if Ascii.eqb c ")" then one KRP
          else if Ascii.eqb c "," then one KComma
          else if Ascii.eqb c "=" then one KAsg
          else if Ascii.eqb c "+" then one (KOp OAdd)
          else if Ascii.eqb c "-" then one (KOp OSub)
          else if Ascii.eqb c "*" then one (KOp OMul)
          else None
      end
  end.
Definition tokens (l : chars) : option (list tok) := lex (S (List.length l)) l.

(** expressions; level 0 .OR., 1 .AND., 2 .NOT., 3 relations, 4 + and - (also leading), 5 *, 6 primaries *)
Definition op_level (o : binop) : nat :=
  match o with OOr => 0 | OAnd => 1 | OEq | ONe | OLt | OLe | OGt | OGe => 3 | OAdd | OSub => 4 | OMul => 5 end%nat.
Fixpoint pexp (fuel lvl : nat) (ts : list tok) : option (expr * list tok) :=
  match fuel with
  | O => None
  | S f =>
      match lvl with
      | 6%nat =>
          match ts with
          | KInt z :: r => Some (EInt z, r)
          | KRl z :: r => Some (ERl z, r)
          | KChr c :: r => Some (EChr c, r)
          | KId x :: KLP :: r => match pargs f r with Some (es, r') => Some (EApp x es, r') | None => None end
          | KId x :: r => Some (EVar x, r)
          | KLP :: r => match pargs f r with
                        | Some ([e], r') => Some (e, r')
                        | Some ([a; b], r') => Some (ECx a b, r')
                        | _ => None
                        end
          | _ => None
          end
      | 2%nat => match ts with
                 | KNot :: r => match pexp f 2 r with Some (e, r') => Some (ENot e, r') | None => None end
                 | _ => pexp f 3 ts
                 end
      | 4%nat => match ts with
                 | KOp OSub :: r => match pexp f 5 r with Some (e, r') => ploop f 4 (ENeg e) r' | None => None end
                 | KOp OAdd :: r => match pexp f 5 r with Some (e, r') => ploop f 4 e r' | None => None end
                 | _ => match pexp f 5 ts with Some (e, r') => ploop f 4 e r' | None => None end
                 end
      | 3%nat => match pexp f 4 ts with
                 | Some (a, KOp o :: r) =>
                     if Nat.eqb (op_level o) 3 then match pexp f 4 r with Some (b, r') => Some (EBin o a b, r') | None => None end
                     else Some (a, KOp o :: r)
                 | k => k
                 end
      | _ => match pexp f (S lvl) ts with Some (e, r) => ploop f lvl e r | None => None end
      end
  end
(* left-associative tail at a level *)
with ploop (fuel lvl : nat) (acc : expr) (ts : list tok) : option (expr * list tok) :=
  match fuel with
  | O => None
  | S f =>
      match ts with
      | KOp o :: r =>
          if Nat.eqb (op_level o) lvl
          then match pexp f (S lvl) r with Some (e, r') => ploop f lvl (EBin o acc e) r' | None => None end
          else Some (acc, ts)
      | _ => Some (acc, ts)
      end
  end
(* e1, ..., en ) *)
with pargs (fuel : nat) (ts : list tok) : option (list expr * list tok) :=
  match fuel with
  | O => None
  | S f =>
      match pexp f 0 ts with
      | Some (e, KComma :: r) => match pargs f r with Some (es, r') => Some (e :: es, r') | None => None end
      | Some (e, KRP :: r) => Some ([e], r)
      | _ => None
      end
  end.
Definition fuel_of (ts : list tok) : nat := 20 + 10 * List.length ts.
Definition parse_expr (ts : list tok) : option (expr * list tok) := pexp (fuel_of ts) 0 ts.

(** RETURN, or an assignment *)
Definition parse_simple (ts : list tok) : option stmt :=
  match ts with
  | [KId "RETURN"] => Some SRet
  | KId x :: KAsg :: r => match parse_expr r with Some (e, []) => Some (SAsg x [] e) | _ => None end
  | KId x :: KLP :: r =>
      match pargs (fuel_of r) r with
      | Some (subs, KAsg :: r') => match parse_expr r' with Some (e, []) => Some (SAsg x subs e) | _ => None end
      | _ => None
      end
  | _ => None
  end.

(** declarations *)
Definition ptype (l : chars) : option (ty * chars) :=
  match stripS "INTEGER*4" l with Some r => Some (TInt, r) | None =>
  match stripS "INTEGER" l with Some r => Some (TInt, r) | None =>
  match stripS "REAL*8" l with Some r => Some (TReal, r) | None =>
  match stripS "COMPLEX*16" l with Some r => Some (TCplx, r) | None =>
  match stripS "LOGICAL" l with Some r => Some (TLog, r) | None =>
  match stripS "CHARACTER" l with Some r => Some (TChar, r) | None => None end end end end end end.
(** dimensions up to the closing parenthesis *)
Fixpoint pdims (fuel : nat) (ts : list tok) : option (list (option expr) * list tok) :=
  match fuel with
  | O => None
  | S f =>
      match (match ts with KOp OMul :: r => Some (None, r) | _ => match parse_expr ts with Some (e, r) => Some (Some e, r) | None => None end end) with
      | Some (d, KComma :: r) => match pdims f r with Some (ds, r') => Some (d :: ds, r') | None => None end
      | Some (d, KRP :: r) => Some ([d], r)
      | _ => None
      end
  end.
Fixpoint pvars (fuel : nat) (ts : list tok) : option (list (string * list (option expr))) :=
  match fuel with
  | O => None
  | S f =>
      match ts with
      | KId x :: r =>
          match (match r with KLP :: r' => pdims (fuel_of r') r' | _ => Some ([], r) end) with
          | Some (ds, []) => Some [(x, ds)]
          | Some (ds, KComma :: r') => option_map (cons (x, ds)) (pvars f r')
          | _ => None
          end
      | _ => None
      end
  end.
Fixpoint pconsts (fuel : nat) (ts : list tok) : option (list (string * expr)) :=
  match fuel with
  | O => None
  | S f =>
      match ts with
      | KId x :: KAsg :: r =>
          match parse_expr r with
          | Some (e, [KRP]) => Some [(x, e)]
          | Some (e, KComma :: r') => option_map (cons (x, e)) (pconsts f r')
          | _ => None
          end
      | _ => None
      end
  end.
Definition letter (s : string) : option ascii := match s with String c EmptyString => Some c | _ => None end.
Fixpoint pranges (ts : list tok) : option (list (ascii * ascii)) :=
  match ts with
  | KId a :: KOp OSub :: KId b :: r =>
      match letter a, letter b, r with
      | Some a, Some b, [KRP] => Some [(a, b)]
      | Some a, Some b, KComma :: r' => option_map (cons (a, b)) (pranges r')
      | _, _, _ => None
      end
  | KId a :: r =>
      match letter a, r with
      | Some a, [KRP] => Some [(a, a)]
      | Some a, KComma :: r' => option_map (cons (a, a)) (pranges r')
      | _, _ => None
      end
  | _ => None
  end.
Fixpoint pnames (ts : list tok) : option (list string) :=
  match ts with
  | [KId x] => Some [x]
  | [KId x; KRP] => Some [x]
  | KId x :: KComma :: r => option_map (cons x) (pnames r)
  | _ => None
  end.

(** one statement *)
Inductive line :=
| LSub (name : string) (args : list string) (r : option ty) | LDecl (d : decl)
| LDo (lbl : Z) (x : string) (lo hi : expr) | LIf (e : expr) | LElseIf (e : expr) | LElse | LEndIf | LEnd | LCont | LStmt (s : stmt).
Definition obind {A B} (o : option A) (f : A -> option B) : option B := match o with Some a => f a | None => None end.
Definition parse_line (l : chars) : option line :=
  if eq_chars l (explode "ENDIF") then Some LEndIf else
  if eq_chars l (explode "ELSE") then Some LElse else
  if eq_chars l (explode "END") then Some LEnd else
  if eq_chars l (explode "CONTINUE") then Some LCont else
  match stripS "SUBROUTINE" l with
  | Some r => obind (tokens r) (fun ts => match ts with KId n :: KLP :: k => option_map (fun a => LSub n a None) (pnames k) | _ => None end)
  | None =>
  match stripS "LOGICALFUNCTION" l with
  | Some r => obind (tokens r) (fun ts => match ts with KId n :: KLP :: k => option_map (fun a => LSub n a (Some TLog)) (pnames k) | _ => None end)
  | None =>
  match stripS "ELSEIF(" l with
  | Some r => obind (tokens r) (fun ts => match pargs (fuel_of ts) ts with Some ([e], [KId "THEN"]) => Some (LElseIf e) | _ => None end)
  | None =>
  match stripS "IF(" l with
  | Some r => obind (tokens r) (fun ts => match pargs (fuel_of ts) ts with
                | Some ([e], [KId "THEN"]) => Some (LIf e)
                | Some ([e], k) => option_map (fun s => LStmt (SIf e [s] [])) (parse_simple k)
                | _ => None end)
  | None =>
  match stripS "IMPLICIT" l with
  | Some r => obind (ptype r) (fun '(t, k) => obind (tokens k) (fun ts =>
                match ts with KLP :: k => option_map (fun x => LDecl (DImp t x)) (pranges k) | _ => None end))
  | None =>
  match stripS "DIMENSION" l with
  | Some r => obind (tokens r) (fun ts => option_map (fun x => LDecl (DDim x)) (pvars (fuel_of ts) ts))
  | None =>
  match stripS "PARAMETER" l with
  | Some r => obind (tokens r) (fun ts => match ts with KLP :: k => option_map (fun x => LDecl (DPar x)) (pconsts (fuel_of k) k) | _ => None end)
  | None =>
  match stripS "EXTERNAL" l with
  | Some r => obind (tokens r) (fun ts => option_map (fun x => LDecl (DExt x)) (pnames ts))
  | None =>
  match stripS "INTRINSIC" l with
  | Some r => obind (tokens r) (fun ts => option_map (fun x => LDecl (DExt x)) (pnames ts))
  | None =>
  match ptype l with
  | Some (t, r) => obind (tokens r) (fun ts => option_map (fun x => LDecl (DType t x)) (pvars (fuel_of ts) ts))
  | None =>
  match stripS "DO" l with
  | Some (c :: r) =>
      if is_digit c then
        let '(ds, k) := span is_digit (c :: r) in
        obind (number ds 0) (fun lb => obind (tokens k) (fun ts =>
          match ts with
          | KId x :: KAsg :: k => match parse_expr k with
                                  | Some (lo, KComma :: k) => match parse_expr k with Some (hi, []) => Some (LDo lb x lo hi) | _ => None end
                                  | _ => None end
          | _ => None
          end))
      else obind (tokens l) (fun ts => option_map LStmt (parse_simple ts))
  | _ => obind (tokens l) (fun ts => option_map LStmt (parse_simple ts))
  end end end end end end end end end end end.
Fixpoint parse_lines (ls : list (option Z * chars)) : option (list (option Z * line)) :=
  match ls with
  | [] => Some []
  | (lb, t) :: r => match parse_line t, parse_lines r with Some l, Some k => Some ((lb, l) :: k) | _, _ => None end
  end.

(** block structure.  [encl]: label of the innermost enclosing DO of this block; labels occur on CONTINUE statements only and end loops *)
Inductive term := TLabel (n : Z) | TElse | TElseIf (e : expr) | TEndIf | TEnd.
Fixpoint pblock (fuel : nat) (encl : option Z) (ls : list (option Z * line)) : option (list stmt * term * list (option Z * line)) :=
  match fuel with
  | O => None
  | S f =>
      let more s r := match pblock f encl r with Some (ss, t, r') => Some (s :: ss, t, r') | None => None end in
      match ls with
      | (Some n, LCont) :: r => Some ([], TLabel n, r)
      | (None, LStmt s) :: r => more s r
      | (None, LIf e) :: r => match pif f encl e r with Some (s, r') => more s r' | None => None end
      | (None, LElse) :: r => Some ([], TElse, r)
      | (None, LElseIf e) :: r => Some ([], TElseIf e, r)
      | (None, LEndIf) :: r => Some ([], TEndIf, r)
      | (None, LEnd) :: r => Some ([], TEnd, r)
      | (None, LDo lb x lo hi) :: r =>
          match pblock f (Some lb) r with
          | Some (body, TLabel n, r') =>
              if n =? lb then
                if match encl with Some k => k =? lb | None => false end then Some ([SDo x lo hi body], TLabel lb, r')
                else more (SDo x lo hi body) r'
              else None
          | _ => None
          end
      | _ => None
      end
  end
(* after IF (e) THEN: the branches up to ENDIF; labels may not end inside *)
with pif (fuel : nat) (encl : option Z) (e : expr) (ls : list (option Z * line)) : option (stmt * list (option Z * line)) :=
  match fuel with
  | O => None
  | S f =>
      match pblock f None ls with
      | Some (b1, TEndIf, r) => Some (SIf e b1 [], r)
      | Some (b1, TElse, r) => match pblock f None r with Some (b2, TEndIf, r') => Some (SIf e b1 b2, r') | _ => None end
      | Some (b1, TElseIf e2, r) => match pif f encl e2 r with Some (s, r') => Some (SIf e b1 [s], r') | None => None end
      | _ => None
      end
  end.
Fixpoint pdecls (ls : list (option Z * line)) : list decl * list (option Z * line) :=
  match ls with (None, LDecl d) :: r => let '(ds, k) := pdecls r in (d :: ds, k) | _ => ([], ls) end.
Fixpoint punits (fuel : nat) (ls : list (option Z * line)) : option (list unit_) :=
  match fuel, ls with
  | _, [] => Some []
  | S f, (None, LSub n a t) :: r =>
      let '(ds, k) := pdecls r in
      match pblock (4 * List.length k + 4) None k with
      | Some (body, TEnd, k') => option_map (cons (MkUnit n a t ds body)) (punits f k')
      | _ => None
      end
  | _, _ => None
  end.
(** the program units of a source file *)
Definition parse_source (s : string) : option (list unit_) :=
  obind (preproc (lines_of (explode s) []) [] []) (fun ls =>
  obind (statements ls None) (fun ss =>
  obind (parse_lines ss) (fun ls => punits (S (List.length ls)) ls))).

(** ** Name resolution *)
(** the type a name has without a type declaration: IMPLICIT statements, else I-N INTEGER and the rest default REAL *)
Fixpoint in_ranges (c : ascii) (rs : list (ascii * ascii)) : bool :=
  match rs with [] => false | (a, b) :: r => ((code a <=? code c) && (code c <=? code b)) || in_ranges c r end.
Fixpoint implicit_ty (ds : list decl) (x : string) : ty :=
  let c := match x with String c _ => c | EmptyString => " " end in
  match ds with
  | [] => if (73 <=? code c) && (code c <=? 78) then TInt else TReal4
  | DImp t rs :: r => if in_ranges c rs then t else implicit_ty r x
  | _ :: r => implicit_ty r x
  end.
Fixpoint assoc {A} (x : string) (l : list (string * A)) : option A :=
  match l with [] => None | (y, a) :: r => if String.eqb x y then Some a else assoc x r end.
Fixpoint declared_ty (ds : list decl) (x : string) : option ty :=
  match ds with
  | [] => None
  | DType t xs :: r => match assoc x xs with Some _ => Some t | None => declared_ty r x end
  | _ :: r => declared_ty r x
  end.
Fixpoint declared_dims (ds : list decl) (x : string) : list (option expr) :=
  match ds with
  | [] => []
  | DType _ xs :: r | DDim xs :: r => match assoc x xs with Some (d :: dd) => d :: dd | _ => declared_dims r x end
  | _ :: r => declared_dims r x
  end.
Fixpoint declared_const (ds : list decl) (x : string) : option expr :=
  match ds with
  | [] => None
  | DPar xs :: r => match assoc x xs with Some e => Some e | None => declared_const r x end
  | _ :: r => declared_const r x
  end.
Definition ty_of (ds : list decl) (x : string) : ty := match declared_ty ds x with Some t => t | None => implicit_ty ds x end.

(** names that occur as variables or arrays in statements *)
Fixpoint names_e (e : expr) : list string :=
  match e with
  | EVar x => [x]
  | EApp f es => f :: flat_map names_e es
  | EBin _ a b | ECx a b => names_e a ++ names_e b
  | ENeg a | ENot a => names_e a
  | _ => []
  end%list.
Fixpoint names_s (s : stmt) : list string :=
  match s with
  | SAsg x es e => x :: flat_map names_e es ++ names_e e
  | SIf e s1 s2 => names_e e ++ flat_map names_s s1 ++ flat_map names_s s2
  | SDo x a b ss => x :: names_e a ++ names_e b ++ flat_map names_s ss
  | SRet => []
  end%list.
Fixpoint nodups (l seen : list string) : list string :=
  match l with [] => [] | x :: r => if existsb (String.eqb x) seen then nodups r seen else x :: nodups r (x :: seen) end.
Fixpoint index (x : string) (l : list string) (n : nat) : option nat :=
  match l with [] => None | y :: r => if String.eqb x y then Some n else index x r (S n) end.
(** functions the kernels call *)
Definition functions : list string := ["LSAME"; "CONJG"; "ABS"; "ICHAR"]%string.

Section Resolve.
Variables (ds : list decl) (scs ars : list string).
Fixpoint omap {A B} (f : A -> option B) (l : list A) : option (list B) :=
  match l with [] => Some [] | a :: r => match f a, omap f r with Some b, Some k => Some (b :: k) | _, _ => None end end.
(** [fuel] bounds the depth, constants being replaced by their definitions *)
Fixpoint rexp (fuel : nat) (e : expr) : option rexpr :=
  match fuel with
  | O => None
  | S f =>
      match e with
      | EInt z => Some (RInt z) | ERl z => Some (RRl z) | EChr c => Some (RChr c)
      | ECx a b => obind (rexp f a) (fun a => option_map (RCx a) (rexp f b))
      | EVar x => match declared_const ds x with Some c => rexp f c | None => option_map RVar (index x scs 0) end
      | EApp x es => obind (omap (rexp f) es) (fun es =>
                       match index x ars 0 with
                       | Some i => Some (RArr i es)
                       | None => if existsb (String.eqb x) functions then Some (RFun x es) else None
                       end)
      | EBin o a b => obind (rexp f a) (fun a => option_map (RBin o a) (rexp f b))
      | ENeg a => option_map RNeg (rexp f a)
      | ENot a => option_map RNot (rexp f a)
      end
  end.
Fixpoint rstm (fuel : nat) (s : stmt) : option rstmt :=
  match fuel with
  | O => None
  | S f =>
      match s with
      | SAsg x [] e => obind (index x scs 0) (fun i => option_map (RAsg i) (rexp 50 e))
      | SAsg x es e => obind (index x ars 0) (fun i => obind (omap (rexp 50) es) (fun es => option_map (RPut i es) (rexp 50 e)))
      | SIf e s1 s2 => obind (rexp 50 e) (fun e => obind (omap (rstm f) s1) (fun s1 => option_map (RIf e s1) (omap (rstm f) s2)))
      | SDo x a b ss => obind (index x scs 0) (fun i => obind (rexp 50 a) (fun a => obind (rexp 50 b) (fun b => option_map (RDo i a b) (omap (rstm f) ss))))
      | SRet => Some RRet
      end
  end.
End Resolve.
(** extents of all dimensions but the last, which Fortran does not need to address an element *)
Definition lead_dims (l : list (option expr)) : option (list expr) := omap (fun d => d) (removelast l).
Definition is_array (ds : list decl) (x : string) : bool := match declared_dims ds x with [] => false | _ => true end.
Definition resolve (u : unit_) : option prog :=
  let ds := u_decls u in
  let res := match u_res u with Some _ => [u_name u] | None => [] end in
  let all := nodups (u_args u ++ res ++ flat_map names_s (u_body u)) [] in
  let vars := filter (fun x => negb (existsb (String.eqb x) functions) || existsb (String.eqb x) res) all in
  let vars := filter (fun x => match declared_const ds x with Some _ => false | None => true end) vars in
  let ars := filter (is_array ds) vars in
  let scs := filter (fun x => negb (is_array ds x)) vars in
  let tyv x := match u_res u with Some t => if String.eqb x (u_name u) then t else ty_of ds x | None => ty_of ds x end in
  obind (omap (fun x => obind (lead_dims (declared_dims ds x)) (fun d => option_map (fun d => (x, ty_of ds x, d)) (omap (rexp ds scs ars 50) d))) ars) (fun adecl =>
  obind (omap (fun x => match index x ars 0 with Some i => Some (AAr i) | None => option_map ASc (index x scs 0) end) (u_args u)) (fun args =>
  obind (omap (rstm ds scs ars 100) (u_body u)) (fun body =>
    Some (MkProg args (map (fun x => (x, tyv x)) scs) adecl
            (match u_res u with Some _ => index (u_name u) scs 0 | None => None end) body)))).
(** program unit [name] of a source text *)
Fixpoint find_unit (name : string) (us : list unit_) : option unit_ :=
  match us with [] => None | u :: r => if String.eqb name (u_name u) then Some u else find_unit name r end.
Definition program (name src : string) : option prog := obind (parse_source src) (fun us => obind (find_unit name us) resolve).
