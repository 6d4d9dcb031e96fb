(** Parser for the quaternion headers (HSrc.v): the class quaternion<_F>, its member functions and the free operators and functions, every template read
    at _F = _G = double.  No code of /repo is modelled here.  Top-level items that are not definitions of the forms below (declarations, the stream operators,
    defaulted members) are skipped: calling something skipped is an error of the interpreter, never a success. *)
From Coq Require Import ZArith Bool Ascii String List.
From Verif Require Import CPre.
Import ListNotations.
Local Open Scope string_scope.
Local Open Scope Z_scope.

(** types: real, complex, quaternion, bool, __m256d, void, std::array<_F,n>, std::array<_CF,n> *)
Inductive htype := HR | HC | HQ | HB | HV | HVoid | HA (n : nat) | HCA (n : nat).
Definition htype_eqb (a b : htype) : bool :=
  match a, b with
  | HR, HR | HC, HC | HQ, HQ | HB, HB | HV, HV | HVoid, HVoid => true
  | HA n, HA k | HCA n, HCA k => Nat.eqb n k
  | _, _ => false
  end.
Inductive hexpr :=
| HVar (x : string) | HThis | HZero (t : htype) | HNum (z : Z)
| HNeg (e : hexpr) | HNot (e : hexpr) | HAddr (e : hexpr)
| HBin (op : string) (a b : hexpr)
| HCall (f : string) (args : list hexpr)             (* f(args), std::f(args), quaternion<_F>(args) *)
| HMem (e : hexpr) (f : string) (args : list hexpr)  (* e.f(args) *)
| HIdx (e : hexpr) (i : hexpr) | HArr (l : list hexpr).
Inductive hstmt :=
| HDecl (t : htype) (x : string) (init : option hexpr)
| HAsg (op : string) (l e : hexpr)                   (* l op e;  op is =, +=, -=, *=, /= *)
| HExpr (e : hexpr) | HRet (e : hexpr).
Inductive kind := Free | Method | Ctor.
Definition kind_eqb (a b : kind) : bool := match a, b with Free, Free | Method, Method | Ctor, Ctor => true | _, _ => false end.
(** a parameter: type, is it a reference, name, default argument *)
Record hparam := HParam { p_ty : htype; p_ref : bool; p_name : string; p_def : option hexpr }.
(** a definition: explicit specialisation?, kind, result type, returns a reference?, name, parameters, member initialisers, body *)
Record hfunc := HFunc { h_spec : bool; h_kind : kind; h_ret : htype; h_retref : bool; h_name : string; h_params : list hparam;
                        h_inits : list (string * list hexpr); h_body : list hstmt }.
(** a unit: the data members in order, the definitions *)
Record hunit := HUnit { u_fields : list string; u_funcs : list hfunc }.

Definition pu (s : string) (t : tok) : bool := is_pun s t.
Definition eat (s : string) (ts : list tok) : option (list tok) := match ts with t :: r => if pu s t then Some r else None | [] => None end.
Definition eat_id (s : string) (ts : list tok) : option (list tok) := match ts with TId x :: r => if String.eqb x s then Some r else None | _ => None end.
Definition is_param (s : string) : bool := String.eqb s "_F" || String.eqb s "_G" || String.eqb s "double".
(** < X > *)
Definition angle (ts : list tok) : option (list tok) :=
  match ts with a :: TId s :: b :: r => if pu "<" a && is_param s && pu ">" b then Some r else None | _ => None end.
Fixpoint ptype (ts : list tok) : option (htype * list tok) :=
  match ts with
  | TId s :: r =>
      if String.eqb s "const" then ptype r
      else if String.eqb s "_F" || String.eqb s "double" then Some (HR, r)
      else if String.eqb s "_CF" then Some (HC, r)
      else if String.eqb s "bool" then Some (HB, r)
      else if String.eqb s "void" then Some (HVoid, r)
      else if String.eqb s "__m256d" then Some (HV, r)
      else if String.eqb s "quaternion" then match angle r with Some k => Some (HQ, k) | None => Some (HQ, r) end
      else if String.eqb s "std" then
        match r with
        | c :: TId n :: k =>
            if negb (pu "::" c) then None
            else if String.eqb n "complex" then match angle k with Some k => Some (HC, k) | None => None end
            else if String.eqb n "array" then
              match k with
              | a :: TId x :: b :: TInt z :: d :: k =>
                  if pu "<" a && pu "," b && pu ">" d then
                    if is_param x then Some (HA (Z.to_nat z), k) else if String.eqb x "_CF" then Some (HCA (Z.to_nat z), k) else None
                  else None
              | _ => None
              end
            else None
        | _ => None
        end
      else None
  | _ => None
  end.
(** binary operators by level; all associate to the left *)
Definition ops (level : nat) : list string :=
  match level with O => ["&&"] | 1%nat => ["=="] | 2%nat => ["+"; "-"] | _ => ["*"; "/"] end.
Definition op_of (level : nat) (ts : list tok) : option (string * list tok) :=
  match ts with TPun p :: r => if existsb (String.eqb p) (ops level) then Some (p, r) else None | _ => None end.
Fixpoint pexpr (fuel : nat) (level : nat) (ts : list tok) {struct fuel} : option (hexpr * list tok) :=
  match fuel with
  | O => None
  | S f =>
      if Nat.ltb level 4 then
        match pexpr f (S level) ts with Some (e, r) => pmore f level e r | None => None end
      else
        match ts with
        | TPun p :: r =>
            if String.eqb p "-" then match pexpr f 4 r with Some (e, k) => Some (HNeg e, k) | None => None end
            else if String.eqb p "!" then match pexpr f 4 r with Some (e, k) => Some (HNot e, k) | None => None end
            else if String.eqb p "&" then match pexpr f 4 r with Some (e, k) => Some (HAddr e, k) | None => None end
            else if String.eqb p "*" then match eat_id "this" r with Some k => Some (HThis, k) | None => None end
            else if String.eqb p "(" then
              match pexpr f 0 r with Some (e, k) => match eat ")" k with Some k => ppost f e k | None => None end | None => None end
            else if String.eqb p "{" then match pargs f "}" r with Some (l, k) => Some (HArr l, k) | None => None end
            else None
        | TInt z :: r | TFlt z :: r => Some (HNum z, r)
        | TId s :: r =>
            if String.eqb s "std" then
              match r with
              | c :: TId n :: b :: k =>
                  if pu "::" c && pu "(" b then match pargs f ")" k with Some (l, k) => ppost f (HCall ("std::" ++ n) l) k | None => None end else None
              | _ => None
              end
            else
              let r' := if String.eqb s "quaternion" then match angle r with Some k => k | None => r end else r in
              match eat "(" r' with
              | Some k =>
                  match pargs f ")" k with
                  | Some ([], k) => if String.eqb s "_F" then ppost f (HZero HR) k else if String.eqb s "_CF" then ppost f (HZero HC) k else ppost f (HCall s []) k
                  | Some (l, k) => ppost f (HCall s l) k
                  | None => None
                  end
              | None => ppost f (HVar s) r
              end
        | _ => None
        end
  end
with pmore (fuel : nat) (level : nat) (e : hexpr) (ts : list tok) {struct fuel} : option (hexpr * list tok) :=
  match fuel with
  | O => None
  | S f => match op_of level ts with
           | Some (o, r) => match pexpr f (S level) r with Some (e2, k) => pmore f level (HBin o e e2) k | None => None end
           | None => Some (e, ts)
           end
  end
with ppost (fuel : nat) (e : hexpr) (ts : list tok) {struct fuel} : option (hexpr * list tok) :=
  match fuel with
  | O => None
  | S f =>
      match ts with
      | TPun p :: r =>
          if String.eqb p "." then
            match r with
            | TId n :: b :: k => if pu "(" b then match pargs f ")" k with Some (l, k) => ppost f (HMem e n l) k | None => None end else None
            | _ => None
            end
          else if String.eqb p "[" then
            match pexpr f 0 r with Some (i, k) => match eat "]" k with Some k => ppost f (HIdx e i) k | None => None end | None => None end
          else Some (e, ts)
      | _ => Some (e, ts)
      end
  end
with pargs (fuel : nat) (close : string) (ts : list tok) {struct fuel} : option (list hexpr * list tok) :=
  match fuel with
  | O => None
  | S f =>
      match eat close ts with
      | Some r => Some ([], r)
      | None =>
          match pexpr f 0 ts with
          | Some (e, r) =>
              match eat "," r with
              | Some k => match pargs f close k with Some (l, k) => Some (e :: l, k) | None => None end
              | None => match eat close r with Some k => Some ([e], k) | None => None end
              end
          | None => None
          end
      end
  end.
Definition pstmt (fuel : nat) (ts : list tok) : option (hstmt * list tok) :=
  match eat_id "return" ts with
  | Some r => match pexpr fuel 0 r with Some (e, k) => match eat ";" k with Some k => Some (HRet e, k) | None => None end | None => None end
  | None =>
      match ptype ts with
      | Some (t, TId x :: r) =>
          match eat ";" r, eat "=" r with
          | Some k, _ => Some (HDecl t x None, k)
          | None, Some k => match pexpr fuel 0 k with Some (e, k) => match eat ";" k with Some k => Some (HDecl t x (Some e), k) | None => None end | None => None end
          | None, None => None
          end
      | _ =>
          match pexpr fuel 0 ts with
          | Some (e, TPun p :: k) =>
              if String.eqb p ";" then Some (HExpr e, k)
              else if existsb (String.eqb p) ["="; "+="; "-="; "*="; "/="] then
                match pexpr fuel 0 k with Some (e2, k) => match eat ";" k with Some k => Some (HAsg p e e2, k) | None => None end | None => None end
              else None
          | _ => None
          end
      end
  end.
Fixpoint pbody (fuel : nat) (ts : list tok) : option (list hstmt * list tok) :=
  match fuel with
  | O => None
  | S f => match eat "}" ts with
           | Some r => Some ([], r)
           | None => match pstmt f ts with
                     | Some (s, r) => match pbody f r with Some (l, k) => Some (s :: l, k) | None => None end
                     | None => None
                     end
           end
  end.
(** parameters, after the opening parenthesis *)
Fixpoint pparams (fuel : nat) (ts : list tok) : option (list hparam * list tok) :=
  match fuel with
  | O => None
  | S f =>
      match eat ")" ts with
      | Some r => Some ([], r)
      | None =>
          match ptype ts with
          | Some (t, r) =>
              let '(rf, r) := match eat "&" r with Some k => (true, k) | None => (false, r) end in
              match r with
              | TId x :: r =>
                  match (match eat "=" r with
                         | Some k => match pexpr f 0 k with Some (e, k) => Some (Some e, k) | None => None end
                         | None => Some (None, r)
                         end) with
                  | Some (d, r) =>
                      match eat "," r with
                      | Some k => match pparams f k with Some (l, k) => Some (HParam t rf x d :: l, k) | None => None end
                      | None => match eat ")" r with Some k => Some ([HParam t rf x d], k) | None => None end
                      end
                  | None => None
                  end
              | _ => None
              end
          | None => None
          end
      end
  end.
(** member initialisers, after the colon *)
Fixpoint pinits (fuel : nat) (ts : list tok) : option (list (string * list hexpr) * list tok) :=
  match fuel with
  | O => None
  | S f =>
      match ts with
      | TId x :: b :: r =>
          if pu "(" b then
            match pargs f ")" r with
            | Some (l, r) =>
                match eat "," r with
                | Some k => match pinits f k with Some (m, k) => Some ((x, l) :: m, k) | None => None end
                | None => Some ([(x, l)], r)
                end
            | None => None
            end
          else None
      | _ => None
      end
  end.
Definition pname (ts : list tok) : option (string * list tok) :=
  match ts with
  | TId s :: TPun p :: r => if String.eqb s "operator" then Some ("operator" ++ p, r) else Some (s, TPun p :: r)
  | _ => None
  end.
Fixpoint specifiers (ts : list tok) : list tok :=
  match ts with TId s :: r => if existsb (String.eqb s) ["inline"; "constexpr"] then specifiers r else ts | _ => ts end.
Definition pfuel : nat := 4000.
(** one item; [cls]: inside the class *)
Definition pitem (cls spec : bool) (ts : list tok) : option hfunc :=
  let ts := specifiers ts in
  let fin k t rf n r :=
    match eat "(" r with
    | Some r =>
        match pparams pfuel r with
        | Some (ps, r) =>
            let r := match eat_id "const" r with Some k => k | None => r end in
            match (match eat ":" r with
                   | Some k => pinits pfuel k
                   | None => Some ([], r)
                   end) with
            | Some (is_, r) =>
                match eat "{" r with
                | Some r => match pbody pfuel r with
                            | Some (b, []) => Some (HFunc spec k t rf n ps is_ b)
                            | _ => None
                            end
                | None => None
                end
            | None => None
            end
        | None => None
        end
    | None => None
    end in
  match cls, ts with
  | true, TId q :: TPun p :: _ =>
      if String.eqb q "quaternion" && String.eqb p "(" then fin Ctor HVoid false "quaternion" (tl ts)
      else match ptype ts with
           | Some (t, r) => let '(rf, r) := match eat "&" r with Some k => (true, k) | None => (false, r) end in
                            match pname r with Some (n, r) => fin Method t rf n r | None => None end
           | None => None
           end
  | _, _ =>
      match ptype ts with
      | Some (t, r) =>
          let '(rf, r) := match eat "&" r with Some k => (true, k) | None => (false, r) end in
          match ptype r with
          | Some (HQ, r') => match eat "::" r' with
                             | Some r' => match pname r' with Some (n, r') => fin Method t rf n r' | None => None end
                             | None => None
                             end
          | _ => match pname r with Some (n, r) => fin (if cls then Method else Free) t rf n r | None => None end
          end
      | None => None
      end
  end.
(** the tokens of the next item: up to a semicolon or a closing brace at depth 0 *)
Fixpoint item (ts : list tok) (depth : nat) (acc : list tok) : list tok * list tok :=
  match ts with
  | [] => (rev acc, [])
  | t :: r =>
      if pu "{" t || pu "(" t then item r (S depth) (t :: acc)
      else if pu ")" t then item r (pred depth) (t :: acc)
      else if pu "}" t then match depth with S (S d) => item r (S d) (t :: acc) | _ => (rev (t :: acc), r) end
      else if pu ";" t then match depth with O => (rev (t :: acc), r) | _ => item r depth (t :: acc) end
      else item r depth (t :: acc)
  end.
(** template < ... > : (is the list empty, what follows) *)
Fixpoint to_gt (ts : list tok) (first : bool) : bool * list tok :=
  match ts with [] => (first, []) | t :: r => if pu ">" t then (first, r) else to_gt r false end.
(** _F _M_x ; *)
Definition field (ts : list tok) : option string :=
  match ts with [TId t; TId x; s] => if String.eqb t "_F" && pu ";" s then Some x else None | _ => None end.
Fixpoint items (fuel : nat) (cls spec : bool) (ts : list tok) (u : hunit) : option hunit :=
  match fuel with
  | O => None
  | S f =>
      match ts with
      | [] => Some (HUnit (rev (u_fields u)) (rev (u_funcs u)))
      | TPun p :: r => if String.eqb p ";" then items f cls false r u
                       else if String.eqb p "}" then items f false false r u
                       else let '(_, r) := item ts 0 [] in items f cls false r u
      | TId s :: r =>
          if String.eqb s "namespace" then match r with _ :: _ :: k => items f false false k u | _ => None end
          else if String.eqb s "struct" then match r with _ :: _ :: k => items f true false k u | _ => None end
          else if String.eqb s "private" then match r with _ :: k => items f cls false k u | _ => None end
          else if String.eqb s "template" then match r with _ :: k => let '(e, k) := to_gt k true in items f cls e k u | _ => None end
          else
            let '(i, r) := item ts 0 [] in
            match pitem cls spec i with
            | Some h => items f cls false r (HUnit (u_fields u) (h :: u_funcs u))
            | None => match (if cls then field i else None) with
                      | Some x => items f cls false r (HUnit (x :: u_fields u) (u_funcs u))
                      | None => items f cls false r u
                      end
            end
      | _ => None
      end
  end.
Definition parse_unit (ts : list tok) : option hunit := items (S (List.length ts)) false false ts (HUnit [] []).
