(** Meaning of the trees of TSyntax.v.  Templates are run, not instantiated: a value carries its type, an overloaded call is resolved by the types of its
    arguments (an exact match of a function that is no template, else of a template; anything ambiguous is stuck).  Values, memory, integers, intrinsics and outcomes are those of
    CSem.v.  Variables live in a stack of cells; a reference is the cell it refers to, a lambda keeps its environment; leaving a scope drops its cells.  Modelled by hand: the
    tuple helpers of include/util/boilerplate.hpp, std::tuple, and MULDQ_NN, QCONJ_256D of include/util/simd/qop.hpp (MSimd.v; their texts are covered by C67). *)
From Coq Require Import ZArith Bool Ascii String List.
From Verif Require Import Num Res MQuat MSimd MOptL1 CSyntax CSem TSyntax.
From Verif Require CParse.
Import ListNotations.
Local Open Scope string_scope.
Local Open Scope Z_scope.

(** ** types *)
Definition lookup {A} (l : list (string * A)) (s : string) : option A := CParse.assoc l s.
Definition tn (x : string) : ty := Ty x None None.
Fixpoint ty_eqb (a b : ty) {struct a} : bool :=
  match a, b with
  | Ty x l r, Ty y m s =>
      String.eqb x y &&
      match l, m with
      | None, None => true
      | Some l, Some m => (fix go (l m : list ty) : bool := match l, m with [], [] => true | a :: l, b :: m => ty_eqb a b && go l m | _, _ => false end) l m
      | _, _ => false
      end &&
      match r, s with None, None => true | Some r, Some s => ty_eqb r s | _, _ => false end
  | TyPtr a, TyPtr b => ty_eqb a b
  | TyZ x, TyZ y => x =? y
  | _, _ => false
  end.
Definition tyl_eqb (l m : list ty) : bool := ty_eqb (Ty "" (Some l) None) (Ty "" (Some m) None).
Definition obind {A B} (o : option A) (f : A -> option B) : option B := match o with Some a => f a | None => None end.
Definition oseq {A} : list (option A) -> option (list A) := fold_right (fun o l => obind o (fun a => obind l (fun l => Some (a :: l)))) (Some []).
(** template parameters with their arguments, the class whose member is running *)
Record scope := Scope { sc_t : list (string * ty); sc_c : option ty }.
Definition builtin_types : list string :=
  ["double"; "__m256d"; "__m128d"; "__m256i"; "HAXX_INT"; "size_t"; "int"; "auto"; "void"; "null_t"; "real_t"; "complex_t"; "quaternion_t"].

Section U.
Variable u : tunit.
(** arguments for template parameters, defaults filled in by [cn] *)
Fixpoint bind_pars (cn : list (string * ty) -> ty -> option ty) (ps : list (string * option ty)) (args : list ty) (acc : list (string * ty)) : option (list (string * ty)) :=
  match ps, args with
  | [], [] => Some acc
  | (x, _) :: ps, a :: args => bind_pars cn ps args ((x, a) :: acc)
  | (x, Some d) :: ps, [] => obind (cn acc d) (fun t => bind_pars cn ps [] ((x, t) :: acc))
  | _, _ => None
  end.
Definition pars_of (x : string) : option (list (string * option ty)) :=
  match lookup (tu_fwd u) x with
  | Some ps => Some ps
  | None => option_map tc_pars (find (fun c => String.eqb (tc_name c) x && match tc_spec c with None => true | Some _ => false end) (tu_classes u))
  end.
Definition primary (x : string) : option tclass :=
  find (fun c => String.eqb (tc_name c) x && match tc_spec c with None => true | Some _ => false end) (tu_classes u).
(** the canonical form of a type name: template parameters, typedefs and aliases replaced, default arguments filled in *)
Fixpoint canon (fuel : nat) (sc : scope) (t : ty) {struct fuel} : option ty :=
  match fuel with
  | O => None
  | S f =>
      let inst (x : string) (args : list ty) : option ty :=
        match lookup (tu_alias u) x with
        | Some (ps, b) => obind (bind_pars (fun e d => canon f (Scope e None) d) ps args []) (fun e => canon f (Scope e None) b)
        | None => match pars_of x with
                  | Some ps => obind (bind_pars (fun e d => canon f (Scope e None) d) ps args []) (fun e => Some (Ty x (Some (map snd (rev e))) None))
                  | None => if String.eqb x "quaternion" then Some (Ty x (Some args) None) else None
                  end
        end in
      let global x a := match a with
                        | Some l => obind (oseq (map (canon f sc) l)) (inst x)
                        | None => if existsb (String.eqb x) builtin_types then Some (tn x) else match pars_of x with Some _ => Some (tn x) | None => None end
                        end in
      match t with
      | TyZ z => Some t
      | TyPtr t => option_map TyPtr (canon f sc t)
      | Ty x a r =>
          if String.eqb x "std" then
            match r with
            | Some (Ty y (Some l) None) => obind (oseq (map (canon f sc) l)) (fun l => Some (Ty x None (Some (Ty y (Some l) None))))
            | _ => None
            end
          else
          let head := match lookup (sc_t sc) x with
                      | Some b => match a, b with
                                  | None, _ => Some b
                                  | Some l, Ty y None None => obind (oseq (map (canon f sc) l)) (inst y)
                                  | _, _ => None
                                  end
                      | None => match a with
                                | Some _ => global x a
                                | None => match obind (sc_c sc) (fun c => member f c x) with Some t => Some t | None => global x a end
                                end
                      end in
          match r with None => head | Some r => obind head (fun c => path f c r) end
      end
  end
(** x::r for a class x *)
with path (fuel : nat) (c : ty) (r : ty) {struct fuel} : option ty :=
  match fuel with
  | O => None
  | S f => match r with
           | Ty y None None => member f c y
           | Ty y None (Some r) => obind (member f c y) (fun c => path f c r)
           | _ => None
           end
  end
(** the type member [y] of the class [c] or of its bases *)
with member (fuel : nat) (c : ty) (y : string) {struct fuel} : option ty :=
  match fuel with
  | O => None
  | S f =>
      obind (class_of f c) (fun '(cl, sc) =>
        match lookup (tc_types cl) y with
        | Some t => canon f sc t
        | None => match lookup (tc_structs cl) y with
                  | Some _ => Some (tn y)
                  | None => obind (tc_base cl) (fun b => obind (canon f sc b) (fun b => member f b y))
                  end
        end)
  end
(** the definition of a canonical class and the scope of its members: the explicit specialisation for its arguments if there is one, else the primary template *)
with class_of (fuel : nat) (c : ty) {struct fuel} : option (tclass * scope) :=
  match fuel with
  | O => None
  | S f =>
      match c with
      | Ty x (Some args) None =>
          match find (fun cl => String.eqb (tc_name cl) x &&
                                match tc_spec cl with
                                | Some sp => match oseq (map (canon f (Scope [] None)) sp) with Some sp => tyl_eqb sp args | None => false end
                                | None => false
                                end) (tu_classes u) with
          | Some cl => Some (cl, Scope [] (Some c))
          | None => obind (primary x) (fun cl => Some (cl, Scope (combine (map fst (tc_pars cl)) args) (Some c)))
          end
      | _ => None
      end
  end.
Definition tfuel : nat := 20.
(** the functions [x] of the class [c]: its own, with those of the base added by a using declaration; else those of its base *)
Fixpoint methods (fuel : nat) (c : ty) (x : string) : option (list (tfunc * scope)) :=
  match fuel with
  | O => None
  | S f =>
      obind (class_of tfuel c) (fun '(cl, sc) =>
        let own := map (fun fn => (fn, sc)) (filter (fun fn => String.eqb (tf_name fn) x) (tc_funcs cl)) in
        let up := obind (tc_base cl) (fun b => obind (canon tfuel sc b) (fun b => methods f b x)) in
        match own with
        | [] => up
        | _ => if existsb (String.eqb x) (tc_using cl) then obind up (fun l => Some (own ++ l)%list) else Some own
        end)
  end.
(** does a parameter take an argument of type [t] *)
Definition fits (sc : scope) (tps : list string) (p : tparam) (t : ty) : bool :=
  match tp_ty p with
  | Ty x None None => if existsb (String.eqb x) tps then true else match canon tfuel sc (tn x) with Some c => ty_eqb c t | None => false end
  | q => match canon tfuel sc q with Some c => ty_eqb c t | None => false end
  end.
Fixpoint fits_all (sc : scope) (tps : list string) (ps : list tparam) (ts : list ty) : bool :=
  match ps, ts with
  | [], [] => true
  | p :: ps, t :: ts => negb (tp_pack p) && fits sc tps p t && fits_all sc tps ps ts
  | _, _ => false
  end.
Definition choose (l : list (tfunc * scope)) (ts : list ty) : option (tfunc * scope) :=
  let ok := filter (fun '(fn, sc) => fits_all sc (tf_tpars fn) (tf_params fn) ts) l in
  let plain := filter (fun '(fn, _) => match tf_tpars fn with [] => true | _ => false end) ok in
  match plain with [c] => Some c | [] => match ok with [c] => Some c | _ => None end | _ => None end.
(** the function called by a qualified name C::f *)
Fixpoint split_last (q : ty) : option (option ty * string) :=
  match q with
  | Ty x None None => Some (None, x)
  | Ty x a (Some r) => match split_last r with Some (None, y) => Some (Some (Ty x a None), y) | Some (Some p, y) => Some (Some (Ty x a (Some p)), y) | None => None end
  | _ => None
  end.
Definition resolve (sc : scope) (q : ty) (ts : list ty) : option (tfunc * scope) :=
  obind (split_last q) (fun '(p, x) =>
    match p with
    | Some p => obind (canon tfuel sc p) (fun c => obind (methods tfuel c x) (fun l => choose l ts))
    | None => obind (sc_c sc) (fun c => obind (methods tfuel c x) (fun l => choose l ts))
    end).
Definition fields (sc : scope) (s : string) : option (list string) :=
  fold_right (fun cl o => match lookup (tc_structs cl) s with Some l => Some l | None => o end) None (tu_classes u).
Definition tsize (t : ty) : option Z :=
  match t with
  | Ty x None None => if String.eqb x "double" then Some 8 else if String.eqb x "__m256d" then Some 32 else None
  | Ty x (Some [Ty y None None]) None => if String.eqb x "quaternion" && String.eqb y "double" then Some 32 else None
  | _ => None
  end.

(** ** values *)
Section K.
Context {K : num}.
Local Notation M A := (option (res A)).
Local Notation mem := (list (Z * data K)).
Definition env := list (string * nat).
Inductive pval :=
| V (v : val K) | PTup (l : list pval) | PRec (s : string) (l : list pval)
| PClo (en : env) (sc : scope) (ps : list tparam) (b : list tstmt) | POver (l : list pval) | PVoid.
Definition store := list (option pval).
Definition st := (store * mem)%type.
Definition dbl : ty := tn "double".
Definition qdbl : ty := Ty "quaternion" (Some [dbl]) None.
Definition ct_ty (t : ctype) : ty := match t with TQuat => qdbl | TDouble => dbl | TCplx => Ty "std" None (Some (Ty "complex" (Some [dbl]) None)) | _ => tn "?" end.
Fixpoint tag (v : pval) : ty :=
  match v with
  | V (VZ _) => tn "HAXX_INT" | V (VK _) => dbl | V (VQ _) => qdbl | V (VC _) => ct_ty TCplx
  | V (VM _) => tn "__m256d" | V (VH _) => tn "__m128d" | V (VMask _ _ _ _) => tn "__m256i"
  | V (VP (Ptr _ _ _ t)) => TyPtr (ct_ty t)
  | PTup l => Ty "std" None (Some (Ty "tuple" (Some (map tag l)) None))
  | PRec s _ => tn s
  | _ => tn "?"
  end.
Definition cells (s : store) : list (option (val K)) := map (fun o => match o with Some (V v) => Some v | _ => None end) s.
Definition sget (s : store) (n : nat) : M pval := match nth_error s n with Some (Some v) => mret v | Some None => Some UB | None => None end.
Fixpoint sput (s : store) (n : nat) (v : pval) : store := match s with [] => [] | x :: r => match n with O => Some v :: r | S n => x :: sput r n v end end.
Definition alloc (s : store) (v : option pval) : store * nat := ((s ++ [v])%list, List.length s).
Definition arg := (pval * option nat)%type.       (* a value, and the variable it was read from *)
(** parameters: a reference to a variable is its cell, everything else gets a new one; a pack is a tuple *)
Fixpoint bind_args (ps : list tparam) (args : list arg) (en : env) (s : store) : option (env * store) :=
  match ps, args with
  | [], [] => Some (en, s)
  | p :: ps, _ =>
      if tp_pack p then match ps with [] => let '(s, n) := alloc s (Some (PTup (map fst args))) in Some ((tp_name p, n) :: en, s) | _ => None end
      else match args with
           | (v, Some n) :: args =>
               if tp_ref p then bind_args ps args ((tp_name p, n) :: en) s
               else let '(s, n) := alloc s (Some v) in bind_args ps args ((tp_name p, n) :: en) s
           | (v, None) :: args => let '(s, n) := alloc s (Some v) in bind_args ps args ((tp_name p, n) :: en) s
           | [] => None
           end
  | [], _ => None
  end.
Definition vals (l : list arg) : option (list (val K)) := oseq (map (fun a => match fst a with V v => Some v | _ => None end) l).
(** declared types: only those of the texts; an integer, a pointer to T, a register, auto *)
Definition declared (t : ty) (stars : nat) (v : pval) : bool :=
  match t, stars, v with
  | Ty x None None, O, _ => String.eqb x "auto" || match v with
                                                   | V (VZ _) => String.eqb x "HAXX_INT" || String.eqb x "size_t"
                                                   | _ => ty_eqb (tn x) (tag v)
                                                   end
  | _, _, _ => false
  end.
Definition of_o {A} (o : option A) : M A := match o with Some a => mret a | None => None end.
(** loops *)
Fixpoint while_ (n : nat) (c : st -> M (bool * st)) (b : st -> M st) (s : st) : M st :=
  match n with
  | O => None
  | S n => mb (c s) (fun '(t, s) => if t then mb (b s) (while_ n c b) else mret s)
  end.
Definition do_ (n : nat) (c : st -> M (bool * st)) (b : st -> M st) (s : st) : M st := mb (b s) (while_ n c b).
Definition leave (n : nat) (s : st) : st := (firstn n (fst s), snd s).

Variable lf : nat.   (* fuel of the loops *)
Definition get0 (q : ty) : option Z := match q with Ty x None (Some (Ty y (Some [TyZ z]) None)) => if String.eqb x "std" && String.eqb y "get" then Some z else None | _ => None end.
Definition local (en : env) (q : ty) : option nat := match q with Ty x None None => lookup en x | _ => None end.
Definition casts (q : ty) : option ty :=
  match q with Ty x (Some [t]) None => if String.eqb x "reinterpret_cast" || String.eqb x "const_cast" then Some t else None | _ => None end.
Fixpoint eval (fuel : nat) (sc : scope) (en : env) (s : st) (e : texpr) {struct fuel} : M (arg * st) :=
  match fuel with
  | O => None
  | S f =>
      match e with
      | EInt z => mret ((V (VZ z), None), s)
      | EName q =>
          match local en q with
          | Some n => mb (sget (fst s) n) (fun v => mret ((v, Some n), s))
          | None => match canon tfuel sc q with Some (TyZ z) => mret ((V (VZ z), None), s) | _ => None end
          end
      | EBin o a b =>
          mb (eval f sc en s a) (fun '((a, _), s) => mb (eval f sc en s b) (fun '((b, _), s) =>
            match a, b with V a, V b => mb (binary o a b) (fun v => mret ((V v, None), s)) | _, _ => None end))
      | EAddr (EName q) =>
          match local en q with
          | Some n => mb (sget (fst s) n) (fun v => match v with
              | V (VK _) => mret ((V (VP (Ptr (OnVar n) 0 0 TDouble)), None), s)
              | V (VC _) => mret ((V (VP (Ptr (OnVar n) 0 0 TCplx)), None), s)
              | V (VQ _) => mret ((V (VP (Ptr (OnVar n) 0 0 TQuat)), None), s)
              | _ => None end)
          | None => None
          end
      | ESizeof t => match obind (canon tfuel sc t) tsize with Some z => mret ((V (VZ z), None), s) | None => None end
      | EField e x =>
          mb (eval f sc en s e) (fun '((v, _), s) =>
            match v with
            | PRec r l => match obind (fields sc r) (fun fs => lookup (combine fs l) x) with Some v => mret ((v, None), s) | None => None end
            | _ => None
            end)
      | EBrace q l =>
          mb (evals f sc en s l) (fun '(l, s) =>
            match canon tfuel sc q with
            | Some (Ty x None None) => match (if String.eqb x "null_t" then Some [] else fields sc x) with
                                       | Some fs => if Nat.eqb (List.length fs) (List.length l) then mret ((PRec x (map fst l), None), s) else None
                                       | None => None
                                       end
            | _ => None
            end)
      | ELam ps b => mret ((PClo en sc ps b, None), s)
      | ECall q l => mb (evals f sc en s l) (fun '(l, s) => mb (invoke f sc en s q l) (fun '(v, s) => mret ((v, None), s)))
      | EFlt _ | EAddr _ | EDeref _ | EPack _ => None
      end
  end
with evals (fuel : nat) (sc : scope) (en : env) (s : st) (l : list texpr) {struct fuel} : M (list arg * st) :=
  match fuel with
  | O => None
  | S f =>
      match l with
      | [] => mret ([], s)
      | EPack e :: [] => mb (eval f sc en s e) (fun '((v, _), s) => match v with PTup l => mret (map (fun v => (v, None)) l, s) | _ => None end)
      | e :: l => mb (eval f sc en s e) (fun '(a, s) => mb (evals f sc en s l) (fun '(l, s) => mret (a :: l, s)))
      end
  end
(** call of a lambda or of the first of several that takes that many arguments *)
with call (fuel : nat) (s : st) (c : pval) (l : list arg) {struct fuel} : M (pval * st) :=
  match fuel with
  | O => None
  | S f =>
      match c with
      | PClo en sc ps b =>
          match bind_args ps l en (fst s) with
          | Some (en, t) => mb (exec f sc en (t, snd s) b) (fun '(r, s2) => mret (match r with Some v => v | None => PVoid end, leave (List.length (fst s)) s2))
          | None => None
          end
      | POver cs => match find (fun c => match c with PClo _ _ ps _ => Nat.eqb (List.length ps) (List.length l) | _ => false end) cs with
                    | Some c => call f s c l
                    | None => None
                    end
      | _ => None
      end
  end
(** the values of the calls of [c] with each of the arguments, in order *)
with call_each (fuel : nat) (s : st) (c : pval) (ls : list (list arg)) {struct fuel} : M (list pval * st) :=
  match fuel with
  | O => None
  | S f =>
      match ls with
      | [] => mret ([], s)
      | l :: ls => mb (call f s c l) (fun '(v, s) => mb (call_each f s c ls) (fun '(vs, s) => mret (v :: vs, s)))
      end
  end
with invoke (fuel : nat) (sc : scope) (en : env) (s : st) (q : ty) (l : list arg) {struct fuel} : M (pval * st) :=
  match fuel with
  | O => None
  | S f =>
      match local en q with
      | Some n => mb (sget (fst s) n) (fun c => call f s c l)
      | None =>
      match casts q with
      | Some t => match canon tfuel sc t, l with
                  | Some (TyPtr (Ty x None None)), [(V (VP (Ptr b e r _)), _)] => if String.eqb x "double" then mret (V (VP (Ptr b e r TDouble)), s) else None
                  | _, _ => None
                  end
      | None =>
      match get0 q with
      | Some z => match l with [(PTup l, _)] => match nth_error l (Z.to_nat z) with Some v => mret (v, s) | None => None end | _ => None end
      | None =>
      match q with
      | Ty x None (Some (Ty y None None)) =>
          if String.eqb x "std" && String.eqb y "make_tuple" then mret (PTup (map fst l), s) else method f sc s q l
      | Ty x (Some [t]) None =>
          match canon tfuel sc t with
          | Some (TyZ z) =>
              (* boilerplate.hpp:22-43: the pointers seed, seed + INC, ... *)
              if String.eqb x "pointer_sequence" then
                match l with
                | [(V p, _); (V (VZ inc), _)] =>
                    mb (fold_right (fun i acc => mb (binary BAdd p (VZ (Z.of_nat i * inc))) (fun v => mb acc (fun vs => mret (V v :: vs)))) (mret []) (seq 0 (Z.to_nat z)))
                       (fun vs => mret (PTup vs, s))
                | _ => None
                end
              (* boilerplate.hpp:85-130: op on the elements of the tuple, then op() until there are N results *)
              else if String.eqb x "apply_n" then
                match l with
                | [(op, _); (PTup vs, _)] =>
                    if Z.of_nat (List.length vs) <=? z then
                      mb (call_each f s op (map (fun v => [(v, None)]) vs ++ repeat [] (Z.to_nat z - List.length vs))%list) (fun '(vs, s) => mret (PTup vs, s))
                    else None
                | _ => None
                end
              else None
          | _ => None
          end
      | Ty x None None =>
          (* boilerplate.hpp:51-79 *)
          if String.eqb x "apply" then
            match l with [(op, _); (PTup vs, _)] => mb (call_each f s op (map (fun v => [(v, None)]) vs)) (fun '(vs, s) => mret (PTup vs, s)) | _ => None end
          (* boilerplate.hpp:134-185: op(ptr + i, element i) *)
          else if String.eqb x "array_tuple_execute" then
            match l with
            | [(op, _); (V p, _); (PTup vs, _)] =>
                mb (fold_right (fun i acc => mb (binary BAdd p (VZ (Z.of_nat i))) (fun v => mb acc (fun ps => mret (V v :: ps)))) (mret []) (seq 0 (List.length vs)))
                   (fun ps => mb (call_each f s op (map (fun '(p, v) => [(p, None); (v, None)]) (combine ps vs))) (fun '(_, s) => mret (PVoid, s)))
            | _ => None
            end
          (* boilerplate.hpp:189-217 *)
          else if String.eqb x "overload" then mret (POver (map fst l), s)
          else if String.eqb x "assert" then
            match l with [(V v, _)] => mb (truth v) (fun b => lift (_ <- assertb b ;; Ok (PVoid, s))) | _ => None end
          else if String.eqb x "MULDQ_NN" then match l with [(V (VM a), _); (V (VM b), _)] => mret (V (VM (MULDQ_NN a b)), s) | _ => None end
          else if String.eqb x "QCONJ_256D" then match l with [(V (VM a), _)] => mret (V (VM (QCONJ_256D a)), s) | _ => None end
          else if String.eqb x "_mm256_storeu_pd" then
            match l with
            | [(V (VP (Ptr (OnQ b) e Z0 TDouble)), _); (V (VM v), _)] =>
                match qblock (snd s) b with
                | Some (a, d) => lift (d <- vst false a d e v ;; Ok (PVoid, (fst s, mput (snd s) b (DQ d))))
                | None => None
                end
            | _ => None
            end
          else match lookup CParse.intrinsics x, vals l with
               | Some i, Some vs => mb (intrin (cells (fst s)) (snd s) i vs) (fun v => mret (V v, s))
               | Some _, None => None
               | None, _ => method f sc s q l
               end
      | _ => method f sc s q l
      end end end end
  end
(** a static member function *)
with method (fuel : nat) (sc : scope) (s : st) (q : ty) (l : list arg) {struct fuel} : M (pval * st) :=
  match fuel with
  | O => None
  | S f => match resolve sc q (map (fun a => tag (fst a)) l) with
           | Some (fn, sc) => call f s (PClo [] sc (tf_params fn) (tf_body fn)) l
           | None => None
           end
  end
(** the value returned, if a return is reached; declarations scope over the statements after them *)
with exec (fuel : nat) (sc : scope) (en : env) (s : st) (l : list tstmt) {struct fuel} : M (option pval * st) :=
  match fuel with
  | O => None
  | S f =>
      let test e := fun s => mb (eval f sc en s e) (fun '((v, _), s) => match v with V v => mb (truth v) (fun b => mret (b, s)) | _ => None end) in
      let run b := fun s => mb (exec f sc en s b) (fun '(r, s2) => match r with None => mret (leave (List.length (fst s)) s2) | Some _ => None end) in
      match l with
      | [] => mret (None, s)
      | SDecl t [] :: l => exec f sc en s l
      | SDecl t ((k, x, None) :: ds) :: l => let '(s1, n) := alloc (fst s) None in exec f sc ((x, n) :: en) (s1, snd s) (SDecl t ds :: l)
      | SDecl t ((k, x, Some e) :: ds) :: l =>
          mb (eval f sc en s e) (fun '((v, _), s) =>
            if declared t k v then let '(s1, n) := alloc (fst s) (Some v) in exec f sc ((x, n) :: en) (s1, snd s) (SDecl t ds :: l) else None)
      | SAsg o (EName q) e :: l =>
          match local en q with
          | Some n =>
              mb (eval f sc en s (match o with Some o => EBin o (EName q) e | None => e end)) (fun '((v, _), s) => exec f sc en (sput (fst s) n v, snd s) l)
          | None => None
          end
      | SAsg _ _ _ :: _ => None
      | SExpr e :: l => mb (eval f sc en s e) (fun '(_, s) => exec f sc en s l)
      | SIf c b :: l => mb (test c s) (fun '(t, s) => if t then mb (run b s) (fun s => exec f sc en s l) else exec f sc en s l)
      | SFor i c p b :: l => mb (run [i] s) (fun s => mb (while_ lf (test c) (fun s => mb (run b s) (run [p])) s) (fun s => exec f sc en s l))
      | SDo b c :: l => mb (do_ lf (test c) (run b) s) (fun s => exec f sc en s l)
      | SRet None :: _ => mret (None, s)
      | SRet (Some e) :: _ => mb (eval f sc en s e) (fun '((v, _), s) => mret (Some v, s))
      | SStatic e :: l => mb (test e s) (fun '(t, s) => if t then exec f sc en s l else None)
      end
  end.
(** a call of the function template [x] with all template arguments given; arguments by value *)
Definition tcall (fuel : nat) (x : string) (targs : list ty) (vs : list (val K)) (m : mem) : M (mem * pval) :=
  match find (fun fn => String.eqb (tf_name fn) x) (tu_funcs u) with
  | Some fn =>
      match oseq (map (canon tfuel (Scope [] None)) targs) with
      | Some ts => mb (call fuel ([], m) (PClo [] (Scope (combine (tf_tpars fn) ts) None) (tf_params fn) (tf_body fn)) (map (fun v => (V v, None)) vs))
                      (fun '(v, s) => mret (snd s, v))
      | None => None
      end
  | None => None
  end.
End K.
End U.
