(** Which implementation a call of a public routine reaches, read off the texts of the build: src/hblas/CMakeLists.txt lists the members of the library,
    src/hblas/cxx/hblas{1,3}/CMakeLists.txt and *.cmake the object libraries and their -D options, src/hblas/hblas{1,2,3}.cxx.in and src/hblas/util.cxx the explicit
    specialisations that forward to Fortran and the explicit instantiations of the templates.  Default build: no ENABLE_GENERIC_* option.
    Names: gfortran's symbol for SUBROUTINE X is x in lower case with an underscore.  The extern "C" prototypes are not looked at. *)
From Coq Require Import ZArith Bool Ascii String List.
From Verif Require Import Num Res FSyntax FParse FSem FProg CSyntax CPre CParse CSrc CProg CProgG MPar DSrc.
Import ListNotations.
Local Open Scope string_scope.
Local Open Scope Z_scope.

(** ** CMake *)
(** words and parentheses; # starts a comment, quotes enclose a word *)
Fixpoint cwords (l cur : chars) (quoted comment : bool) : list string :=
  let flush r := match cur with [] => r | _ => implode (rev cur) :: r end in
  match l with
  | [] => flush []
  | c :: r =>
      if comment then cwords r cur false (negb (Ascii.eqb c nl))
      else if Ascii.eqb c dquote then if quoted then flush (cwords r [] false false) else cwords r cur true false
      else if quoted then cwords r (c :: cur) true false
      else if Ascii.eqb c "#" then flush (cwords r [] false true)
      else if Ascii.eqb c "(" then flush ("(" :: cwords r [] false false)
      else if Ascii.eqb c ")" then flush (")" :: cwords r [] false false)
      else if is_blank c || Ascii.eqb c nl then flush (cwords r [] false false)
      else cwords r (c :: cur) false false
  end.
(** name(args) *)
Fixpoint cargs (l : list string) (acc : list string) : option (list string * list string) :=
  match l with [] => None | w :: r => if String.eqb w ")" then Some (rev acc, r) else cargs r (w :: acc) end.
Fixpoint commands (fuel : nat) (l : list string) : option (list (string * list string)) :=
  match fuel with
  | O => None
  | S f => match l with
           | [] => Some []
           | n :: p :: r => if String.eqb p "(" then do (a, r) <- cargs r []; do k <- commands f r; Some ((n, a) :: k) else None
           | _ => None
           end
  end.
Definition cmake (src : string) : option (list (string * list string)) := let w := cwords (explode src) [] false false in commands (S (List.length w)) w.
(** include(file) and add_subdirectory(dir) *)
Definition cmake_files : list (string * string) :=
  [("CopySwap.cmake", dcmake_copyswap); ("Dot.cmake", dcmake_dot); ("AXPYScal.cmake", dcmake_axpyscal); ("Gemm.cmake", dcmake_gemm)].
Fixpoint includes (l : list (string * list string)) : option (list (string * list string)) :=
  match l with
  | [] => Some []
  | (n, a) :: r =>
      do r <- includes r;
      if String.eqb n "include" then
        match a with [f] => do t <- assoc cmake_files f; do c <- cmake t; Some (app c r) | _ => None end
      else Some ((n, a) :: r)
  end.
(** all commands of src/hblas/cxx/hblas1/CMakeLists.txt, src/hblas/cxx/hblas3/CMakeLists.txt (with their includes) and src/hblas/CMakeLists.txt:1-22, in this order;
    the if() of the last one (lines 3-5) is the default build's: add_subdirectory(cxx) happens *)
Definition build : option (list (string * list string)) :=
  do a <- cmake dcmake_hblas1; do a <- includes a; do b <- cmake dcmake_hblas3; do b <- includes b; do c <- cmake dcmake_hblas; Some (app a (app b c)).
(** set(X words... CACHE LIST doc) *)
Fixpoint before_cache (l : list string) : list string := match l with [] => [] | w :: r => if String.eqb w "CACHE" then [] else w :: before_cache r end.
Fixpoint var_value (b : list (string * list string)) (x : string) : option (list string) :=
  match b with
  | [] => None
  | (n, a) :: r => if String.eqb n "set" then match a with y :: ws => if String.eqb x y then Some (before_cache ws) else var_value r x | [] => None end else var_value r x
  end.
(** a word that is ${X} *)
Definition var_ref (w : string) : option string :=
  match stripS "${" (explode w) with
  | Some l => let '(x, k) := span (fun c => negb (Ascii.eqb c "}")) l in match k with [_] => Some (implode x) | _ => None end
  | None => None
  end.
Fixpoint expand_vars (fuel : nat) (b : list (string * list string)) (ws : list string) : option (list string) :=
  match fuel with
  | O => None
  | S f => match ws with
           | [] => Some []
           | w :: r => match var_ref w with
                       | Some x => do v <- var_value b x; expand_vars f b (app v r)
                       | None => do k <- expand_vars f b r; Some (w :: k)
                       end
           end
  end.
(** the members of the library: add_library( hblas STATIC ... ), src/hblas/CMakeLists.txt:18 *)
Fixpoint library (b l : list (string * list string)) : option (list string) :=
  match l with
  | [] => None
  | (n, a) :: r =>
      if String.eqb n "add_library" then match a with x :: y :: ws => if String.eqb x "hblas" && String.eqb y "STATIC" then expand_vars 100 b ws else library b r | _ => None end
      else library b r
  end.
(** sources and -D options of an object library (src/hblas/cxx/hblas1/*.cmake, src/hblas/cxx/hblas3/Gemm.cmake); "X" without a value is X=1 *)
Fixpoint obj_srcs (b : list (string * list string)) (o : string) : option (list string) :=
  match b with
  | [] => None
  | (n, a) :: r => if String.eqb n "add_library" then match a with x :: y :: ws => if String.eqb x o && String.eqb y "OBJECT" then Some ws else obj_srcs r o | _ => None end else obj_srcs r o
  end.
Definition cdef (w : string) : string * string :=
  let '(x, k) := span (fun c => negb (Ascii.eqb c "=")) (explode w) in (implode x, match k with [] => "1" | _ :: v => implode v end).
Fixpoint obj_defs (b : list (string * list string)) (o : string) : list (string * string) :=
  match b with
  | [] => []
  | (n, a) :: r => if String.eqb n "target_compile_definitions" then match a with x :: y :: ws => if String.eqb x o && String.eqb y "PRIVATE" then map cdef ws else obj_defs r o | _ => [] end else obj_defs r o
  end.
Definition obj_ref (w : string) : option string :=
  match stripS "$<TARGET_OBJECTS:" (explode w) with
  | Some l => let '(x, k) := span (fun c => negb (Ascii.eqb c ">")) l in match k with [_] => Some (implode x) | _ => None end
  | None => None
  end.
(** source files named in the object libraries *)
Definition cxx_files : list (string * string) :=
  [("copy_swap.cxx", csrc_copy_swap); ("dot.cxx", csrc_dot); ("axpy_scal.cxx", csrc_axpy_scal); ("gemm.cxx", csrc_gemm); ("kern.cxx", csrc_kern)].

(** ** configured sources *)
(** configure_file: #cmakedefine X becomes #define X when the option X is on, a comment otherwise *)
Definition configure_line (on : list string) (l : chars) : chars :=
  match stripS "#cmakedefine" l with
  | Some r => let x := first_id r in if existsb (String.eqb x) on then explode ("#define " ++ x) else explode ("/* #undef " ++ x ++ " */")
  | None => l
  end.
Definition configure (on : list string) (src : string) : string :=
  implode (flat_map (fun l => app (configure_line on l) [nl]) (lines_of (explode src) [])).
(** the ## operator, after expansion: the operands are names, and neither they nor the results are macros *)
Fixpoint paste (l : list tok) : list tok :=
  match l with
  | TId a :: ((TPun h :: TPun h' :: TId b :: r) as r0) => if String.eqb h "#" && String.eqb h' "#" then TId (a ++ b) :: paste r else TId a :: paste r0
  | t :: r => t :: paste r
  | [] => []
  end.
(** an explicit specialisation (with a body) or an explicit instantiation of a function template, as the macros of src/hblas/hblas1.cxx.in:20-78,
    hblas2.cxx.in:15-47, hblas3.cxx.in:15-37 and include/hblas/generic/util/*_impl.hpp produce them *)
Record item := Item { it_name : string; it_types : list ctype; it_params : list string; it_body : option nstmt }.
Fixpoint d_params (fuel : nat) (ts : toks) : option (list (ctype * string) * toks) :=
  match fuel with
  | O => None
  | S f =>
      do (t, r) <- p_type f [] ts;
      let '(x, r) := match r with TId x :: r => (x, r) | _ => ("", r) end in
      match eat "," r with
      | Some r => do (l, r) <- d_params f r; Some ((t, x) :: l, r)
      | None => do r <- eat ")" r; Some ([(t, x)], r)
      end
  end.
Fixpoint p_items (fuel : nat) (ts : toks) : option (list item) :=
  match fuel with
  | O => None
  | S f =>
      match ts with
      | [] => Some []
      | TPun p :: r => if String.eqb p ";" || String.eqb p "}" then p_items f r else None
      | TId w :: r =>
          if String.eqb w "namespace" then match r with TId _ :: r => do r <- eat "{" r; p_items f r | _ => None end
          else if String.eqb w "template" then
            let spec := sees "<" r in
            do r <- (if spec then do r <- eat "<" r; eat ">" r else Some r);
            do (_, r) <- p_type f [] r;
            match r with
            | TId n :: r =>
                do r <- eat "(" r; do (ps, r) <- d_params f r;
                if spec then do r <- eat "{" r; do (b, r) <- p_stmts f [] r; do k <- p_items f r; Some (Item n (map fst ps) (map snd ps) (Some b) :: k)
                else do r <- eat ";" r; do k <- p_items f r; Some (Item n (map fst ps) (map snd ps) None :: k)
            | _ => None
            end
          else None
      | _ => None
      end
  end.
Definition util_headers : list (string * string) :=
  [("hblas/generic/util/impl.hpp", dsrc_util_impl); ("expand_impl.hpp", dsrc_expand); ("contract_impl.hpp", dsrc_contract)].
Definition items (on : list string) (src : string) : option (list item) :=
  do ts <- preprocess [] util_headers (configure on src); p_items pfuel (paste ts).
(** add_library( hblas ...): sources that configure_file generates (src/hblas/CMakeLists.txt:7-9), and util.cxx *)
Definition generated : list (string * string) :=
  [("${PROJECT_BINARY_DIR}/src/hblas/hblas1.cxx", dsrc_hblas1); ("${PROJECT_BINARY_DIR}/src/hblas/hblas2.cxx", dsrc_hblas2);
   ("${PROJECT_BINARY_DIR}/src/hblas/hblas3.cxx", dsrc_hblas3); ("util.cxx", dsrc_util)].

(** ** the library *)
Inductive impl :=
| Body (params : list string) (b : nstmt)                 (* the body of an explicit specialisation *)
| Template                                                (* an explicit instantiation *)
| Object (src : string) (defs : list (string * string)).  (* a function of a file compiled with these options *)
Definition defn := (string * list ctype * impl)%type.
Definition of_item (i : item) : defn := (it_name i, it_types i, match it_body i with Some b => Body (it_params i) b | None => Template end).
Definition is_public (f : string) : bool := match stripS "HBLAS_" (explode f) with Some _ => true | None => false end.
Definition of_object (fma : bool) (src : string) (defs : list (string * string)) : option (list defn) :=
  do fs <- compile [] (app (machine fma) defs) headers src;
  Some (flat_map (fun f => if is_public (f_name f) then [(f_name f, map fst (f_params f), Object src defs)] else []) fs).
Definition obind {A B} (x : option A) (f : A -> option B) : option B := match x with Some a => f a | None => None end.
Fixpoint concat_opt {A B} (f : A -> option (list B)) (l : list A) : option (list B) :=
  match l with [] => Some [] | a :: r => do x <- f a; do y <- concat_opt f r; Some (app x y) end.
Definition member (fma : bool) (on : list string) (b : list (string * list string)) (w : string) : option (list defn) :=
  match obj_ref w with
  | Some o => do srcs <- obj_srcs b o; concat_opt (fun s => do t <- assoc cxx_files s; of_object fma t (obj_defs b o)) srcs
  | None => do t <- assoc generated w; do l <- items on t; Some (map of_item l)
  end.
(** the public functions defined by the members of the library *)
Definition definitions (fma : bool) : option (list defn) :=
  obind build (fun b => obind (library b b) (concat_opt (member fma [] b))).

(** ** calls *)
Fixpoint ctype_eqb (a b : ctype) : bool :=
  match a, b with
  | CSyntax.TInt, CSyntax.TInt | TBool, TBool | TChar, TChar | TDouble, TDouble | CSyntax.TCplx, CSyntax.TCplx | TQuat, TQuat | TM256, TM256 | TM128, TM128 | TM256i, TM256i
  | TULong, TULong | TVoid, TVoid | TAuto, TAuto => true
  | TPtr a, TPtr b => ctype_eqb a b
  | _, _ => false
  end.
Fixpoint types_eqb (a b : list ctype) : bool :=
  match a, b with [], [] => true | x :: a, y :: b => ctype_eqb x y && types_eqb a b | _, _ => false end.
(** the definition of the function with this name and these parameter types; two definitions would be a link error *)
Definition resolve (ds : list defn) (f : string) (ts : list ctype) : option impl :=
  match filter (fun d => String.eqb (fst (fst d)) f && types_eqb (snd (fst d)) ts) ds with [d] => Some (snd d) | _ => None end.
Definition implementation (fma : bool) (f : string) (ts : list ctype) : option impl := obind (definitions fma) (fun ds => resolve ds f ts).
(** the translation unit a call runs, when it is C++; templates: include/hblas/generic, the template arguments are deduced from the parameter types: ALPHA's, BETA's
    and the elements of the matrix; the elements of the other arrays are quaternions *)
Definition elem (t : ctype) : ctype := match t with TPtr t => t | _ => TVoid end.
Definition unit_of (fma : bool) (f : string) (ts : list ctype) (i : impl) : option (list func) :=
  let t k := nth k ts TVoid in let quats ks := forallb (fun k => ctype_eqb (t k) (TPtr TQuat)) ks in
  match i with
  | Body _ _ => None
  | Object src defs => compile [] (app (machine fma) defs) headers src
  | Template =>
      if String.eqb f "HBLAS_SCALM" && quats [5%nat] then unit_scalm_g (t 4%nat)
      else if String.eqb f "HBLAS_AXPYM" && quats [5%nat; 8%nat] then unit_axpym_g (t 4%nat)
      else if String.eqb f "HBLAS_GEMV" && quats [6%nat; 9%nat] then unit_gemv_g (elem (t 4%nat)) (t 3%nat) (t 8%nat)
      else if String.eqb f "HBLAS_GEMM" && quats [8%nat; 11%nat] then unit_gemm_g (elem (t 6%nat)) (t 5%nat) (t 10%nat)
      else None
  end.
Definition public_unit (fma : bool) (f : string) (ts : list ctype) : option (list func) :=
  obind (implementation fma f ts) (unit_of fma f ts).

Section R.
Context {K : num}.
(** an argument of a public call: a pointer to elements of type t is given by the doubles it points to *)
Inductive uarg := UChr (c : ascii) | UInt (z : Z) | UScal (s : scal K) | UPtr (t : ctype) (m : arr K).
Definition utype (a : uarg) : ctype :=
  match a with UChr _ => TChar | UInt _ => CSyntax.TInt | UScal (SR _) => TDouble | UScal (SC _) => CSyntax.TCplx | UScal (SH _) => TQuat | UPtr t _ => TPtr t end.
(** how the Fortran text declares its arguments: a scalar of some type, or an array *)
Definition formals (p : prog) : list (option ty) :=
  map (fun a => match a with ASc x => option_map snd (nth_error (p_sc p) x) | AAr _ => None end) (FSyntax.p_args p).
(** what the callee receives for &x or a pointer x *)
Definition link_arg (env : list (string * uarg)) (k : option ty) (e : nexpr) : option (actual K) :=
  match e with
  | NAddr (NVar x) =>
      match assoc env x, k with
      | Some (UChr c), Some FSyntax.TChar => Some (AV (VC c))
      | Some (UInt z), Some FSyntax.TInt => Some (AV (VI z))
      | Some (UScal (SR a)), Some TReal => Some (AV (VR a))
      | Some (UScal (SC z)), Some FSyntax.TCplx => Some (AV (VZ z))
      | Some (UScal (SC z)), None => Some (AM (ccells (fun p => if p =? 0 then Some z else None)))
      | Some (UScal (SH q)), None => Some (AM (cells (one q)))
      | _, _ => None
      end
  | NVar x => match assoc env x, k with Some (UPtr _ m), None => Some (AM m) | _, _ => None end
  | _ => None
  end.
Fixpoint link_args (env : list (string * uarg)) (ks : list (option ty)) (es : list nexpr) : option (list (actual K)) :=
  match ks, es with
  | [], [] => Some []
  | k :: ks, e :: es => do a <- link_arg env k e; do l <- link_args env ks es; Some (a :: l)
  | _, _ => None
  end.
(** hgemvdd_ is SUBROUTINE HGEMVDD; result: the contents of the array the subroutine returns its result in (MPar.v, kernels) *)
Definition symbol (f : string) : string := let '(x, k) := span (fun c => negb (Ascii.eqb c "_")) (explode f) in match k with [_] => implode (map upcase x) | _ => "" end.
Definition fortran (env : list (string * uarg)) (f : string) (es : list nexpr) : option (res (arr K)) :=
  match find (fun k => String.eqb (fst (fst (fst k))) (symbol f)) kernels with
  | Some (n, src, out, _) => do p <- program n src; do xs <- link_args env (formals p) es; Some (fcall n src xs out)
  | None => None
  end.
Fixpoint chr_test (env : list (string * uarg)) (e : nexpr) : option bool :=
  match e with
  | NBin BEq (NVar x) (NChr c) => match assoc env x with Some (UChr d) => Some (Ascii.eqb d c) | _ => None end
  | NBin BLor a b => do x <- chr_test env a; if x : bool then Some true else chr_test env b
  | _ => None
  end.
(** the body of a forwarding function, which makes one call *)
Fixpoint forward (env : list (string * uarg)) (s : nstmt) : option (res (option (arr K))) :=
  match s with
  | NSkip => Some (Ok None)
  | NBlock s => forward env s
  | NSeq a b => match forward env a with Some (Ok None) => forward env b | Some (Ok (Some m)) => match forward env b with Some (Ok None) => Some (Ok (Some m)) | _ => None end | r => r end
  | NAssert e => do b <- chr_test env e; Some (if b : bool then Ok None else Abort)
  | NIf c a b => do x <- chr_test env c; if x : bool then forward env a else forward env b
  | NExpr (NCall f _ es) => do r <- fortran env f es; Some (m <- r ;; Ok (Some m))
  | _ => None
  end.
(** a call of the public function [f] that is forwarded to Fortran *)
Definition fortran_call (fma : bool) (f : string) (xs : list uarg) : option (res (arr K)) :=
  obind (implementation fma f (map utype xs)) (fun i =>
  match i with
  | Body ps b =>
      if Nat.eqb (List.length ps) (List.length xs) then
        match forward (combine ps xs) b with
        | Some (Ok (Some m)) => Some (Ok m)
        | Some UB => Some UB | Some Abort => Some Abort | _ => None
        end
      else None
  | _ => None
  end).
End R.
Arguments uarg : clear implicits.
