(** Meaning of the Fortran subset of FSyntax.v, over any arithmetic.  Arrays are memories of REAL*8 cells (COMPLEX*16: two cells), one
    memory per array argument.  Simplifications: integers are unbounded (INTEGER*4 overflow is the subject of C38); REAL*8 times COMPLEX*16
    scales both parts; the COMPLEX*16 operations are those of MForL1.v; ABS of a COMPLEX*16 is only compared with zero, and is zero when both
    parts are.  [UB]: an access outside a memory or the use of an undefined variable.  [Abort]: outside the subset (type errors, a value
    stored into a default REAL and used again). *)
From Coq Require Import ZArith Bool Ascii String List.
From Verif Require Import Num Res MForL1 FSyntax.
Import ListNotations.
Local Open Scope Z_scope.

Section S.
Context {K : num}.
Inductive val := VI (z : Z) | VL (b : bool) | VC (c : ascii) | VR (a : K) | VZ (z : cplx K) | VAbs (z : cplx K).
(** scalar variables (None: undefined) and array memories *)
Record state := St { sv : list (option val); av : list (arr K) }.

Fixpoint set_nth {A} (l : list A) (n : nat) (a : A) : list A :=
  match l, n with [], _ => [] | _ :: r, O => a :: r | x :: r, S n => x :: set_nth r n a end.

(** position of an element, column-major, counted in elements from the start of the array: subscripts from 1 *)
Fixpoint off (dims subs : list Z) : Z :=
  match subs with
  | [] => 0
  | s :: ss => match ss, dims with
               | [], _ => s - 1
               | _, d :: ds => (s - 1) + d * off ds ss
               | _, [] => 0
               end
  end.
Definition aget (t : ty) (m : arr K) (o : Z) : res val :=
  match t with
  | TReal => a <- ld m o ;; Ok (VR a)
  | TCplx => a <- ld m (2 * o) ;; b <- ld m (2 * o + 1) ;; Ok (VZ (Cplx a b))
  | _ => Abort
  end.
Definition aput (t : ty) (m : arr K) (o : Z) (v : val) : res (arr K) :=
  match t, v with
  | TReal, VR a => st m o a
  | TCplx, VZ z => m <- st m (2 * o) (re z) ;; st m (2 * o + 1) (im z)
  | _, _ => Abort
  end.

Definition lit (n : Z) : res K := match n with 0 => Ok n0 | 1 => Ok n1 | _ => Abort end.
Definition ceq (a b : cplx K) : bool := neqb (re a) (re b) && neqb (im a) (im b).
Definition veq (a b : val) : res bool :=
  match a, b with
  | VI x, VI y => Ok (x =? y)
  | VC x, VC y => Ok (Ascii.eqb x y)
  | VR x, VR y => Ok (neqb x y)
  | VZ x, VZ y => Ok (ceq x y)
  | VR x, VZ y => Ok (ceq (Cplx x n0) y)
  | VAbs x, VR y => if neqb y n0 then Ok (neqb (re x) n0 && neqb (im x) n0) else Abort
  | _, _ => Abort
  end.
Definition bin (o : binop) (a b : val) : res val :=
  match o, a, b with
  | OAdd, VI x, VI y => Ok (VI (x + y)) | OSub, VI x, VI y => Ok (VI (x - y)) | OMul, VI x, VI y => Ok (VI (x * y))
  | OAdd, VR x, VR y => Ok (VR (nadd x y)) | OSub, VR x, VR y => Ok (VR (nsub x y)) | OMul, VR x, VR y => Ok (VR (nmul x y))
  | OAdd, VZ x, VZ y => Ok (VZ (cadd x y)) | OSub, VZ x, VZ y => Ok (VZ (csub x y)) | OMul, VZ x, VZ y => Ok (VZ (cmul x y))
  | OMul, VR x, VZ y => Ok (VZ (crmul x y))
  | OLt, VI x, VI y => Ok (VL (x <? y)) | OLe, VI x, VI y => Ok (VL (x <=? y))
  | OGt, VI x, VI y => Ok (VL (x >? y)) | OGe, VI x, VI y => Ok (VL (x >=? y))
  | OAnd, VL x, VL y => Ok (VL (x && y)) | OOr, VL x, VL y => Ok (VL (x || y))
  | OEq, _, _ => b <- veq a b ;; Ok (VL b)
  | ONe, _, _ => b <- veq a b ;; Ok (VL (negb b))
  | _, _, _ => Abort
  end.
Definition neg (a : val) : res val :=
  match a with VI x => Ok (VI (- x)) | VR x => Ok (VR (nopp x)) | VZ x => Ok (VZ (cneg x)) | _ => Abort end.
(** intrinsic functions, and LSAME through the external procedure [ext] *)
Definition call (ext : string -> list val -> res val) (f : string) (vs : list val) : res val :=
  match vs with
  | [VZ z] => if String.eqb f "CONJG" then Ok (VZ (conjg z)) else if String.eqb f "ABS" then Ok (VAbs z) else Abort
  | [VC c] => if String.eqb f "ICHAR" then Ok (VI (ichar c)) else Abort
  | _ => ext f vs
  end.

Variable ext : string -> list val -> res val.
(** element types and leading extents of the arrays *)
Definition ctx := list (ty * list Z).
Definition as_int (v : val) : res Z := match v with VI z => Ok z | _ => Abort end.
Definition as_log (v : val) : res bool := match v with VL b => Ok b | _ => Abort end.
Fixpoint eval (c : ctx) (s : state) (e : rexpr) : res val :=
  let evals := fix evals (l : list rexpr) : res (list val) :=
    match l with [] => Ok [] | e :: r => v <- eval c s e ;; vs <- evals r ;; Ok (v :: vs) end in
  let ints := fix ints (l : list rexpr) : res (list Z) :=
    match l with [] => Ok [] | e :: r => v <- eval c s e ;; z <- as_int v ;; zs <- ints r ;; Ok (z :: zs) end in
  match e with
  | RInt z => Ok (VI z)
  | RRl n => a <- lit n ;; Ok (VR a)
  | RCx (RRl a) (RRl b) => a <- lit a ;; b <- lit b ;; Ok (VZ (Cplx a b))
  | RCx _ _ => Abort
  | RChr x => Ok (VC x)
  | RVar x => match nth_error (sv s) x with Some (Some v) => Ok v | Some None => UB | None => Abort end
  | RArr x es =>
      zs <- ints es ;;
      match nth_error c x, nth_error (av s) x with Some (t, d), Some m => aget t m (off d zs) | _, _ => Abort end
  | RFun f es => vs <- evals es ;; call ext f vs
  | RBin o a b => x <- eval c s a ;; y <- eval c s b ;; bin o x y
  | RNeg a => x <- eval c s a ;; neg x
  | RNot a => x <- eval c s a ;; b <- as_log x ;; Ok (VL (negb b))
  end.
Fixpoint eval_ints (c : ctx) (s : state) (l : list rexpr) : res (list Z) :=
  match l with [] => Ok [] | e :: r => v <- eval c s e ;; z <- as_int v ;; zs <- eval_ints c s r ;; Ok (z :: zs) end.
(** assignment conversion; a default REAL is left undefined for later uses *)
Definition conv (t : ty) (v : val) : res (option val) :=
  match t, v with
  | TInt, VI _ | TLog, VL _ | TChar, VC _ | TReal, VR _ | TCplx, VZ _ => Ok (Some v)
  | TReal4, (VR _ | VZ _) => Ok None
  | _, _ => Abort
  end.
Definition assign (tys : list ty) (s : state) (x : nat) (v : val) : res state :=
  match nth_error tys x with
  | Some t => v <- conv t v ;; Ok (St (set_nth (sv s) x v) (av s))
  | None => Abort
  end.
(** statements; the flag says that RETURN was executed.  No loop of the kernels contains RETURN. *)
Fixpoint exec (tys : list ty) (c : ctx) (p : rstmt) (s : state) : res (state * bool) :=
  let block := fix block (l : list rstmt) (s : state) : res (state * bool) :=
    match l with [] => Ok (s, false) | p :: r => '(s, b) <- exec tys c p s ;; if b : bool then Ok (s, true) else block r s end in
  match p with
  | RAsg x e => v <- eval c s e ;; s <- assign tys s x v ;; Ok (s, false)
  | RPut x es e =>
      v <- eval c s e ;; zs <- eval_ints c s es ;;
      match nth_error c x, nth_error (av s) x with
      | Some (t, d), Some m => m <- aput t m (off d zs) v ;; Ok (St (sv s) (set_nth (av s) x m), false)
      | _, _ => Abort
      end
  | RIf e s1 s2 => v <- eval c s e ;; b <- as_log v ;; if b : bool then block s1 s else block s2 s
  | RDo x lo hi body =>
      a <- eval c s lo ;; a <- as_int a ;; b <- eval c s hi ;; b <- as_int b ;;
      s <- fdo a b (fun i s => s <- assign tys s x (VI i) ;; '(s, r) <- block body s ;; if r : bool then Abort else Ok s) s ;;
      s <- assign tys s x (VI (Z.max a (b + 1))) ;; Ok (s, false)
  | RRet => Ok (s, true)
  end.
Definition block (tys : list ty) (c : ctx) : list rstmt -> state -> res (state * bool) := fix block (l : list rstmt) (s : state) : res (state * bool) :=
  match l with [] => Ok (s, false) | p :: r => '(s, b) <- exec tys c p s ;; if b : bool then Ok (s, true) else block r s end.

(** arguments: a value for a scalar dummy, a memory for an array dummy *)
Inductive actual := AV (v : val) | AM (m : arr K).
Fixpoint bind_args (fs : list argslot) (xs : list actual) (s : state) : res state :=
  match fs, xs with
  | [], [] => Ok s
  | ASc x :: fs, AV v :: xs => bind_args fs xs (St (set_nth (sv s) x (Some v)) (av s))
  | AAr x :: fs, AM m :: xs => bind_args fs xs (St (sv s) (set_nth (av s) x m))
  | _, _ => Abort
  end.
Fixpoint eval_dims (s : state) (ds : list (string * ty * list rexpr)) : res ctx :=
  match ds with [] => Ok [] | (_, t, d) :: r => zs <- eval_ints [] s d ;; k <- eval_dims s r ;; Ok ((t, zs) :: k) end.
Definition run_state (p : prog) (xs : list actual) : res state :=
  s <- bind_args (p_args p) xs (St (map (fun _ => None) (p_sc p)) (map (fun _ _ => None) (p_ar p))) ;;
  c <- eval_dims s (p_ar p) ;;
  '(s, _) <- block (map snd (p_sc p)) c (p_body p) s ;;
  Ok s.
(** a SUBROUTINE: the array memories afterwards, in the order of the array arguments *)
Definition run_sub (p : prog) (xs : list actual) : res (list (arr K)) := s <- run_state p xs ;; Ok (av s).
(** a FUNCTION: the value of its name afterwards *)
Definition run_fun (p : prog) (xs : list actual) : res val :=
  s <- run_state p xs ;;
  match p_res p with Some x => match nth_error (sv s) x with Some (Some v) => Ok v | Some None => UB | None => Abort end | None => Abort end.
End S.
Arguments val : clear implicits. Arguments state : clear implicits. Arguments actual : clear implicits.
