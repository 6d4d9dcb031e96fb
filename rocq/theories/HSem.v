(** Interpreter of the units of HParse.v.  The memory is a heap of scalar cells, as in MObj.v, plus the temporaries of the call; an object occupies consecutive
    cells, a reference is a location, so a store through one reference is seen through another.  No code of /repo is modelled here; the AVX specialisation of
    operator* uses the 256-bit load, store and MULDQ_NN of MSimd.v (whose text is treated in CSem.v).
    Stuck: outside the subset, or the fuel (depth of calls and expressions) is used up.  Undef: a load or store of a cell that is not there, or a load of an
    uninitialised local. *)
From Coq Require Import ZArith Bool Ascii String List.
From Verif Require Import Num Res MQuat MSimd HParse.
Import ListNotations.
Local Open Scope string_scope.
Local Open Scope Z_scope.

Section H.
Context {K : num}.
(** values; [VL l]: the elements of a std::array of reals *)
Inductive hval := VR (k : K) | VC (z : cplx K) | VQ (q : quat K) | VB (b : bool) | VV (v : @m256 K) | VL (l : list K).
(** a cell of the heap, or of the temporaries *)
Inductive loc := At (p : Z) | Tmp (n : nat).
(** the result of an expression: an object somewhere, a value, or nothing *)
Inductive eres := LV (t : htype) (l : loc) | RV (v : hval) | Nothing.
(** a computation: the accesses to the heap it makes, in order, each load continued with the value loaded *)
Inductive M (A : Type) :=
| Done (a : A) | Stuck | Undef | Load (p : Z) (k : K -> M A) | Store (p : Z) (v : K) (k : M A) | Branch (b : bool) (x y : M A).
Arguments Done {A} _. Arguments Stuck {A}. Arguments Undef {A}. Arguments Load {A} _ _. Arguments Store {A} _ _ _. Arguments Branch {A} _ _ _.
Definition ret {A} (a : A) : M A := Done a.
Fixpoint mbind {A B} (x : M A) (f : A -> M B) {struct x} : M B :=
  match x with
  | Done a => f a | Stuck => Stuck | Undef => Undef
  | Load p k => Load p (fun v => mbind (k v) f) | Store p v k => Store p v (mbind k f)
  | Branch b x y => Branch b (mbind x f) (mbind y f)
  end.
(** its outcome on a heap.  None: outside the subset, or the fuel is used up *)
Fixpoint run {A} (x : M A) (m : arr K) : option (res (arr K * A)) :=
  match x with
  | Done a => Some (Ok (m, a))
  | Stuck => None
  | Undef => Some UB
  | Load p k => match ld m p with Ok v => run (k v) m | UB => Some UB | Abort => Some Abort end
  | Store p v k => match st m p v with Ok m' => run k m' | UB => Some UB | Abort => Some Abort end
  | Branch b x y => if b then run x m else run y m
  end.
Local Notation "x <-- r ;; k" := (mbind r (fun x => k)) (at level 61, r at next level, right associativity).
Local Notation "' p <-- r ;; k" := (mbind r (fun p => k)) (at level 61, p pattern, r at next level, right associativity).

Definition shift (l : loc) (i : nat) : loc :=
  match i with O => l | S _ => match l with At p => At (p + Z.of_nat i) | Tmp n => Tmp (n + i)%nat end end.
Definition temps := list (option K).
Definition lload (s : temps) (l : loc) : M K :=
  match l with
  | At p => Load p Done
  | Tmp n => match nth_error s n with Some (Some v) => ret v | Some None => Undef | None => Stuck end
  end.
Fixpoint lset (n : nat) (v : K) (l : list (option K)) : list (option K) :=
  match l, n with [], _ => [] | _ :: r, O => Some v :: r | x :: r, S k => x :: lset k v r end.
Definition lstore (s : temps) (l : loc) (v : K) : M temps :=
  match l with
  | At p => Store p v (ret s)
  | Tmp n => match nth_error s n with Some _ => ret (lset n v s) | None => Stuck end
  end.
(** new cells at the end of the temporaries *)
Definition alloc (s : temps) (vs : list (option K)) : temps * loc := ((s ++ vs)%list, Tmp (List.length s)).
Definition comps (v : hval) : option (list K) :=
  match v with
  | VR k => Some [k] | VC z => Some [re z; im z] | VQ q => Some [qr q; qi q; qj q; qk q] | VL l => Some l
  | VV v => Some [l0 v; l1 v; l2 v; l3 v] | VB _ => None
  end.
Definition type_of (r : eres) : htype :=
  match r with
  | LV t _ => t
  | RV v => match v with VR _ => HR | VC _ => HC | VQ _ => HQ | VB _ => HB | VV _ => HV | VL l => HA (List.length l) end
  | Nothing => HVoid
  end.
Definition load4 (s : temps) (l : loc) : M (K * K * K * K) :=
  a <-- lload s l ;; b <-- lload s (shift l 1) ;; c <-- lload s (shift l 2) ;; d <-- lload s (shift l 3) ;; ret (a, b, c, d).
(** the value of an object *)
Definition rvalue (s : temps) (r : eres) : M hval :=
  match r with
  | RV v => ret v
  | Nothing => Stuck
  | LV HR l => k <-- lload s l ;; ret (VR k)
  | LV HC l => a <-- lload s l ;; b <-- lload s (shift l 1) ;; ret (VC (Cplx a b))
  | LV HQ l => '(a, b, c, d) <-- load4 s l ;; ret (VQ (Quat a b c d))
  | LV HV l => '(a, b, c, d) <-- load4 s l ;; ret (VV (V4 a b c d))
  | LV _ _ => Stuck
  end.
(** the object a reference is bound to: itself, or a temporary for a value *)
Definition bind_ref (s : temps) (r : eres) : M (temps * loc) :=
  match r with
  | LV _ l => ret (s, l)
  | RV v => match comps v with Some l => ret (alloc s (map Some l)) | None => Stuck end
  | Nothing => Stuck
  end.
(** the defaulted copy assignment: member by member *)
Definition assign4 (s : temps) (l : loc) (r : eres) : M temps :=
  '(s, q) <-- bind_ref s r ;;
  v <-- lload s q ;; s <-- lstore s l v ;; v <-- lload s (shift q 1) ;; s <-- lstore s (shift l 1) v ;;
  v <-- lload s (shift q 2) ;; s <-- lstore s (shift l 2) v ;; v <-- lload s (shift q 3) ;; lstore s (shift l 3) v.
Definition env := list (string * (htype * loc)).
Definition lookup (e : env) (x : string) : option (htype * loc) :=
  match find (fun p => String.eqb (fst p) x) e with Some p => Some (snd p) | None => None end.
Fixpoint index (l : list string) (x : string) (i : nat) : option nat :=
  match l with [] => None | y :: r => if String.eqb x y then Some i else index r x (S i) end.
Definition arith (op : string) (a b : K) : option hval :=
  if String.eqb op "+" then Some (VR (nadd a b)) else if String.eqb op "-" then Some (VR (nsub a b))
  else if String.eqb op "*" then Some (VR (nmul a b)) else if String.eqb op "/" then Some (VR (ndiv a b))
  else if String.eqb op "==" then Some (VB (neqb a b)) else None.
Definition num_lit (z : Z) : option K := if z =? 0 then Some n0 else if z =? 1 then Some n1 else None.
(** do the arguments fit; a missing one needs a default *)
Fixpoint fits (ps : list hparam) (ts : list htype) : bool :=
  match ps, ts with
  | [], [] => true
  | p :: ps, t :: ts => htype_eqb (p_ty p) t && fits ps ts
  | p :: ps, [] => match p_def p with Some _ => fits ps [] | None => false end
  | [], _ :: _ => false
  end.
Variable u : hunit.
(** overload resolution by exact types; an explicit specialisation replaces the template *)
Definition resolve (k : kind) (f : string) (ts : list htype) : option hfunc :=
  let c := filter (fun h => kind_eqb (h_kind h) k && String.eqb (h_name h) f && fits (h_params h) ts) (u_funcs u) in
  match find h_spec c with Some h => Some h | None => match c with h :: _ => Some h | [] => None end end.

Fixpoint eval (fuel : nat) (s : temps) (en : env) (this : option loc) (e : hexpr) {struct fuel} : M (temps * eres) :=
  match fuel with
  | O => Stuck
  | S f =>
      match e with
      | HVar x =>
          match lookup en x with
          | Some (t, l) => ret (s, LV t l)
          | None => match this, index (u_fields u) x 0 with Some l, Some i => ret (s, LV HR (shift l i)) | _, _ => Stuck end
          end
      | HThis => match this with Some l => ret (s, LV HQ l) | None => Stuck end
      | HZero HR => ret (s, RV (VR n0))
      | HZero HC => ret (s, RV (VC (Cplx n0 n0)))
      | HZero _ => Stuck
      | HNum z => match num_lit z with Some k => ret (s, RV (VR k)) | None => Stuck end
      | HAddr _ => Stuck
      | HNeg e =>
          '(s, r) <-- eval f s en this e ;;
          match type_of r with
          | HR => v <-- rvalue s r ;; match v with VR k => ret (s, RV (VR (nopp k))) | _ => Stuck end
          | _ => call f s Free "operator-" None [r]
          end
      | HNot e =>
          '(s, r) <-- eval f s en this e ;; v <-- rvalue s r ;; match v with VB b => ret (s, RV (VB (negb b))) | _ => Stuck end
      | HBin op a b =>
          '(s, ra) <-- eval f s en this a ;;
          if String.eqb op "&&" then
            va <-- rvalue s ra ;;
            match va with
            | VB b1 => Branch b1
                ('(s, rb) <-- eval f s en this b ;; vb <-- rvalue s rb ;; match vb with VB c => ret (s, RV (VB c)) | _ => Stuck end)
                (ret (s, RV (VB false)))
            | _ => Stuck
            end
          else
            '(s, rb) <-- eval f s en this b ;;
            match type_of ra, type_of rb with
            | HR, HR =>
                va <-- rvalue s ra ;; vb <-- rvalue s rb ;;
                match va, vb with VR x, VR y => match arith op x y with Some v => ret (s, RV v) | None => Stuck end | _, _ => Stuck end
            | _, _ => call f s Free ("operator" ++ op) None [ra; rb]
            end
      | HIdx e (HNum i) =>
          '(s, r) <-- eval f s en this e ;;
          match r with
          | LV (HA _) l => ret (s, LV HR (shift l (Z.to_nat i)))
          | LV (HCA _) l => ret (s, LV HC (shift l (2 * Z.to_nat i)))
          | _ => Stuck
          end
      | HIdx _ _ => Stuck
      | HArr es =>
          '(s, rs) <-- evals f s en this es ;;
          match rs with
          | [a; b; c] => va <-- rvalue s a ;; vb <-- rvalue s b ;; vc <-- rvalue s c ;;
                         match va, vb, vc with VR x, VR y, VR z => ret (s, RV (VL [x; y; z])) | _, _, _ => Stuck end
          | _ => Stuck
          end
      | HMem e m args =>
          '(s, r) <-- eval f s en this e ;;
          match type_of r with
          | HC => match args with
                  | [] => '(s, l) <-- bind_ref s r ;;
                          if String.eqb m "real" then k <-- lload s l ;; ret (s, RV (VR k))
                          else if String.eqb m "imag" then k <-- lload s (shift l 1) ;; ret (s, RV (VR k)) else Stuck
                  | _ => Stuck
                  end
          | HQ => '(s, l) <-- bind_ref s r ;; '(s, rs) <-- evals f s en this args ;; call f s Method m (Some l) rs
          | _ => Stuck
          end
      | HCall g args =>
          if String.eqb g "LOAD_256D_UNALIGNED_AS" then
            match args with
            | [_; HAddr e] => '(s, r) <-- eval f s en this e ;;
                              match r with LV HQ l => '(a, b, c, d) <-- load4 s l ;; ret (s, RV (VV (V4 a b c d))) | _ => Stuck end
            | _ => Stuck
            end
          else if String.eqb g "STORE_256D_UNALIGNED_AS" then
            match args with
            | [_; HAddr e; x] =>
                '(s, r) <-- eval f s en this e ;; '(s, rx) <-- eval f s en this x ;; v <-- rvalue s rx ;;
                match r, v with
                | LV HQ l, VV v => s <-- lstore s l (l0 v) ;; s <-- lstore s (shift l 1) (l1 v) ;; s <-- lstore s (shift l 2) (l2 v) ;; s <-- lstore s (shift l 3) (l3 v) ;; ret (s, Nothing)
                | _, _ => Stuck
                end
            | _ => Stuck
            end
          else
            '(s, rs) <-- evals f s en this args ;;
            if String.eqb g "quaternion" then
              let '(s, l) := alloc s [None; None; None; None] in
              '(s, _) <-- call f s Ctor g (Some l) rs ;; v <-- rvalue s (LV HQ l) ;; ret (s, RV v)
            else if String.eqb g "MULDQ_NN" then
              match rs with
              | [a; b] => va <-- rvalue s a ;; vb <-- rvalue s b ;; match va, vb with VV x, VV y => ret (s, RV (VV (MULDQ_NN x y))) | _, _ => Stuck end
              | _ => Stuck
              end
            else if String.eqb g "std::sqrt" then
              match rs with [a] => va <-- rvalue s a ;; match va with VR x => ret (s, RV (VR (nsqrt x))) | _ => Stuck end | _ => Stuck end
            else if String.eqb g "std::conj" then
              match rs with [a] => va <-- rvalue s a ;; match va with VC z => ret (s, RV (VC (Cplx (re z) (nopp (im z))))) | _ => Stuck end | _ => Stuck end
            else call f s Free g None rs
      end
  end
with evals (fuel : nat) (s : temps) (en : env) (this : option loc) (es : list hexpr) {struct fuel} : M (temps * list eres) :=
  match fuel with
  | O => Stuck
  | S f => match es with
           | [] => ret (s, [])
           | e :: es => '(s, r) <-- eval f s en this e ;; '(s, rs) <-- evals f s en this es ;; ret (s, r :: rs)
           end
  end
(** a call: parameters, member initialisers, body *)
with call (fuel : nat) (s : temps) (k : kind) (g : string) (this : option loc) (args : list eres) {struct fuel} : M (temps * eres) :=
  match fuel with
  | O => Stuck
  | S f =>
      match resolve k g (map type_of args) with
      | None => Stuck
      | Some h =>
          '(s, en) <-- params f s (h_params h) args ;;
          s <-- inits f s en this (h_inits h) ;;
          '(s, r) <-- exec f s en this (h_body h) ;;
          match h_ret h with
          | HVoid => ret (s, Nothing)
          | t => if h_retref h then match r with LV _ _ => ret (s, r) | _ => Stuck end
                 else v <-- rvalue s r ;; ret (s, RV v)
          end
      end
  end
(** reference parameters are bound to the argument, value parameters are copies; a missing argument is the default one *)
with params (fuel : nat) (s : temps) (ps : list hparam) (args : list eres) {struct fuel} : M (temps * env) :=
  match fuel with
  | O => Stuck
  | S f =>
      match ps with
      | [] => ret (s, [])
      | p :: ps =>
          '(s, a) <-- (match args, p_def p with a :: _, _ => ret (s, a) | [], Some d => eval f s [] None d | [], None => Stuck end) ;;
          '(s, l) <-- (if p_ref p then bind_ref s a else v <-- rvalue s a ;; bind_ref s (RV v)) ;;
          '(s, en) <-- params f s ps (tl args) ;;
          ret (s, (p_name p, (p_ty p, l)) :: en)
      end
  end
with inits (fuel : nat) (s : temps) (en : env) (this : option loc) (is_ : list (string * list hexpr)) {struct fuel} : M temps :=
  match fuel with
  | O => Stuck
  | S f =>
      match is_ with
      | [] => ret s
      | (x, es) :: is_ =>
          '(s, rs) <-- evals f s en this es ;;
          s <-- (if String.eqb x "quaternion" then '(s, _) <-- call f s Ctor x this rs ;; ret s
                 else match index (u_fields u) x 0, this, rs with
                      | Some i, Some l, [a] => v <-- rvalue s a ;; match v with VR k => lstore s (shift l i) k | _ => Stuck end
                      | _, _, _ => Stuck
                      end) ;;
          inits f s en this is_
      end
  end
with exec (fuel : nat) (s : temps) (en : env) (this : option loc) (ss : list hstmt) {struct fuel} : M (temps * eres) :=
  match fuel with
  | O => Stuck
  | S f =>
      match ss with
      | [] => ret (s, Nothing)
      | HRet e :: _ => eval f s en this e
      | HExpr e :: ss => '(s, _) <-- eval f s en this e ;; exec f s en this ss
      | HDecl t x i :: ss =>
          '(s, l) <-- (match t, i with
                       | HQ, None => let '(s, l) := alloc s [None; None; None; None] in '(s, _) <-- call f s Ctor "quaternion" (Some l) [] ;; ret (s, l)
                       | _, Some e =>
                           '(s, r) <-- eval f s en this e ;;
                           if htype_eqb (type_of r) t then v <-- rvalue s r ;; bind_ref s (RV v) else Stuck   (* copy; for a quaternion the defaulted copy constructor *)
                       | _, None => Stuck
                       end) ;;
          exec f s ((x, (t, l)) :: en) this ss
      | HAsg op a e :: ss =>
          '(s, ra) <-- eval f s en this a ;;
          '(s, re_) <-- eval f s en this e ;;
          s <-- (match ra, type_of re_ with
                 | LV HR l, HR =>
                     if String.eqb op "=" then v <-- rvalue s re_ ;; match v with VR k => lstore s l k | _ => Stuck end
                     else
                       x <-- lload s l ;; v <-- rvalue s re_ ;;
                       match v with
                       | VR k => match arith (substring 0 1 op) x k with Some (VR w) => lstore s l w | _ => Stuck end
                       | _ => Stuck
                       end
                 | LV HQ l, HQ =>
                     if String.eqb op "=" then assign4 s l re_   (* the defaulted copy assignment is a better match than the template *)
                     else '(s, _) <-- call f s Method ("operator" ++ op) (Some l) [re_] ;; ret s
                 | LV HQ l, _ => '(s, _) <-- call f s Method ("operator" ++ op) (Some l) [re_] ;; ret s
                 | _, _ => Stuck
                 end) ;;
          exec f s en this ss
      end
  end.
End H.
Arguments hval K : clear implicits. Arguments eres K : clear implicits.
