(** Meaning of the trees of CSyntax.v.  Integers are unbounded (C38 is about overflow); / and % truncate.  Memory is a list of blocks, each with a byte
    address; a pointer is (block or local variable, element, double within a quaternion element, pointed-to type).  A 256-bit access must
    start at a quaternion, a 128-bit one at half of one: any other makes the run stuck, as does a type error.  Outcomes: [None] stuck or out of fuel, [Some UB] undefined
    behaviour (access outside a block, misaligned aligned access, use of an unset variable, division by zero), [Some Abort] a failed assert.
    Reference parameters are copied in and back: a call whose variable arguments are not pairwise different is stuck, so this cannot be observed. *)
From Coq Require Import ZArith Bool Ascii String List.
From Verif Require Import Num Res MQuat MSimd MOptL1 MOptGemm CSyntax.
Import ListNotations.
Local Open Scope Z_scope.

Section C.
Context {K : num}.
Inductive base := OnQ (b : nat) | OnK (b : nat) | OnC (b : nat) | OnVar (s : nat).
Inductive ptr := Ptr (b : base) (e r : Z) (t : ctype).
Inductive val :=
| VZ (z : Z) | VB (b : bool) | VChr (c : ascii) | VK (k : K) | VC (z : cplx K) | VQ (q : quat K)
| VM (v : m256 K) | VH (v : m128 K) | VU (v : m128 K)   (* VU: upper half undefined *)
| VMask (b0 b1 b2 b3 : bool) | VP (p : ptr).
Inductive data := DQ (m : arr (quat K)) | DK (m : arr K) | DC (m : arr (cplx K)).
Local Notation mem := (list (Z * data)).
Local Notation env := (list (option val)).
Local Notation st := (prod env mem).

Local Notation M A := (option (res A)).
Definition mret {A} (a : A) : M A := Some (Ok a).
Definition mb {A B} (x : M A) (f : A -> M B) : M B :=
  match x with Some (Ok a) => f a | Some UB => Some UB | Some Abort => Some Abort | None => None end.
Definition lift {A} (r : res A) : M A := Some r.

(** p + n for a pointer of doubles inside quaternions: carry into the element *)
Definition dstep (r n : Z) : Z * Z := ((r + n) / 4, (r + n) mod 4).
Definition padd (p : ptr) (n : Z) : M val :=
  match p with
  | Ptr (OnQ b) e r TQuat => mret (VP (Ptr (OnQ b) (e + n) r TQuat))
  | Ptr (OnQ b) e r TDouble => let '(c, r') := dstep r n in mret (VP (Ptr (OnQ b) (e + c) r' TDouble))
  | Ptr (OnK b) e r TDouble => mret (VP (Ptr (OnK b) (e + n) r TDouble))
  | Ptr (OnC b) e r TCplx => mret (VP (Ptr (OnC b) (e + n) r TCplx))
  | _ => None
  end.
Definition qblock (m : mem) (b : nat) : option (Z * arr (quat K)) :=
  match nth_error m b with Some (a, DQ q) => Some (a, q) | _ => None end.
(** the byte address of a pointer into memory: 32 bytes per quaternion, 8 per double *)
Definition addr_of (m : mem) (p : ptr) : option Z :=
  match p with
  | Ptr (OnQ b) e r _ => match qblock m b with Some (a, _) => Some (a + 32 * e + 8 * r) | None => None end
  | _ => None
  end.
Fixpoint get (en : env) (s : nat) : M val :=
  match en with
  | [] => None
  | x :: r => match s with O => match x with Some v => mret v | None => Some UB end | S s => get r s end
  end.
Fixpoint put (en : env) (s : nat) (v : option val) : env :=
  match en with
  | [] => []
  | x :: r => match s with O => v :: r | S s => x :: put r s v end
  end.

(** conversion to a declared type *)
Definition convert (t : ctype) (v : val) : M val :=
  match t, v with
  | TAuto, _ => mret v
  | TInt, VZ _ => mret v
  | TULong, VZ _ => mret v
  | TBool, VB _ => mret v
  | TBool, VZ z => mret (VB (negb (z =? 0)))
  | TChar, VChr _ => mret v
  | TDouble, VK _ => mret v
  | TCplx, VC _ => mret v
  | TCplx, VK k => mret (VC (Cplx k n0))
  | TQuat, VQ _ => mret v
  | TQuat, VK k => mret (VQ (q_of_real k))
  | TQuat, VC z => mret (VQ (q_of_cplx z))
  | TM256, VM _ => mret v
  | TM128, VH _ => mret v
  | TM256i, VMask _ _ _ _ => mret v
  | TPtr _, VP _ => mret v
  | _, _ => None
  end.
Definition cast (m : mem) (t : ctype) (v : val) : M val :=
  match t, v with
  | TPtr t, VP (Ptr b e r _) => mret (VP (Ptr b e r t))
  | TULong, VP p => match addr_of m p with Some a => mret (VZ a) | None => None end
  | _, _ => convert t v
  end.
Definition truth (v : val) : M bool :=
  match v with VB b => mret b | VZ z => mret (negb (z =? 0)) | _ => None end.

(** mask words of _mm256_set_epi64x: 0 or the sign bit *)
Definition signbit (v : val) : option bool :=
  match v with VZ z => if z =? 0 then Some false else if z =? 0x8000000000000000 then Some true else None | _ => None end.

Definition intrin (en : env) (m : mem) (i : intr) (vs : list val) : M val :=
  match i, vs with
  | I_load256 al, [VP (Ptr (OnQ b) e Z0 TDouble)] => match qblock m b with Some (a, q) => lift (v <- vld al a q e ;; Ok (VM v)) | None => None end
  | I_load256 false, [VP (Ptr (OnVar s) Z0 Z0 TDouble)] => mb (get en s) (fun v => match v with VQ q => mret (VM (v_of_q q)) | _ => None end)
  | I_load128 true, [VP (Ptr (OnQ b) e r TDouble)] =>
      match qblock m b, r with
      | Some (a, q), Z0 => lift (v <- vld128 a q e false ;; Ok (VH v))
      | Some (a, q), Zpos (xO xH) => lift (v <- vld128 a q e true ;; Ok (VH v))
      | _, _ => None
      end
  | I_load128 false, [VP (Ptr (OnVar s) Z0 Z0 TDouble)] => mb (get en s) (fun v => match v with VC z => mret (VH (V2 (re z) (im z))) | _ => None end)
  | I_broadcast, [VP (Ptr (OnVar s) Z0 Z0 TDouble)] => mb (get en s) (fun v => match v with VK k => mret (VM (mm256_broadcast k)) | _ => None end)
  | I_setzero, [] => mret (VM mm256_zero)
  | I_add, [VM a; VM b] => mret (VM (mm256_add a b))
  | I_sub, [VM a; VM b] => mret (VM (V4 (nsub (l0 a) (l0 b)) (nsub (l1 a) (l1 b)) (nsub (l2 a) (l2 b)) (nsub (l3 a) (l3 b))))
  | I_mul, [VM a; VM b] => mret (VM (mm256_mul a b))
  | I_fmadd, [VM a; VM b; VM c] => mret (VM (FMA_256D a b c))
  | I_fmsub, [VM a; VM b; VM c] => mret (VM (FMS_256D a b c))
  | I_fnmadd, [VM a; VM b; VM c] => mret (VM (FNMA_256D a b c))
  | I_hsub, [VM a; VM b] => mret (VM (mm256_hsub a b))
  | I_xor, [VM a; VMask b0 b1 b2 b3] => mret (VM (mm256_xorsign a b0 b1 b2 b3))
  | I_unpacklo, [VM a; VM b] => mret (VM (mm256_unpacklo a b))
  | I_unpackhi, [VM a; VM b] => mret (VM (mm256_unpackhi a b))
  | I_shuffle256, [VM a; VM b; VZ c] => mret (VM (mm256_shuffle a b c))
  | I_shuffle128, [VH a; VH b; VZ c] => mret (VH (mm_shuffle a b c))
  | I_permute, [VM a; VZ c] => mret (VM (mm256_permute a c))
  | I_permute2f128, [VM a; VM b; VZ c] => mret (VM (mm256_permute2f128 a b c))
  | I_lo128, [VM a] => mret (VH (lo a))
  | I_extract128, [VM a; VZ c] => match c with Z0 => mret (VH (lo a)) | Zpos xH => mret (VH (hi a)) | _ => None end
  | I_widen128, [VH a] => mret (VU a)
  | I_insert128, [VU a; VH b; VZ c] => match c with Zpos xH => mret (VM (set256 a b)) | _ => None end
  | I_same, [v] => mret v
  | I_setmask, [e3; e2; e1; e0] =>     (* highest lane first *)
      match signbit e0, signbit e1, signbit e2, signbit e3 with Some b0, Some b1, Some b2, Some b3 => mret (VMask b0 b1 b2 b3) | _, _, _, _ => None end
  | I_conj, [VC z] => mret (VC (smartconj_c z))
  | I_conj, [VQ q] => mret (VQ (q_conj q))
  | I_smartconj, [VK k] => mret (VK (smartconj_r k))
  | I_smartconj, [VC z] => mret (VC (smartconj_c z))
  | I_smartconj, [VQ q] => mret (VQ (smartconj_q q))
  | I_ctor, [VK a; VK b; VK c; VK d] => mret (VQ (Quat a b c d))
  | I_min, [VZ a; VZ b] => mret (VZ (Z.min a b))
  | _, _ => None
  end.

(** overloaded operators on real, complex and quaternion values (include/haxx/haxx_binary_op.hpp and std::complex);
    only those that occur on the texts' types are given a meaning *)
Definition arith (o : binop) (a b : val) : M val :=
  match o, a, b with
  | BAdd, VK x, VK y => mret (VK (nadd x y)) | BSub, VK x, VK y => mret (VK (nsub x y)) | BMul, VK x, VK y => mret (VK (nmul x y))
  | BAdd, VQ x, VQ y => mret (VQ (q_add x y)) | BSub, VQ x, VQ y => mret (VQ (q_sub x y)) | BMul, VQ x, VQ y => mret (VQ (q_mul x y))
  | BMul, VQ x, VK y => mret (VQ (q_mul_r x y)) | BMul, VK x, VQ y => mret (VQ (r_mul_q x y))
  | BMul, VQ x, VC y => mret (VQ (q_mul_c x y)) | BMul, VC x, VQ y => mret (VQ (c_mul_q x y))
  | BEq, VK x, VK y => mret (VB (neqb x y)) | BNe, VK x, VK y => mret (VB (negb (neqb x y)))
  | BEq, VC x, VC y => mret (VB (neqb (re x) (re y) && neqb (im x) (im y)))
  | BNe, VC x, VC y => mret (VB (negb (neqb (re x) (re y) && neqb (im x) (im y))))
  | BEq, VQ x, VQ y => mret (VB (q_eqb x y)) | BNe, VQ x, VQ y => mret (VB (q_neqb x y))
  | _, _, _ => None
  end.
Definition binary (o : binop) (a b : val) : M val :=
  match a, b with
  | VZ x, VZ y =>
      match o with
      | BAdd => mret (VZ (x + y)) | BSub => mret (VZ (x - y)) | BMul => mret (VZ (x * y))
      | BDiv => match y with Z0 => Some UB | _ => mret (VZ (Z.quot x y)) end
      | BMod => match y with Z0 => Some UB | _ => mret (VZ (Z.rem x y)) end
      | BAnd => mret (VZ (Z.land x y))
      | BEq => mret (VB (x =? y)) | BNe => mret (VB (negb (x =? y)))
      | BLt => mret (VB (x <? y)) | BLe => mret (VB (x <=? y)) | BGt => mret (VB (y <? x)) | BGe => mret (VB (y <=? x))
      | BLand | BLor => None
      end
  | VP p, VZ n => match o with BAdd => padd p n | BSub => padd p (- n) | _ => None end
  | VChr c, VChr d => match o with BEq => mret (VB (Ascii.eqb c d)) | BNe => mret (VB (negb (Ascii.eqb c d))) | _ => None end
  | _, _ => arith o a b
  end.
Definition unary (o : unop) (v : val) : M val :=
  match o, v with UNeg, VZ z => mret (VZ (- z)) | UNot, VB b => mret (VB (negb b)) | _, _ => None end.
(** p[i] *)
Definition index (m : mem) (p i : val) : M val :=
  match p, i with
  | VP p, VZ i =>
      mb (padd p i) (fun p => match p with
        | VP (Ptr (OnQ b) e Z0 TQuat) => match nth_error m b with Some (_, DQ q) => lift (v <- ld q e ;; Ok (VQ v)) | _ => None end
        | VP (Ptr (OnK b) e Z0 TDouble) => match nth_error m b with Some (_, DK q) => lift (v <- ld q e ;; Ok (VK v)) | _ => None end
        | VP (Ptr (OnC b) e Z0 TCplx) => match nth_error m b with Some (_, DC q) => lift (v <- ld q e ;; Ok (VC v)) | _ => None end
        | _ => None end)
  | _, _ => None
  end.

Section Run.
(** value-returning call of function number i, and a call for its effects: final values of the parameters and memory *)
Variable fcall : nat -> list val -> mem -> M val.
Variable pcall : nat -> list val -> mem -> M (env * mem).
Variable prm : nat -> list bool.   (* which parameters of function i are references to non-const *)
Variable ext : string -> string -> list val -> mem -> M mem.
Variable fuel : nat.

Fixpoint eval (en : env) (m : mem) (e : expr) {struct e} : M val :=
  let fix evals (l : list expr) : M (list val) :=
    match l with [] => mret [] | a :: l => mb (eval en m a) (fun v => mb (evals l) (fun vs => mret (v :: vs))) end in
  match e with
  | EVar s => get en s
  | EInt z => mret (VZ z)
  | EFlt z => match z with Z0 => mret (VK n0) | Zpos xH => mret (VK n1) | _ => None end
  | EChr c => mret (VChr c)
  | EUn o e => mb (eval en m e) (unary o)
  | EBin BLand a b => mb (mb (eval en m a) truth) (fun x => if x then mb (mb (eval en m b) truth) (fun y => mret (VB y)) else mret (VB false))
  | EBin BLor a b => mb (mb (eval en m a) truth) (fun x => if x then mret (VB true) else mb (mb (eval en m b) truth) (fun y => mret (VB y)))
  | EBin o a b => mb (eval en m a) (fun x => mb (eval en m b) (fun y => binary o x y))
  | ECond c a b => mb (mb (eval en m c) truth) (fun x => if x then eval en m a else eval en m b)
  | EIntr i l => mb (evals l) (intrin en m i)
  | EUser f l => mb (evals l) (fun vs => fcall f vs m)
  | EIdx p i => mb (eval en m p) (fun p => mb (eval en m i) (fun i => index m p i))
  | EAddr s => match get en s with
               | Some (Ok (VK _)) => mret (VP (Ptr (OnVar s) 0 0 TDouble))
               | Some (Ok (VC _)) => mret (VP (Ptr (OnVar s) 0 0 TCplx))
               | Some (Ok (VQ _)) => mret (VP (Ptr (OnVar s) 0 0 TQuat))
               | _ => None
               end
  | ECast t e => mb (eval en m e) (cast m t)
  end.
Fixpoint evals (en : env) (m : mem) (l : list expr) : M (list val) :=
  match l with [] => mret [] | a :: l => mb (eval en m a) (fun v => mb (evals en m l) (fun vs => mret (v :: vs))) end.

Fixpoint mput (m : mem) (b : nat) (d : data) : mem :=
  match m with
  | [] => []
  | x :: r => match b with O => (fst x, d) :: r | S b => x :: mput r b d end
  end.
Definition store256 (s : st) (al : bool) (p v : val) : M st :=
  let '(en, m) := s in
  match p, v with
  | VP (Ptr (OnQ b) e Z0 TDouble), VM v => match qblock m b with Some (a, q) => lift (q <- vst al a q e v ;; Ok (en, mput m b (DQ q))) | None => None end
  | VP (Ptr (OnVar x) Z0 Z0 TDouble), VM v => if al then None else mb (get en x) (fun w => match w with VQ _ => mret (put en x (Some (VQ (q_of_v v))), m) | _ => None end)
  | _, _ => None
  end.
Definition store (m : mem) (p i v : val) : M mem :=
  match p, i with
  | VP p, VZ i =>
      mb (padd p i) (fun p => match p with
        | VP (Ptr (OnQ b) e Z0 TQuat) =>
            match nth_error m b with
            | Some (_, DQ q) => mb (convert TQuat v) (fun v => match v with VQ v => lift (q <- Res.st q e v ;; Ok (mput m b (DQ q))) | _ => None end)
            | _ => None end
        | VP (Ptr (OnK b) e Z0 TDouble) =>
            match nth_error m b, v with Some (_, DK q), VK v => lift (q <- Res.st q e v ;; Ok (mput m b (DK q))) | _, _ => None end
        | _ => None end)
  | _, _ => None
  end.
(** variables passed in a call, and the write-back of reference parameters *)
Definition var_args (l : list expr) : list nat := flat_map (fun e => match e with EVar s => [s] | _ => [] end) l.
Fixpoint distinct (l : list nat) : bool := match l with [] => true | x :: r => negb (existsb (Nat.eqb x) r) && distinct r end.
Fixpoint write_back (en : env) (refs : list bool) (l : list expr) (out : env) : option env :=
  match refs, l, out with
  | [], [], [] => Some en
  | true :: refs, EVar s :: l, v :: out => write_back (put en s v) refs l out
  | false :: refs, _ :: l, _ :: out => write_back en refs l out
  | _, _, _ => None
  end.

Inductive flow := Next | Return (v : option val).
Fixpoint wloop (fuel : nat) (c : st -> M bool) (b : st -> M (st * flow)) (s : st) : M (st * flow) :=
  match fuel with
  | O => None
  | S f => mb (c s) (fun t : bool => if t then mb (b s) (fun '(s', fl) => match fl with Next => wloop f c b s' | _ => mret (s', fl) end) else mret (s, Next))
  end.
Definition test (c : expr) (s : st) : M bool := mb (eval (fst s) (snd s) c) truth.
Fixpoint exec (c : stmt) (s : st) {struct c} : M (st * flow) :=
  let '(en, m) := s in
  match c with
  | SSkip => mret (s, Next)
  | SSeq a b => mb (exec a s) (fun '(s', fl) => match fl with Next => exec b s' | _ => mret (s', fl) end)
  | SUndef x => mret ((put en x None, m), Next)
  | SSet t x e => mb (eval en m e) (fun v => mb (convert t v) (fun v => mret ((put en x (Some v), m), Next)))
  | SAlloc t x al n =>
      mb (eval en m al) (fun al => mb (eval en m n) (fun n => mb (ext "aligned_alloc" "" [al; n] m) (fun m' =>
        match t with TPtr TQuat => mret ((put en x (Some (VP (Ptr (OnQ (List.length m)) 0 0 TQuat))), m'), Next) | _ => None end)))
  | SStoreIdx p i o e =>
      mb (eval en m p) (fun p => mb (eval en m i) (fun i => mb (eval en m e) (fun v =>
        mb (match o with None => mret v | Some o => mb (index m p i) (fun w => binary o w v) end) (fun v =>
          mb (store m p i v) (fun m => mret ((en, m), Next))))))
  | SStore256 al p e => mb (eval en m p) (fun p => mb (eval en m e) (fun v => mb (store256 s al p v) (fun s => mret (s, Next))))
  | SCall f l =>
      if distinct (var_args l) then
        mb (evals en m l) (fun vs => mb (pcall f vs m) (fun '(out, m) =>
          match write_back en (prm f) l out with Some en => mret ((en, m), Next) | None => None end))
      else None
  | SExt f ta l => mb (evals en m l) (fun vs => mb (ext f ta vs m) (fun m => mret ((en, m), Next)))
  | SIf c a b => mb (test c s) (fun t : bool => if t then exec a s else exec b s)
  | SWhile c b => wloop fuel (test c) (exec b) s
  | SDo b c => mb (exec b s) (fun '(s', fl) => match fl with Next => wloop fuel (test c) (exec b) s' | _ => mret (s', fl) end)
  | SRet None => mret (s, Return None)
  | SRet (Some e) => mb (eval en m e) (fun v => mret (s, Return (Some v)))
  | SAssert e => mb (test e s) (fun t : bool => if t then mret (s, Next) else Some Abort)
  end.
End Run.

(** the parameters of a call, converted to their types *)
Fixpoint bind_args (ps : list (ctype * bool)) (vs : list val) : M env :=
  match ps, vs with
  | [], [] => mret []
  | (t, _) :: ps, v :: vs => mb (convert t v) (fun v => mb (bind_args ps vs) (fun l => mret (Some v :: l)))
  | _, _ => None
  end.
Definition refs_of (fs : list func) (i : nat) : list bool := match nth_error fs i with Some f => map snd (f_params f) | None => [] end.
(** function number i on argument values: final values of its parameters, memory, result.  [d] bounds the depth of calls, [fuel] the iterations of each loop *)
Fixpoint run (fs : list func) (ext : string -> string -> list val -> mem -> M mem) (fuel d : nat) (i : nat) (vs : list val) (m : mem) {struct d}
    : M (env * mem * option val) :=
  match d, nth_error fs i with
  | S d, Some f =>
      mb (bind_args (f_params f) vs) (fun ps =>
        let rf := fun i vs m => mb (run fs ext fuel d i vs m) (fun '(_, _, v) => match v with Some v => mret v | None => None end) in
        let rp := fun i vs m => mb (run fs ext fuel d i vs m) (fun '(en, m, _) => mret (en, m)) in
        mb (exec rf rp (refs_of fs) ext fuel (f_body f) ((ps ++ repeat None (f_slots f - List.length ps))%list, m)) (fun '((en, m), fl) =>
          match fl, f_ret f with
          | Return (Some v), t => mb (convert t v) (fun v => mret (firstn (List.length ps) en, m, Some v))
          | Return None, TVoid | Next, TVoid => mret (firstn (List.length ps) en, m, None)
          | _, _ => Some UB
          end))
  | _, _ => None
  end.
Definition no_ext : string -> string -> list val -> mem -> M mem := fun _ _ _ _ => None.
(** a call of the named function of a translation unit (None: it did not compile): memory afterwards and result *)
Fixpoint fnum (fs : list func) (n : string) (i : nat) : option nat :=
  match fs with [] => None | f :: r => if String.eqb (f_name f) n then Some i else fnum r n (S i) end.
Definition ccall (u : option (list func)) ext (fuel : nat) (n : string) (vs : list val) (m : mem) : M (mem * option val) :=
  match u with
  | Some fs => match fnum fs n 0 with
               | Some i => mb (run fs ext fuel (S (List.length fs)) i vs m) (fun '(_, m, v) => mret (m, v))
               | None => None end
  | None => None
  end.
End C.
Arguments val : clear implicits. Arguments data : clear implicits. Arguments flow : clear implicits.
Notation mem K := (list (Z * data K)).
Notation env K := (list (option (val K))).
Notation st K := (prod (env K) (mem K)).
Notation M A := (option (res A)).
