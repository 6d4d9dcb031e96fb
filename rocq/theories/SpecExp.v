(** Independent specification of the complex and real matrix representations of quaternion matrices. *)
From Coq Require Import ZArith Ascii.
From Verif Require Import Num Res Spec.
Local Open Scope Z_scope.

Section S.
Context {K : num}.
Local Open Scope num_scope.
(** complex numbers *)
Definition Zadd (x y : cplx K) : cplx K := Cplx (re x + re y) (im x + im y).
Definition Zmul (x y : cplx K) : cplx K := Cplx (re x * re y - im x * im y) (re x * im y + im x * re y).
Definition Zconj (x : cplx K) : cplx K := Cplx (re x) (- im x).
Definition Zopp (x : cplx K) : cplx K := Cplx (- re x) (- im x).
Definition Z0 : cplx K := Cplx n0 n0.
Fixpoint Zsum_nat (n : nat) (f : Z -> cplx K) : cplx K :=
  match n with O => Z0 | S n' => Zadd (Zsum_nat n' f) (f (Z.of_nat n')) end.
Definition Zsum (n : Z) f := Zsum_nat (Z.to_nat n) f.
Fixpoint Ksum_nat (n : nat) (f : Z -> K) : K :=
  match n with O => n0 | S n' => Ksum_nat n' f + f (Z.of_nat n') end.
Definition Ksum (n : Z) f := Ksum_nat (Z.to_nat n) f.
End S.

Section B.
Context {K : num}.
(** q = z + w j with z = a+bi, w = c+di is represented by [[z, w], [-conj w, conj z]] *)
Definition cblock (q : quat K) (d e : Z) : cplx K :=
  let z := Cplx (qr q) (qi q) in
  let w := Cplx (qj q) (qk q) in
  if d =? 0 then (if e =? 0 then z else w) else (if e =? 0 then Zopp (Zconj w) else Zconj z).
(** q = a+bi+cj+dk is represented by the 4x4 real matrix *)
Definition rblock (q : quat K) (d e : Z) : K :=
  let 'Quat a b c k := q in
  match d, e with
  | 0, 0 => a | 0, 1 => b | 0, 2 => c | 0, _ => k
  | 1, 0 => nopp b | 1, 1 => a | 1, 2 => nopp k | 1, _ => c
  | 2, 0 => nopp c | 2, 1 => k | 2, 2 => a | 2, _ => nopp b
  | _, 0 => nopp k | _, 1 => nopp c | _, 2 => b | _, _ => a
  end.
End B.

(** storage orders of the complex representation: 'F' each quaternion becomes a 2x2 tile;
    'S' four M x N blocks.  [brow o M i d]: row (or column) of the expanded matrix for block row d of element row i *)
Inductive border := BF | BS.
Definition brow (o : border) (M i d : Z) : Z := match o with BF => 2 * i + d | BS => i + d * M end.

(** meaning of the ORDER character *)
Definition order_char (c : ascii) : option border :=
  if Ascii.eqb c "F" then Some BF else if Ascii.eqb c "S" then Some BS else None.

(** b holds the complex representation of the M x N quaternion matrix A, leading dimension ldb *)
Definition holds_cexp {K : num} (o : border) (b : arr (cplx K)) (ldb M N : Z) (A : Z -> Z -> quat K) : Prop :=
  forall i j d e, 0 <= i < M -> 0 <= j < N -> 0 <= d < 2 -> 0 <= e < 2 ->
    b (brow o M i d + brow o N j e * ldb) = Some (cblock (A i j) d e).
Definition holds_rexp {K : num} (b : arr K) (ldb M N : Z) (A : Z -> Z -> quat K) : Prop :=
  forall i j d e, 0 <= i < M -> 0 <= j < N -> 0 <= d < 4 -> 0 <= e < 4 ->
    b ((4 * i + d) + (4 * j + e) * ldb) = Some (rblock (A i j) d e).
(** every element of the window is allocated *)
Definition alloc_mat {A} (b : arr A) (ldb m n : Z) : Prop :=
  forall r c, 0 <= r < m -> 0 <= c < n -> b (r + c * ldb) <> None.
