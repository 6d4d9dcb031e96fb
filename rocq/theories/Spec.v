(** Independent specification: textbook quaternions, sums, strided vectors, matrix windows.
    Nothing here refers to the code. *)
From Coq Require Import ZArith Ascii List.
From Verif Require Import Num Res.
Local Open Scope Z_scope.

Section S.
Context {K : num}.
Local Notation H := (quat K).

(** ** Quaternion algebra in scalar/vector form: q = (a, v) *)
Definition v3 : Type := K * K * K.
Definition dot3 (u v : v3) : K :=
  let '(u1, u2, u3) := u in let '(w1, w2, w3) := v in (u1 * w1 + u2 * w2 + u3 * w3)%num.
Definition cross3 (u v : v3) : v3 :=
  let '(u1, u2, u3) := u in let '(w1, w2, w3) := v in
  ((u2 * w3 - u3 * w2)%num, (u3 * w1 - u1 * w3)%num, (u1 * w2 - u2 * w1)%num).
Definition scale3 (a : K) (u : v3) : v3 :=
  let '(u1, u2, u3) := u in ((a * u1)%num, (a * u2)%num, (a * u3)%num).
Definition add3 (u v : v3) : v3 :=
  let '(u1, u2, u3) := u in let '(w1, w2, w3) := v in ((u1 + w1)%num, (u2 + w2)%num, (u3 + w3)%num).
Definition scal_part (q : H) : K := qr q.
Definition vec_part (q : H) : v3 := (qi q, qj q, qk q).
Definition mkH (a : K) (v : v3) : H := let '(x, y, z) := v in Quat a x y z.

(** Hamilton: (a,v)(b,w) = (ab - v.w, aw + bv + v x w) *)
Definition Hmul (p q : H) : H :=
  mkH (scal_part p * scal_part q - dot3 (vec_part p) (vec_part q))%num
      (add3 (add3 (scale3 (scal_part p) (vec_part q)) (scale3 (scal_part q) (vec_part p)))
            (cross3 (vec_part p) (vec_part q))).
Definition Hadd (p q : H) : H := Quat (qr p + qr q)%num (qi p + qi q)%num (qj p + qj q)%num (qk p + qk q)%num.
Definition Hopp (p : H) : H := Quat (- qr p)%num (- qi p)%num (- qj p)%num (- qk p)%num.
Definition Hsub (p q : H) : H := Quat (qr p - qr q)%num (qi p - qi q)%num (qj p - qj q)%num (qk p - qk q)%num.
Definition H0 : H := Quat n0 n0 n0 n0.
Definition H1 : H := Quat n1 n0 n0 n0.
Definition Hi : H := Quat n0 n1 n0 n0.
Definition Hj : H := Quat n0 n0 n1 n0.
Definition Hk : H := Quat n0 n0 n0 n1.
Definition Hconj (p : H) : H := Quat (qr p) (- qi p)%num (- qj p)%num (- qk p)%num.
(** natural embeddings of reals and complex numbers *)
Definition Hre (a : K) : H := Quat a n0 n0 n0.
Definition Hc (z : cplx K) : H := Quat (re z) (im z) n0 n0.
(** |q|^2 *)
Definition Hnsq (q : H) : K := (qr q * qr q + qi q * qi q + qj q * qj q + qk q * qk q)%num.

(** value of a scalar argument of a BLAS call *)
Definition emb (s : scal K) : H := match s with SR a => Hre a | SC z => Hc z | SH q => q end.

(** ** Finite sums: [Hsum n f] = f 0 + ... + f (n-1) *)
Fixpoint Hsum_nat (n : nat) (f : Z -> H) : H :=
  match n with O => H0 | S n' => Hadd (Hsum_nat n' f) (f (Z.of_nat n')) end.
Definition Hsum (n : Z) (f : Z -> H) : H := Hsum_nat (Z.to_nat n) f.

(** ** The four matrix operations; element (i,j) of op(A) *)
Inductive mop := OpN | OpT | OpC | OpR.
Definition opm (o : mop) (A : Z -> Z -> H) (i j : Z) : H :=
  match o with
  | OpN => A i j | OpT => A j i | OpC => Hconj (A j i) | OpR => Hconj (A i j)
  end.
(** element (i,j) of alpha * opA(A) * opB(B) + beta * C, inner dimension k *)
Definition gemm_elt (oa ob : mop) (k : Z) (alpha : H) (A B : Z -> Z -> H) (beta : H) (C : Z -> Z -> H) (i j : Z) : H :=
  Hadd (Hmul alpha (Hsum k (fun l => Hmul (opm oa A i l) (opm ob B l j)))) (Hmul beta (C i j)).
(** element i of alpha * op(A) * x + beta * y, n the length of x *)
Definition gemv_elt (o : mop) (n : Z) (alpha : H) (A : Z -> Z -> H) (x : Z -> H) (beta : H) (y : Z -> H) (i : Z) : H :=
  Hadd (Hmul alpha (Hsum n (fun j => Hmul (opm o A i j) (x j)))) (Hmul beta (y i)).
(** element (i,j) of A + alpha * x * y^T *)
Definition geru_elt (alpha : H) (x y : Z -> H) (A : Z -> Z -> H) (i j : Z) : H :=
  Hadd (A i j) (Hmul alpha (Hmul (x i) (y j))).
(** element (i,j) of A + alpha * x * y^H *)
Definition gerc_elt (alpha : H) (x y : Z -> H) (A : Z -> Z -> H) (i j : Z) : H :=
  Hadd (A i j) (Hmul alpha (Hmul (x i) (Hconj (y j)))).
(** multiplication on a given side *)
Inductive side := Lft | Rgt.
Definition Hside (s : side) (alpha x : H) : H := match s with Lft => Hmul alpha x | Rgt => Hmul x alpha end.
End S.

(** documented meaning of the SIDE character (upper case) *)
Definition side_char (c : ascii) : option side :=
  if Ascii.eqb c "L" then Some Lft else if Ascii.eqb c "R" then Some Rgt else None.

(** documented meaning of the TRANS character (upper case) for level 2 and 3 *)
Definition trans_char (c : ascii) : option mop :=
  if Ascii.eqb c "N" then Some OpN else if Ascii.eqb c "T" then Some OpT else if Ascii.eqb c "C" then Some OpC else None.
(** the optimised GEMM also accepts 'R': conjugation without transposition *)
Definition trans_char_r (c : ascii) : option mop :=
  if Ascii.eqb c "R" then Some OpR else trans_char c.
(** number of rows / columns of op(A) when A is m x n *)
Definition op_rows (o : mop) (m n : Z) : Z := match o with OpN | OpR => m | OpT | OpC => n end.
Definition op_cols (o : mop) (m n : Z) : Z := match o with OpN | OpR => n | OpT | OpC => m end.

(** ** Storage *)
Section Store.
Context {A : Type}.
(** BLAS position of logical element i of an n-vector with stride inc (either sign). *)
Definition vpos (n inc i : Z) : Z := if inc <? 0 then (i - (n - 1)) * inc else i * inc.
(** x holds the n-vector v with stride inc *)
Definition holds_vec (x : arr A) (n inc : Z) (v : Z -> A) : Prop :=
  forall i, 0 <= i < n -> x (vpos n inc i) = Some (v i).
(** a holds the m x n matrix f in column-major order with leading dimension ldim *)
Definition holds_mat (a : arr A) (ldim m n : Z) (f : Z -> Z -> A) : Prop :=
  forall i j, 0 <= i < m -> 0 <= j < n -> a (i + j * ldim) = Some (f i j).
(** matrix with a row stride *)
Definition holds_matinc (a : arr A) (ldim inc m n : Z) (f : Z -> Z -> A) : Prop :=
  forall i j, 0 <= i < m -> 0 <= j < n -> a (i * inc + j * ldim) = Some (f i j).
(** nothing changed outside the n elements of the vector *)
Definition same_but_vec (x x' : arr A) (n inc : Z) : Prop :=
  forall p, (forall i, 0 <= i < n -> p <> vpos n inc i) -> x' p = x p.
(** nothing changed outside the m x n window *)
Definition same_but_mat (a a' : arr A) (ldim m n : Z) : Prop :=
  forall p, (forall i j, 0 <= i < m -> 0 <= j < n -> p <> i + j * ldim) -> a' p = a p.
Definition same_but_matinc (a a' : arr A) (ldim inc m n : Z) : Prop :=
  forall p, (forall i j, 0 <= i < m -> 0 <= j < n -> p <> i * inc + j * ldim) -> a' p = a p.
(** the m x n elements occupy different positions *)
Definition disjoint_mat (ldim inc m n : Z) : Prop :=
  forall i j i' j', 0 <= i < m -> 0 <= j < n -> 0 <= i' < m -> 0 <= j' < n ->
    i * inc + j * ldim = i' * inc + j' * ldim -> i = i' /\ j = j'.
(** an array holding exactly the given list from position 0 (for examples) *)
Definition arr_list (l : list A) : arr A := fun p => if p <? 0 then None else nth_error l (Z.to_nat p).
(** nothing changed at all *)
Definition same (x x' : arr A) : Prop := forall p, x' p = x p.
End Store.

(** ** Packed panels: an R x len matrix F stored two rows at a time.  Elements 2*(g*len+l) and 2*(g*len+l)+1 hold the pair
    (F (2g) l, F (2g+1) l); a missing last row reads as zero. *)
Section Packed.
Context {K : num}.
Definition padded (R : Z) (F : Z -> Z -> quat K) (r l : Z) : quat K := if r <? R then F r l else H0.
(** A side: the complex halves of the two quaternions *)
Definition pairA (x y : quat K) : quat K * quat K := (Quat (qr x) (qi x) (qr y) (qi y), Quat (qj x) (qk x) (qj y) (qk y)).
(** B side: equal components next to each other *)
Definition pairB (x y : quat K) : quat K * quat K := (Quat (qr x) (qr y) (qj x) (qj y), Quat (qi x) (qi y) (qk x) (qk y)).
Definition packed (pair : quat K -> quat K -> quat K * quat K) (R len : Z) (F : Z -> Z -> quat K) (buf : arr (quat K)) : Prop :=
  forall g l, 0 <= g -> 2 * g < R -> 0 <= l < len ->
    buf (2 * (g * len + l)) = Some (fst (pair (padded R F (2 * g) l) (padded R F (2 * g + 1) l))) /\
    buf (2 * (g * len + l) + 1) = Some (snd (pair (padded R F (2 * g) l) (padded R F (2 * g + 1) l))).
End Packed.
