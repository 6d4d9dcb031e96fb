(** Calls of the public routines of the default build on one memory of doubles, and their contracts; continues SpecCalls.v.  Independent of the kernels. *)
From Coq Require Import ZArith Ascii List.
From Verif Require Import Num Res Spec SpecCalls.
Local Open Scope Z_scope.

Section S.
Context {K : num}.
Local Notation mem := (arr K).
(** a matrix with row stride inc at address p *)
Definition imat_at (M : mem) (p ld inc i j : Z) : quat K := get (quat_at M p (i * inc + j * ld)).
Definition has_imat (M : mem) (p ld inc m n : Z) : Prop := forall i j, 0 <= i < m -> 0 <= j < n -> quat_at M p (i * inc + j * ld) <> None.
Definition imat_cells (p ld inc m n z : Z) : Prop := exists i j t, 0 <= i < m /\ 0 <= j < n /\ 0 <= t < 4 /\ z = p + 4 * (i * inc + j * ld) + t.

(** a public call; the addresses count doubles.  GEMV (real ALPHA and BETA), GER and GEMM as in SpecCalls.v *)
Inductive pcall :=
| PSwap (n x incx y incy : Z)
| PCopy (n x incx y incy : Z)
| PScal (side : ascii) (n : Z) (alpha : scal K) (x incx : Z)
| PAxpy (side : ascii) (n : Z) (alpha : scal K) (x incx y incy : Z)
| PDot (cj : bool) (n x incx y incy : Z)                                    (* returns the product *)
| PScalm (side : ascii) (m n : Z) (alpha : scal K) (a lda inca : Z)
| PAxpym (side : ascii) (m n : Z) (alpha : scal K) (a lda inca b ldb incb : Z)
| PGemv (trans : ascii) (m n : Z) (alpha : K) (a lda x incx : Z) (beta : K) (y incy : Z)
| PGer (cj : bool) (m n : Z) (alpha : scal K) (pal x incx y incy a lda : Z)
| PGemm (ta tb : ascii) (m n k : Z) (alpha : scal K) (pal a lda b ldb : Z) (beta : scal K) (pbe c ldc : Z).

Definition preads (c : pcall) (z : Z) : Prop :=
  match c with
  | PSwap _ _ _ _ _ | PScal _ _ _ _ _ | PScalm _ _ _ _ _ _ _ => False
  | PCopy n x incx y incy => vec_cells x n incx z
  | PAxpy _ n _ x incx _ _ => vec_cells x n incx z
  | PDot _ n x incx y incy => vec_cells x n incx z \/ vec_cells y n incy z
  | PAxpym _ m n _ a lda inca _ _ _ => imat_cells a lda inca m n z
  | PGemv t m n al a lda x incx be y incy => reads (KGemv t m n al a lda x incx be y incy) z
  | PGer cj m n al pal x incx y incy a lda => reads (KGer cj m n al pal x incx y incy a lda) z
  | PGemm ta tb m n k al pal a lda b ldb be pbe c ldc => reads (KGemm ta tb m n k al pal a lda b ldb be pbe c ldc) z
  end.
Definition pwrites (c : pcall) (z : Z) : Prop :=
  match c with
  | PSwap n x incx y incy => vec_cells x n incx z \/ vec_cells y n incy z
  | PCopy n x incx y incy => vec_cells y n incy z
  | PScal _ n _ x incx => vec_cells x n incx z
  | PAxpy _ n _ _ _ y incy => vec_cells y n incy z
  | PDot _ _ _ _ _ _ => False
  | PScalm _ m n _ a lda inca => imat_cells a lda inca m n z
  | PAxpym _ m n _ _ _ _ b ldb incb => imat_cells b ldb incb m n z
  | PGemv t m n al a lda x incx be y incy => writes (KGemv t m n al a lda x incx be y incy) z
  | PGer cj m n al pal x incx y incy a lda => writes (KGer cj m n al pal x incx y incy a lda) z
  | PGemm ta tb m n k al pal a lda b ldb be pbe c ldc => writes (KGemm ta tb m n k al pal a lda b ldb be pbe c ldc) z
  end.
Definition ppre (M : mem) (c : pcall) : Prop :=
  match c with
  | PSwap n x incx y incy => 0 < incx /\ 0 < incy /\ has_vec M x n incx /\ has_vec M y n incy /\ (forall z, vec_cells x n incx z -> ~ vec_cells y n incy z)
  | PCopy n x incx y incy => 0 < incx /\ 0 < incy /\ has_vec M x n incx /\ has_vec M y n incy
  | PScal s n al x incx => side_char s <> None /\ 0 < incx /\ has_vec M x n incx
  | PAxpy s n al x incx y incy => side_char s <> None /\ 0 < incx /\ 0 < incy /\ has_vec M x n incx /\ has_vec M y n incy
  | PDot _ n x incx y incy => 0 < incx /\ 0 < incy /\ has_vec M x n incx /\ has_vec M y n incy
  | PScalm s m n al a lda inca => side_char s <> None /\ 0 < inca /\ disjoint_mat lda inca m n /\ has_imat M a lda inca m n
  | PAxpym s m n al a lda inca b ldb incb =>
      side_char s <> None /\ 0 < inca /\ 0 < incb /\ disjoint_mat ldb incb m n /\ has_imat M a lda inca m n /\ has_imat M b ldb incb m n /\
      (forall d, al = SH (Quat n0 n0 n0 d) -> d = n0)
  | PGemv t m n al a lda x incx be y incy => pre M (KGemv t m n al a lda x incx be y incy)
  | PGer cj m n al pal x incx y incy a lda => pre M (KGer cj m n al pal x incx y incy a lda)
  | PGemm ta tb m n k al pal a lda b ldb be pbe c ldc => pre M (KGemm ta tb m n k al pal a lda b ldb be pbe c ldc)
  end.
(** the results in M', from the operands in M, and the value r the call returns (None: none) *)
Definition ppost (M : mem) (c : pcall) (r : option (quat K)) (M' : mem) : Prop :=
  match c with
  | PSwap n x incx y incy => r = None /\ forall i, 0 <= i < n ->
      quat_at M' x (vpos n incx i) = Some (vec_at M y n incy i) /\ quat_at M' y (vpos n incy i) = Some (vec_at M x n incx i)
  | PCopy n x incx y incy => r = None /\ forall i, 0 <= i < n -> quat_at M' y (vpos n incy i) = Some (vec_at M x n incx i)
  | PScal s n al x incx => r = None /\ forall i sd, side_char s = Some sd -> 0 <= i < n ->
      quat_at M' x (vpos n incx i) = Some (Hside sd (emb al) (vec_at M x n incx i))
  | PAxpy s n al x incx y incy => r = None /\ forall i sd, side_char s = Some sd -> 0 <= i < n ->
      quat_at M' y (vpos n incy i) = Some (Hadd (vec_at M y n incy i) (Hside sd (emb al) (vec_at M x n incx i)))
  | PDot cj n x incx y incy =>
      r = Some (Hsum n (fun i => Hmul (if cj : bool then Hconj (vec_at M x n incx i) else vec_at M x n incx i) (vec_at M y n incy i)))
  | PScalm s m n al a lda inca => r = None /\ forall i j sd, side_char s = Some sd -> 0 <= i < m -> 0 <= j < n ->
      quat_at M' a (i * inca + j * lda) = Some (Hside sd (emb al) (imat_at M a lda inca i j))
  | PAxpym s m n al a lda inca b ldb incb => r = None /\ forall i j sd, side_char s = Some sd -> 0 <= i < m -> 0 <= j < n ->
      quat_at M' b (i * incb + j * ldb) = Some (Hadd (imat_at M b ldb incb i j) (Hside sd (emb al) (imat_at M a lda inca i j)))
  | PGemv t m n al a lda x incx be y incy => r = None /\ post M M' (KGemv t m n al a lda x incx be y incy)
  | PGer cj m n al pal x incx y incy a lda => r = None /\ post M M' (KGer cj m n al pal x incx y incy a lda)
  | PGemm ta tb m n k al pal a lda b ldb be pbe c ldc => r = None /\ post M M' (KGemm ta tb m n k al pal a lda b ldb be pbe c ldc)
  end.
End S.
Arguments pcall : clear implicits.
