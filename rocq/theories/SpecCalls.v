(** Calls on one memory of doubles, and their contracts: which cells a call reads and writes, what must be there before, what is there afterwards.
    Independent of the kernels. *)
From Coq Require Import ZArith Ascii List.
From Verif Require Import Num Res Spec.
Local Open Scope Z_scope.

Section S.
Context {K : num}.
Local Notation mem := (arr K).
(** the array of quaternions at address p: four consecutive doubles each, real part first *)
Definition quat_at (M : mem) (p : Z) : arr (quat K) := fun e =>
  match M (p + 4 * e), M (p + 4 * e + 1), M (p + 4 * e + 2), M (p + 4 * e + 3) with Some a, Some b, Some c, Some d => Some (Quat a b c d) | _, _, _, _ => None end.
(** the elements of a vector (stride inc) and of a matrix (leading dimension ld) at address p *)
Definition get (o : option (quat K)) : quat K := match o with Some q => q | None => H0 end.
Definition vec_at (M : mem) (p n inc i : Z) : quat K := get (quat_at M p (vpos n inc i)).
Definition mat_at (M : mem) (p ld i j : Z) : quat K := get (quat_at M p (i + j * ld)).
Definition has_vec (M : mem) (p n inc : Z) : Prop := forall i, 0 <= i < n -> quat_at M p (vpos n inc i) <> None.
Definition has_mat (M : mem) (p ld m n : Z) : Prop := forall i j, 0 <= i < m -> 0 <= j < n -> quat_at M p (i + j * ld) <> None.
(** the addresses of their cells *)
Definition vec_cells (p n inc z : Z) : Prop := exists i t, 0 <= i < n /\ 0 <= t < 4 /\ z = p + 4 * vpos n inc i + t.
Definition mat_cells (p ld m n z : Z) : Prop := exists i j t, 0 <= i < m /\ 0 <= j < n /\ 0 <= t < 4 /\ z = p + 4 * (i + j * ld) + t.

(** a call.  A quaternion ALPHA or BETA lies in the memory, at pal or pbe; the other scalars are values *)
Inductive hcall :=
| KScal (side : ascii) (n : Z) (alpha : scal K) (pal x incx : Z)
| KAxpy (side : ascii) (n : Z) (alpha : scal K) (pal x incx y incy : Z)
| KDot (cj : bool) (r n x incx y incy : Z)                                    (* the result goes to address r *)
| KGemv (trans : ascii) (m n : Z) (alpha : K) (a lda x incx : Z) (beta : K) (y incy : Z)
| KGer (cj : bool) (m n : Z) (alpha : scal K) (pal x incx y incy a lda : Z)
| KGemm (ta tb : ascii) (m n k : Z) (alpha : scal K) (pal a lda b ldb : Z) (beta : scal K) (pbe c ldc : Z).
Definition scal_cells (s : scal K) (p z : Z) : Prop := match s with SH _ => p <= z < p + 4 | _ => False end.
Definition scal_there (M : mem) (s : scal K) (p : Z) : Prop := match s with SH q => quat_at M p 0 = Some q | _ => True end.
(** AXPY takes a complex ALPHA by address, too *)
Definition scal_cells2 (s : scal K) (p z : Z) : Prop := match s with SC _ => p <= z < p + 2 | _ => scal_cells s p z end.
Definition scal_there2 (M : mem) (s : scal K) (p : Z) : Prop := match s with SC z => M p = Some (re z) /\ M (p + 1) = Some (im z) | _ => scal_there M s p end.
Definition rows (c : ascii) (m n : Z) : Z := match trans_char c with Some o => op_rows o m n | None => 0 end.
Definition cols (c : ascii) (m n : Z) : Z := match trans_char c with Some o => op_cols o m n | None => 0 end.

Definition reads (c : hcall) (z : Z) : Prop :=
  match c with
  | KScal _ n al pal x incx => scal_cells al pal z
  | KAxpy _ n al pal x incx y incy => scal_cells2 al pal z \/ vec_cells x n incx z
  | KDot _ r n x incx y incy => vec_cells x n incx z \/ vec_cells y n incy z
  | KGemv t m n al a lda x incx be y incy => mat_cells a lda m n z \/ vec_cells x (cols t m n) incx z
  | KGer _ m n al pal x incx y incy a lda => scal_cells al pal z \/ vec_cells x m incx z \/ vec_cells y n incy z
  | KGemm ta tb m n k al pal a lda b ldb be pbe c ldc =>
      scal_cells al pal z \/ scal_cells be pbe z \/ mat_cells a lda (rows ta m k) (cols ta m k) z \/ mat_cells b ldb (rows tb k n) (cols tb k n) z
  end.
Definition writes (c : hcall) (z : Z) : Prop :=
  match c with
  | KScal _ n _ _ x incx => vec_cells x n incx z
  | KAxpy _ n _ _ _ _ y incy => vec_cells y n incy z
  | KDot _ r _ _ _ _ _ => r <= z < r + 4
  | KGemv t m n _ _ _ _ _ _ y incy => vec_cells y (rows t m n) incy z
  | KGer _ m n _ _ _ _ _ _ a lda => mat_cells a lda m n z
  | KGemm _ _ m n _ _ _ _ _ _ _ _ _ c ldc => mat_cells c ldc m n z
  end.
(** legal parameters, and the operands are in the memory *)
Definition pre (M : mem) (c : hcall) : Prop :=
  match c with
  | KScal s n al pal x incx => side_char s <> None /\ incx <> 0 /\ emb al <> H0 /\ scal_there M al pal /\ has_vec M x n incx
  | KAxpy s n al pal x incx y incy => side_char s <> None /\ incx <> 0 /\ incy <> 0 /\ scal_there2 M al pal /\ has_vec M x n incx /\ has_vec M y n incy
  | KDot _ r n x incx y incy => incx <> 0 /\ incy <> 0 /\ has_vec M x n incx /\ has_vec M y n incy /\ quat_at M r 0 <> None
  | KGemv t m n al a lda x incx be y incy =>
      trans_char t <> None /\ 0 < m /\ 0 < n /\ incx <> 0 /\ incy <> 0 /\ has_mat M a lda m n /\ has_vec M x (cols t m n) incx /\ has_vec M y (rows t m n) incy
  | KGer _ m n al pal x incx y incy a lda =>
      0 <= m /\ 0 <= n /\ incx <> 0 /\ incy <> 0 /\ m <= lda /\ ((exists r, al = SR r) -> incx = 1) /\ scal_there M al pal /\
      has_vec M x m incx /\ has_vec M y n incy /\ has_mat M a lda m n
  | KGemm ta tb m n k al pal a lda b ldb be pbe c ldc =>
      trans_char ta <> None /\ trans_char tb <> None /\ 0 <= m /\ 0 <= n /\ 0 <= k /\ m <= ldc /\ scal_there M al pal /\ scal_there M be pbe /\
      has_mat M a lda (rows ta m k) (cols ta m k) /\ has_mat M b ldb (rows tb k n) (cols tb k n) /\ has_mat M c ldc m n
  end.
(** the results in M', from the operands in M *)
Definition post (M M' : mem) (c : hcall) : Prop :=
  match c with
  | KScal s n al pal x incx => forall i sd, side_char s = Some sd -> 0 <= i < n -> quat_at M' x (vpos n incx i) = Some (Hside sd (emb al) (vec_at M x n incx i))
  | KAxpy s n al pal x incx y incy => forall i sd, side_char s = Some sd -> 0 <= i < n ->
      quat_at M' y (vpos n incy i) = Some (Hadd (vec_at M y n incy i) (Hside sd (emb al) (vec_at M x n incx i)))
  | KDot cj r n x incx y incy => quat_at M' r 0 = Some (Hsum n (fun i => Hmul (if cj : bool then Hconj (vec_at M x n incx i) else vec_at M x n incx i) (vec_at M y n incy i)))
  | KGemv t m n al a lda x incx be y incy => forall i o, trans_char t = Some o -> 0 <= i < op_rows o m n ->
      quat_at M' y (vpos (op_rows o m n) incy i) =
        Some (gemv_elt o (op_cols o m n) (Hre al) (mat_at M a lda) (vec_at M x (op_cols o m n) incx) (Hre be) (vec_at M y (op_rows o m n) incy) i)
  | KGer cj m n al pal x incx y incy a lda => forall i j, 0 <= i < m -> 0 <= j < n ->
      quat_at M' a (i + j * lda) = Some ((if cj : bool then gerc_elt else geru_elt) (emb al) (vec_at M x m incx) (vec_at M y n incy) (mat_at M a lda) i j)
  | KGemm ta tb m n k al pal a lda b ldb be pbe c ldc => forall i j oa ob, trans_char ta = Some oa -> trans_char tb = Some ob -> 0 <= i < m -> 0 <= j < n ->
      quat_at M' c (i + j * ldc) = Some (gemm_elt oa ob k (emb al) (mat_at M a lda) (mat_at M b ldb) (emb be) (mat_at M c ldc) i j)
  end.
End S.
Arguments hcall : clear implicits.
