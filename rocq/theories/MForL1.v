(** Fortran level-1 kernels: src/hblas/fortran/hblas1/*.f and util/lsame.f.
    X(4,* ) / X(2,* ) views: a column X(:,I) is element I-1 of the quaternion array. *)
From Coq Require Import ZArith Bool Ascii NArith.
From Verif Require Import Num Res MQuat.
Local Open Scope Z_scope.

(** util/lsame.f (ASCII branch: ZCODE = ICHAR('Z') = 90) *)
Definition ichar (c : ascii) : Z := Z.of_N (N_of_ascii c).
(** util/lsame.f:1-86 *)
Definition lsame (ca cb : ascii) : bool :=
  if Ascii.eqb ca cb then true else
  let inta := ichar ca in
  let intb := ichar cb in
  let inta := if (97 <=? inta) && (inta <=? 122) then inta - 32 else inta in
  let intb := if (97 <=? intb) && (intb <=? 122) then intb - 32 else intb in
  inta =? intb.

(** DO I = lo,hi *)
Definition fdo {S} (lo hi : Z) (body : Z -> S -> res S) (s : S) : res S := zfor lo (hi + 1) body s.

(** COMPLEX*16 arithmetic and the two halves of a quaternion element *)
Section C.
Context {K : num}.
(** COMPLEX*16 +, -, *, unary - and CONJG, as used in e.g. hgemvdd.f:97-100.  Simplification: the textbook product, no
    C99-style NaN recovery. *)
Definition cadd (a b : cplx K) : cplx K := Cplx (nadd (re a) (re b)) (nadd (im a) (im b)).
(** hgemvdd.f:98 *)
Definition csub (a b : cplx K) : cplx K := Cplx (nsub (re a) (re b)) (nsub (im a) (im b)).
(** hgemvdd.f:98 *)
Definition cmul (a b : cplx K) : cplx K :=
  Cplx (nsub (nmul (re a) (re b)) (nmul (im a) (im b))) (nadd (nmul (re a) (im b)) (nmul (im a) (re b))).
(** hgercd.f:38 *)
Definition cneg (a : cplx K) : cplx K := Cplx (nopp (re a)) (nopp (im a)).
(** hgemvdd.f:98 *)
Definition conjg (a : cplx K) : cplx K := Cplx (re a) (nopp (im a)).
(** REAL*8 times COMPLEX*16.  Simplification: componentwise scaling. *)
Definition crmul (a : K) (z : cplx K) : cplx K := Cplx (nmul a (re z)) (nmul a (im z)).
(** ZERO: hgemvdd.f:24 *)
Definition c0 : cplx K := Cplx n0 n0.
(** A(1,..) and A(2,..) of a COMPLEX*16 A(2,...) view *)
Definition h1 (q : quat K) : cplx K := Cplx (qr q) (qi q).
(** A(2,..): hgemvdd.f:19 *)
Definition h2 (q : quat K) : cplx K := Cplx (qj q) (qk q).
(** the element whose halves are a and b: hgemvdd.f:19 *)
Definition hq (a b : cplx K) : quat K := Quat (re a) (im a) (re b) (im b).

(** haxpydh.f:23-26 (and 36-39) *)
Definition haxpyd_elt (alpha : K) (x y : quat K) : quat K :=
  Quat (nadd (qr y) (nmul alpha (qr x))) (nadd (qi y) (nmul alpha (qi x)))
       (nadd (qj y) (nmul alpha (qj x))) (nadd (qk y) (nmul alpha (qk x))).
Local Open Scope num_scope.
(** haxpych.f:28-31 (left), 36-39 (right); the strided copies 52-55, 63-66 are identical *)
Definition haxpyc_elt (mright : bool) (alpha : cplx K) (x y : quat K) : quat K :=
  let a1 := re alpha in let a2 := im alpha in
  if negb mright then
    Quat (qr y + a1 * qr x - a2 * qi x) (qi y + a1 * qi x + a2 * qr x)
         (qj y + a1 * qj x - a2 * qk x) (qk y + a1 * qk x + a2 * qj x)
  else
    Quat (qr y + qr x * a1 - qi x * a2) (qi y + qr x * a2 + qi x * a1)
         (qj y + qj x * a1 + qk x * a2) (qk y - qj x * a2 + qk x * a1).
(** haxpyhh.f:29-39 (left), 44-54 (right), strided copies 67-77, 85-95 identical *)
Definition haxpyh_elt (mright : bool) (alpha : quat K) (x y : quat K) : quat K :=
  let a1 := qr alpha in let a2 := qi alpha in let a3 := qj alpha in let a4 := qk alpha in
  if negb mright then
    Quat (qr y + a1 * qr x - a2 * qi x - a3 * qj x - a4 * qk x)
         (qi y + a1 * qi x + a2 * qr x + a3 * qk x - a4 * qj x)
         (qj y + a1 * qj x - a2 * qk x + a3 * qr x + a4 * qi x)
         (qk y + a1 * qk x + a2 * qj x - a3 * qi x + a4 * qr x)
  else
    Quat (qr y + qr x * a1 - qi x * a2 - qj x * a3 - qk x * a4)
         (qi y + qr x * a2 + qi x * a1 + qj x * a4 - qk x * a3)
         (qj y + qr x * a3 - qi x * a4 + qj x * a1 + qk x * a2)
         (qk y + qr x * a4 + qi x * a3 - qj x * a2 + qk x * a1).
(** hdotu.f:23-33 (strided copy 44-54 identical) *)
Definition hdotu_elt (x y r : quat K) : quat K :=
  Quat (qr r + qr x * qr y - qi x * qi y - qj x * qj y - qk x * qk y)
       (qi r + qr x * qi y + qi x * qr y + qj x * qk y - qk x * qj y)
       (qj r + qr x * qj y - qi x * qk y + qj x * qr y + qk x * qi y)
       (qk r + qr x * qk y + qi x * qj y - qj x * qi y + qk x * qr y).
(** hdotc.f:23-33 (strided copy 44-54 identical) *)
Definition hdotc_elt (x y r : quat K) : quat K :=
  Quat (qr r + qr x * qr y + qi x * qi y + qj x * qj y + qk x * qk y)
       (qi r + qr x * qi y - qi x * qr y - qj x * qk y + qk x * qj y)
       (qj r + qr x * qj y + qi x * qk y - qj x * qr y - qk x * qi y)
       (qk r + qr x * qk y - qi x * qj y + qj x * qi y - qk x * qr y).
(** hscald.f:23-26 / 34-37 *)
Definition hscald_elt (alpha : K) (x : quat K) : quat K :=
  Quat (alpha * qr x) (alpha * qi x) (alpha * qj x) (alpha * qk x).
(** hscalc.f:30-31, 36-37 / 48-49, 56-57 *)
Definition hscalc_elt (mright : bool) (alpha : cplx K) (x : quat K) : quat K :=
  if negb mright then hq (cmul alpha (h1 x)) (cmul alpha (h2 x))
  else hq (cmul (h1 x) alpha) (cmul (h2 x) (conjg alpha)).
(** hscalh.f:31-44, 49-62 / 73-86, 93-106: X(4) is overwritten before X(1..3) are stored *)
Definition hscalh_elt (mright : bool) (alpha : quat K) (x : quat K) : quat K :=
  let a1 := qr alpha in let a2 := qi alpha in let a3 := qj alpha in let a4 := qk alpha in
  if negb mright then
    let htmps := a1 * qr x - a2 * qi x - a3 * qj x - a4 * qk x in
    let htmpi := a1 * qi x + a2 * qr x + a3 * qk x - a4 * qj x in
    let htmpj := a1 * qj x - a2 * qk x + a3 * qr x + a4 * qi x in
    let x4 := a1 * qk x + a2 * qj x - a3 * qi x + a4 * qr x in
    Quat htmps htmpi htmpj x4
  else
    let htmps := qr x * a1 - qi x * a2 - qj x * a3 - qk x * a4 in
    let htmpi := qr x * a2 + qi x * a1 + qj x * a4 - qk x * a3 in
    let htmpj := qr x * a3 - qi x * a4 + qj x * a1 + qk x * a2 in
    let x4 := qr x * a4 + qi x * a3 - qj x * a2 + qk x * a1 in
    Quat htmps htmpi htmpj x4.
Local Close Scope num_scope.

(** ALPHA.EQ.0 tests: haxpydh.f:18, haxpych.f:19 / hscalc.f:22 (ABS(ALPHA).EQ.0), haxpyhh.f:19-20.
    Simplification: ABS(z).EQ.0 is re = im = 0. *)
Definition fzero (alpha : scal K) : bool :=
  match alpha with
  | SR a => neqb a n0
  | SC z => neqb (re z) n0 && neqb (im z) n0
  | SH q => neqb (qr q) n0 && neqb (qi q) n0 && neqb (qj q) n0 && neqb (qk q) n0
  end.
(** haxpydh.f, haxpych.f, haxpyhh.f: the loop bodies above, selected by the type of ALPHA *)
Definition haxpy_elt (mright : bool) (alpha : scal K) (x y : quat K) : quat K :=
  match alpha with
  | SR a => haxpyd_elt a x y | SC z => haxpyc_elt mright z x y | SH q => haxpyh_elt mright q x y
  end.
(** hscald.f, hscalc.f, hscalh.f: the loop bodies above, selected by the type of ALPHA *)
Definition hscal_elt (mright : bool) (alpha : scal K) (x : quat K) : quat K :=
  match alpha with
  | SR a => hscald_elt a x | SC z => hscalc_elt mright z x | SH q => hscalh_elt mright q x
  end.
Local Notation qarr := (arr (quat K)).

(** start cursor: IX = 1; IF (INCX.LT.0) IX = (-N+1)*INCX + 1 *)
Definition kstart (n inc : Z) : Z := if inc <? 0 then (- n + 1) * inc + 1 else 1.

(** haxpydh.f:9-45, haxpych.f:9-74, haxpyhh.f:9-103 (one skeleton; the three files differ only in the
    element formula and the ALPHA test) *)
Definition axpyv_for (side : ascii) (n : Z) (alpha : scal K) (x : qarr) (incx : Z) (y : qarr) (incy : Z) : res qarr :=
  if n <=? 0 then Ok y else
  if fzero alpha then Ok y else
  let mright := lsame "R" side in
  let upd1 i j y := v <- ld x i ;; w <- ld y j ;; st y j (haxpy_elt mright alpha v w) in
  if (incx =? 1) && (incy =? 1) then
    fdo 1 n (fun i y => upd1 (i - 1) (i - 1) y) y
  else
    '(y, _, _) <- fdo 1 n (fun _ '(y, ix, iy) => y <- upd1 (ix - 1) (iy - 1) y ;; Ok (y, ix + incx, iy + incy))
                  (y, kstart n incx, kstart n incy) ;;
    Ok y.

(** hscald.f:9-43, hscalc.f:9-64, hscalh.f:9-113 *)
Definition scalv_for (side : ascii) (n : Z) (alpha : scal K) (x : qarr) (incx : Z) : res qarr :=
  if n <=? 0 then Ok x else
  if fzero alpha then Ok x else
  let mright := lsame "R" side in
  let upd1 i x := v <- ld x i ;; st x i (hscal_elt mright alpha v) in
  if incx =? 1 then
    fdo 1 n (fun i x => upd1 (i - 1) x) x
  else
    '(x, _) <- fdo 1 n (fun _ '(x, ix) => x <- upd1 (ix - 1) x ;; Ok (x, ix + incx)) (x, kstart n incx) ;;
    Ok x.

(** hdotu.f:9-60, hdotc.f:9-60 *)
Definition dot_for (cnj : bool) (n : Z) (x : qarr) (incx : Z) (y : qarr) (incy : Z) : res (quat K) :=
  let r := Quat n0 n0 n0 n0 in
  if n <=? 0 then Ok r else
  let elt := if cnj then hdotc_elt else hdotu_elt in
  let upd1 i j r := v <- ld x i ;; w <- ld y j ;; Ok (elt v w r) in
  if (incx =? 1) && (incy =? 1) then
    fdo 1 n (fun i r => upd1 (i - 1) (i - 1) r) r
  else
    '(r, _, _) <- fdo 1 n (fun _ '(r, ix, iy) => r <- upd1 (ix - 1) (iy - 1) r ;; Ok (r, ix + incx, iy + incy))
                  (r, kstart n incx, kstart n incy) ;;
    Ok r.
End C.
