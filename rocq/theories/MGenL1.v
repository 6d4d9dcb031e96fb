(** Generic C++ level-1 templates: include/hblas/generic/hblas1/*.  Unroll factors
    HAXX_SWAP_UNROLL = 3, HAXX_SCAL_UNROLL = 5, HAXX_COPY_UNROLL = 7, HAXX_AXPY_UNROLL = 4
    (each implementation file).  Templates are instantiated with quaternion vectors; ALPHA : [scal].  *)
From Coq Require Import ZArith Bool Ascii.
From Verif Require Import Num Res MQuat.
Local Open Scope Z_scope.

Section G.
Context {K : num}.
Local Notation qarr := (arr (quat K)).
(** operator*(quaternion,quaternion): the portable template or the AVX specialisation *)
Variable qmul : quat K -> quat K -> quat K.

(** ALPHA * x and x * ALPHA by overload resolution *)
Definition smul_l (alpha : scal K) (x : quat K) : quat K :=
  match alpha with SR a => r_mul_q a x | SC z => c_mul_q z x | SH q => qmul q x end.
(** x * ALPHA: haxx_scalar_op.hpp, haxx_complex_op.hpp, haxx_quaternion_op.hpp (see MQuat.v) *)
Definition smul_r (x : quat K) (alpha : scal K) : quat K :=
  match alpha with SR a => q_mul_r x a | SC z => q_mul_c x z | SH q => qmul x q end.
(** ALPHA == _AlphaF(v), v = 0. or 1. *)
Definition s_eqb (alpha : scal K) (v : K) : bool :=
  match alpha with
  | SR a => neqb a v
  | SC z => neqb (re z) v && neqb (im z) n0
  | SH q => q_eqb q (q_of_real v)
  end.

(** hblas_swapv_impl.hpp:27-82 *)
Definition swap1 (i j : Z) (xy : qarr * qarr) : res (qarr * qarr) :=
  let '(x, y) := xy in
  qtmp <- ld x i ;; t <- ld y j ;; x <- st x i t ;; y <- st y j qtmp ;; Ok (x, y).
(** hblas_swapv_impl.hpp:27-82 *)
Definition swapv_gen (n : Z) (x : qarr) (incx : Z) (y : qarr) (incy : Z) : res (qarr * qarr) :=
  if n <=? 0 then Ok (x, y) else
  _ <- assertb (incx >? 0) ;; _ <- assertb (incy >? 0) ;;
  if (incx =? 1) && (incy =? 1) then
    let m := Z.rem n 3 in
    s <- zfor 0 m (fun i s => swap1 i i s) (x, y) ;;
    if negb (m =? 0) && (n <? 3) then Ok s else
    zforstep m n 3 (fun i s =>
      s <- swap1 i i s ;; s <- swap1 (i + 1) (i + 1) s ;; swap1 (i + 2) (i + 2) s) s
  else
    '(s, _, _) <- zfor 0 n (fun _ '(s, ix, iy) => s <- swap1 ix iy s ;; Ok (s, ix + incx, iy + incy)) ((x, y), 0, 0) ;;
    Ok s.

(** hblas_copyv_impl.hpp:27-66 *)
Definition copy1 (x : qarr) (i j : Z) (y : qarr) : res qarr := v <- ld x i ;; st y j v.
(** hblas_copyv_impl.hpp:27-66 *)
Definition copyv_gen (n : Z) (x : qarr) (incx : Z) (y : qarr) (incy : Z) : res qarr :=
  if n <=? 0 then Ok y else
  _ <- assertb (incx >? 0) ;; _ <- assertb (incy >? 0) ;;
  if (incx =? 1) && (incy =? 1) then
    let m := Z.rem n 7 in
    y <- zfor 0 m (fun i y => copy1 x i i y) y ;;
    if negb (m =? 0) && (n <? 7) then Ok y else
    zforstep m n 7 (fun i y =>
      y <- copy1 x i i y ;; y <- copy1 x (i + 1) (i + 1) y ;; y <- copy1 x (i + 2) (i + 2) y ;;
      y <- copy1 x (i + 3) (i + 3) y ;; y <- copy1 x (i + 4) (i + 4) y ;;
      y <- copy1 x (i + 5) (i + 5) y ;; copy1 x (i + 6) (i + 6) y) y
  else
    '(y, _, _) <- zfor 0 n (fun _ '(y, ix, iy) => y <- copy1 x ix iy y ;; Ok (y, ix + incx, iy + incy)) (y, 0, 0) ;;
    Ok y.

(** hblas_scalv_impl.hpp:36-84 *)
Definition scal1 (isL : bool) (alpha : scal K) (i : Z) (x : qarr) : res qarr :=
  v <- ld x i ;; st x i (if isL then smul_l alpha v else smul_r v alpha).
(** hblas_scalv_impl.hpp:36-84 *)
Definition scalv_gen (side : ascii) (n : Z) (alpha : scal K) (x : qarr) (incx : Z) : res qarr :=
  if (n <=? 0) || (incx <=? 0) then Ok x else
  let isR := Ascii.eqb side "R" in
  let isL := negb isR in
  if incx =? 1 then
    let m := Z.rem n 5 in
    x <- zfor 0 m (fun i x => scal1 isL alpha i x) x ;;
    if negb (m =? 0) && (n <? 5) then Ok x else
    zforstep m n 5 (fun i x =>
      x <- scal1 isL alpha i x ;; x <- scal1 isL alpha (i + 1) x ;; x <- scal1 isL alpha (i + 2) x ;;
      x <- scal1 isL alpha (i + 3) x ;; scal1 isL alpha (i + 4) x) x
  else
    let nincx := n * incx in
    zforstep 0 nincx incx (fun i x => scal1 isL alpha i x) x.

(** hblas_axpyv_impl.hpp:36-93 *)
Definition axpy1 (isL : bool) (alpha : scal K) (x : qarr) (i j : Z) (y : qarr) : res qarr :=
  v <- ld x i ;; w <- ld y j ;; st y j (q_addeq w (if isL then smul_l alpha v else smul_r v alpha)).
(** hblas_axpyv_impl.hpp:36-93 *)
Definition axpyv_gen (side : ascii) (n : Z) (alpha : scal K) (x : qarr) (incx : Z) (y : qarr) (incy : Z) : res qarr :=
  if n <=? 0 then Ok y else
  if s_eqb alpha n0 then Ok y else
  _ <- assertb (incx >? 0) ;; _ <- assertb (incy >? 0) ;;
  let isR := Ascii.eqb side "R" in
  let isL := negb isR in
  if (incx =? 1) && (incy =? 1) then
    let m := Z.rem n 4 in
    y <- zfor 0 m (fun i y => axpy1 isL alpha x i i y) y ;;
    if negb (m =? 0) && (n <? 4) then Ok y else
    zforstep m n 4 (fun i y =>
      y <- axpy1 isL alpha x i i y ;; y <- axpy1 isL alpha x (i + 1) (i + 1) y ;;
      y <- axpy1 isL alpha x (i + 2) (i + 2) y ;; axpy1 isL alpha x (i + 3) (i + 3) y) y
  else
    '(y, _, _) <- zfor 0 n (fun _ '(y, ix, iy) => y <- axpy1 isL alpha x ix iy y ;; Ok (y, ix + incx, iy + incy)) (y, 0, 0) ;;
    Ok y.

(** hblas_dotuv_impl.hpp:25-53, hblas_dotcv_impl.hpp:25-53 *)
Definition dot1 (cnj : bool) (x y : qarr) (i j : Z) (h : quat K) : res (quat K) :=
  v <- ld x i ;; w <- ld y j ;; Ok (q_addeq h (qmul (if cnj then q_conj v else v) w)).
(** hblas_dotuv_impl.hpp:25-53, hblas_dotcv_impl.hpp:25-53 *)
Definition dot_gen (cnj : bool) (n : Z) (x : qarr) (incx : Z) (y : qarr) (incy : Z) : res (quat K) :=
  let htemp := Quat n0 n0 n0 n0 in
  if n <=? 0 then Ok htemp else
  _ <- assertb (incx >? 0) ;; _ <- assertb (incy >? 0) ;;
  if (incx =? 1) && (incy =? 1) then
    zfor 0 n (fun i h => dot1 cnj x y i i h) htemp
  else
    '(h, _, _) <- zfor 0 n (fun _ '(h, ix, iy) => h <- dot1 cnj x y ix iy h ;; Ok (h, ix + incx, iy + incy)) (htemp, 0, 0) ;;
    Ok h.
End G.
