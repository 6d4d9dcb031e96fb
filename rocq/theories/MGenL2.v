(** Generic C++ level-2 and level-3 templates: include/hblas/generic/hblas2/*, include/hblas/generic/hblas3/*.
    [_MatF] is a type [MT] with the overloads the template resolves to as parameters; the instantiations are at
    the end.  In the library only the real-matrix instantiations are compiled (src/hblas/hblas2.cxx.in:75,
    src/hblas/hblas3.cxx.in: GEMM_CXX_IMPL). *)
From Coq Require Import ZArith Bool Ascii.
From Verif Require Import Num Res MQuat MGenL1 MGenM.
Local Open Scope Z_scope.

Section G.
Context {K : num} {MT : Type}.
Local Notation qarr := (arr (quat K)).
Variable qmul : quat K -> quat K -> quat K.   (* operator*(quaternion,quaternion) *)
Variable mmul : MT -> quat K -> quat K.       (* _MatF * quaternion *)
Variable aM Ma : scal K -> MT -> MT.          (* ALPHA * _MatF, _MatF * ALPHA *)
Variable msub : MT -> MT -> MT.               (* _MatF - _MatF *)
Variable mconj : MT -> MT.                    (* SmartConj *)

(** Y[p] += A*htemp1 ; Y[p] += (ALPHA*A - A*ALPHA)*X[jx]: hblas_gemv_impl.hpp:123-135 and 146-158.
    Simplification: htemp1 = ALPHA*X[jx] (122, 145) is recomputed per element; the two consecutive updates of
    Y[p] are stored once. *)
Definition gemv_n_step (alpha : scal K) (aij : MT) (v : quat K) (p : Z) (y : qarr) : res qarr :=
  let htemp1 := smul_l qmul alpha v in
  w <- ld y p ;;
  let w := q_addeq w (mmul aij htemp1) in
  let w := q_addeq w (mmul (msub (aM alpha aij) (Ma alpha aij)) v) in
  st y p w.

(** hblas_gemv_impl.hpp:82-105 *)
Definition gemv_beta (beta : scal K) (leny : Z) (y : qarr) (incy : Z) : res qarr :=
  if s_eqb beta n1 then Ok y else
  if incy =? 1 then
    if s_eqb beta n0 then zfor 0 leny (fun i y => v <- ld y i ;; st y i (q_set_real v n0)) y
    else zfor 0 leny (fun i y => v <- ld y i ;; st y i (smul_l qmul beta v)) y
  else
    if s_eqb beta n0 then
      '(y, _) <- zfor 0 leny (fun _ '(y, iy) => y <- (v <- ld y iy ;; st y iy (q_set_real v n0)) ;; Ok (y, iy + incy)) (y, 0) ;; Ok y
    else
      '(y, _) <- zfor 0 leny (fun _ '(y, iy) => y <- (v <- ld y iy ;; st y iy (smul_l qmul beta v)) ;; Ok (y, iy + incy)) (y, 0) ;; Ok y.
(** hblas_gemv_impl.hpp:111-164 *)
Definition gemv_n (alpha : scal K) (m n : Z) (a : arr MT) (lda : Z) (x : qarr) (incx : Z) (y : qarr) (incy : Z) : res qarr :=
  if incy =? 1 then
    '(y, _) <- zfor 0 n (fun j '(y, jx) =>
      y <- (v <- ld x jx ;;
            zfor 0 m (fun i y => aij <- ld a (i + j * lda) ;; gemv_n_step alpha aij v i y) y) ;;
      Ok (y, jx + incx)) (y, 0) ;; Ok y
  else
    '(y, _) <- zfor 0 n (fun j '(y, jx) =>
      y <- (v <- ld x jx ;;
            '(y, _) <- zfor 0 m (fun i '(y, iy) => y <- (aij <- ld a (i + j * lda) ;; gemv_n_step alpha aij v iy y) ;; Ok (y, iy + incy)) (y, 0) ;; Ok y) ;;
      Ok (y, jx + incx)) (y, 0) ;; Ok y.
(** htemp1 += A*X or SmartConj(A)*X: hblas_gemv_impl.hpp:179-184, 196-201 *)
Definition gemv_dot (noconj : bool) (aij : MT) (v h : quat K) : quat K :=
  q_addeq h (mmul (if noconj then aij else mconj aij) v).
(** hblas_gemv_impl.hpp:164-209 *)
Definition gemv_t (alpha : scal K) (noconj : bool) (m n : Z) (a : arr MT) (lda : Z) (x : qarr) (incx : Z) (y : qarr) (incy : Z) : res qarr :=
  let z := q_of_real n0 in
  '(y, _) <- zfor 0 n (fun j '(y, jy) =>
    y <- (h <- (if incx =? 1 then zfor 0 m (fun i h => aij <- ld a (i + j * lda) ;; v <- ld x i ;; Ok (gemv_dot noconj aij v h)) z
                else '(h, _) <- zfor 0 m (fun i '(h, ix) => h <- (aij <- ld a (i + j * lda) ;; v <- ld x ix ;; Ok (gemv_dot noconj aij v h)) ;; Ok (h, ix + incx)) (z, 0) ;; Ok h) ;;
          w <- ld y jy ;; st y jy (q_addeq w (smul_l qmul alpha h))) ;;
    Ok (y, jy + incy)) (y, 0) ;; Ok y.

(** HBLAS_GEMV: hblas_gemv_impl.hpp:48-211 *)
Definition gemv_gen (trans : ascii) (m n : Z) (alpha : scal K) (a : arr MT) (lda : Z) (x : qarr) (incx : Z) (beta : scal K)
    (y : qarr) (incy : Z) : res qarr :=
  if (m =? 0) || (n =? 0) || (s_eqb alpha n0 && s_eqb beta n1) then Ok y else
  _ <- assertb (incx >? 0) ;; _ <- assertb (incy >? 0) ;;
  let noconj := Ascii.eqb trans "T" in
  let leny := if negb (Ascii.eqb trans "N") then n else m in
  y <- gemv_beta beta leny y incy ;;
  if s_eqb alpha n0 then Ok y else
  if Ascii.eqb trans "N" then gemv_n alpha m n a lda x incx y incy
  else gemv_t alpha noconj m n a lda x incx y incy.

(** ** GEMM template *)
(** CCol[i] = 0. / BETA*CCol[i]: hblas_gemm_impl.hpp:70-79, 90-93, 137-140, 155-158 *)
Definition gemm_scale (beta : scal K) (iszero : bool) (p : Z) (c : qarr) : res qarr :=
  w <- ld c p ;; st c p (if iszero then q_set_real w n0 else smul_l qmul beta w).
(** NOTA branches, hblas_gemm_impl.hpp:86-101 (B 'N'), 134-149 (B 'C'), 152-167 (B 'T'); [bq] reads the B element for (l,j) *)
Definition gemm_nota (m n k : Z) (alpha : scal K) (a : arr MT) (lda : Z) (bq : Z -> Z -> res (quat K)) (beta : scal K)
    (c : qarr) (ldc : Z) : res qarr :=
  zfor 0 n (fun j c =>
    c <- (if s_eqb beta n0 then zfor 0 m (fun i c => gemm_scale beta true (i + j * ldc) c) c
          else if negb (s_eqb beta n1) then zfor 0 m (fun i c => gemm_scale beta false (i + j * ldc) c) c
          else Ok c) ;;
    zfor 0 k (fun l c =>
      zfor 0 m (fun i c =>
        w <- ld c (i + j * ldc) ;; ail <- ld a (i + l * lda) ;; blj <- bq l j ;;
        st c (i + j * ldc) (q_addeq w (mmul (aM alpha ail) blj))) c) c) c.
(** transposed-A branches, hblas_gemm_impl.hpp:103-115, 118-130, 171-182, 184-195, 200-211, 213-224; [ca]: SmartConj(ACol[l]) *)
Definition gemm_transa (ca : bool) (m n k : Z) (alpha : scal K) (a : arr MT) (lda : Z) (bq : Z -> Z -> res (quat K)) (beta : scal K)
    (c : qarr) (ldc : Z) : res qarr :=
  zfor 0 n (fun j c =>
    zfor 0 m (fun i c =>
      h <- zfor 0 k (fun l h =>
             ali <- ld a (l + i * lda) ;; blj <- bq l j ;;
             Ok (q_addeq h (mmul (if ca then mconj ali else ali) blj))) (q_of_real n0) ;;
      w <- ld c (i + j * ldc) ;;
      st c (i + j * ldc) (if s_eqb beta n0 then smul_l qmul alpha h
                          else q_add (smul_l qmul alpha h) (smul_l qmul beta w))) c) c.

(** HBLAS_GEMM: hblas_gemm_impl.hpp:17-227.  Simplification: the element of C overwritten when BetaIsZero is
    also loaded (it must be allocated for the store). *)
Definition gemm_gen (transa transb : ascii) (m n k : Z) (alpha : scal K) (a : arr MT) (lda : Z) (b : qarr) (ldb : Z)
    (beta : scal K) (c : qarr) (ldc : Z) : res qarr :=
  let nota := Ascii.eqb transa "N" in
  let notb := Ascii.eqb transb "N" in
  let conja := Ascii.eqb transa "C" in
  let conjb := Ascii.eqb transb "C" in
  if (m =? 0) || (n =? 0) || ((s_eqb alpha n0 || (k =? 0)) && s_eqb beta n1) then Ok c else
  if s_eqb alpha n0 then
    zfor 0 n (fun j c => zfor 0 m (fun i c => gemm_scale beta (s_eqb beta n0) (i + j * ldc) c) c) c
  else
  let bN l j := ld b (l + j * ldb) in
  let bT l j := ld b (j + l * ldb) in
  let bC l j := v <- ld b (j + l * ldb) ;; Ok (q_conj v) in
  if notb then
    if nota then gemm_nota m n k alpha a lda bN beta c ldc
    else if conja then gemm_transa true m n k alpha a lda bN beta c ldc
    else gemm_transa false m n k alpha a lda bN beta c ldc
  else if nota then
    if conjb then gemm_nota m n k alpha a lda bC beta c ldc
    else gemm_nota m n k alpha a lda bT beta c ldc
  else if conja then
    if conjb then gemm_transa true m n k alpha a lda bC beta c ldc
    else gemm_transa true m n k alpha a lda bT beta c ldc
  else
    if conjb then gemm_transa false m n k alpha a lda bC beta c ldc
    else gemm_transa false m n k alpha a lda bT beta c ldc.
End G.

Section GR.
Context {K : num}.
Local Notation qarr := (arr (quat K)).
Variable qmul : quat K -> quat K -> quat K.

(** real-matrix instantiations: _MatF = _AlphaF = _BetaF = double *)
Definition rmulscal (s : scal K) (a : K) : K := match s with SR al => nmul al a | _ => a end.
(** hblas_gemv_impl.hpp:133: A*ALPHA for real A, ALPHA *)
Definition rscalmul (s : scal K) (a : K) : K := match s with SR al => nmul a al | _ => a end.
(** hblas_gemv_impl.hpp:48-211 at _MatF = double (src/hblas/hblas2.cxx.in:75) *)
Definition gemv_real trans m n (alpha : K) (a : arr K) lda (x : qarr) incx (beta : K) y incy : res qarr :=
  gemv_gen qmul r_mul_q rmulscal rscalmul nsub smartconj_r trans m n (SR alpha) a lda x incx (SR beta) y incy.
(** hblas_gemm_impl.hpp:17-227 at _AMatF = double (src/hblas/hblas3.cxx.in: GEMM_CXX_IMPL) *)
Definition gemm_real transa transb m n k (alpha : K) (a : arr K) lda (b : qarr) ldb (beta : K) c ldc : res qarr :=
  gemm_gen qmul r_mul_q rmulscal smartconj_r transa transb m n k (SR alpha) a lda b ldb (SR beta) c ldc.
(** quaternion-matrix instantiations (not compiled into the library; the reference the Fortran files replace) *)
Definition gemv_quat trans m n (alpha : scal K) (a : qarr) lda (x : qarr) incx (beta : scal K) y incy : res qarr :=
  gemv_gen qmul qmul (smul_l qmul) (fun s v => smul_r qmul v s) q_sub smartconj_q trans m n alpha a lda x incx beta y incy.
(** hblas_gemm_impl.hpp:17-227 at _AMatF = quaternion *)
Definition gemm_quat transa transb m n k (alpha : scal K) (a : qarr) lda (b : qarr) ldb (beta : scal K) c ldc : res qarr :=
  gemm_gen qmul qmul (smul_l qmul) smartconj_q transa transb m n k alpha a lda b ldb beta c ldc.

(** hblas_geru_impl.hpp:35-82, hblas_gerc_impl.hpp:35-82 (cnj = true); quaternion vectors.
    A[..] += ALPHA * X[..] * Y[JY] is (ALPHA*X)*Y. *)
Definition ger_step (cnj : bool) (alpha : scal K) (x : qarr) (p : Z) (yj : quat K) (q : Z) (a : qarr) : res qarr :=
  w <- ld a q ;; v <- ld x p ;;
  st a q (q_addeq w (qmul (smul_l qmul alpha v) (if cnj then q_conj yj else yj))).
(** hblas_geru_impl.hpp:35-82, hblas_gerc_impl.hpp:35-82 *)
Definition ger_gen (cnj : bool) (m n : Z) (alpha : scal K) (x : qarr) (incx : Z) (y : qarr) (incy : Z) (a : qarr) (lda : Z) : res qarr :=
  if (m =? 0) || (n =? 0) || s_eqb alpha n0 then Ok a else
  _ <- assertb (incx >? 0) ;; _ <- assertb (incy >? 0) ;;
  if incx =? 1 then
    '(a, _) <- zfor 0 n (fun j '(a, jy) =>
      a <- (v <- ld y jy ;;
            if q_neqb v (q_of_real n0) then zfor 0 m (fun i a => ger_step cnj alpha x i v (i + j * lda) a) a else Ok a) ;;
      Ok (a, jy + incy)) (a, 0) ;; Ok a
  else
    '(a, _) <- zfor 0 n (fun j '(a, jy) =>
      a <- (v <- ld y jy ;;
            if q_neqb v (q_of_real n0) then
              '(a, _) <- zfor 0 m (fun i '(a, ix) => a <- ger_step cnj alpha x ix v (i + j * lda) a ;; Ok (a, ix + incx)) (a, 0) ;; Ok a
            else Ok a) ;;
      Ok (a, jy + incy)) (a, 0) ;; Ok a.
End GR.
