(** Fortran level-2 kernels: src/hblas/fortran/hblas2/*.f.
    ALPHA and BETA are [scal]: the constructors select the file (SR = d, SC = z, SH = h), e.g.
    [hgemv (SR _) (SH _)] is hgemvdh.f.  A(:,I,J) of the A(2,LDA,* ) view is element
    (I-1) + (J-1)*LDA of the quaternion array, X(:,I) element I-1. *)
From Coq Require Import ZArith Bool Ascii.
From Verif Require Import Num Res MQuat MForL1.
Local Open Scope Z_scope.

Section F.
Context {K : num}.
Local Notation qarr := (arr (quat K)).
Local Notation "a +! b" := (cadd a b) (at level 50, left associativity).
Local Notation "a -! b" := (csub a b) (at level 50, left associativity).
Local Notation "a *! b" := (cmul a b) (at level 40, left associativity).

(** AZERO / BZERO is [fzero] (hgemvdd.f:38-41, hgemvhh.f:35-38); AONE / BONE *)
Definition fone (s : scal K) : bool :=
  match s with
  | SR a => neqb a n1
  | SC z => neqb (re z) n1 && neqb (im z) n0
  | SH q => neqb (qr q) n1 && neqb (qi q) n0 && (neqb (qj q) n0 && neqb (qk q) n0)
  end.

(** Y := BETA*Y on one element: hgemvdd.f:65-66 (d), hgemvdz.f:65-66 (z), hgemvhh.f:66-68 (h);
    strided copies hgemvdd.f:79-80, hgemvdz.f:79-80, hgemvhh.f:81-83 identical. *)
Definition hbeta_elt (beta : scal K) (y : quat K) : quat K :=
  match beta with
  | SR b => hq (crmul b (h1 y)) (crmul b (h2 y))
  | SC b => hq (b *! h1 y) (b *! h2 y)
  | SH b =>
      let htmp := h1 b *! h1 y -! h2 b *! conjg (h2 y) in
      let y2 := h1 b *! h2 y +! h2 b *! conjg (h1 y) in
      hq htmp y2
  end.

(** y + ALPHA*a*x, temporaries computed from ALPHA and x, 'N' branch with INCY = 1:
    hgemvdd.f:93-100 (d), hgemvzz.f:93-100 (z), hgemvhh.f:96-111 (h).
    Simplification: the temporaries, which the code computes once per column, are recomputed per element. *)
Definition hn_elt (alpha : scal K) (a x y : quat K) : quat K :=
  match alpha with
  | SR al =>
      let s := crmul al (h1 x) in
      let j := crmul al (h2 x) in
      hq (h1 y +! h1 a *! s -! h2 a *! conjg j)
         (h2 y +! h1 a *! j +! h2 a *! conjg s)
  | SC al =>
      let s1 := al *! h1 x in
      let j1 := al *! h2 x in
      let s2 := al *! conjg (h1 x) in
      let j2 := al *! conjg (h2 x) in
      hq (h1 y +! h1 a *! s1 -! h2 a *! j2)
         (h2 y +! h1 a *! j1 +! h2 a *! s2)
  | SH al =>
      let s1 := h1 al *! h1 x in
      let j1 := h1 al *! h2 x in
      let s2 := h1 al *! conjg (h1 x) in
      let j2 := h1 al *! conjg (h2 x) in
      let s3 := h2 al *! h1 x in
      let j3 := h2 al *! h2 x in
      let s4 := h2 al *! conjg (h1 x) in
      let j4 := h2 al *! conjg (h2 x) in
      hq (h1 y +! h1 a *! s1 -! h2 a *! j2 -! conjg (h1 a) *! j4 -! conjg (h2 a) *! s3)
         (h2 y +! h1 a *! j1 +! h2 a *! s2 +! conjg (h1 a) *! s4 -! conjg (h2 a) *! j3)
  end.
(** 'N' branch with INCY <> 1: hgemvdd.f:106-115, hgemvzz.f:106-115 are as above;
    hgemvhh.f:117-134 has CONJG(HTMP2S) in the second statement (132). *)
Definition hn_elt_strided (alpha : scal K) (a x y : quat K) : quat K :=
  match alpha with
  | SH al =>
      let s1 := h1 al *! h1 x in
      let j1 := h1 al *! h2 x in
      let s2 := h1 al *! conjg (h1 x) in
      let j2 := h1 al *! conjg (h2 x) in
      let s3 := h2 al *! h1 x in
      let j3 := h2 al *! h2 x in
      let s4 := h2 al *! conjg (h1 x) in
      let j4 := h2 al *! conjg (h2 x) in
      hq (h1 y +! h1 a *! s1 -! h2 a *! j2 -! conjg (h1 a) *! j4 -! conjg (h2 a) *! s3)
         (h2 y +! h1 a *! j1 +! h2 a *! conjg s2 +! conjg (h1 a) *! s4 -! conjg (h2 a) *! j3)
  | _ => hn_elt alpha a x y
  end.

(** dot-product accumulation h + a*x (NOCONJ) or h + conj(a)*x: hgemvdd.f:126-140 / 150-168,
    hgemvhh.f:145-161 / 171-189 (all nine files identical up to variable names) *)
Definition hdotT_elt (noconj : bool) (a x h : quat K) : quat K :=
  if noconj then
    hq (h1 h +! h1 a *! h1 x -! h2 a *! conjg (h2 x))
       (h2 h +! h1 a *! h2 x +! h2 a *! conjg (h1 x))
  else
    hq (h1 h +! conjg (h1 a) *! h1 x +! h2 a *! conjg (h2 x))
       (h2 h +! conjg (h1 a) *! h2 x -! h2 a *! conjg (h1 x)).
(** Y := Y + ALPHA*HTMP: hgemvdd.f:141-142, hgemvzz.f:143-144, hgemvhh.f:162-163 *)
Definition haxpyT_elt (alpha : scal K) (h y : quat K) : quat K :=
  match alpha with
  | SR al => hq (h1 y +! crmul al (h1 h)) (h2 y +! crmul al (h2 h))
  | SC al => hq (h1 y +! al *! h1 h) (h2 y +! al *! h2 h)
  | SH al => hq (h1 y +! h1 al *! h1 h -! h2 al *! conjg (h2 h))
                (h2 y +! h1 al *! h2 h +! h2 al *! conjg (h1 h))
  end.

(** KX, KY: hgemvdd.f:43-53 *)
Definition fstart (len inc : Z) : Z := if inc >? 0 then 1 else 1 - (len - 1) * inc.

(** Y := BETA*Y stage: hgemvdd.f:56-85, hgemvhh.f:57-88.  [inc] is the per-iteration increment of IY in the
    strided BETA loop: INCY, except hgemvdh.f:80-84 where the increment is missing. *)
Definition hgemv_beta (alpha beta : scal K) (leny ky : Z) (y : qarr) (incy : Z) : res qarr :=
  if fone beta then Ok y else
  if incy =? 1 then
    if fzero beta then fdo 1 leny (fun i y => st y (i - 1) (hq c0 c0)) y
    else fdo 1 leny (fun i y => v <- ld y (i - 1) ;; st y (i - 1) (hbeta_elt beta v)) y
  else
    if fzero beta then
      '(y, _) <- fdo 1 leny (fun _ '(y, iy) => y <- st y (iy - 1) (hq c0 c0) ;; Ok (y, iy + incy)) (y, ky) ;; Ok y
    else
      let inc := match alpha, beta with SR _, SH _ => 0 | _, _ => incy end in
      '(y, _) <- fdo 1 leny (fun _ '(y, iy) =>
          y <- (v <- ld y (iy - 1) ;; st y (iy - 1) (hbeta_elt beta v)) ;; Ok (y, iy + inc)) (y, ky) ;; Ok y.

(** one element of the 'N' update *)
Definition hn_step (f : quat K -> quat K -> quat K -> quat K) (a : qarr) (lda i j : Z) (x : quat K) (p : Z) (y : qarr) : res qarr :=
  w <- ld y p ;; v <- ld a (i - 1 + (j - 1) * lda) ;; st y p (f v x w).
(** 'N' branch: hgemvdd.f:89-119, hgemvzz.f:89-119, hgemvhh.f:92-138 *)
Definition hgemv_n (alpha : scal K) (m n : Z) (a : qarr) (lda : Z) (x : qarr) (kx incx : Z) (y : qarr) (ky incy : Z) : res qarr :=
  if incy =? 1 then
    '(y, _) <- fdo 1 n (fun j '(y, jx) =>
      y <- (v <- ld x (jx - 1) ;;
            fdo 1 m (fun i y => hn_step (hn_elt alpha) a lda i j v (i - 1) y) y) ;;
      Ok (y, jx + incx)) (y, kx) ;; Ok y
  else
    '(y, _) <- fdo 1 n (fun j '(y, jx) =>
      y <- (v <- ld x (jx - 1) ;;
            '(y, _) <- fdo 1 m (fun i '(y, iy) => y <- hn_step (hn_elt_strided alpha) a lda i j v (iy - 1) y ;; Ok (y, iy + incy)) (y, ky) ;;
            Ok y) ;;
      Ok (y, jx + incx)) (y, kx) ;; Ok y.

(** one iteration of the dot-product loops: hgemvdd.f:127-131, 133-139, 151-158, 160-167 *)
Definition hdot_step (noconj : bool) (a : qarr) (lda i j : Z) (x : qarr) (p : Z) (h : quat K) : res (quat K) :=
  v <- ld a (i - 1 + (j - 1) * lda) ;; w <- ld x p ;; Ok (hdotT_elt noconj v w h).
(** 'T' / 'C' branch: hgemvdd.f:120-174, hgemvhh.f:139-195 *)
Definition hgemv_t (alpha : scal K) (noconj : bool) (m n : Z) (a : qarr) (lda : Z) (x : qarr) (kx incx : Z) (y : qarr) (ky incy : Z) : res qarr :=
  '(y, _) <- fdo 1 n (fun j '(y, jy) =>
    y <- (h <- (if incx =? 1 then fdo 1 m (fun i h => hdot_step noconj a lda i j x (i - 1) h) (hq c0 c0)
                else '(h, _) <- fdo 1 m (fun i '(h, ix) => h <- hdot_step noconj a lda i j x (ix - 1) h ;; Ok (h, ix + incx)) (hq c0 c0, kx) ;; Ok h) ;;
          w <- ld y (jy - 1) ;; st y (jy - 1) (haxpyT_elt alpha h w)) ;;
    Ok (y, jy + incy)) (y, ky) ;; Ok y.

(** LENX, LENY: hgemvdd.f:30-36 tests 'N'; the other eight files (hgemvdz.f:30, hgemvhh.f:27, ...) test 'T' *)
Definition hgemv_lens (alpha beta : scal K) (trans : ascii) (m n : Z) : Z * Z :=
  if (match alpha, beta with SR _, SR _ => lsame "N" trans | _, _ => lsame "T" trans end) then (n, m) else (m, n).

(** hgemvdd.f:9-176, hgemvdz.f, hgemvdh.f, hgemvzd.f, hgemvzz.f, hgemvzh.f, hgemvhd.f, hgemvhz.f, hgemvhh.f:9-197 *)
Definition hgemv (trans : ascii) (m n : Z) (alpha : scal K) (a : qarr) (lda : Z) (x : qarr) (incx : Z) (beta : scal K)
    (y : qarr) (incy : Z) : res qarr :=
  if (m =? 0) || (n =? 0) || (fzero alpha && fone beta) then Ok y else
  let noconj := lsame "T" trans in
  let '(lenx, leny) := hgemv_lens alpha beta trans m n in
  let kx := fstart lenx incx in
  let ky := fstart leny incy in
  y <- hgemv_beta alpha beta leny ky y incy ;;
  if fzero alpha then Ok y else
  if lsame trans "N" then hgemv_n alpha m n a lda x kx incx y ky incy
  else hgemv_t alpha noconj m n a lda x kx incx y ky incy.

(** ** GER *)
(** A(I,J) update from the temporaries: hgerud.f:37-41 (d), hgeruz.f:36-42 (z), hgeruh.f:37-51 (h) for GERU;
    hgercd.f, hgercz.f, hgerch.f same lines for GERC.  Same simplification as [hn_elt]. *)
Definition hger_elt (cnj : bool) (alpha : scal K) (x y a : quat K) : quat K :=
  match alpha with
  | SR al =>
      let s := if cnj then crmul al (conjg (h1 y)) else crmul al (h1 y) in
      let j := if cnj then cneg (crmul al (h2 y)) else crmul al (h2 y) in
      hq (h1 a +! h1 x *! s -! h2 x *! conjg j)
         (h2 a +! h1 x *! j +! h2 x *! conjg s)
  | SC al =>
      let s1 := if cnj then al *! conjg (h1 y) else al *! h1 y in
      let j1 := if cnj then cneg (al *! h2 y) else al *! h2 y in
      let s2 := if cnj then al *! h1 y else al *! conjg (h1 y) in
      let j2 := if cnj then cneg (al *! conjg (h2 y)) else al *! conjg (h2 y) in
      hq (h1 a +! h1 x *! s1 -! h2 x *! j2)
         (h2 a +! h1 x *! j1 +! h2 x *! s2)
  | SH al =>
      let s1 := if cnj then h1 al *! conjg (h1 y) else h1 al *! h1 y in
      let j1 := if cnj then cneg (h1 al *! h2 y) else h1 al *! h2 y in
      let s2 := if cnj then h1 al *! h1 y else h1 al *! conjg (h1 y) in
      let j2 := if cnj then cneg (h1 al *! conjg (h2 y)) else h1 al *! conjg (h2 y) in
      let s3 := if cnj then h2 al *! conjg (h1 y) else h2 al *! h1 y in
      let j3 := if cnj then cneg (h2 al *! h2 y) else h2 al *! h2 y in
      let s4 := if cnj then h2 al *! h1 y else h2 al *! conjg (h1 y) in
      let j4 := if cnj then cneg (h2 al *! conjg (h2 y)) else h2 al *! conjg (h2 y) in
      hq (h1 a +! h1 x *! s1 -! h2 x *! j2 -! conjg (h1 x) *! j4 -! conjg (h2 x) *! s3)
         (h2 a +! h1 x *! j1 +! h2 x *! s2 +! conjg (h1 x) *! s4 -! conjg (h2 x) *! j3)
  end.
(** hgerud.f:36: Y(1,JY).NE.ZEROZ .OR. Y(2,JY).NE.ZEROZ *)
Definition hnz (y : quat K) : bool :=
  negb (neqb (qr y) n0 && neqb (qi y) n0) || negb (neqb (qj y) n0 && neqb (qk y) n0).
(** hgerud.f:39-42 *)
Definition hger_step (cnj : bool) (alpha : scal K) (x : qarr) (p : Z) (yj : quat K) (q : Z) (a : qarr) : res qarr :=
  w <- ld a q ;; v <- ld x p ;; st a q (hger_elt cnj alpha v yj w).
(** INCX <> 1 in hgerud.f:53-62 / hgercd.f:53-62: HTMPI (implicitly declared) is assigned, HTMPS is read uninitialised *)
Definition hger_step_strided (cnj : bool) (alpha : scal K) (x : qarr) (p : Z) (yj : quat K) (q : Z) (a : qarr) : res qarr :=
  match alpha with SR _ => UB | _ => hger_step cnj alpha x p yj q a end.

(** hgerud.f:9-67, hgeruz.f:9-70, hgeruh.f:9-87 (cnj = false), hgercd.f, hgercz.f, hgerch.f (cnj = true) *)
Definition hger (cnj : bool) (m n : Z) (alpha : scal K) (x : qarr) (incx : Z) (y : qarr) (incy : Z) (a : qarr) (lda : Z) : res qarr :=
  if (m =? 0) || (n =? 0) || fzero alpha then Ok a else
  let jy := fstart n incy in
  if incx =? 1 then
    '(a, _) <- fdo 1 n (fun j '(a, jy) =>
      a <- (v <- ld y (jy - 1) ;;
            if hnz v then fdo 1 m (fun i a => hger_step cnj alpha x (i - 1) v (i - 1 + (j - 1) * lda) a) a else Ok a) ;;
      Ok (a, jy + incy)) (a, jy) ;; Ok a
  else
    let kx := fstart m incx in
    '(a, _) <- fdo 1 n (fun j '(a, jy) =>
      a <- (v <- ld y (jy - 1) ;;
            if hnz v then
              '(a, _) <- fdo 1 m (fun i '(a, ix) => a <- hger_step_strided cnj alpha x (ix - 1) v (i - 1 + (j - 1) * lda) a ;; Ok (a, ix + incx)) (a, kx) ;; Ok a
            else Ok a) ;;
      Ok (a, jy + incy)) (a, jy) ;; Ok a.
End F.
