(** Fortran GEMM: src/hblas/fortran/hblas3/hgemm??.f.  The constructors of ALPHA and BETA select the file, as in
    MForL2.v.  The d? files contain a REAL*8 variant under #ifndef HBLAS_USE_COMPLEX; the macro is defined at line 9 of
    each of them, so the COMPLEX*16 variant is the one modelled.  Line numbers are those of hgemmhh.f unless another
    file is named.  Compiled but unreachable from the C++ interface: dd, dz, zd, zz (src/hblas/hblas3.cxx.in:41-59). *)
From Coq Require Import ZArith Bool Ascii.
From Verif Require Import Num Res MQuat MForL1 MForL2.
Local Open Scope Z_scope.

Section F.
Context {K : num}.
Local Notation qarr := (arr (quat K)).
Local Notation "a +! b" := (cadd a b) (at level 50, left associativity).
Local Notation "a -! b" := (csub a b) (at level 50, left associativity).
Local Notation "a *! b" := (cmul a b) (at level 40, left associativity).

(** C(I,J) update, NOTA and CONJB: 185-201 (h), hgemmzd.f:165-174 (z), hgemmdd.f "DO 150" (d).
    The update for B 'N' (86-102) and 'T' (224-240) is [hn_elt] of MForL2.v, textually the same statements. *)
Definition hnc_elt (alpha : scal K) (a b c : quat K) : quat K :=
  match alpha with
  | SR al =>
      let s := crmul al (conjg (h1 b)) in
      let j := cneg (crmul al (h2 b)) in
      hq (h1 c +! h1 a *! s -! h2 a *! conjg j)
         (h2 c +! h1 a *! j +! h2 a *! conjg s)
  | SC al =>
      let s1 := al *! h1 b in
      let j1 := cneg (al *! h2 b) in
      let s2 := al *! conjg (h1 b) in
      let j2 := cneg (al *! conjg (h2 b)) in
      hq (h1 c +! h1 a *! s2 -! h2 a *! j2)
         (h2 c +! h1 a *! j1 +! h2 a *! s1)
  | SH al =>
      let s1 := h1 al *! h1 b in
      let j1 := cneg (h1 al *! h2 b) in
      let s2 := h1 al *! conjg (h1 b) in
      let j2 := cneg (h1 al *! conjg (h2 b)) in
      let s3 := h2 al *! h1 b in
      let j3 := cneg (h2 al *! h2 b) in
      let s4 := h2 al *! conjg (h1 b) in
      let j4 := cneg (h2 al *! conjg (h2 b)) in
      hq (h1 c +! h1 a *! s2 -! h2 a *! j2 -! conjg (h1 a) *! j4 -! conjg (h2 a) *! s4)
         (h2 c +! h1 a *! j1 +! h2 a *! s1 +! conjg (h1 a) *! s3 -! conjg (h2 a) *! j3)
  end.

(** accumulation of HTMP1S/HTMP1J in the transposed-A branches: C/N 115-118 and C/T 286-289, T/N 145-148 and T/T 347-350,
    C/C 255-259, T/C 318-321 *)
Definition hgdot_elt (ca cb : bool) (a b h : quat K) : quat K :=
  match ca, cb with
  | true, false => hq (h1 h +! conjg (h1 a) *! h1 b +! h2 a *! conjg (h2 b))
                      (h2 h +! conjg (h1 a) *! h2 b -! h2 a *! conjg (h1 b))
  | false, false => hq (h1 h +! h1 a *! h1 b -! h2 a *! conjg (h2 b))
                       (h2 h +! h1 a *! h2 b +! h2 a *! conjg (h1 b))
  | true, true => hq (h1 h +! conjg (h1 a) *! conjg (h1 b) -! h2 a *! conjg (h2 b))
                     (h2 h -! conjg (h1 a) *! h2 b -! h2 a *! h1 b)
  | false, true => hq (h1 h +! h1 a *! conjg (h1 b) +! h2 a *! conjg (h2 b))
                      (h2 h -! h1 a *! h2 b +! h2 a *! h1 b)
  end.
(** ALPHA*HTMP: 122-123 (h), hgemmzd.f C(1,I,J) = ALPHA*HTMP1S (z), hgemmdd.f (d) *)
Definition halpha_elt (alpha : scal K) (h : quat K) : quat K :=
  match alpha with
  | SR al => hq (crmul al (h1 h)) (crmul al (h2 h))
  | SC al => hq (al *! h1 h) (al *! h2 h)
  | SH al => hq (h1 al *! h1 h -! h2 al *! conjg (h2 h)) (h1 al *! h2 h +! h2 al *! conjg (h1 h))
  end.
(** ALPHA*HTMP + BETA*C: 125-131; hgemmhd.f, hgemmzd.f, hgemmdd.f (real BETA), ..z (complex BETA) componentwise *)
Definition halphabeta_elt (alpha beta : scal K) (h c : quat K) : quat K :=
  let t := halpha_elt alpha h in
  match beta with
  | SR be => hq (h1 t +! crmul be (h1 c)) (h2 t +! crmul be (h2 c))
  | SC be => hq (h1 t +! be *! h1 c) (h2 t +! be *! h2 c)
  | SH be =>
      let t2 := h1 t +! h1 be *! h1 c -! h2 be *! conjg (h2 c) in
      let c2 := h2 t +! h1 be *! h2 c +! h2 be *! conjg (h1 c) in
      hq t2 c2
  end.

(** hgemmhh.f:19: position of C(:,I,J) in an array with leading dimension LD *)
Definition fpos (ld i j : Z) : Z := i - 1 + (j - 1) * ld.

(** 72-83 (also 171-182, 210-221): BZERO / .NOT.BONE pre-scaling of column J *)
Definition hgemm_pre (m : Z) (beta : scal K) (ldc j : Z) (c : qarr) : res qarr :=
  if fzero beta then fdo 1 m (fun i c => st c (fpos ldc i j) (hq c0 c0)) c
  else if negb (fone beta) then fdo 1 m (fun i c => v <- ld c (fpos ldc i j) ;; st c (fpos ldc i j) (hbeta_elt beta v)) c
  else Ok c.
(** NOTA branches: 71-104 (B 'N'), 170-203 (B 'C'), 209-242 (B 'T').  [bpos l j] is the position of the element of B used;
    [upd] is hn_elt or hnc_elt.  Simplification: the temporaries made from ALPHA and B are recomputed per element. *)
Definition hgemm_nota (upd_elt : quat K -> quat K -> quat K -> quat K) (bpos : Z -> Z -> Z) (m n k : Z) (a : qarr) (lda : Z)
    (b : qarr) (beta : scal K) (c : qarr) (ldc : Z) : res qarr :=
  fdo 1 n (fun j c =>
    c <- hgemm_pre m beta ldc j c ;;
    fdo 1 k (fun l c =>
      fdo 1 m (fun i c =>
        bv <- ld b (bpos l j) ;; w <- ld c (fpos ldc i j) ;; av <- ld a (fpos lda i l) ;;
        st c (fpos ldc i j) (upd_elt av bv w)) c) c) c.
(** transposed-A branches: 109-133, 139-163, 249-274, 280-304, 312-336, 341-365 *)
Definition hgemm_transa (ca cb : bool) (bpos : Z -> Z -> Z) (m n k : Z) (alpha : scal K) (a : qarr) (lda : Z)
    (b : qarr) (beta : scal K) (c : qarr) (ldc : Z) : res qarr :=
  fdo 1 n (fun j c =>
    fdo 1 m (fun i c =>
      h <- fdo 1 k (fun l h =>
             av <- ld a (fpos lda l i) ;; bv <- ld b (bpos l j) ;; Ok (hgdot_elt ca cb av bv h)) (hq c0 c0) ;;
      if fzero beta then st c (fpos ldc i j) (halpha_elt alpha h)
      else w <- ld c (fpos ldc i j) ;; st c (fpos ldc i j) (halphabeta_elt alpha beta h w)) c) c.

(** hgemmhh.f:9-368; hgemmdd.f, hgemmdz.f, hgemmdh.f, hgemmzd.f, hgemmzz.f, hgemmzh.f, hgemmhd.f, hgemmhz.f *)
Definition hgemm (transa transb : ascii) (m n k : Z) (alpha : scal K) (a : qarr) (lda : Z) (b : qarr) (ldb : Z)
    (beta : scal K) (c : qarr) (ldc : Z) : res qarr :=
  let nota := lsame transa "N" in
  let notb := lsame transb "N" in
  let conja := lsame transa "C" in
  let conjb := lsame transb "C" in
  if (m =? 0) || (n =? 0) then Ok c else
  if (fzero alpha || (k =? 0)) && fone beta then Ok c else
  if fzero alpha then
    if fzero beta then fdo 1 n (fun j c => fdo 1 m (fun i c => st c (fpos ldc i j) (hq c0 c0)) c) c
    else fdo 1 n (fun j c => fdo 1 m (fun i c => v <- ld c (fpos ldc i j) ;; st c (fpos ldc i j) (hbeta_elt beta v)) c) c
  else
  let bN l j := fpos ldb l j in
  let bT l j := fpos ldb j l in
  if notb then
    if nota then hgemm_nota (hn_elt alpha) bN m n k a lda b beta c ldc
    else if conja then hgemm_transa true false bN m n k alpha a lda b beta c ldc
    else hgemm_transa false false bN m n k alpha a lda b beta c ldc
  else if nota then
    if conjb then hgemm_nota (hnc_elt alpha) bT m n k a lda b beta c ldc
    else hgemm_nota (hn_elt alpha) bT m n k a lda b beta c ldc
  else if conja then
    if conjb then hgemm_transa true true bT m n k alpha a lda b beta c ldc
    else hgemm_transa true false bT m n k alpha a lda b beta c ldc
  else
    if conjb then hgemm_transa false true bT m n k alpha a lda b beta c ldc
    else hgemm_transa false false bT m n k alpha a lda b beta c ldc.
End F.
