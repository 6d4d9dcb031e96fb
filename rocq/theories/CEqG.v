(** The driver of src/hblas/cxx/hblas3/gemm.cxx, run from the text and linked as in CLink.v, has the outcome of [gemm_opt_default] (MOptGemm.v). *)
From Coq Require Import ZArith Bool Ascii String List Lia.
From Verif Require Import Num Res MQuat MSimd MOptL1 MGenM MPack MOptGemm CSyntax CParse CSrc CSem CProg CSimFacts CTac CStep CLink CObj CObjG CEqQ CEqL1 CEqK.
Import ListNotations. Local Open Scope string_scope. Local Open Scope Z_scope.

Ltac cb H := rewrite ?mb_mb; lazymatch goal with |- sim _ (bind ?r ?f) (mb ?x ?g) => refine (sim_bind _ _ r x f g H _) end.
Ltac cbe := rewrite ?mb_mb; lazymatch goal with |- sim _ (bind ?r ?f) (mb ?x ?g) => refine (sim_bind _ _ r x f g _ _) end.
(** stop before a choice of packing routine *)
Ltac csx := repeat lazymatch goal with |- context [mb (exec _ _ _ _ _ (SIf _ (SExt _ _ _) _) _) _] => fail | _ => cstep1 end.
Lemma x_ifz {K : num} (c : bool) x y : (if c then mret (VZ (K:=K) x) else mret (VZ y)) = mret (VZ (if c then x else y)).
Proof. destruct c; reflexivity. Qed.

Section G.
Context {K : num}.
Variables (rv : nat -> list (val K) -> mem K -> M (val K)) (rp : nat -> list (val K) -> mem K -> M (env K * mem K)) (rr : nat -> list bool).
Variable ext : string -> string -> list (val K) -> mem K -> M (mem K).
Variable fuel : nat.
Variables (ta tb : ascii) (M N Kd : Z) (alpha beta : val K) (lda ldb ldc : Z).
Variables (al : scal K).
Variables (A B : Z * data K) (a b : arr (quat K)).
Variables (ca aa ba : Z).
Local Notation qp b e := (Some (VP (Ptr (OnQ b) e 0 TQuat))).
Local Notation MEM c bp ap := [A; B; (ca, DQ c); (ba, DQ bp); (aa, DQ ap)].
(** Kern, as linked *)
Hypothesis HK : forall p q k oa ob oc (c bp ap : arr (quat K)), (Z.to_nat k <= fuel)%nat ->
  sim (fun r m' => m' = MEM r bp ap) (kern p q k aa ap oa ba bp ob c oc ldc)
    (ext "Kern" "" [VZ p; VZ q; VZ k; VP (Ptr (OnQ 4) oa 0 TQuat); VP (Ptr (OnQ 3) ob 0 TQuat); VP (Ptr (OnQ 2) oc 0 TQuat); VZ ldc] (MEM c bp ap)).
Local Notation ENV j nJ jD i nI iD kk nK ii jj i3 j3 nI3 nJ3 Cj Bj Bp BL1 Ap Ai sA Ci CB sC := 
  [Some (VChr ta); Some (VChr tb); Some (VZ M); Some (VZ N); Some (VZ Kd); Some alpha; qp 0 0; Some (VZ lda); qp 1 0; Some (VZ ldb); Some beta; qp 2 0; Some (VZ ldc);
   Some (VB (Ascii.eqb ta "T")); Some (VB (Ascii.eqb ta "C")); Some (VB (Ascii.eqb ta "R"));
   Some (VB (Ascii.eqb tb "T")); Some (VB (Ascii.eqb tb "C")); Some (VB (Ascii.eqb tb "R")); qp 3 0; qp 4 0;
   j; nJ; jD; i; nI; iD; kk; nK; ii; jj; i3; j3; nI3; nJ3; Cj; Bj; Bp; BL1; Ap; Ai; sA; Ci; CB; sC].
Local Notation Vz z := (Some (VZ z)).
Ltac fin := rewrite (x_end (exec _ _ _ _ _ _ _)).

(** gemm.cxx:147-155: the ii loop *)
Lemma g_ii_ok j nJ jD i nI iD kk nK jj i3 j3 nJ3 Cj Bj Bp BL1 Ap Ai Ci CB ii nI3 sA sC c bp ap :
  (Z.to_nat nK <= fuel)%nat -> (Z.to_nat nI < fuel)%nat -> ii = Vz 0 -> sA = qp 4 0 -> sC = qp 2 CB ->
  sim (fun '(c', _, _) y => snd y = Next /\ exists ii nI3 sA sC, fst y =
        (ENV j nJ jD i (Vz nI) iD kk (Vz nK) ii jj i3 j3 nI3 (Vz nJ3) Cj Bj Bp (qp 3 BL1) Ap Ai sA Ci (qp 2 CB) sC, MEM c' bp ap))
    (zforstep 0 nI 2 (fun ii '(c, smallA, smallC) =>
      let nIII := Z.min 2 (nI - ii) in
      c <- kern nIII nJ3 nK aa ap smallA ba bp BL1 c smallC ldc ;;
      Ok (c, smallA + 2 * nK, smallC + 2)) (c, 0, CB))
    (wloop fuel (test rv (fst g_ii)) (exec rv rp rr ext fuel (snd g_ii))
       (ENV j nJ jD i (Vz nI) iD kk (Vz nK) ii jj i3 j3 nI3 (Vz nJ3) Cj Bj Bp (qp 3 BL1) Ap Ai sA Ci (qp 2 CB) sC, MEM c bp ap)).
Proof.
  intros Hk Hi -> -> ->.
  refine (sim_weaken _ _ _ _ _ (wfors_sim (fun z '(c, sA, sC) (s : st K) => exists nI3,
    s = (ENV j nJ jD i (Vz nI) iD kk (Vz nK) (Vz z) jj i3 j3 nI3 (Vz nJ3) Cj Bj Bp (qp 3 BL1) Ap Ai (qp 4 sA) Ci (qp 2 CB) (qp 2 sC), MEM c bp ap))
    _ _ 0 nI 2 _ _ _ _ _ _ fuel _ _)).
  - intros [[c' p] q] [y fl] [E (z & n3 & E2)]. split; [exact E|]. do 4 eexists. exact E2.
  - lia.
  - intros z [[c' p] q] s (n3 & ->). unfold g_ii. cleaf. reflexivity.
  - intros z [[c' p] q] s Hz (n3 & ->). unfold g_ii. cbn [snd]. fin. csteps.
    cb (HK (Z.min 2 (nI - z)) nJ3 nK p BL1 q c' bp ap Hk). intros r m' ->. csteps. apply sim_ok. refine (conj eq_refl _). eexists. reflexivity.
  - eexists. reflexivity.
  - lia.
Qed.

(** gemm.cxx:141-159: the jj loop *)
Lemma g_jj_ok j nJ jD i nI iD kk nK i3 j3 Cj Bj Bp Ap Ai Ci ii jj nI3 nJ3 BL1 sA CB sC c bp ap cb :
  (Z.to_nat nK <= fuel)%nat -> (Z.to_nat nI < fuel)%nat -> (Z.to_nat nJ < fuel)%nat -> jj = Vz 0 -> BL1 = qp 3 0 -> CB = qp 2 cb ->
  sim (fun '(c', _, _) y => snd y = Next /\ exists ii jj nI3 nJ3 BL1 sA CB sC, fst y =
        (ENV j (Vz nJ) jD i (Vz nI) iD kk (Vz nK) ii jj i3 j3 nI3 nJ3 Cj Bj Bp BL1 Ap Ai sA Ci CB sC, MEM c' bp ap))
    (zforstep 0 nJ 2 (fun jj '(c, BL1, CBlk) =>
      let nJJJ := Z.min 2 (nJ - jj) in
      '(c, _, _) <- zforstep 0 nI 2 (fun ii '(c, smallA, smallC) =>
        let nIII := Z.min 2 (nI - ii) in
        c <- kern nIII nJJJ nK aa ap smallA ba bp BL1 c smallC ldc ;;
        Ok (c, smallA + 2 * nK, smallC + 2)) (c, 0, CBlk) ;;
      Ok (c, BL1 + 2 * nK, CBlk + 2 * ldc)) (c, 0, cb))
    (wloop fuel (test rv (fst g_jj)) (exec rv rp rr ext fuel (snd g_jj))
       (ENV j (Vz nJ) jD i (Vz nI) iD kk (Vz nK) ii jj i3 j3 nI3 nJ3 Cj Bj Bp BL1 Ap Ai sA Ci CB sC, MEM c bp ap)).
Proof.
  intros Hk Hi Hj -> -> ->.
  refine (sim_weaken _ _ _ _ _ (wfors_sim (fun z '(c, bl, cb) (s : st K) => exists ii nI3 nJ3 sA sC,
    s = (ENV j (Vz nJ) jD i (Vz nI) iD kk (Vz nK) ii (Vz z) i3 j3 nI3 nJ3 Cj Bj Bp (qp 3 bl) Ap Ai sA Ci (qp 2 cb) sC, MEM c bp ap))
    _ _ 0 nJ 2 _ _ _ _ _ _ fuel _ _)).
  - intros [[c' p] q] [y fl] [E (z & e1 & e2 & e3 & e4 & e5 & E2)]. split; [exact E|]. do 8 eexists. exact E2.
  - lia.
  - intros z [[c' p] q] s (e1 & e2 & e3 & e4 & e5 & ->). unfold g_jj. cleaf. reflexivity.
  - intros z [[c' p] q] s Hz (e1 & e2 & e3 & e4 & e5 & ->). unfold g_jj. cbn [snd]. fin. csteps. rewrite x_while.
    cbe; [eapply g_ii_ok; [exact Hk | exact Hi | reflexivity ..] |].
    intros [[c2 p2] q2] [y fl] [E (f1 & f2 & f3 & f4 & E2)]. cbn [fst snd] in E, E2. subst fl y. csteps. apply sim_ok. refine (conj eq_refl _). do 5 eexists. reflexivity.
  - do 5 eexists. reflexivity.
  - lia.
Qed.

(** the packs, as linked *)
Hypothesis HA : forall p q e c bp ap, 
  let vs := fun r s => [VZ r; VZ s; VP (Ptr (OnQ 0) e 0 TQuat); VZ lda; VP (Ptr (OnQ 4) 0 0 TQuat); alpha] in
  let r := fun x => lift (x <- x ;; Ok (MEM c bp x)) in
  ext "TPACK" "2,quaternion<double>,GenericPackOps_T1<>" (vs q p) (MEM c bp ap) = r (tpack T1 false (Some al) q p a e lda ap) /\
  ext "TPACK" "2,quaternion<double>,ConjPackOps_T1<>" (vs q p) (MEM c bp ap) = r (tpack T1 true (Some al) q p a e lda ap) /\
  ext "NPACK" "2,quaternion<double>,ConjPackOps_T1<>" (vs p q) (MEM c bp ap) = r (npack T1 true (Some al) p q a e lda ap) /\
  ext "NPACK" "2,quaternion<double>,GenericPackOps_T1<>" (vs p q) (MEM c bp ap) = r (npack T1 false (Some al) p q a e lda ap).
Hypothesis HB : forall p q e c bp ap, 
  let vs := fun r s => [VZ r; VZ s; VP (Ptr (OnQ 1) e 0 TQuat); VZ ldb; VP (Ptr (OnQ 3) 0 0 TQuat)] in
  let r := fun x => lift (x <- x ;; Ok (MEM c x ap)) in
  ext "NPACK" "2,quaternion<double>,GenericPackOps_T2<>" (vs p q) (MEM c bp ap) = r (npack T2 false None p q b e ldb bp) /\
  ext "NPACK" "2,quaternion<double>,ConjPackOps_T2<>" (vs p q) (MEM c bp ap) = r (npack T2 true None p q b e ldb bp) /\
  ext "TPACK" "2,quaternion<double>,ConjPackOps_T2<>" (vs q p) (MEM c bp ap) = r (tpack T2 true None q p b e ldb bp) /\
  ext "TPACK" "2,quaternion<double>,GenericPackOps_T2<>" (vs q p) (MEM c bp ap) = r (tpack T2 false None q p b e ldb bp).
(** gemm.cxx:113-166: the i loop *)
Lemma g_i_ok j nJ jD kk nK i3 j3 Cj cj Bj Bp Ap i nI iD ii jj nI3 nJ3 BL1 Ai sA Ci CB sC c bp ap ai :
  (Z.to_nat nK <= fuel)%nat -> (Z.to_nat M < fuel)%nat -> (Z.to_nat nJ < fuel)%nat -> i = Vz 0 -> Ai = qp 0 ai -> Ci = qp 2 cj ->
  sim (fun '(c', ap', _, _) y => snd y = Next /\ exists i nI iD ii jj nI3 nJ3 BL1 Ai sA Ci CB sC, fst y =
        (ENV j (Vz nJ) jD i nI iD kk (Vz nK) ii jj i3 j3 nI3 nJ3 Cj Bj Bp BL1 Ap Ai sA Ci CB sC, MEM c' bp ap'))
    (zforstep 0 M 64 (fun i '(c, aPack, Ai, Ci) =>
      let nI := Z.min (M - i) 64 in
      aPack <- apack_call ta (Some al) nI nK a Ai lda aPack ;;
      c <- gemm_tiles nI nJ nK aa aPack ba bp c Ci ldc ;;
      let Ai := if Ascii.eqb ta "T" || Ascii.eqb ta "C" then Ai + nI * lda else Ai + nI in
      Ok (c, aPack, Ai, Ci + nI)) (c, ap, ai, cj))
    (wloop fuel (test rv (fst g_i)) (exec rv rp rr ext fuel (snd g_i))
       (ENV j (Vz nJ) jD i nI iD kk (Vz nK) ii jj i3 j3 nI3 nJ3 Cj Bj Bp BL1 Ap Ai sA Ci CB sC, MEM c bp ap)).
Proof.
  intros Hk Hm Hj -> -> ->.
  refine (sim_weaken _ _ _ _ _ (wfors_sim (fun z '(c, ap, ai, ci) (s : st K) => 0 <= z /\ exists nI iD ii jj nI3 nJ3 BL1 sA CB sC,
    s = (ENV j (Vz nJ) jD (Vz z) nI iD kk (Vz nK) ii jj i3 j3 nI3 nJ3 Cj Bj Bp BL1 Ap (qp 0 ai) sA (qp 2 ci) CB sC, MEM c bp ap))
    _ _ 0 M 64 _ _ _ _ _ _ fuel _ _)).
  - intros [[[c' p] q] r] [y fl] [E (z & Hz & e1 & e2 & e3 & e4 & e5 & e6 & e7 & e8 & e9 & e10 & E2)]. split; [exact E|]. do 13 eexists. exact E2.
  - lia.
  - intros z [[[c' p] q] r] s (Hz0 & e1 & e2 & e3 & e4 & e5 & e6 & e7 & e8 & e9 & e10 & ->). unfold g_i. cleaf. reflexivity.
  - intros z [[[c' p] q] r] s Hz (Hz0 & e1 & e2 & e3 & e4 & e5 & e6 & e7 & e8 & e9 & e10 & ->). unfold g_i. cbn [snd]. fin. csx. rewrite x_ifz. csx.
    lazymatch goal with |- sim _ (bind ?r ?f) (mb (exec _ _ _ _ _ ?p (?en, MEM ?c1 ?b1 ?a1)) ?g) =>
      refine (sim_bind (fun x y => y = ((en, MEM c1 b1 x), Next)) _ r (exec rv rp rr ext fuel p (en, MEM c1 b1 a1)) f g _ _) end.
    { fin. destruct (HA (Z.min (M - z) 64) nK q c' bp p) as (HA1 & HA2 & HA3 & HA4).
      unfold apack_call. destruct (Ascii.eqb ta "T"), (Ascii.eqb ta "C"), (Ascii.eqb ta "R"); csteps; rewrite ?HA1, ?HA2, ?HA3, ?HA4;
      (lazymatch goal with |- sim _ ?r _ => destruct r as [x | |]; csteps; [apply sim_ok; reflexivity | reflexivity | reflexivity] end). }
    intros x y ->. csteps. rewrite x_while. unfold gemm_tiles. rewrite bind_bind.
    cbe; [eapply g_jj_ok; [exact Hk | lia | exact Hj | reflexivity ..] |].
    intros [[c2 p2] q2] [y fl] [E (f1 & f2 & f3 & f4 & f5 & f6 & f7 & f8 & E2)]. cbn [fst snd] in E, E2. subst fl y. cbn [bind].
    destruct (Ascii.eqb ta "T"), (Ascii.eqb ta "C"); csteps; apply sim_ok; (refine (conj eq_refl (conj _ _)); [clear -Hz0; lia | do 10 eexists; reflexivity]).
  - refine (conj _ _); [lia |]. do 10 eexists. reflexivity.
  - lia.
Qed.

(** gemm.cxx:89-173: the k loop *)
Lemma g_k_ok j nJ jD i3 j3 cj bj Cj Bj i nI iD kk nK ii jj nI3 nJ3 Bp BL1 Ap Ai sA Ci CB sC c bp ap :
  (Z.to_nat Kd <= fuel)%nat -> (Z.to_nat Kd < fuel)%nat -> (Z.to_nat M < fuel)%nat -> (Z.to_nat nJ < fuel)%nat ->
  kk = Vz 0 -> Cj = qp 2 cj -> Bp = qp 1 bj -> Ap = qp 0 0 ->
  sim (fun '(c', ap', bp', _, _) y => snd y = Next /\ exists i nI iD kk nK ii jj nI3 nJ3 Bp BL1 Ap Ai sA Ci CB sC, fst y =
        (ENV j (Vz nJ) jD i nI iD kk nK ii jj i3 j3 nI3 nJ3 Cj Bj Bp BL1 Ap Ai sA Ci CB sC, MEM c' bp' ap'))
    (zforstep 0 Kd 64 (fun kk '(c, aPack, bPack, Ap, Bp) =>
      let nK := Z.min (Kd - kk) 64 in
      bPack <- bpack_call tb None nJ nK b Bp ldb bPack ;;
      '(c, aPack) <- gemm_mc 64 ta M (Some al) nJ nK a Ap lda aa aPack ba bPack c cj ldc ;;
      let Ap := if Ascii.eqb ta "T" || Ascii.eqb ta "C" then Ap + nK else Ap + nK * lda in
      let Bp := if Ascii.eqb tb "T" || Ascii.eqb tb "C" then Bp + nK * ldb else Bp + nK in
      Ok (c, aPack, bPack, Ap, Bp)) (c, ap, bp, 0, bj))
    (wloop fuel (test rv (fst g_k)) (exec rv rp rr ext fuel (snd g_k))
       (ENV j (Vz nJ) jD i nI iD kk nK ii jj i3 j3 nI3 nJ3 Cj Bj Bp BL1 Ap Ai sA Ci CB sC, MEM c bp ap)).
Proof.
  intros Hk0 Hk Hm Hj -> -> -> ->.
  refine (sim_weaken _ _ _ _ _ (wfors_sim (fun z '(c, ap, bp, ak, bk) (s : st K) => 0 <= z /\ exists i nI iD nK ii jj nI3 nJ3 BL1 Ai sA Ci CB sC,
    s = (ENV j (Vz nJ) jD i nI iD (Vz z) nK ii jj i3 j3 nI3 nJ3 (qp 2 cj) Bj (qp 1 bk) BL1 (qp 0 ak) Ai sA Ci CB sC, MEM c bp ap))
    _ _ 0 Kd 64 _ _ _ _ _ _ fuel _ _)).
  - intros [[[[c' p] q] r] t] [y fl] [E (z & Hz & e1 & e2 & e3 & e4 & e5 & e6 & e7 & e8 & e9 & e10 & e11 & e12 & e13 & e14 & E2)]. split; [exact E|]. do 17 eexists. exact E2.
  - lia.
  - intros z [[[[c' p] q] r] t] s (Hz0 & e1 & e2 & e3 & e4 & e5 & e6 & e7 & e8 & e9 & e10 & e11 & e12 & e13 & e14 & ->). unfold g_k. cleaf. reflexivity.
  - intros z [[[[c' p] q] r] t] s Hz (Hz0 & e1 & e2 & e3 & e4 & e5 & e6 & e7 & e8 & e9 & e10 & e11 & e12 & e13 & e14 & ->). unfold g_k. cbn [snd]. fin. csx.
    lazymatch goal with |- sim _ (bind ?r ?f) (mb (exec _ _ _ _ _ ?p (?en, MEM ?c1 ?b1 ?a1)) ?g) =>
      refine (sim_bind (fun x y => y = ((en, MEM c1 x a1), Next)) _ r (exec rv rp rr ext fuel p (en, MEM c1 b1 a1)) f g _ _) end.
    { fin. destruct (HB nJ (Z.min (Kd - z) 64) t c' q p) as (HA1 & HA2 & HA3 & HA4).
      unfold bpack_call. destruct (Ascii.eqb tb "T"), (Ascii.eqb tb "C"), (Ascii.eqb tb "R"); csteps; rewrite ?HA1, ?HA2, ?HA3, ?HA4;
      (lazymatch goal with |- sim _ ?r _ => destruct r as [x | |]; csteps; [apply sim_ok; reflexivity | reflexivity | reflexivity] end). }
    intros x y ->. csteps. rewrite x_while. unfold gemm_mc. rewrite bind_bind.
    cbe; [eapply g_i_ok; [lia | exact Hm | exact Hj | reflexivity ..] |].
    intros [[[c2 p2] q2] r2] [y fl] [E (f1 & f2 & f3 & f4 & f5 & f6 & f7 & f8 & f9 & f10 & f11 & f12 & f13 & E2)]. cbn [fst snd] in E, E2. subst fl y. cbn [bind].
    destruct (Ascii.eqb ta "T"), (Ascii.eqb ta "C"); csteps; destruct (Ascii.eqb tb "T"), (Ascii.eqb tb "C"); csteps; apply sim_ok;
      (refine (conj eq_refl (conj _ _)); [clear -Hz0; lia | do 14 eexists; reflexivity]).
  - refine (conj _ _); [lia |]. do 14 eexists. reflexivity.
  - lia.
Qed.

(** gemm.cxx:81-179: the j loop *)
Lemma g_j_ok i3 j3 Cj Bj j nJ jD i nI iD kk nK ii jj nI3 nJ3 Bp BL1 Ap Ai sA Ci CB sC c bp ap :
  (Z.to_nat Kd < fuel)%nat -> (Z.to_nat M < fuel)%nat -> (Z.to_nat N < fuel)%nat ->
  j = Vz 0 -> Cj = qp 2 0 -> Bj = qp 1 0 ->
  sim (fun '(c', _, _, _, _) y => snd y = Next /\ exists en bp ap, fst y = (en, MEM c' bp ap) /\ get en 19 = mret (VP (Ptr (OnQ 3) 0 0 TQuat)) /\ get en 20 = mret (VP (Ptr (OnQ 4) 0 0 TQuat)))
    (zforstep 0 N 512 (fun j '(c, aPack, bPack, Bj, Cj) =>
      let nJ := Z.min (N - j) 512 in
      '(c, aPack, bPack) <- gemm_kc 64 64 ta tb M Kd (Some al) None nJ a lda b Bj ldb aa aPack ba bPack c Cj ldc ;;
      let Cj := Cj + nJ * ldc in
      let Bj := if Ascii.eqb tb "T" || Ascii.eqb tb "C" then Bj + nJ else Bj + nJ * ldb in
      Ok (c, aPack, bPack, Bj, Cj)) (c, ap, bp, 0, 0))
    (wloop fuel (test rv (fst g_j)) (exec rv rp rr ext fuel (snd g_j))
       (ENV j nJ jD i nI iD kk nK ii jj i3 j3 nI3 nJ3 Cj Bj Bp BL1 Ap Ai sA Ci CB sC, MEM c bp ap)).
Proof.
  intros Hk Hm Hn -> -> ->.
  refine (sim_weaken _ _ _ _ _ (wfors_sim (fun z '(c, ap, bp, bj, cj) (s : st K) => 0 <= z /\ exists nJ jD i nI iD kk nK ii jj nI3 nJ3 Bp BL1 Ap Ai sA Ci CB sC,
    s = (ENV (Vz z) nJ jD i nI iD kk nK ii jj i3 j3 nI3 nJ3 (qp 2 cj) (qp 1 bj) Bp BL1 Ap Ai sA Ci CB sC, MEM c bp ap))
    _ _ 0 N 512 _ _ _ _ _ _ fuel _ _)).
  - intros [[[[c' p] q] r] t] [y fl] [E (z & Hz & e1 & e2 & e3 & e4 & e5 & e6 & e7 & e8 & e9 & e10 & e11 & e12 & e13 & e14 & e15 & e16 & e17 & e18 & e19 & E2)]. split; [exact E|]. do 3 eexists. split; [exact E2 | split; reflexivity].
  - lia.
  - intros z [[[[c' p] q] r] t] s (Hz0 & e1 & e2 & e3 & e4 & e5 & e6 & e7 & e8 & e9 & e10 & e11 & e12 & e13 & e14 & e15 & e16 & e17 & e18 & e19 & ->). unfold g_j. cleaf. reflexivity.
  - intros z [[[[c' p] q] r] t] s Hz (Hz0 & e1 & e2 & e3 & e4 & e5 & e6 & e7 & e8 & e9 & e10 & e11 & e12 & e13 & e14 & e15 & e16 & e17 & e18 & e19 & ->). unfold g_j. cbn [snd]. fin. csteps. rewrite x_ifz. csteps. rewrite x_while.
    unfold gemm_kc. rewrite bind_bind.
    cbe; [eapply g_k_ok; [lia | exact Hk | exact Hm | lia | reflexivity ..] |].
    intros [[[[c2 p2] q2] r2] t2] [y fl] [E (f1 & f2 & f3 & f4 & f5 & f6 & f7 & f8 & f9 & f10 & f11 & f12 & f13 & f14 & f15 & f16 & f17 & E2)]. cbn [fst snd] in E, E2. subst fl y. cbn [bind].
    csteps; destruct (Ascii.eqb tb "T"), (Ascii.eqb tb "C"); csteps; apply sim_ok;
      (refine (conj eq_refl (conj _ _)); [clear -Hz0; lia | do 19 eexists; reflexivity]).
  - refine (conj _ _); [lia |]. do 19 eexists. reflexivity.
  - lia.
Qed.
End G.
