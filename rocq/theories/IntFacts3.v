(** Fortran kernels and whole sums on integer-valued doubles. *)
From Coq Require Import ZArith Lia Bool Ascii.
From Verif Require Import Num Res ResFacts Spec SpecFacts MQuat MSimd SimdFacts MOptL1 L1Facts2 MForL1 MForL2 MForL3 MPack OptGemmFacts OptGemmTop L2Facts ForL3Facts RawL3 F64 SpecInt IntFacts IntFacts2 ErrFacts2 ErrFacts3.
Local Open Scope Z_scope.

Section C.
Variable fused : bool.
Local Notation K := (F64 fused).
Local Notation FQ := (quat (F64 fused)).
(** complex halves with a bound on |re| + |im| *)
Definition cex (c : cplx K) (z : cplx Znum) (m : Z) : Prop := isZ (re c : f64) (re z) /\ isZ (im c : f64) (im z) /\ Z.abs (re z) + Z.abs (im z) <= m.
Lemma cex_add a b x y m1 m2 : cex a x m1 -> cex b y m2 -> m1 + m2 <= exact_max -> cex (cadd a b) (cadd x y) (m1 + m2).
Proof. intros (A1 & A2 & A3) (B1 & B2 & B3) HB. refine (conj _ (conj _ _)); cbn [re im cadd]; [apply isZ_add; auto; lia|apply isZ_add; auto; lia|cbn; lia]. Qed.
Lemma cex_sub a b x y m1 m2 : cex a x m1 -> cex b y m2 -> m1 + m2 <= exact_max -> cex (csub a b) (csub x y) (m1 + m2).
Proof. intros (A1 & A2 & A3) (B1 & B2 & B3) HB. refine (conj _ (conj _ _)); cbn [re im csub]; [apply isZ_sub; auto; lia|apply isZ_sub; auto; lia|cbn; lia]. Qed.
Lemma cex_neg a x m : cex a x m -> cex (cneg a) (cneg x) m.
Proof. intros (A1 & A2 & A3). refine (conj _ (conj _ _)); cbn [re im cneg]; [apply isZ_opp; auto|apply isZ_opp; auto|cbn; lia]. Qed.
Lemma cex_conj a x m : cex a x m -> cex (conjg a) (conjg x) m.
Proof. intros (A1 & A2 & A3). refine (conj _ (conj _ _)); cbn [re im conjg]; [auto|apply isZ_opp; auto|cbn; lia]. Qed.
Lemma cex_mul a b x y m1 m2 : cex a x m1 -> cex b y m2 -> m1 * m2 <= exact_max -> cex (cmul a b) (cmul x y) (m1 * m2).
Proof.
  intros (A1 & A2 & A3) (B1 & B2 & B3) HB. destruct a as [a0 a1], b as [b0 b1], x as [x0 x1], y as [y0 y1]. cbn [re im] in *.
  assert (P : (Z.abs x0 + Z.abs x1) * (Z.abs y0 + Z.abs y1) <= m1 * m2) by (apply Z.mul_le_mono_nonneg; lia).
  rewrite Z.mul_add_distr_l, !Z.mul_add_distr_r, <- !Z.abs_mul in P.
  refine (conj _ (conj _ _)); cbn [re im cmul].
  - apply isZ_sub; [apply isZ_mul; auto; lia|apply isZ_mul; auto; lia|]. cbn [nmul nadd nsub Znum]. revert P. generalize (x0 * y0) (x1 * y1) (x0 * y1) (x1 * y0). intros; lia.
  - apply isZ_add; [apply isZ_mul; auto; lia|apply isZ_mul; auto; lia|]. cbn [nmul nadd nsub Znum]. revert P. generalize (x0 * y0) (x1 * y1) (x0 * y1) (x1 * y0). intros; lia.
  - cbn. revert P. generalize (x0 * y0) (x1 * y1) (x0 * y1) (x1 * y0). intros; lia.
Qed.
Lemma cex_rmul (a : K) (z : cplx K) x w m1 m2 : ex fused a x m1 -> cex z w m2 -> m1 * m2 <= exact_max -> cex (crmul a z) (crmul (x : Znum) w) (m1 * m2).
Proof.
  intros (A1 & A2) (B1 & B2 & B3) HB. destruct z as [z0 z1], w as [w0 w1]. cbn [re im] in *.
  assert (P : Z.abs x * (Z.abs w0 + Z.abs w1) <= m1 * m2) by (apply Z.mul_le_mono_nonneg; lia).
  rewrite Z.mul_add_distr_l, <- !Z.abs_mul in P.
  refine (conj _ (conj _ _)); cbn [re im crmul]; [apply isZ_mul; auto; lia|apply isZ_mul; auto; lia|exact P].
Qed.
Lemma cex_0 : cex c0 (c0 : cplx Znum) 0.
Proof. refine (conj _ (conj _ _)); [apply isZ_zero|apply isZ_zero|cbn; lia]. Qed.
Lemma cex_hq a b x y m1 m2 : cex a x m1 -> cex b y m2 -> qisZ (hq a b : FQ) (hq x y).
Proof. intros (A1 & A2 & _) (B1 & B2 & _). exact (conj A1 (conj A2 (conj B1 B2))). Qed.
Lemma hleaf (q : FQ) z : qisZ q z -> exists p1 p2, Z1 z = p1 + p2 /\ 0 <= p1 /\ 0 <= p2 /\ cex (h1 q) (h1 z) p1 /\ cex (h2 q) (h2 z) p2.
Proof.
  intros (A & B & C & D). exists (Z.abs (qr z) + Z.abs (qi z)), (Z.abs (qj z) + Z.abs (qk z)).
  refine (conj _ (conj _ (conj _ (conj _ _)))); try (unfold Z1; lia); refine (conj _ (conj _ _)); auto; cbn [re im h1 h2]; lia.
Qed.
Lemma cleaf (z : cplx K) (w : cplx Znum) : isZ (re z : f64) (re w) -> isZ (im z : f64) (im w) -> exists m, Z1 (emb (@SC Znum w)) = m /\ 0 <= m /\ cex z w m.
Proof. intros A B. exists (Z.abs (re w) + Z.abs (im w)). refine (conj _ (conj _ (conj A (conj B _)))); unfold Z1; cbn; lia. Qed.

Ltac cext := lazymatch goal with
  | |- cex (cadd _ _) _ _ => eapply cex_add; [cext|cext|]
  | |- cex (csub _ _) _ _ => eapply cex_sub; [cext|cext|]
  | |- cex (cneg _) _ _ => eapply cex_neg; cext
  | |- cex (conjg _) _ _ => eapply cex_conj; cext
  | |- cex (cmul _ _) _ _ => eapply cex_mul; [cext|cext|]
  | |- cex (crmul _ _) _ _ => eapply cex_rmul; [eassumption|cext|]
  | |- cex _ _ _ => eassumption
  end.
Ltac gen1 t := let h := fresh in assert (h : 0 <= t) by (apply Z.mul_nonneg_nonneg; assumption); revert h; generalize t; intros ? ?.
Ltac gprods := repeat match goal with |- context [?a * ?b] => rewrite ?(Z.mul_comm b a); gen1 (a * b) end; intros.
Ltac cbnd := match goal with |- _ <= exact_max => idtac end; repeat match goal with h : cex _ _ _ |- _ => clear h | h : ex _ _ _ _ |- _ => clear h end;
  repeat match goal with h : _ <= exact_max |- _ => revert h end;
  rewrite ?Z.mul_add_distr_l, ?Z.mul_add_distr_r, ?Z.mul_add_distr_l, ?Z.mul_add_distr_r; gprods; lia.
Ltac cgo := eapply cex_hq; cext; cbnd.
Ltac hl A a b := let E := fresh in destruct (hleaf _ _ A) as (a & b & E & ? & ? & ? & ?); rewrite ?E in *; clear E.

Lemma qisZ_hgdot ca cb (a b h : FQ) za zb zh : qisZ a za -> qisZ b zb -> qisZ h zh -> Z1 zh + Z1 za * Z1 zb <= exact_max ->
  qisZ (hgdot_elt ca cb a b h) (hgdot_elt ca cb za zb zh).
Proof. intros A B H HB. hl A a1 a2. hl B b1 b2. hl H m1 m2. destruct ca, cb; unfold hgdot_elt; cgo. Qed.
Lemma qisZ_halpha alpha al (h : FQ) zh : sisZ alpha al -> qisZ h zh -> Z1 (emb al) * Z1 zh <= exact_max -> qisZ (halpha_elt alpha h) (halpha_elt al zh).
Proof.
  intros A H HB. destruct alpha as [a|z|g], al as [x|w|y]; cbn [sisZ] in A; try contradiction; cbn [halpha_elt].
  - destruct (sleaf_r fused a x A) as (m & E & Hm & A'). rewrite E in HB. hl H m1 m2. cgo.
  - destruct (cleaf z w) as (m & E & Hm & A'); try apply A. rewrite E in HB. hl H m1 m2. cgo.
  - cbn [emb] in HB. hl A a1 a2. hl H m1 m2. cgo.
Qed.
Lemma qisZ_hbeta alpha al (h : FQ) zh : sisZ alpha al -> qisZ h zh -> Z1 (emb al) * Z1 zh <= exact_max -> qisZ (hbeta_elt alpha h) (hbeta_elt al zh).
Proof.
  intros A H HB. destruct alpha as [a|z|g], al as [x|w|y]; cbn [sisZ] in A; try contradiction; unfold hbeta_elt.
  - destruct (sleaf_r fused a x A) as (m & E & Hm & A'). rewrite E in HB. hl H m1 m2. cgo.
  - destruct (cleaf z w) as (m & E & Hm & A'); try apply A. rewrite E in HB. hl H m1 m2. cgo.
  - cbn [emb] in HB. hl A a1 a2. hl H m1 m2. cgo.
Qed.
(** BETA*C added to an accumulator *)
Lemma qisZ_plus_beta beta be (t c : FQ) zt zc : sisZ beta be -> qisZ t zt -> qisZ c zc -> Z1 zt + Z1 (emb be) * Z1 zc <= exact_max ->
  qisZ (match beta with
  | SR b => hq (cadd (h1 t) (crmul b (h1 c))) (cadd (h2 t) (crmul b (h2 c)))
  | SC b => hq (cadd (h1 t) (cmul b (h1 c))) (cadd (h2 t) (cmul b (h2 c)))
  | SH b => hq (csub (cadd (h1 t) (cmul (h1 b) (h1 c))) (cmul (h2 b) (conjg (h2 c)))) (cadd (cadd (h2 t) (cmul (h1 b) (h2 c))) (cmul (h2 b) (conjg (h1 c))))
  end) (match be with
  | SR b => hq (cadd (h1 zt) (crmul b (h1 zc))) (cadd (h2 zt) (crmul b (h2 zc)))
  | SC b => hq (cadd (h1 zt) (cmul b (h1 zc))) (cadd (h2 zt) (cmul b (h2 zc)))
  | SH b => hq (csub (cadd (h1 zt) (cmul (h1 b) (h1 zc))) (cmul (h2 b) (conjg (h2 zc)))) (cadd (cadd (h2 zt) (cmul (h1 b) (h2 zc))) (cmul (h2 b) (conjg (h1 zc))))
  end).
Proof.
  intros B T C HB.
  destruct beta as [b|u|r], be as [v|w|s]; cbn [sisZ] in B; try contradiction.
  - destruct (sleaf_r fused b v B) as (mb & Eb & Hmb & B'). rewrite Eb in HB. hl T t1 t2. hl C k1 k2. cgo.
  - destruct (cleaf u w) as (mb & Eb & Hmb & B'); try apply B. rewrite Eb in HB. hl T t1 t2. hl C k1 k2. cgo.
  - cbn [emb] in HB. hl B b1 b2. hl T t1 t2. hl C k1 k2. cgo.
Qed.
Lemma qisZ_halphabeta alpha al beta be (h c : FQ) zh zc : sisZ alpha al -> sisZ beta be -> qisZ h zh -> qisZ c zc ->
  Z1 (emb al) * Z1 zh + Z1 (emb be) * Z1 zc <= exact_max -> qisZ (halphabeta_elt alpha beta h c) (halphabeta_elt al be zh zc).
Proof.
  intros A B H C HB. pose proof (Z1_mul (emb al) zh) as M. pose proof (Z1_nonneg (emb be)) as N1. pose proof (Z1_nonneg zc) as N2.
  assert (N : 0 <= Z1 (emb be) * Z1 zc) by (apply Z.mul_nonneg_nonneg; auto).
  apply qisZ_plus_beta; auto; [apply qisZ_halpha; auto; lia|]. rewrite (halpha_elt_H Zlaws). lia.
Qed.
Lemma qisZ_hn alpha al (a b c : FQ) za zb zc : sisZ alpha al -> qisZ a za -> qisZ b zb -> qisZ c zc ->
  Z1 (emb al) * Z1 zb <= exact_max -> Z1 zc + Z1 za * (Z1 (emb al) * Z1 zb) <= exact_max -> qisZ (hn_elt alpha a b c) (hn_elt al za zb zc).
Proof.
  intros L A B C HB HB2. destruct alpha as [r|z|g], al as [x|w|y]; cbn [sisZ] in L; try contradiction; unfold hn_elt.
  - destruct (sleaf_r fused r x L) as (m & E & Hm & A'). rewrite E in HB, HB2. hl A a1 a2. hl B b1 b2. hl C k1 k2. cgo.
  - destruct (cleaf z w) as (m & E & Hm & A'); try apply L. rewrite E in HB, HB2. hl A a1 a2. hl B b1 b2. hl C k1 k2. cgo.
  - cbn [emb] in HB, HB2. hl L g1 g2. hl A a1 a2. hl B b1 b2. hl C k1 k2. cgo.
Qed.
Lemma qisZ_hnc alpha al (a b c : FQ) za zb zc : sisZ alpha al -> qisZ a za -> qisZ b zb -> qisZ c zc ->
  Z1 (emb al) * Z1 zb <= exact_max -> Z1 zc + Z1 za * (Z1 (emb al) * Z1 zb) <= exact_max -> qisZ (hnc_elt alpha a b c) (hnc_elt al za zb zc).
Proof.
  intros L A B C HB HB2. destruct alpha as [r|z|g], al as [x|w|y]; cbn [sisZ] in L; try contradiction; unfold hnc_elt.
  - destruct (sleaf_r fused r x L) as (m & E & Hm & A'). rewrite E in HB, HB2. hl A a1 a2. hl B b1 b2. hl C k1 k2. cgo.
  - destruct (cleaf z w) as (m & E & Hm & A'); try apply L. rewrite E in HB, HB2. hl A a1 a2. hl B b1 b2. hl C k1 k2. cgo.
  - cbn [emb] in HB, HB2. hl L g1 g2. hl A a1 a2. hl B b1 b2. hl C k1 k2. cgo.
Qed.
End C.
