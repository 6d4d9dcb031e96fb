(** Quaternion expressions on integer-valued doubles. *)
From Coq Require Import ZArith Lia Bool.
From Verif Require Import Num Spec SpecFacts MQuat MSimd SimdFacts MOptL1 L1Facts2 MForL1 MForL2 MForL3 MPack OptGemmFacts OptGemmTop F64 SpecInt IntFacts ErrFacts2 ErrFacts3.
Local Open Scope Z_scope.

Lemma Z1_nonneg q : 0 <= Z1 q. Proof. unfold Z1. lia. Qed.
Lemma Z1_conj (q : quat Znum) : Z1 (Hconj q) = Z1 q. Proof. unfold Z1, Hconj; cbn [qr qi qj qk]. rewrite !Z.abs_opp. reflexivity. Qed.
Lemma Z1_add (p q : quat Znum) : Z1 (Hadd p q) <= Z1 p + Z1 q. Proof. unfold Z1, Hadd; cbn; lia. Qed.
Ltac nn t := let h := fresh in assert (h : 0 <= t) by (repeat apply Z.mul_nonneg_nonneg; lia).
Lemma Z1_mul (p q : quat Znum) : Z1 (Hmul p q) <= Z1 p * Z1 q.
Proof.
  destruct p as [a b c d], q as [w x y z]. unfold Z1, Hmul. hunf. cbn.
  replace ((Z.abs a + Z.abs b + Z.abs c + Z.abs d) * (Z.abs w + Z.abs x + Z.abs y + Z.abs z)) with
   ((Z.abs (a * w) + Z.abs (b * x) + Z.abs (c * y) + Z.abs (d * z)) + (Z.abs (a * x) + Z.abs (b * w) + Z.abs (c * z) + Z.abs (d * y)) +
    (Z.abs (a * y) + Z.abs (b * z) + Z.abs (c * w) + Z.abs (d * x)) + (Z.abs (a * z) + Z.abs (b * y) + Z.abs (c * x) + Z.abs (d * w)))
   by (rewrite !Z.abs_mul; ring).
  rewrite (Z.mul_comm w b), (Z.mul_comm w c), (Z.mul_comm w d). generalize (a * w) (a * x) (a * y) (a * z) (b * w) (b * x) (b * y) (b * z) (c * w) (c * x) (c * y) (c * z) (d * w) (d * x) (d * y) (d * z).
  clear. intros. apply Z.add_le_mono; [apply Z.add_le_mono; [apply Z.add_le_mono|]|]; lia.
Qed.
Lemma Z1_sum n (f : Z -> quat Znum) : Z1 (Hsum n f) <= Zsum n (fun i => Z1 (f i)).
Proof.
  unfold Hsum, Zsum. induction (Z.to_nat n) as [|p IH]; cbn [Hsum_nat Zsum_nat]; [unfold Z1, H0; cbn; lia|].
  eapply Z.le_trans; [apply Z1_add|]. lia.
Qed.
Lemma Zsum_0 f : Zsum 0 f = 0. Proof. reflexivity. Qed.
Lemma Zsum_succ n f : 0 <= n -> Zsum (n + 1) f = Zsum n f + f n.
Proof. intros Hn. unfold Zsum. replace (Z.to_nat (n + 1)) with (S (Z.to_nat n)) by lia. cbn [Zsum_nat]. rewrite Z2Nat.id by lia. reflexivity. Qed.
Lemma Zsum_mono n m f : 0 <= n <= m -> (forall i, 0 <= i < m -> 0 <= f i) -> Zsum n f <= Zsum m f.
Proof.
  intros [Hn Hm] Hf. replace m with (n + (m - n)) in * by lia. assert (Hd : 0 <= m - n) by lia. revert Hf. generalize (m - n) Hd. clear m Hm Hd.
  intros d Hd. pattern d. apply natlike_ind; auto.
  - intros _. rewrite Z.add_0_r. lia.
  - clear d Hd. intros d Hd IH Hf. unfold Z.succ. rewrite Z.add_assoc, Zsum_succ by lia. pose proof (Hf (n + d) ltac:(lia)). specialize (IH ltac:(intros; apply Hf; lia)). lia.
Qed.

Ltac ext := lazymatch goal with
  | |- ex _ (nadd _ _) _ _ => eapply ex_nadd; [ext|ext|]
  | |- ex _ (nsub _ _) _ _ => eapply ex_nsub; [ext|ext|]
  | |- ex _ (nopp _) _ _ => eapply ex_nopp; ext
  | |- ex _ (nmul _ _) _ _ => eapply ex_nmul; [ext|ext|]
  | |- ex _ (nfma _ _ _) _ _ => eapply ex_nfma; [ext|ext|ext|]
  | |- ex _ (nfnma _ _ _) _ _ => eapply ex_nfnma; [ext|ext|ext|]
  | |- ex _ (nfms _ _ _) _ _ => eapply ex_nfms; [ext|ext|ext|]
  | |- ex _ _ _ _ => eassumption
  end.

Lemma expand4 a b c d w x y z : (a + b + c + d) * (w + x + y + z) =
  a * w + a * x + a * y + a * z + (b * w + b * x + b * y + b * z) + (c * w + c * x + c * y + c * z) + (d * w + d * x + d * y + d * z).
Proof. ring. Qed.
Lemma expand1 a w x y z : a * (w + x + y + z) = a * w + a * x + a * y + a * z. Proof. ring. Qed.
Lemma expand2 a b w x y z : (a + b) * (w + x + y + z) = a * w + a * x + a * y + a * z + (b * w + b * x + b * y + b * z). Proof. ring. Qed.
Ltac gen1 t := let h := fresh in assert (h : 0 <= t) by (apply Z.mul_nonneg_nonneg; assumption); revert h; generalize t; intros ? ?.
Ltac gprods := repeat match goal with |- context [?a * ?b] => rewrite ?(Z.mul_comm b a); gen1 (a * b) end; intros.
Ltac bnd HB := match goal with |- _ <= exact_max => idtac end; repeat match goal with h : ex _ _ _ _ |- _ => clear h end;
  revert HB; rewrite ?expand4; gprods; lia.
Ltac bnd' HB := match goal with |- _ <= exact_max => idtac end; repeat match goal with h : ex _ _ _ _ |- _ => clear h end;
  revert HB; rewrite ?expand4, ?expand2, ?expand1; gprods; lia.
Ltac lanes := unfold scalq, scal_step, axpy_step, alpha_cplx, load_cplx, q_of_v, v_of_q, mm256_mul, mm256_add, mm256_hsub, mm256_broadcast, mm256_xorsign, flip,
      mm256_permute, set256, sel, FMA_256D;
    cbn [l0 l1 l2 l3 d0 d1 re im qr qi qj qk Z.testbit Pos.testbit Pos.pred_N Pos.pred_double Z.odd N.testbit Pos.Nsucc_double].
Ltac fin4 HB := refine (conj _ (conj _ (conj _ _))); cbn [qr qi qj qk]; (eapply ex_cast; [ext|cbn; ring]); bnd' HB.
Section Q.
Variable fused : bool.
Local Notation K := (F64 fused).
Local Notation FQ := (quat (F64 fused)).
Lemma qisZ_conj (v : FQ) q : qisZ v q -> qisZ (Hconj v) (Hconj q).
Proof. intros (A & B & C & D). refine (conj _ (conj _ (conj _ _))); cbn [qr qi qj qk Hconj]; [exact A|apply isZ_opp, B|apply isZ_opp, C|apply isZ_opp, D]. Qed.
Lemma qisZ_0 : qisZ (H0 : FQ) (H0 : quat Znum).
Proof. refine (conj _ (conj _ (conj _ _))); apply isZ_zero. Qed.
Lemma qisZ_add (p q : FQ) zp zq : qisZ p zp -> qisZ q zq -> Z1 zp + Z1 zq <= exact_max -> qisZ (Hadd p q) (Hadd zp zq).
Proof.
  intros (A & B & C & D) (A' & B' & C' & D') HB. unfold Z1 in HB.
  refine (conj _ (conj _ (conj _ _))); cbn [qr qi qj qk Hadd]; apply isZ_add; auto; lia.
Qed.
(** the four components with magnitudes as variables *)
Lemma qleaf (x : FQ) z : qisZ x z -> exists m0 m1 m2 m3, Z1 z = m0 + m1 + m2 + m3 /\ 0 <= m0 /\ 0 <= m1 /\ 0 <= m2 /\ 0 <= m3 /\
  ex fused (qr x) (qr z) m0 /\ ex fused (qi x) (qi z) m1 /\ ex fused (qj x) (qj z) m2 /\ ex fused (qk x) (qk z) m3.
Proof.
  intros (A & B & C & D). exists (Z.abs (qr z)), (Z.abs (qi z)), (Z.abs (qj z)), (Z.abs (qk z)).
  repeat match goal with |- _ /\ _ => split end; try apply Z.abs_nonneg; try reflexivity; apply ex_leaf; assumption.
Qed.
Ltac leaf4 A HB a b c d := let E := fresh in destruct (qleaf _ _ A) as (a & b & c & d & E & ? & ? & ? & ? & ? & ? & ? & ?); clear A; rewrite ?E in HB; clear E.
Lemma qisZ_qinc (x y r : FQ) zx zy zr : qisZ x zx -> qisZ y zy -> qisZ r zr -> Z1 zr + Z1 zx * Z1 zy <= exact_max ->
  qisZ (qinc x y r) (Hadd zr (Hmul zx zy)).
Proof.
  intros A B C HB. leaf4 A HB a0 a1 a2 a3. leaf4 B HB b0 b1 b2 b3. leaf4 C HB m0 m1 m2 m3.
  destruct zx as [u0 u1 u2 u3], zy as [v0 v1 v2 v3], zr as [w0 w1 w2 w3]. cbn [qr qi qj qk] in *.
  unfold qinc. refine (conj _ (conj _ (conj _ _))); cbn [qr qi qj qk Hadd].
  all: eapply ex_cast; [ext|hunf; cbn; ring].
  all: bnd HB.
Qed.
Lemma qisZ_qincc (x y r : FQ) zx zy zr : qisZ x zx -> qisZ y zy -> qisZ r zr -> Z1 zr + Z1 zx * Z1 zy <= exact_max ->
  qisZ (qincc x y r) (Hadd zr (Hmul (Hconj zx) zy)).
Proof.
  intros A B C HB. leaf4 A HB a0 a1 a2 a3. leaf4 B HB b0 b1 b2 b3. leaf4 C HB m0 m1 m2 m3.
  destruct zx as [u0 u1 u2 u3], zy as [v0 v1 v2 v3], zr as [w0 w1 w2 w3]. cbn [qr qi qj qk] in *.
  unfold qincc. refine (conj _ (conj _ (conj _ _))); cbn [qr qi qj qk Hadd].
  all: eapply ex_cast; [ext|hunf; cbn; ring].
  all: bnd HB.
Qed.
Lemma qisZ_muldq (x y : FQ) zx zy : qisZ x zx -> qisZ y zy -> Z1 zx * Z1 zy <= exact_max ->
  qisZ (q_of_v (MULDQ_NN (v_of_q x) (v_of_q y))) (Hmul zx zy).
Proof.
  intros A B HB. leaf4 A HB a0 a1 a2 a3. leaf4 B HB b0 b1 b2 b3.
  destruct x as [x0 x1 x2 x3], y as [y0 y1 y2 y3], zx as [u0 u1 u2 u3], zy as [v0 v1 v2 v3]. cbn [qr qi qj qk] in *.
  unfold MULDQ_NN, q_of_v, v_of_q, mm256_add, mm256_mul, FMS_256D, FMA_256D, mm256_xorsign, flip, mm256_permute, mm_shuffle, set256, lo, hi, sel.
  cbn [l0 l1 l2 l3 d0 d1 qr qi qj qk Z.testbit Pos.testbit Pos.pred_N N.testbit Pos.Nsucc_double].
  refine (conj _ (conj _ (conj _ _))); cbn [qr qi qj qk].
  all: eapply ex_cast; [ext|hunf; cbn; ring].
  all: bnd HB.
Qed.
Lemma sleaf_r (a : K) x : isZ (a : f64) x -> exists m, Z1 (emb (@SR Znum x)) = m /\ 0 <= m /\ ex fused a x m.
Proof. intros A. exists (Z.abs x). repeat split; try apply A; unfold Z1; cbn [emb Hre qr qi qj qk]; cbn; lia. Qed.
Lemma sleaf_c (z : cplx K) (w : cplx Znum) : isZ (re z : f64) (re w) -> isZ (im z : f64) (im w) ->
  exists m0 m1, Z1 (emb (@SC Znum w)) = m0 + m1 /\ 0 <= m0 /\ 0 <= m1 /\ ex fused (re z) (re w) m0 /\ ex fused (im z) (im w) m1.
Proof. intros A B. exists (Z.abs (re w)), (Z.abs (im w)). repeat split; try apply A; try apply B; unfold Z1; cbn [emb Hc qr qi qj qk]; cbn; lia. Qed.
Lemma qisZ_scalq b (alpha : scal K) al (q : FQ) zq : sisZ alpha al -> qisZ q zq -> Z1 (emb al) * Z1 zq <= exact_max ->
  qisZ (scalq b alpha q) (Hside (sd b) (emb al) zq).
Proof.
  intros A B HB. destruct alpha as [a|z|h], al as [x|w|g]; cbn [sisZ] in A; try contradiction.
  - destruct (sleaf_r a x A) as (m & E & Hm & A'). rewrite E in HB. leaf4 B HB b0 b1 b2 b3.
    destruct q as [q0 q1 q2 q3], zq as [v0 v1 v2 v3]. cbn [qr qi qj qk] in *. destruct b; lanes; fin4 HB.
  - destruct A as [A1 A2]. destruct (sleaf_c z w A1 A2) as (m0 & m1 & E & Hm0 & Hm1 & A1' & A2'). rewrite E in HB. leaf4 B HB b0 b1 b2 b3.
    destruct q as [q0 q1 q2 q3], zq as [v0 v1 v2 v3], z as [z0 z1], w as [w0 w1]. cbn [qr qi qj qk re im] in *. destruct b; lanes; fin4 HB.
  - cbn [emb] in *. destruct b; unfold scalq, scal_step; cbn [sd Hside].
    + apply qisZ_muldq; auto.
    + apply qisZ_muldq; auto. lia.
Qed.
End Q.
