(** Integer data in the real-matrix GEMV and GEMM. *)
From Coq Require Import ZArith Reals Lia Bool Ascii.
From Flocq Require Import IEEE754.BinarySingleNaN.
From Verif Require Import Num Res ResFacts Spec SpecFacts VecFacts LoopFacts MQuat MForL1 MGenL1 MGenL2 OptGemmFacts RawL3 RawL2 RawL2g GemmMisc F64 SpecErrR SpecInt SpecIntF
  IntFacts IntFacts2 IntFacts3 IntTop ErrReal ErrReal2.
Local Open Scope Z_scope.

Section S.
Variable fused : bool.
Local Notation K := (F64 fused).
Local Notation ex := (ex fused).
Variables (al be : K) (a b : Z -> K) (w : K) (zal zbe : Z) (za zb : Z -> Z) (zw : Z).
Variable k : Z.
Hypothesis Hk : 0 <= k.
Hypothesis Ial : isZ (al : f64) zal.
Hypothesis Ibe : isZ (be : f64) zbe.
Hypothesis Iw : isZ (w : f64) zw.
Hypothesis Ia : forall l, 0 <= l < k -> isZ (a l : f64) (za l).
Hypothesis Ib : forall l, 0 <= l < k -> isZ (b l : f64) (zb l).
Let ab l := Z.abs (za l) * Z.abs (zb l).
Hypothesis Baa : forall l, 0 <= l < k -> Z.abs zal * Z.abs (za l) <= exact_max.
Hypothesis Bdot : Zsum k ab <= exact_max.
Hypothesis Btot : Z.abs zbe * Z.abs zw + Z.abs zal * Zsum k ab <= exact_max.
Definition z_val (p : Z) : Z := zal * Zsum p (fun l => za l * zb l) + zbe * zw.

Lemma ab_pos l : 0 <= ab l. Proof. unfold ab. apply Z.mul_nonneg_nonneg; apply Z.abs_nonneg. Qed.
Lemma sum_pos p : 0 <= Zsum p ab. Proof. unfold Zsum. induction (Z.to_nat p) as [|q IH]; cbn [Zsum_nat]; [lia|]. pose proof (ab_pos (Z.of_nat q)). lia. Qed.
Lemma sum_step p : 0 <= p < k -> Zsum p ab + ab p <= Zsum k ab.
Proof. intros Hp. rewrite <- Zsum_succ by lia. apply Zsum_mono; [lia|]. intros; apply ab_pos. Qed.
Lemma tot_mono x : x <= Zsum k ab -> Z.abs zbe * Z.abs zw + Z.abs zal * x <= exact_max.
Proof. intros Hx. assert (Z.abs zal * x <= Z.abs zal * Zsum k ab) by (apply Z.mul_le_mono_nonneg_l; [apply Z.abs_nonneg|exact Hx]). lia. Qed.
Lemma bw_le : Z.abs zbe * Z.abs zw <= exact_max.
Proof. pose proof (tot_mono 0 (sum_pos k)). lia. Qed.
Lemma eqb_0 (x : K) z : isZ (x : f64) z -> neqb x n0 = (z =? 0). Proof. intros I. exact (isZ_eqb x f_zero z 0 I isZ_zero). Qed.
Lemma eqb_1 (x : K) z : isZ (x : f64) z -> neqb x n1 = (z =? 1). Proof. intros I. exact (isZ_eqb x f_one z 1 I isZ_one). Qed.
Lemma ex_bw : ex (nmul w be) (zbe * zw) (Z.abs zbe * Z.abs zw).
Proof. rewrite (Z.mul_comm zbe), (Z.mul_comm (Z.abs zbe)). apply ex_nmul; [apply ex_leaf; auto|apply ex_leaf; auto|]. rewrite Z.mul_comm. exact bw_le. Qed.
Lemma ex_pre : ex (s_pre fused be w) (zbe * zw) (Z.abs zbe * Z.abs zw).
Proof.
  unfold s_pre. rewrite (eqb_0 _ _ Ibe), (eqb_1 _ _ Ibe). destruct (Z.eqb_spec zbe 0) as [E|E].
  { rewrite E. split; [apply isZ_zero|cbn; lia]. }
  destruct (Z.eqb_spec zbe 1) as [E1|E1]; cbn [negb]; [|exact ex_bw]. rewrite E1, Z.mul_1_l. change (Z.abs 1) with 1. rewrite Z.mul_1_l. apply ex_leaf; auto.
Qed.
Lemma ex_pre' : ex (s_pre' fused be w) (zbe * zw) (Z.abs zbe * Z.abs zw).
Proof.
  unfold s_pre'. rewrite (eqb_0 _ _ Ibe), (eqb_1 _ _ Ibe). destruct (Z.eqb_spec zbe 1) as [E1|E1].
  { rewrite E1, Z.mul_1_l. change (Z.abs 1) with 1. rewrite Z.mul_1_l. apply ex_leaf; auto. }
  destruct (Z.eqb_spec zbe 0) as [E|E]; [|exact ex_bw]. rewrite E. split; [apply isZ_zero|cbn; lia].
Qed.
Lemma ex_dot : ex (s_dot fused a b k) (Zsum k (fun l => za l * zb l)) (Zsum k ab).
Proof.
  assert (G : forall p, 0 <= p -> p <= k -> ex (s_dot fused a b p) (Zsum p (fun l => za l * zb l)) (Zsum p ab)); [|apply G; lia].
  intros p Hp. pattern p. apply natlike_ind; auto.
  - intros _. apply ex_0.
  - clear p Hp. intros p Hp IH Hpk. unfold Z.succ in *. specialize (IH ltac:(lia)). unfold s_dot in *. rewrite ziter_succ, !Zsum_succ by lia.
    pose proof (sum_step p ltac:(lia)). pose proof (sum_pos p).
    apply ex_nadd; [exact IH| |lia]. unfold ab at 1. rewrite (Z.mul_comm (za p)), (Z.mul_comm (Z.abs (za p))).
    apply ex_nmul; [apply ex_leaf, Ib; lia|apply ex_leaf, Ia; lia|]. unfold ab in *. lia.
Qed.
Lemma ex_dal : ex (nmul (s_dot fused a b k) al) (zal * Zsum k (fun l => za l * zb l)) (Z.abs zal * Zsum k ab).
Proof.
  rewrite (Z.mul_comm zal), (Z.mul_comm (Z.abs zal)). apply ex_nmul; [exact ex_dot|apply ex_leaf; auto|]. rewrite Z.mul_comm.
  pose proof (Z.mul_nonneg_nonneg (Z.abs zbe) (Z.abs zw) (Z.abs_nonneg _) (Z.abs_nonneg _)). lia.
Qed.
Lemma term_bound p : 0 <= p < k -> Z.abs zal * ab p <= exact_max.
Proof.
  intros Hp. pose proof (tot_mono (ab p)) as T. pose proof (sum_step p Hp). pose proof (sum_pos p).
  pose proof (Z.mul_nonneg_nonneg (Z.abs zbe) (Z.abs zw) (Z.abs_nonneg _) (Z.abs_nonneg _)). lia.
Qed.
Lemma ex_aa p : 0 <= p < k -> ex (nmul al (a p)) (zal * za p) (Z.abs zal * Z.abs (za p)) /\ ex (nmul (a p) al) (za p * zal) (Z.abs (za p) * Z.abs zal).
Proof.
  intros Hp. specialize (Baa p Hp). split; (apply ex_nmul; [apply ex_leaf; auto|apply ex_leaf; auto|]); lia.
Qed.
Lemma ex_nota : ex (ziter k (fun l acc => nadd acc (nmul (b l) (nmul al (a l)))) (s_pre fused be w)) (z_val k) (Z.abs zbe * Z.abs zw + Z.abs zal * Zsum k ab).
Proof.
  assert (G : forall p, 0 <= p -> p <= k -> ex (ziter p (fun l acc => nadd acc (nmul (b l) (nmul al (a l)))) (s_pre fused be w)) (z_val p) (Z.abs zbe * Z.abs zw + Z.abs zal * Zsum p ab)); [|apply (G k); lia].
  intros p Hp. pattern p. apply natlike_ind; auto.
  - intros _. unfold z_val. rewrite !Zsum_0, !Z.mul_0_r, Z.add_0_l, Z.add_0_r. exact ex_pre.
  - clear p Hp. intros p Hp IH Hpk. unfold Z.succ in *. specialize (IH ltac:(lia)). unfold z_val in *. rewrite ziter_succ, !Zsum_succ by lia.
    pose proof (sum_step p ltac:(lia)) as SS. pose proof (sum_pos p). pose proof (tot_mono (Zsum p ab + ab p) SS) as T.
    replace (zal * (Zsum p (fun l => za l * zb l) + za p * zb p) + zbe * zw) with (zal * Zsum p (fun l => za l * zb l) + zbe * zw + zb p * (zal * za p)) by ring.
    replace (Z.abs zbe * Z.abs zw + Z.abs zal * (Zsum p ab + ab p)) with (Z.abs zbe * Z.abs zw + Z.abs zal * Zsum p ab + Z.abs (zb p) * (Z.abs zal * Z.abs (za p))) in * by (unfold ab; ring).
    apply ex_nadd; [exact IH| |exact T].
    apply ex_nmul; [apply ex_leaf, Ib; lia|apply ex_aa; lia|]. replace (Z.abs (zb p) * (Z.abs zal * Z.abs (za p))) with (Z.abs zal * ab p) by (unfold ab; ring). apply term_bound; lia.
Qed.
Hypothesis Bab : forall l, 0 <= l < k -> Z.abs zal * Z.abs (zb l) <= exact_max.
Lemma ex_nota_v : ex (ziter k (fun l acc => nadd (nadd acc (nmul (nmul (b l) al) (a l))) (nmul (b l) (nsub (nmul al (a l)) (nmul (a l) al)))) (s_pre' fused be w)) (z_val k) (Z.abs zbe * Z.abs zw + Z.abs zal * Zsum k ab).
Proof.
  assert (G : forall p, 0 <= p -> p <= k -> ex (ziter p (fun l acc => nadd (nadd acc (nmul (nmul (b l) al) (a l))) (nmul (b l) (nsub (nmul al (a l)) (nmul (a l) al)))) (s_pre' fused be w)) (z_val p) (Z.abs zbe * Z.abs zw + Z.abs zal * Zsum p ab)); [|apply (G k); lia].
  intros p Hp. pattern p. apply natlike_ind; auto.
  - intros _. unfold z_val. rewrite !Zsum_0, !Z.mul_0_r, Z.add_0_l, Z.add_0_r. exact ex_pre'.
  - clear p Hp. intros p Hp IH Hpk. unfold Z.succ in *. specialize (IH ltac:(lia)). unfold z_val in *. rewrite ziter_succ, !Zsum_succ by lia.
    pose proof (sum_step p ltac:(lia)) as SS. pose proof (sum_pos p). pose proof (tot_mono (Zsum p ab + ab p) SS) as T.
    replace (zal * (Zsum p (fun l => za l * zb l) + za p * zb p) + zbe * zw) with (zal * Zsum p (fun l => za l * zb l) + zbe * zw + zb p * zal * za p) by ring.
    replace (Z.abs zbe * Z.abs zw + Z.abs zal * (Zsum p ab + ab p)) with (Z.abs zbe * Z.abs zw + Z.abs zal * Zsum p ab + Z.abs (zb p) * Z.abs zal * Z.abs (za p)) in * by (unfold ab; ring).
    destruct (ex_aa p ltac:(lia)) as [X1 X2]. destruct X1 as [X1 _], X2 as [X2 _].
    assert (Z0 : ex (nmul (b p) (nsub (nmul al (a p)) (nmul (a p) al))) 0 0).
    { assert (D : isZ (nsub (nmul al (a p)) (nmul (a p) al) : f64) 0).
      { pose proof (isZ_sub _ _ _ _ X1 X2) as D. replace (zal * za p - za p * zal) with 0 in D by ring. apply D. vm_compute; discriminate. }
      pose proof (isZ_mul _ _ _ _ (Ib p ltac:(lia)) D) as D2. rewrite Z.mul_0_r in D2. split; [apply D2; vm_compute; discriminate|cbn; lia]. }
    rewrite <- (Z.add_0_r (_ + zb p * zal * za p)). rewrite <- (Z.add_0_r (_ + Z.abs (zb p) * Z.abs zal * Z.abs (za p))).
    apply ex_nadd; [|exact Z0|lia].
    apply ex_nadd; [exact IH| |exact T].
    apply ex_nmul; [apply ex_nmul; [apply ex_leaf, Ib; lia|apply ex_leaf; auto|rewrite Z.mul_comm; apply Bab; lia]|apply ex_leaf, Ia; lia|].
    replace (Z.abs (zb p) * Z.abs zal * Z.abs (za p)) with (Z.abs zal * ab p) by (unfold ab; ring). apply term_bound; lia.
Qed.
Lemma int_gemm tr : isZ (s_gemm fused al be a b w tr k : f64) (z_val k).
Proof.
  unfold s_gemm. rewrite (eqb_0 _ _ Ial), (eqb_0 _ _ Ibe), (eqb_1 _ _ Ibe).
  assert (A0 : zal = 0 -> z_val k = zbe * zw) by (intros E; unfold z_val; rewrite E; ring).
  destruct (((zal =? 0) || (k =? 0)) && (zbe =? 1)) eqn:EQ.
  { replace (z_val k) with zw; auto. apply andb_prop in EQ as [E1 E2]. unfold z_val. apply orb_prop in E1 as [E1|E1].
    - replace zal with 0 by lia. replace zbe with 1 by lia. ring.
    - replace k with 0 by lia. rewrite Zsum_0. replace zbe with 1 by lia. ring. }
  destruct (Z.eqb_spec zal 0) as [E0|E0].
  { rewrite A0 by auto. destruct (Z.eqb_spec zbe 0) as [->|Eb]; [apply isZ_zero|apply ex_bw]. }
  destruct tr; [|apply ex_nota]. destruct (Z.eqb_spec zbe 0) as [Eb|Eb].
  - unfold z_val. rewrite Eb, Z.mul_0_l, Z.add_0_r. apply ex_dal.
  - unfold z_val. apply (ex_nadd _ _ _ _ _ _ _ ex_dal ex_bw). lia.
Qed.
Lemma int_gemv tr : isZ (s_gemv fused al be a b w tr k : f64) (z_val k).
Proof.
  unfold s_gemv. rewrite (eqb_0 _ _ Ial), (eqb_1 _ _ Ibe).
  assert (A0 : zal = 0 -> z_val k = zbe * zw) by (intros E; unfold z_val; rewrite E; ring).
  destruct ((zal =? 0) && (zbe =? 1)) eqn:EQ.
  { replace (z_val k) with zw; auto. apply andb_prop in EQ as [E1 E2]. unfold z_val. replace zal with 0 by lia. replace zbe with 1 by lia. ring. }
  destruct (Z.eqb_spec zal 0) as [E0|E0]. { rewrite A0 by auto. apply ex_pre'. }
  destruct tr; [|apply ex_nota_v]. unfold z_val. rewrite Z.add_comm. apply (ex_nadd _ _ _ _ _ _ _ ex_pre' ex_dal). exact Btot.
Qed.
End S.

Section T.
Variable fused : bool.
Local Notation K := (F64 fused).
Local Notation FQ := (quat (F64 fused)).

Lemma Zsum_ext n f g : (forall l, f l = g l) -> Zsum n f = Zsum n g.
Proof. intros E. unfold Zsum. induction (Z.to_nat n) as [|p IH]; cbn [Zsum_nat]; auto. rewrite IH, E. reflexivity. Qed.
Lemma Zsum_le n f g : 0 <= n -> (forall l, 0 <= l < n -> f l <= g l) -> Zsum n f <= Zsum n g.
Proof.
  intros Hn. pattern n. apply natlike_ind; auto; [cbn; lia|]. clear n Hn. intros n Hn IH Hf. unfold Z.succ in *. rewrite !Zsum_succ by lia.
  specialize (Hf n ltac:(lia)) as E. specialize (IH ltac:(intros; apply Hf; lia)). lia.
Qed.
Definition zv (al be : Z) (k : Z) (a : Z -> Z) (col : Z -> quat Znum) (w : quat Znum) : quat Znum :=
  Hadd (Hmul (Hre (K := Znum) al) (Hsum k (fun l => Hmul (Hre (K := Znum) (a l)) (col l)))) (Hmul (Hre (K := Znum) be) w).
Section X.
Variable pr : quat Znum -> Z.
Hypothesis pr_add : forall p q, pr (Hadd p q) = pr p + pr q.
Hypothesis pr_mul : forall r q, pr (Hmul (Hre (K := Znum) r) q) = r * pr q.
Hypothesis pr_0 : pr H0 = 0.
Lemma zpr_sum k f : 0 <= k -> pr (Hsum k f) = Zsum k (fun l => pr (f l)).
Proof. intros Hk. pattern k. apply natlike_ind; auto. clear k Hk. intros k Hk IH. unfold Z.succ. rewrite Hsum_succ, Zsum_succ, pr_add, IH by lia. reflexivity. Qed.
Lemma zpr_zv al be k a col w : 0 <= k -> pr (zv al be k a col w) = al * Zsum k (fun l => a l * pr (col l)) + be * pr w.
Proof. intros Hk. unfold zv. rewrite pr_add, !pr_mul, zpr_sum by auto. do 2 f_equal. apply Zsum_ext. intros l. apply pr_mul. Qed.
End X.
Definition zsmall (al be : Z) (k : Z) (a : Z -> Z) (col : Z -> quat Znum) (w : quat Znum) : Prop :=
  (forall l, 0 <= l < k -> Z.abs al * Z.abs (a l) <= exact_max /\ Z.abs al * Z1 (col l) <= exact_max) /\
  Zsum k (fun l => Z.abs (a l) * Z1 (col l)) <= exact_max /\
  Z.abs be * Z1 w + Z.abs al * Zsum k (fun l => Z.abs (a l) * Z1 (col l)) <= exact_max.

Section C.
Variables (pi : FQ -> K) (pr : quat Znum -> Z).
Hypothesis pz : forall q z, qisZ q z -> isZ (pi q : f64) (pr z).
Hypothesis pr_add : forall p q, pr (Hadd p q) = pr p + pr q.
Hypothesis pr_mul : forall r q, pr (Hmul (Hre (K := Znum) r) q) = r * pr q.
Hypothesis pr_0 : pr H0 = 0.
Hypothesis pr_1 : forall q, Z.abs (pr q) <= Z1 q.
Lemma icore (al be : K) k (a : Z -> K) (col : Z -> FQ) (w : FQ) zal zbe za zcol zw tr : 0 <= k ->
  isZ (al : f64) zal -> isZ (be : f64) zbe -> qisZ w zw -> (forall l, 0 <= l < k -> isZ (a l : f64) (za l) /\ qisZ (col l) (zcol l)) -> zsmall zal zbe k za zcol zw ->
  isZ (s_gemm fused al be a (fun l => pi (col l)) (pi w) tr k : f64) (pr (zv zal zbe k za zcol zw)) /\
  isZ (s_gemv fused al be a (fun l => pi (col l)) (pi w) tr k : f64) (pr (zv zal zbe k za zcol zw)).
Proof.
  intros Hk Ial Ibe Iw Iac (B1 & B2 & B3). rewrite (zpr_zv pr) by auto.
  assert (AN := Z.abs_nonneg).
  assert (SL : Zsum k (fun l => Z.abs (za l) * Z.abs (pr (zcol l))) <= Zsum k (fun l => Z.abs (za l) * Z1 (zcol l))).
  { apply Zsum_le; auto. intros l _. apply Z.mul_le_mono_nonneg_l; auto. }
  assert (TL : Z.abs zbe * Z.abs (pr zw) + Z.abs zal * Zsum k (fun l => Z.abs (za l) * Z.abs (pr (zcol l))) <= exact_max).
  { eapply Z.le_trans; [|exact B3]. apply Z.add_le_mono; apply Z.mul_le_mono_nonneg_l; auto. }
  split; [apply (int_gemm fused al be a (fun l => pi (col l)) (pi w) zal zbe za (fun l => pr (zcol l)) (pr zw))|
          apply (int_gemv fused al be a (fun l => pi (col l)) (pi w) zal zbe za (fun l => pr (zcol l)) (pr zw))]; auto; try (intros l Hl; apply Iac; auto); try (intros l Hl; apply pz, Iac; auto).
  all: try (intros l Hl; apply (B1 l Hl)).
  all: try (eapply Z.le_trans; [exact SL|exact B2]).
  intros l Hl. eapply Z.le_trans; [|apply (B1 l Hl)]. apply Z.mul_le_mono_nonneg_l; auto.
Qed.
End C.
Ltac zmul := intros r q; destruct q as [q1 q2 q3 q4]; unfold Hmul, Hre; cbn; ring.
Lemma zmr r q : qr (Hmul (Hre (K := Znum) r) q) = r * qr q. Proof. revert r q; zmul. Qed.
Lemma zmi r q : qi (Hmul (Hre (K := Znum) r) q) = r * qi q. Proof. revert r q; zmul. Qed.
Lemma zmj r q : qj (Hmul (Hre (K := Znum) r) q) = r * qj q. Proof. revert r q; zmul. Qed.
Lemma zmk r q : qk (Hmul (Hre (K := Znum) r) q) = r * qk q. Proof. revert r q; zmul. Qed.
Lemma zq1 (q : quat Znum) : Z.abs (qr q) <= Z1 q /\ Z.abs (qi q) <= Z1 q /\ Z.abs (qj q) <= Z1 q /\ Z.abs (qk q) <= Z1 q.
Proof. unfold Z1. repeat split; lia. Qed.
Lemma icore_q (al be : K) k (a : Z -> K) (col : Z -> FQ) (w : FQ) zal zbe za zcol zw tr : 0 <= k ->
  isZ (al : f64) zal -> isZ (be : f64) zbe -> qisZ w zw -> (forall l, 0 <= l < k -> isZ (a l : f64) (za l) /\ qisZ (col l) (zcol l)) -> zsmall zal zbe k za zcol zw ->
  (forall q : FQ, (forall pi, (pi = qr \/ pi = qi \/ pi = qj \/ pi = qk) -> pi q = s_gemm fused al be a (fun l => pi (col l)) (pi w) tr k) -> qisZ q (zv zal zbe k za zcol zw)) /\
  (forall q : FQ, (forall pi, (pi = qr \/ pi = qi \/ pi = qj \/ pi = qk) -> pi q = s_gemv fused al be a (fun l => pi (col l)) (pi w) tr k) -> qisZ q (zv zal zbe k za zcol zw)).
Proof.
  intros Hk Ial Ibe Iw Iac B.
  destruct (icore (@qr K) (@qr Znum) (fun q z Q => proj1 Q) (fun p q => eq_refl) zmr eq_refl (fun q => proj1 (zq1 q)) al be k a col w zal zbe za zcol zw tr Hk Ial Ibe Iw Iac B) as [A1 B1].
  destruct (icore (@qi K) (@qi Znum) (fun q z Q => proj1 (proj2 Q)) (fun p q => eq_refl) zmi eq_refl (fun q => proj1 (proj2 (zq1 q))) al be k a col w zal zbe za zcol zw tr Hk Ial Ibe Iw Iac B) as [A2 B2].
  destruct (icore (@qj K) (@qj Znum) (fun q z Q => proj1 (proj2 (proj2 Q))) (fun p q => eq_refl) zmj eq_refl (fun q => proj1 (proj2 (proj2 (zq1 q)))) al be k a col w zal zbe za zcol zw tr Hk Ial Ibe Iw Iac B) as [A3 B3].
  destruct (icore (@qk K) (@qk Znum) (fun q z Q => proj2 (proj2 (proj2 Q))) (fun p q => eq_refl) zmk eq_refl (fun q => proj2 (proj2 (proj2 (zq1 q)))) al be k a col w zal zbe za zcol zw tr Hk Ial Ibe Iw Iac B) as [A4 B4].
  split; intros q Hq; refine (conj _ (conj _ (conj _ _)));
    [rewrite (Hq qr) by auto|rewrite (Hq qi) by auto|rewrite (Hq qj) by auto|rewrite (Hq qk) by auto|
     rewrite (Hq qr) by auto|rewrite (Hq qi) by auto|rewrite (Hq qj) by auto|rewrite (Hq qk) by auto]; assumption.
Qed.
Lemma Z1_re r : Z1 (Hre (K := Znum) r) = Z.abs r. Proof. unfold Z1, Hre; cbn; lia. Qed.
Definition zropm (o : mop) (A : Z -> Z -> Z) (i l : Z) : Z := match o with OpN | OpR => A i l | OpT | OpC => A l i end.
Lemma zopm_re o (A : Z -> Z -> Z) i l : opm (K := Znum) o (fun i j => Hre (K := Znum) (A i j)) i l = Hre (K := Znum) (zropm o A i l).
Proof. destruct o; cbn [opm zropm]; auto. Qed.
Lemma qisZ_opm o (B : Z -> Z -> FQ) ZB l j r c : (forall i j, 0 <= i < op_rows o r c -> 0 <= j < op_cols o r c -> qisZ (B i j) (ZB i j)) -> 0 <= l < r -> 0 <= j < c ->
  o <> OpR -> qisZ (opm o B l j) (opm o ZB l j).
Proof. intros HB Hl Hj Ho. destruct o; cbn [opm op_rows op_cols] in *; try congruence; [apply HB| apply HB|apply qisZ_conj, HB]; auto. Qed.

Lemma gemm_real_int qmul ca cb oa ob m n k (alpha beta : K) al be (a : arr K) lda (b : arr FQ) ldb (c : arr FQ) ldc A B w ZA ZB zw :
  trans_char ca = Some oa -> trans_char cb = Some ob -> 0 <= m -> 0 <= n -> 0 <= k -> m <= ldc ->
  holds_mat a lda (op_rows oa m k) (op_cols oa m k) A -> holds_mat b ldb (op_rows ob k n) (op_cols ob k n) B -> holds_mat c ldc m n w ->
  isZ (alpha : f64) al -> isZ (beta : f64) be ->
  (forall i j, 0 <= i < op_rows oa m k -> 0 <= j < op_cols oa m k -> isZ (A i j : f64) (ZA i j)) ->
  (forall i j, 0 <= i < op_rows ob k n -> 0 <= j < op_cols ob k n -> qisZ (B i j) (ZB i j)) ->
  (forall i j, 0 <= i < m -> 0 <= j < n -> qisZ (w i j) (zw i j) /\
     gemm_small oa ob k (@SR Znum al) (fun i j => Hre (K := Znum) (ZA i j)) ZB (@SR Znum be) zw i j) ->
  returns (gemm_real qmul ca cb m n k alpha a lda b ldb beta c ldc) (fun c' => same_but_mat c c' ldc m n /\
    forall i j, 0 <= i < m -> 0 <= j < n -> exists q, c' (i + j * ldc) = Some q /\
      qisZ q (gemm_elt oa ob k (Hre (K := Znum) al) (fun i j => Hre (K := Znum) (ZA i j)) ZB (Hre (K := Znum) be) zw i j)).
Proof.
  intros Ca Cb Hm Hn Hk Hl Ha Hb Hc Ial Ibe IA IB IW. pose proof (gdec_char _ _ Ca) as Da. pose proof (gdec_char _ _ Cb) as Db.
  assert (Hob : ob <> OpR) by (destruct (lsame_N _ _ Cb) as (_ & _ & _ & ?); auto).
  assert (Hoa : oa <> OpR) by (destruct (lsame_N _ _ Ca) as (_ & _ & _ & ?); auto).
  eapply returns_mono; [apply (gemm_gen_raw qmul r_mul_q rmulscal smartconj_r ca cb m n k (SR alpha) a lda b ldb (SR beta) c ldc A B w); rewrite ?Da, ?Db; auto|]. rewrite Da, Db.
  intros c' [Hh S]. split; auto. intros i j Hi Hj. eexists. split; [apply Hh; auto|].
  set (q := ggemm_val _ _ _ _ _ _ _ _ _ _ _ _ _ _).
  assert (HQ : forall pi, (pi = qr \/ pi = qi \/ pi = qj \/ pi = qk) -> pi q = s_gemm fused alpha beta (fun l => ropm oa A i l) (fun l => pi (opm ob B l j)) (pi (w i j)) (istr oa) k).
  { intros pi Hpi. unfold q. rewrite (pi_gemm fused pi); auto; try (intros; destruct Hpi as [-> | [-> | [-> | ->]]]; reflexivity).
    destruct ob; try congruence; reflexivity. }
  destruct (IW i j Hi Hj) as [Iw (S1 & S2 & S3)].
  destruct (icore_q alpha beta k (fun l => ropm oa A i l) (fun l => opm ob B l j) (w i j) al be (fun l => zropm oa ZA i l) (fun l => opm ob ZB l j) (zw i j) (istr oa) Hk Ial Ibe Iw) as [Q _].
  { intros l Hll. split; [destruct oa; cbn [ropm zropm op_rows op_cols] in *; try congruence; apply IA; auto|apply (qisZ_opm ob B ZB l j k n); auto]. }
  { refine (conj _ (conj _ _)).
    - intros l Hll. destruct (S1 l Hll) as [T1 T2]. rewrite zopm_re, Z1_re in T1. cbn [emb] in T1, T2. rewrite Z1_re in T1, T2. auto.
    - eapply Z.le_trans; [|exact S2]. apply Z.eq_le_incl, Zsum_ext. intros l. rewrite zopm_re, Z1_re. reflexivity.
    - cbn [emb] in S3. rewrite !Z1_re in S3. eapply Z.le_trans; [|exact S3]. apply Z.eq_le_incl. do 2 f_equal. apply Zsum_ext. intros l. rewrite zopm_re, Z1_re. reflexivity. }
  specialize (Q q HQ). replace (gemm_elt oa ob k (Hre (K := Znum) al) (fun i j => Hre (K := Znum) (ZA i j)) ZB (Hre (K := Znum) be) zw i j)
    with (zv al be k (fun l => zropm oa ZA i l) (fun l => opm ob ZB l j) (zw i j)); [exact Q|].
  unfold zv, gemm_elt. do 2 f_equal. apply Hsum_ext. intros l _. rewrite zopm_re. reflexivity.
Qed.
Lemma gemv_real_int qmul c o m n (alpha beta : K) al be (a : arr K) lda (x : arr FQ) incx (y : arr FQ) incy A v w ZA zx zw :
  trans_char c = Some o -> 0 < m -> 0 < n -> 0 < incx -> 0 < incy ->
  holds_mat a lda m n A -> holds_vec x (op_cols o m n) incx v -> holds_vec y (op_rows o m n) incy w ->
  isZ (alpha : f64) al -> isZ (beta : f64) be ->
  (forall i j, 0 <= i < m -> 0 <= j < n -> isZ (A i j : f64) (ZA i j) /\ Z.abs al * Z.abs (ZA i j) <= exact_max) ->
  (forall j, 0 <= j < op_cols o m n -> qisZ (v j) (zx j)) ->
  (forall i, 0 <= i < op_rows o m n -> qisZ (w i) (zw i) /\
     gemv_small o (op_cols o m n) (@SR Znum al) (fun i j => Hre (K := Znum) (ZA i j)) zx (@SR Znum be) zw i) ->
  returns (gemv_real qmul c m n alpha a lda x incx beta y incy) (fun y' => same_but_vec y y' (op_rows o m n) incy /\
    forall i, 0 <= i < op_rows o m n -> exists q, y' (vpos (op_rows o m n) incy i) = Some q /\
      qisZ q (gemv_elt o (op_cols o m n) (Hre (K := Znum) al) (fun i j => Hre (K := Znum) (ZA i j)) zx (Hre (K := Znum) be) zw i)).
Proof.
  intros Hc Hm Hn Hix Hiy Ha Hx Hy Ial Ibe IA IV IW.
  assert (Ho : o <> OpR) by (destruct (lsame_N _ _ Hc) as (_ & _ & _ & ?); auto).
  assert (Hk : 0 <= op_cols o m n) by (destruct o; cbn; lia).
  eapply returns_mono; [apply (gemv_gen_raw qmul r_mul_q rmulscal rscalmul nsub smartconj_r c o m n (SR alpha) a lda x incx (SR beta) y incy A v w); auto|].
  intros y' [Hh S]. split; auto. intros i Hi. eexists. split; [apply Hh; auto|].
  set (k := op_cols o m n) in *.
  set (q := ggemv_val _ _ _ _ _ _ _ _ _ _ _ _ _ _).
  assert (HQ : forall pi, (pi = qr \/ pi = qi \/ pi = qj \/ pi = qk) -> pi q = s_gemv fused alpha beta (fun l => ropm o A i l) (fun l => pi (v l)) (pi (w i)) (istr o) k).
  { intros pi Hpi. unfold q. rewrite (pi_gemv fused pi); auto; try (intros; destruct Hpi as [-> | [-> | [-> | ->]]]; reflexivity). }
  destruct (IW i Hi) as [Iw (S1 & S2 & S3)].
  destruct (icore_q alpha beta k (fun l => ropm o A i l) v (w i) al be (fun l => zropm o ZA i l) zx (zw i) (istr o) Hk Ial Ibe Iw) as [_ Q].
  { intros l Hll. split; [|apply IV; auto]. unfold k in Hll. destruct o; cbn [ropm zropm op_rows op_cols] in *; try congruence; apply IA; auto. }
  { refine (conj _ (conj _ _)).
    - intros l Hll. specialize (S1 l Hll). cbn [emb] in S1. rewrite Z1_re in S1. split; [|exact S1].
      unfold k in Hll. destruct o; cbn [ropm zropm op_rows op_cols] in *; try congruence; apply IA; auto.
    - eapply Z.le_trans; [|exact S2]. apply Z.eq_le_incl, Zsum_ext. intros l. rewrite zopm_re, Z1_re. reflexivity.
    - cbn [emb] in S3. rewrite !Z1_re in S3. eapply Z.le_trans; [|exact S3]. apply Z.eq_le_incl. do 2 f_equal. apply Zsum_ext. intros l. rewrite zopm_re, Z1_re. reflexivity. }
  specialize (Q q HQ). replace (gemv_elt o k (Hre (K := Znum) al) (fun i j => Hre (K := Znum) (ZA i j)) zx (Hre (K := Znum) be) zw i)
    with (zv al be k (fun l => zropm o ZA i l) zx (zw i)); [exact Q|].
  unfold zv, gemv_elt. do 2 f_equal. apply Hsum_ext. intros l _. rewrite zopm_re. reflexivity.
Qed.
End T.
