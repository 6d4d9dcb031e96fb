(** Rounding-error bounds of the optimised kernels. *)
From Coq Require Import ZArith Reals Lra Lia Psatz Bool Ascii.
From Flocq Require Import Core.Core IEEE754.BinarySingleNaN.
From Verif Require Import Num NumR Res ResFacts Spec SpecFacts VecFacts LoopFacts MQuat MSimd SimdFacts MOptL1 L1Facts L1Facts2 L1Facts3 MPack PackFacts
  MOptGemm OptGemmFacts OptGemmTop F64 SpecErr RoundFacts ErrFacts ErrFacts2.
Local Open Scope R_scope.

Lemma Rsum_succ n f : (0 <= n)%Z -> Rsum (n + 1) f = Rsum n f + f n.
Proof. intros Hn. unfold Rsum. replace (Z.to_nat (n + 1)) with (S (Z.to_nat n)) by lia. cbn [Rsum_nat]. rewrite Z2Nat.id by lia. reflexivity. Qed.
Lemma Rsum_0 f : Rsum 0 f = 0. Proof. reflexivity. Qed.

Section A.
Context {K : num}.
Local Notation qarr := (arr (quat K)).
Local Open Scope Z_scope.
(** AXPYV for any arithmetic: one [axpy_step] per element *)
Lemma axpyv_opt_raw s c n alpha xa (x : qarr) incx ya y incy v w : Ascii.eqb c "L" = s -> 0 < incx -> 0 < incy ->
  holds_vec x n incx v -> holds_vec y n incy w ->
  returns (axpyv_opt c n alpha xa x incx ya y incy) (fun y' =>
    holds_vec y' n incy (fun i => q_of_v (axpy_step s alpha (v_of_q (v i)) (v_of_q (w i)))) /\ same_but_vec y y' n incy).
Proof.
  intros Hc Hix Hiy Hx Hy. unfold axpyv_opt. rewrite Z.quot_1_r, Hc.
  destruct (Z_le_gt_dec n 0) as [Hn|Hn]; [rewrite zfor_none by lia; apply noop_vec; auto|].
  set (al := IS_ALIGNED xa && IS_ALIGNED ya).
  assert (Ha : al = true -> IS_ALIGNED xa = true /\ IS_ALIGNED ya = true) by apply andb_true_iff.
  pose (f := fun u w => q_of_v (axpy_step s alpha (v_of_q u) (v_of_q w))).
  apply returns_mono with (P := fun y' => is_vec y y' n incy (prog (fun k => f (v k) (w k)) w n)).
  2:{ intros y' Hy'. eapply is_vec_done in Hy'; [exact Hy'|lia]. }
  pose (step := fun ix iy s0 => x1 <- vld al xa x ix ;; y1 <- vld al ya s0 iy ;; vst al ya s0 iy (axpy_step s alpha x1 y1)).
  rewrite (zfor_ext _ _ _ (fun _ '(s0, ix, iy) => bind (step ix iy s0) (fun s => Ok (s, ix + incx, iy + incy)))).
  2:{ intros i [[? ?] ?] _. unfold step. rewrite !bind_assoc.
      destruct (vld al xa x _); cbn [bind]; auto. rewrite !bind_assoc, !Z.mul_1_l. reflexivity. }
  apply (cursor2_n (fun i y' => is_vec y y' n incy (prog (fun k => f (v k) (w k)) w i)) step); try lia.
  - intros i y' Hi HI. rewrite !Z.add_0_l.
    apply (maps2_step f step n incx incy x y y' v w i); auto; try lia; try (rewrite vpos_pos; auto).
    intros p q y0 u0 w0 Hp Hq. unfold step.
    rewrite (vld_ok al xa x p u0 (fun e => proj1 (Ha e)) Hp). cbn [bind].
    rewrite (vld_ok al ya y0 q w0 (fun e => proj2 (Ha e)) Hq). cbn [bind].
    rewrite (vst_ok al ya y0 q w0 _ (fun e => proj2 (Ha e)) Hq). reflexivity.
  - apply is_vec_init; auto.
Qed.

(** the multiply-accumulate of the conjugated dot product *)
Definition qincc (x y r : quat K) : quat K :=
  Quat (nfma (qk x) (qk y) (nfma (qj x) (qj y) (nfma (qi x) (qi y) (nfma (qr x) (qr y) (qr r)))))
       (nfma (qk x) (qj y) (nfnma (qj x) (qk y) (nfnma (qi x) (qr y) (nfma (qr x) (qi y) (qi r)))))
       (nfnma (qk x) (qi y) (nfnma (qj x) (qr y) (nfma (qi x) (qk y) (nfma (qr x) (qj y) (qj r)))))
       (nfnma (qk x) (qr y) (nfma (qj x) (qi y) (nfnma (qi x) (qj y) (nfma (qr x) (qk y) (qk r))))).
Lemma INC_qincc (x y r : m4 K) t : 0 <= t < 4 -> soa (INC_MULD4Q_CN x y r) t = qincc (soa x t) (soa y t) (soa r t).
Proof.
  intros Ht. destruct x as [[] [] [] []], y as [[] [] [] []], r as [[] [] [] []].
  assert (t = 0 \/ t = 1 \/ t = 2 \/ t = 3) as [->|[->|[->| ->]]] by lia; reflexivity.
Qed.
Lemma pre_scalq cnj al (q : quat K) : pre cnj (Some al) q = scalq true al (if cnj then Hconj q else q).
Proof. destruct q as [a b c d], cnj, al; reflexivity. Qed.
Lemma pre_none' (cnj : bool) (q : quat K) : pre cnj None q = if cnj then Hconj q else q.
Proof. destruct q as [a b c d], cnj; reflexivity. Qed.
End A.

Section O.
Variables (fused : bool) (P : Prop).
Local Notation K := (F64 fused).
Local Notation FQ := (quat (F64 fused)).
Local Notation qapx := (qapx fused P).
Lemma qapx_qincc (x y r : FQ) xx xy xr mx my mr d Er : qapx x xx mx 0 0 -> qapx y xy my 0 0 -> qapx r xr mr d Er ->
  (P -> fin x) -> (P -> fin y) -> (1 <= d)%nat ->
  qapx (qincc x y r) (Hadd (K := Rnum) xr (Hmul (K := Rnum) (Hconj (K := Rnum) xx) xy)) (Hadd (K := Rnum) mr (Qmaj mx my)) (4 + d) (Er + 8).
Proof.
  intros (A1 & A2 & A3 & A4) (B1 & B2 & B3 & B4) (C1 & C2 & C3 & C4) Fx Fy Hd.
  destruct (fin_parts _ _ _ Fx) as (? & ? & ? & ?), (fin_parts _ _ _ Fy) as (? & ? & ? & ?).
  destruct x as [x0 x1 x2 x3], y as [y0 y1 y2 y3], r as [r0 r1 r2 r3], xx as [a0 a1 a2 a3], xy as [b0 b1 b2 b3], xr as [c0 c1 c2 c3],
    mx as [m0 m1 m2 m3], my as [n0 n1 n2 n3], mr as [o0 o1 o2 o3]. cbn [qr qi qj qk] in *.
  unfold qincc; cbn [qr qi qj qk].
  refine (conj _ (conj _ (conj _ _))); cbn [qr qi qj qk Qmaj Hadd Hmul Hconj];
    (apxw; [cbn; ring|apply Req_le; cbn; ring|lia|lra]).
Qed.

Lemma qapx_cj (b : bool) (q : FQ) x m d E : qapx q x m d E ->
  qapx (if b then Hconj q else q) (if b then Hconj (K := Rnum) x else x) m d E.
Proof. destruct b; auto. apply qapx_conj. Qed.
Lemma QR_cj (b : bool) (q : FQ) : QR (if b then Hconj q else q) = if b then Hconj (K := Rnum) (QR q) else QR q.
Proof. destruct b; auto. apply QR_conj. Qed.
Lemma QR_opm o (A : Z -> Z -> FQ) i j : QR (opm o A i j) = opm (K := Rnum) o (fun i j => QR (A i j)) i j.
Proof. destruct o; cbn [opm]; auto; apply QR_conj. Qed.
Lemma qapx_eq (v : FQ) (x m : quat Rnum) d E x' m' : qapx v x m d E -> x = x' -> m = m' -> qapx v x' m' d E.
Proof. intros ? <- <-. auto. Qed.

(** one element of GEMM *)
Lemma qapx_gemm oa ob k (alpha beta : scal K) (A B w : Z -> Z -> FQ) i j :
  (0 <= k)%Z -> (forall h, alpha <> SH h) -> (forall h, beta <> SH h) ->
  (P -> sfin alpha /\ sfin beta /\ fin (w i j) /\
    forall l, (0 <= l < k)%Z -> fin (opm oa A i l) /\ fin (opm ob B l j) /\ fin (scalq true alpha (opm oa A i l))) ->
  let RA := fun i j => QR (A i j) in let RB := fun i j => QR (B i j) in let RC := fun i j => QR (w i j) in
  qapx (gemm_val oa ob k alpha beta A B w i j) (gemm_elt (K := Rnum) oa ob k (emb (SR_of alpha)) RA RB (emb (SR_of beta)) RC i j)
    (gemm_mag oa ob k (emb (SR_of alpha)) RA RB (emb (SR_of beta)) RC i j) (Z.to_nat (4 * k + 3)) (gemm_units ob k RB j).
Proof.
  intros Hk Ha Hb HP RA RB RC.
  assert (Fa : P -> sfin alpha) by (intros h; apply (HP h)). assert (Fb : P -> sfin beta) by (intros h; apply (HP h)).
  assert (Fw : P -> fin (w i j)) by (intros h; apply (HP h)).
  assert (FA : forall l, (0 <= l < k)%Z -> P -> fin (opm oa A i l)) by (intros l Hl h; apply (HP h); auto).
  assert (FB : forall l, (0 <= l < k)%Z -> P -> fin (opm ob B l j)) by (intros l Hl h; apply (HP h); auto).
  assert (FS : forall l, (0 <= l < k)%Z -> P -> fin (scalq true alpha (opm oa A i l))) by (intros l Hl h; apply (HP h); auto).
  clear HP. unfold gemm_val, gemm_val_at, pprod.
  rewrite (facc_ext k _ _ (fun l => scalq true alpha (opm oa A i l)) (fun l => opm ob B l j)).
  2:{ intros l _. rewrite pre_scalq, pre_none', <- !opm_raw. split; reflexivity. }
  assert (Gen : forall p, (0 <= p)%Z -> (p <= k)%Z -> qapx (facc p (fun l => scalq true alpha (opm oa A i l)) (fun l => opm ob B l j) (scalq true beta (w i j)))
    (Hadd (K := Rnum) (Hmul (K := Rnum) (emb (SR_of beta)) (RC i j))
      (Hsum (K := Rnum) p (fun l => Hmul (K := Rnum) (Hmul (K := Rnum) (emb (SR_of alpha)) (opm (K := Rnum) oa RA i l)) (opm (K := Rnum) ob RB l j))))
    (gemm_mag oa ob p (emb (SR_of alpha)) RA RB (emb (SR_of beta)) RC i j) (Z.to_nat (4 * p + 3)) (gemm_units ob p RB j)).
  { intros p Hp. pattern p. apply natlike_ind; auto.
    - intros _. rewrite facc_0. unfold gemm_mag, gemm_units. rewrite Rsum_0, !Hsum_0, !(Hadd_0_r Rlaws).
      eapply qapx_weaken; [apply (qapx_scalq fused P true beta (w i j)); auto; apply qapx_leaf; auto|reflexivity|..]; try apply Rle_refl; try lra; try lia.
    - clear p Hp. intros p Hp IH Hpk. unfold Z.succ in *. specialize (IH ltac:(lia)). rewrite facc_succ by lia.
      unfold gemm_mag, gemm_units in *. rewrite Rsum_succ, !Hsum_succ by lia. rewrite !(Hadd_assoc Rlaws).
      replace (Z.to_nat (4 * (p + 1) + 3)) with (4 + Z.to_nat (4 * p + 3))%nat by lia.
      eapply qapx_weaken; [apply (qapx_qinc fused P) with (dx := 2%nat) (Ex := 3);
        [apply (qapx_scalq fused P true alpha (opm oa A i p)); auto; [apply qapx_leaf|]; apply FA; lia
        |apply qapx_leaf; apply FB; lia|exact IH|apply FS; lia|apply FB; lia|lia]|..]; rewrite ?QR_opm; try apply Rle_refl; try lia; auto.
      assert (Eq : Q1 (Qabs (opm (K := Rnum) ob RB p j)) = Q1 (opm (K := Rnum) ob RB p j)) by (unfold Q1, Qabs; cbn; rewrite !Rabs_Rabsolu; reflexivity).
      fold RB. rewrite Eq. lra. }
  eapply qapx_eq; [apply (Gen k); lia| |reflexivity].
  unfold gemm_elt. rewrite (Hadd_comm Rlaws). f_equal. rewrite (Hmul_sum_l Rlaws). apply Hsum_ext. intros l _. rewrite (Hmul_assoc Rlaws). reflexivity.
Qed.
End O.

Lemma Hsum4 b (f : Z -> quat Rnum) : (0 <= b)%Z ->
  Hsum (K := Rnum) (4 * b) f = Hadd (K := Rnum) (Hadd (K := Rnum) (Hadd (K := Rnum) (Hsum (K := Rnum) b (fun i => f (4 * i)%Z)) (Hsum (K := Rnum) b (fun i => f (4 * i + 1)%Z)))
    (Hsum (K := Rnum) b (fun i => f (4 * i + 2)%Z))) (Hsum (K := Rnum) b (fun i => f (4 * i + 3)%Z)).
Proof.
  intros Hb. pattern b. apply natlike_ind; auto.
  - rewrite Z.mul_0_r, !Hsum_0. unfold Hadd, H0; cbn. f_equal; ring.
  - clear b Hb. intros b Hb IH. unfold Z.succ. replace (4 * (b + 1))%Z with (4 * b + 1 + 1 + 1 + 1)%Z by lia. rewrite !Hsum_succ by lia.
    rewrite IH. replace (4 * b + 1 + 1 + 1)%Z with (4 * b + 3)%Z by lia. replace (4 * b + 1 + 1)%Z with (4 * b + 2)%Z by lia.
    unfold Hadd; cbn. f_equal; ring.
Qed.

Section D.
Variables (fused : bool) (P : Prop).
Local Notation K := (F64 fused).
Local Notation FQ := (quat (F64 fused)).
Local Notation qapx := (qapx fused P).
Local Open Scope Z_scope.
Lemma qapx_muldq_c (cnj : bool) (p q : FQ) : (P -> fin p) -> (P -> fin q) ->
  qapx (q_of_v (if cnj then MULDQ_CN (v_of_q p) (v_of_q q) else MULDQ_NN (v_of_q p) (v_of_q q)))
    (Hmul (K := Rnum) (if cnj then Hconj (K := Rnum) (QR p) else QR p) (QR q)) (Qmaj (Qabs (QR p)) (Qabs (QR q))) 4 7.
Proof.
  intros Fp Fq. destruct cnj.
  - replace (MULDQ_CN (v_of_q p) (v_of_q q)) with (MULDQ_NN (v_of_q (Hconj p)) (v_of_q q)) by (destruct p as [a b c d]; reflexivity).
    apply qapx_muldq; [apply qapx_conj, qapx_leaf; auto|apply qapx_leaf; auto| |auto]. intros h. apply fin_conj; auto.
  - apply qapx_muldq; auto; apply qapx_leaf; auto.
Qed.
Lemma dot_opt_apx cnj n xa (x : arr FQ) incx ya y incy (v w : Z -> FQ) :
  0 <= n -> 0 < incx -> 0 < incy -> holds_vec x n incx v -> holds_vec y n incy w ->
  (P -> forall i, 0 <= i < n -> fin (v i) /\ fin (w i)) ->
  returns (dot_opt cnj n xa x incx ya y incy) (fun r =>
    qapx r (Hsum (K := Rnum) n (dterm (K := Rnum) cnj (fun i => QR (v i)) (fun i => QR (w i))))
      (dot_mag n (fun i => QR (v i)) (fun i => QR (w i))) (Z.to_nat (n + 4)) (8 * IZR n + 3)).
Proof.
  intros Hn Hix Hiy Hx Hy HP.
  assert (FX : forall i, 0 <= i < n -> P -> fin (v i)) by (intros i Hi h; apply (HP h); auto).
  assert (FY : forall i, 0 <= i < n -> P -> fin (w i)) by (intros i Hi h; apply (HP h); auto). clear HP.
  unfold dot_opt. rewrite Z.rem_mod_nonneg, Z.quot_div_nonneg by lia.
  set (al := IS_ALIGNED xa && IS_ALIGNED ya).
  assert (Ha : al = true -> IS_ALIGNED xa = true /\ IS_ALIGNED ya = true) by apply andb_true_iff.
  set (f := dterm (K := Rnum) cnj (fun i => QR (v i)) (fun i => QR (w i))). set (g := fun i => Qmaj (Qabs (QR (v i))) (Qabs (QR (w i)))).
  pose proof (Z.div_mod n 4 ltac:(lia)) as Hd. pose proof (Z.mod_pos_bound n 4 ltac:(lia)) as Hm.
  pose proof (Z.div_pos n 4 ltac:(lia) ltac:(lia)) as Hnb.
  assert (Lx : forall i p, 0 <= i < n -> p = i * incx -> vld al xa x p = Ok (v_of_q (v i))).
  { intros i p Hi ->. apply vld_ok; [apply Ha|]. rewrite <- (vpos_pos n) by auto. auto. }
  assert (Ly : forall i p, 0 <= i < n -> p = i * incy -> vld al ya y p = Ok (v_of_q (w i))).
  { intros i p Hi ->. apply vld_ok; [apply Ha|]. rewrite <- (vpos_pos n) by auto. auto. }
  pose (J := fun (b : Z) (r : m4 K) => forall t, 0 <= t < 4 ->
    qapx (soa r t) (Hsum (K := Rnum) b (fun i => f (4 * i + t))) (Hsum (K := Rnum) b (fun i => g (4 * i + t))) (Z.to_nat (4 * b + 1)) (8 * IZR b)).
  eapply returns_bind with (P := fun '(r, lx, ly) => J (n / 4) r /\ lx = 4 * (n / 4) * incx /\ ly = 4 * (n / 4) * incy).
  - apply (zfor_inv (fun b '(r, lx, ly) => J b r /\ lx = 4 * b * incx /\ ly = 4 * b * incy)); auto.
    + refine (conj _ (conj _ _)); try reflexivity. intros t Ht. rewrite !Hsum_0.
      replace (soa _ t) with (H0 (K := K)) by (assert (t = 0 \/ t = 1 \/ t = 2 \/ t = 3) as [->|[->|[->| ->]]] by lia; reflexivity).
      eapply qapx_weaken; [apply qapx_zero|reflexivity|..]; try apply Rle_refl; try lia. lra.
    + intros b [[r lx] ly] Hb (HI & -> & ->).
      assert (Hb4 : 4 * b + 4 <= n) by lia.
      rewrite (Lx (4 * b)), (Lx (4 * b + 1)), (Lx (4 * b + 2)), (Lx (4 * b + 3)) by lia. cbn [bind].
      rewrite (Ly (4 * b)), (Ly (4 * b + 1)), (Ly (4 * b + 2)), (Ly (4 * b + 3)) by lia. cbn [bind returns].
      refine (conj _ (conj _ _)); try lia.
      set (X := M4 _ _ _ _). set (Y := M4 _ _ _ _). intros t Ht. specialize (HI t Ht).
      assert (EX : aos X t = v (4 * b + t)).
      { assert (Et : t = 0 \/ t = 1 \/ t = 2 \/ t = 3) by lia.
        destruct Et as [->|[->|[->| ->]]]; unfold X, aos; cbn [Z.eqb Pos.eqb w1 w2 w3 w4]; rewrite !q_of_v_of_q, ?Z.add_0_r; reflexivity. }
      assert (EY : aos Y t = w (4 * b + t)).
      { assert (Et : t = 0 \/ t = 1 \/ t = 2 \/ t = 3) by lia.
        destruct Et as [->|[->|[->| ->]]]; unfold Y, aos; cbn [Z.eqb Pos.eqb w1 w2 w3 w4]; rewrite !q_of_v_of_q, ?Z.add_0_r; reflexivity. }
      rewrite !Hsum_succ by lia. replace (Z.to_nat (4 * (b + 1) + 1)) with (4 + Z.to_nat (4 * b + 1))%nat by lia. rewrite plus_IZR.
      destruct cnj; [rewrite INC_qincc by auto|rewrite INC_qinc by auto]; rewrite !transpose_soa, EX, EY by auto.
      * eapply qapx_weaken; [apply (qapx_qincc fused P); [apply qapx_leaf; apply FX; lia|apply qapx_leaf; apply FY; lia|exact HI|apply FX; lia|apply FY; lia|lia]
          |reflexivity|..]; try apply Rle_refl; try lia; try lra.
      * eapply qapx_weaken; [apply (qapx_qinc fused P) with (dx := 0%nat) (Ex := 0%R); [apply qapx_leaf; apply FX; lia|apply qapx_leaf; apply FY; lia|exact HI|apply FX; lia|apply FY; lia|lia]
          |reflexivity|..]; try apply Rle_refl; try lia; try lra.
  - intros [[r lx] ly] (HI & -> & ->).
    set (R := TRANSPOSE_4x4 r).
    assert (EA : forall u w : m256 K, q_of_v (mm256_add u w) = Hadd (q_of_v u) (q_of_v w)) by (intros [] []; reflexivity).
    set (r0 := mm256_add _ (w4 R)).
    assert (E0 : qapx (q_of_v r0) (Hsum (K := Rnum) (4 * (n / 4)) f) (Hsum (K := Rnum) (4 * (n / 4)) g) (Z.to_nat (4 * (n / 4) + 4)) (8 * IZR (4 * (n / 4)) + 3)).
    { unfold r0. rewrite !EA, !Hsum4 by lia.
      replace (q_of_v (w1 R)) with (soa r 0) by (rewrite <- !(transpose_aos r) by lia; reflexivity).
      replace (q_of_v (w2 R)) with (soa r 1) by (rewrite <- !(transpose_aos r) by lia; reflexivity).
      replace (q_of_v (w3 R)) with (soa r 2) by (rewrite <- !(transpose_aos r) by lia; reflexivity).
      replace (q_of_v (w4 R)) with (soa r 3) by (rewrite <- !(transpose_aos r) by lia; reflexivity).
      pose proof (HI 0 ltac:(lia)) as J0. pose proof (HI 1 ltac:(lia)) as J1. pose proof (HI 2 ltac:(lia)) as J2. pose proof (HI 3 ltac:(lia)) as J3.
      rewrite (Hsum_ext (n / 4) (fun i => f (4 * i + 0)) (fun i => f (4 * i))) in J0 by (intros; f_equal; lia).
      rewrite (Hsum_ext (n / 4) (fun i => g (4 * i + 0)) (fun i => g (4 * i))) in J0 by (intros; f_equal; lia).
      eapply qapx_weaken; [apply qapx_add; [apply qapx_add; [apply qapx_add; [exact J0|exact J1]|exact J2]|exact J3]|reflexivity|..]; try apply Rle_refl; try lia.
      rewrite mult_IZR. lra. }
    eapply returns_bind with (P := fun r1 => qapx (q_of_v r1) (Hsum (K := Rnum) (4 * (n / 4) + n mod 4) f) (Hsum (K := Rnum) (4 * (n / 4) + n mod 4) g)
      (Z.to_nat (4 * (n / 4) + n mod 4 + 4)) (8 * IZR (4 * (n / 4) + n mod 4) + 3)).
    + apply (zfor_inv (fun i r1 => qapx (q_of_v r1) (Hsum (K := Rnum) (4 * (n / 4) + i) f) (Hsum (K := Rnum) (4 * (n / 4) + i) g)
        (Z.to_nat (4 * (n / 4) + i + 4)) (8 * IZR (4 * (n / 4) + i) + 3))); [lia|rewrite !Z.add_0_r; exact E0|].
      intros i r1 Hi Hr1.
      rewrite (Lx (4 * (n / 4) + i)), (Ly (4 * (n / 4) + i)) by lia. cbn [bind returns].
      rewrite Z.add_assoc, !Hsum_succ, EA by lia.
      eapply qapx_weaken; [apply qapx_add; [exact Hr1|apply qapx_muldq_c; [apply FX|apply FY]; lia]|reflexivity|..]; try apply Rle_refl; try lia.
      rewrite (plus_IZR (4 * (n / 4) + i) 1). generalize (IZR (4 * (n / 4) + i)). clear. intros. lra.
    + intros r1 Hr1. cbn [returns]. unfold dot_mag. fold g. rewrite Hd at 1 2 3 4. exact Hr1.
Qed.
End D.
