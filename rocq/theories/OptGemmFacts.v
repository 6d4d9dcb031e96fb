(** Facts about the optimised GEMM. *)
From Coq Require Import ZArith Lia Ring Bool Ascii.
From Verif Require Import Num Res ResFacts Spec SpecFacts MQuat MSimd SimdFacts MOptL1 VecFacts LoopFacts L1Facts MGenM MPack
  PackFacts MOptGemm.
Local Open Scope Z_scope.

(** ** blocked loops *)
Lemma blk_loop {S} (I : Z -> Z -> S -> Prop) n step (body : Z -> S -> res S) s :
  0 < step -> 0 <= n -> I 0 0 s ->
  (forall t i s, 0 <= t -> i = step * t -> 0 <= i < n -> I t i s -> returns (body i s) (I (t + 1) (i + Z.min (n - i) step))) ->
  returns (zforstep 0 n step body s) (fun s' => exists t, 0 <= t /\ I t n s').
Proof.
  intros Hs Hn H0 Hb. set (T := (n - 0 + step - 1) / step).
  assert (HT : n <= step * T).
  { unfold T. pose proof (Z.div_mod (n - 0 + step - 1) step ltac:(lia)). pose proof (Z.mod_pos_bound (n - 0 + step - 1) step ltac:(lia)). lia. }
  eapply returns_mono.
  - apply (zforstep_inv (fun t s => I t (Z.min (step * t) n) s) 0 n step body s); auto.
    + replace (Z.min (step * 0) n) with 0 by lia. exact H0.
    + intros t s' Ht Hlt HI. replace (Z.min (step * (t + 1)) n) with (step * t + Z.min (n - step * t) step) by lia.
      apply Hb; auto; try lia. replace (0 + step * t) with (Z.min (step * t) n) at 1 by lia. exact HI.
  - intros s' HI. fold T in HI. exists T. split; [apply Z.div_pos; lia|].
    replace (Z.min (step * T) n) with n in HI by lia. exact HI.
Qed.

Section G.
Context {K : num}.
Local Notation qarr := (arr (quat K)).
Local Notation H := (quat K).

(** one multiply-accumulate as the kernel performs it on one lane: r + x*y with this order of fused operations *)
Definition qinc (x y r : H) : H :=
  Quat (nfnma (qk x) (qk y) (nfnma (qj x) (qj y) (nfnma (qi x) (qi y) (nfma (qr x) (qr y) (qr r)))))
       (nfnma (qk x) (qj y) (nfma (qj x) (qk y) (nfma (qi x) (qr y) (nfma (qr x) (qi y) (qi r)))))
       (nfma (qk x) (qi y) (nfma (qj x) (qr y) (nfnma (qi x) (qk y) (nfma (qr x) (qj y) (qj r)))))
       (nfma (qk x) (qr y) (nfnma (qj x) (qi y) (nfma (qi x) (qj y) (nfma (qr x) (qk y) (qk r))))).
Lemma INC_qinc (x y r : m4 K) t : 0 <= t < 4 -> soa (INC_MULD4Q_NN x y r) t = qinc (soa x t) (soa y t) (soa r t).
Proof.
  intros Ht. destruct x as [[] [] [] []], y as [[] [] [] []], r as [[] [] [] []].
  assert (t = 0 \/ t = 1 \/ t = 2 \/ t = 3) as [->|[->|[->| ->]]] by lia; reflexivity.
Qed.
(** the accumulation r, r + x0*y0, (r + x0*y0) + x1*y1, ... in this order *)
Fixpoint facc_nat (n : nat) (x y : Z -> H) (r : H) : H :=
  match n with O => r | S n' => qinc (x (Z.of_nat n')) (y (Z.of_nat n')) (facc_nat n' x y r) end.
Definition facc (n : Z) (x y : Z -> H) (r : H) : H := facc_nat (Z.to_nat n) x y r.
Lemma facc_0 x y r : facc 0 x y r = r. Proof. reflexivity. Qed.
Lemma facc_succ n x y r : 0 <= n -> facc (n + 1) x y r = qinc (x n) (y n) (facc n x y r).
Proof.
  intros Hn. unfold facc. replace (Z.to_nat (n + 1)) with (S (Z.to_nat n)) by lia. cbn [facc_nat]. rewrite Z2Nat.id by lia. reflexivity.
Qed.
Lemma facc_ext n x y x' y' r : (forall l, 0 <= l < n -> x l = x' l /\ y l = y' l) -> facc n x y r = facc n x' y' r.
Proof.
  destruct (Z_lt_le_dec n 0) as [Hn|Hn]; [intros _; unfold facc; replace (Z.to_nat n) with O by lia; reflexivity|].
  pattern n. apply natlike_ind; auto. intros p Hp IH He. unfold Z.succ. rewrite !facc_succ by lia.
  destruct (He p) as [-> ->]; [lia|]. rewrite IH; auto. intros; apply He; lia.
Qed.
Lemma facc_split n m x y r : 0 <= n -> 0 <= m -> facc (n + m) x y r = facc m (fun l => x (n + l)) (fun l => y (n + l)) (facc n x y r).
Proof.
  intros Hn Hm. pattern m. apply natlike_ind; auto.
  - rewrite Z.add_0_r. reflexivity.
  - intros p Hp IH. unfold Z.succ. rewrite Z.add_assoc, !facc_succ by lia. rewrite IH. reflexivity.
Qed.

(** f with the update g applied on the box [i0,i1) x [j0,j1) *)
Definition inbox (i0 i1 j0 j1 i j : Z) : bool := (i0 <=? i) && (i <? i1) && ((j0 <=? j) && (j <? j1)).
Definition radd (i0 i1 j0 j1 : Z) (g : Z -> Z -> H -> H) (f : Z -> Z -> H) (i j : Z) : H :=
  if inbox i0 i1 j0 j1 i j then g i j (f i j) else f i j.
Lemma inbox_spec i0 i1 j0 j1 i j : BoolSpec (i0 <= i < i1 /\ j0 <= j < j1) (~ (i0 <= i < i1 /\ j0 <= j < j1)) (inbox i0 i1 j0 j1 i j).
Proof.
  unfold inbox. destruct (Z.leb_spec i0 i), (Z.ltb_spec i i1), (Z.leb_spec j0 j), (Z.ltb_spec j j1); cbn [andb]; constructor; lia.
Qed.
Ltac inb := repeat match goal with |- context [inbox ?a ?b ?c ?d ?e ?f] => destruct (inbox_spec a b c d e f) end.
Lemma radd_rows i0 i1 i2 j0 j1 g f i j : i0 <= i1 <= i2 ->
  radd i1 i2 j0 j1 g (radd i0 i1 j0 j1 g f) i j = radd i0 i2 j0 j1 g f i j.
Proof. intros Hi. unfold radd. inb; auto; lia. Qed.
Lemma radd_cols i0 i1 j0 j1 j2 g f i j : j0 <= j1 <= j2 ->
  radd i0 i1 j1 j2 g (radd i0 i1 j0 j1 g f) i j = radd i0 i1 j0 j2 g f i j.
Proof. intros Hi. unfold radd. inb; auto; lia. Qed.
Lemma radd_ext i0 i1 j0 j1 g g' f i j : (i0 <= i < i1 -> j0 <= j < j1 -> g i j (f i j) = g' i j (f i j)) ->
  radd i0 i1 j0 j1 g f i j = radd i0 i1 j0 j1 g' f i j.
Proof. intros Hg. unfold radd. inb; auto. apply Hg; lia. Qed.
Lemma radd_empty_r i0 j0 j1 g f i j : radd i0 i0 j0 j1 g f i j = f i j.
Proof. unfold radd. inb; auto; lia. Qed.
Lemma radd_empty_c i0 i1 j0 g f i j : radd i0 i1 j0 j0 g f i j = f i j.
Proof. unfold radd. inb; auto; lia. Qed.

Lemma vld_al aa (m : qarr) e q : aa mod 32 = 0 -> m e = Some q -> vld true aa m e = Ok (v_of_q q).
Proof.
  intros Ha E. unfold vld. cbn [andb]. replace (32 * e) with (e * 32) by lia. rewrite Z_mod_plus_full, Ha. cbn.
  rewrite (ld_some _ _ _ E). reflexivity.
Qed.
Lemma vld128_al ba (m : qarr) e h q : ba mod 32 = 0 -> m e = Some q ->
  vld128 ba m e h = Ok (if h then hi (v_of_q q) else lo (v_of_q q)).
Proof.
  intros Ha E. unfold vld128.
  replace ((ba + 32 * e + (if h then 16 else 0)) mod 16) with 0; [cbn; rewrite (ld_some _ _ _ E); reflexivity|].
  symmetry. pose proof (Z.div_mod ba 32 ltac:(lia)) as D. rewrite Ha in D.
  destruct h; rewrite D.
  - replace (32 * (ba / 32) + 0 + 32 * e + 16) with (0 + (2 * (ba / 32) + 2 * e + 1) * 16) by lia. rewrite Z_mod_plus_full. reflexivity.
  - replace (32 * (ba / 32) + 0 + 32 * e + 0) with (0 + (2 * (ba / 32) + 2 * e) * 16) by lia. rewrite Z_mod_plus_full. reflexivity.
Qed.

Lemma soa_A (x y : H) t : 0 <= t < 4 ->
  soa (M4 (mm256_permute (v_of_q (fst (pk T1 x y))) 0x0) (mm256_permute (v_of_q (fst (pk T1 x y))) 0xF)
          (mm256_permute (v_of_q (snd (pk T1 x y))) 0x0) (mm256_permute (v_of_q (snd (pk T1 x y))) 0xF)) t = if t <? 2 then x else y.
Proof. intros Ht. assert (t = 0 \/ t = 1 \/ t = 2 \/ t = 3) as [->|[->|[->| ->]]] by lia; destruct x, y; reflexivity. Qed.
Lemma soa_B (x y : H) t : 0 <= t < 4 ->
  let e0 := v_of_q (fst (pk T2 x y)) in let e1 := v_of_q (snd (pk T2 x y)) in
  soa (M4 (set256 (lo e0) (lo e0)) (set256 (lo e1) (lo e1)) (set256 (hi e0) (hi e0)) (set256 (hi e1) (hi e1))) t
  = if (t =? 0) || (t =? 2) then x else y.
Proof. intros Ht. assert (t = 0 \/ t = 1 \/ t = 2 \/ t = 3) as [->|[->|[->| ->]]] by lia; destruct x, y; reflexivity. Qed.

(** one panel: pairs at pos, pos+2, ... *)
Definition panel (o : packop) (u v : Z -> H) (pos cnt : Z) (buf : qarr) : Prop :=
  forall l, 0 <= l < cnt -> buf (pos + 2 * l) = Some (fst (pk o (u l) (v l))) /\ buf (pos + 2 * l + 1) = Some (snd (pk o (u l) (v l))).

Lemma mat_vst (c0 c : qarr) ldc M N f i j p v : sep ldc M N -> is_mat c0 c ldc M N f -> 0 <= i < M -> 0 <= j < N -> p = i + j * ldc ->
  exists c', vst false 0 c p v = Ok c' /\ is_mat c0 c' ldc M N (fun i' j' => if (i' =? i) && (j' =? j) then q_of_v v else f i' j').
Proof.
  intros Hs HI Hi Hj ->. eexists. split; [apply (vst_un 0 c _ (f i j)); apply (is_mat_at _ _ _ _ _ _ _ _ HI); auto|].
  apply mat_upd; auto.
Qed.
End G.

Ltac inb := repeat match goal with |- context [inbox ?a ?b ?c ?d ?e ?f] => destruct (inbox_spec a b c d e f) end.

Section L.
Context {K : num}.
Local Notation qarr := (arr (quat K)).
Local Notation H := (quat K).

Lemma kern_ok mm nn k aa (a : qarr) oa ba (b : qarr) ob (c0 c : qarr) oc ldc M N f i0 j0 (u v : Z -> Z -> H) :
  1 <= mm <= 2 -> 1 <= nn <= 2 -> 0 <= k -> aa mod 32 = 0 -> ba mod 32 = 0 ->
  panel T1 (u 0) (u 1) oa k a -> panel T2 (v 0) (v 1) ob k b ->
  sep ldc M N -> is_mat c0 c ldc M N f -> 0 <= i0 -> i0 + mm <= M -> 0 <= j0 -> j0 + nn <= N -> oc = i0 + j0 * ldc ->
  returns (kern mm nn k aa a oa ba b ob c oc ldc) (fun c' =>
    is_mat c0 c' ldc M N (radd i0 (i0 + mm) j0 (j0 + nn) (fun i j => facc k (u (i - i0)) (v (j - j0))) f)).
Proof.
  intros Hmm Hnn Hk Haa Hba Ha Hb Hsep HI Hi0 HiM Hj0 HjN ->. unfold kern.
  set (R := fun t => if t <? 2 then 0 else 1). set (C := fun t : Z => if (t =? 0) || (t =? 2) then 0 else 1).
  (* loads of C *)
  rewrite (vld_un 0 c _ (f i0 j0)) by (apply (is_mat_at _ _ _ _ _ _ _ _ HI); lia). cbn [bind].
  assert (L10 : exists q, (if mm =? 2 then vld false 0 c (i0 + j0 * ldc + 1) else Ok mm256_zero) = Ok (v_of_q q) /\ (mm = 2 -> q = f (i0 + 1) j0)).
  { destruct (Z.eqb_spec mm 2).
    - exists (f (i0 + 1) j0). split; auto. apply vld_un. rewrite <- (is_mat_at _ _ _ _ _ _ _ _ HI) by lia. f_equal; lia.
    - exists H0. split; [reflexivity|lia]. }
  assert (L01 : exists q, (if nn =? 2 then vld false 0 c (i0 + j0 * ldc + ldc) else Ok mm256_zero) = Ok (v_of_q q) /\ (nn = 2 -> q = f i0 (j0 + 1))).
  { destruct (Z.eqb_spec nn 2).
    - exists (f i0 (j0 + 1)). split; auto. apply vld_un. rewrite <- (is_mat_at _ _ _ _ _ _ _ _ HI) by lia. f_equal; lia.
    - exists H0. split; [reflexivity|lia]. }
  assert (L11 : exists q, (if (mm =? 2) && (nn =? 2) then vld false 0 c (i0 + j0 * ldc + ldc + 1) else Ok mm256_zero) = Ok (v_of_q q) /\ (mm = 2 -> nn = 2 -> q = f (i0 + 1) (j0 + 1))).
  { destruct (Z.eqb_spec mm 2), (Z.eqb_spec nn 2); cbn [andb]; try (exists H0; split; [reflexivity|lia]).
    exists (f (i0 + 1) (j0 + 1)). split; auto. apply vld_un. rewrite <- (is_mat_at _ _ _ _ _ _ _ _ HI) by lia. f_equal; lia. }
  destruct L10 as (q10 & -> & E10). cbn [bind]. destruct L01 as (q01 & -> & E01). cbn [bind]. destruct L11 as (q11 & -> & E11). cbn [bind].
  set (old := fun t : Z => if t =? 0 then f i0 j0 else if t =? 1 then q01 else if t =? 2 then q10 else q11).
  set (S := fun l t => facc l (u (R t)) (v (C t)) (old t)).
  set (I := fun l '((r, la, lb) : m4 K * Z * Z) => (forall t, 0 <= t < 4 -> soa r t = S l t) /\ la = oa + 2 * l /\ lb = ob + 2 * l).
  eapply returns_bind with (P := I k).
  { apply (zfor_inv I); auto.
    - refine (conj _ (conj _ _)); try lia. intros t Ht. rewrite transpose_soa by auto. unfold S. rewrite facc_0.
      unfold aos, old. destruct (t =? 0); [apply q_of_v_of_q|]. destruct (t =? 1); [apply q_of_v_of_q|]. destruct (t =? 2); apply q_of_v_of_q.
    - intros l [[r la] lb] Hl (HS & -> & ->). destruct (Ha l Hl) as [Ha1 Ha2], (Hb l Hl) as [Hb1 Hb2].
      rewrite (vld_al aa a _ _ Haa Ha1). cbn [bind]. rewrite (vld_al aa a _ _ Haa Ha2). cbn [bind].
      rewrite !(vld128_al ba b _ _ _ Hba Hb1). cbn [bind]. rewrite !(vld128_al ba b _ _ _ Hba Hb2). cbn [bind returns].
      refine (conj _ (conj _ _)); try lia. intros t Ht. rewrite INC_qinc by auto.
      rewrite HS, soa_A, soa_B by auto. unfold S. rewrite facc_succ by lia. f_equal.
      + unfold R. destruct (t <? 2); auto.
      + unfold C. destruct ((t =? 0) || (t =? 2)); auto. }
  intros [[r la] lb] (HS & _ & _). cbv zeta.
  set (T := TRANSPOSE_4x4 r).
  assert (W1 : q_of_v (w1 T) = S k 0) by (rewrite <- HS, <- transpose_aos by lia; reflexivity).
  assert (W2 : q_of_v (w2 T) = S k 1) by (rewrite <- HS, <- transpose_aos by lia; reflexivity).
  assert (W3 : q_of_v (w3 T) = S k 2) by (rewrite <- HS, <- transpose_aos by lia; reflexivity).
  assert (W4 : q_of_v (w4 T) = S k 3) by (rewrite <- HS, <- transpose_aos by lia; reflexivity).
  clearbody T. unfold S, old, R, C in W1, W2, W3, W4. cbn [Z.eqb Z.ltb Z.compare Pos.compare Pos.compare_cont Pos.eqb orb] in W1, W2, W3, W4.
  destruct (mat_vst c0 c ldc M N f i0 j0 (i0 + j0 * ldc) (w1 T) Hsep HI ltac:(lia) ltac:(lia) eq_refl) as (c1 & -> & I1). cbn [bind].
  assert (S2 : exists c2, (if mm =? 2 then vst false 0 c1 (i0 + j0 * ldc + 1) (w3 T) else Ok c1) = Ok c2 /\
     is_mat c0 c2 ldc M N (fun i j => if (mm =? 2) && (i =? i0 + 1) && (j =? j0) then q_of_v (w3 T) else if (i =? i0) && (j =? j0) then q_of_v (w1 T) else f i j)).
  { destruct (Z.eqb_spec mm 2); cbn [andb]; [|eexists; split; [reflexivity|exact I1]].
    apply (mat_vst c0 c1 ldc M N _ (i0 + 1) j0 _ (w3 T) Hsep I1); lia. }
  destruct S2 as (c2 & -> & I2). cbn [bind].
  assert (S3 : exists c3, (if nn =? 2 then vst false 0 c2 (i0 + j0 * ldc + ldc) (w2 T) else Ok c2) = Ok c3 /\
     is_mat c0 c3 ldc M N (fun i j => if (nn =? 2) && (i =? i0) && (j =? j0 + 1) then q_of_v (w2 T) else
       if (mm =? 2) && (i =? i0 + 1) && (j =? j0) then q_of_v (w3 T) else if (i =? i0) && (j =? j0) then q_of_v (w1 T) else f i j)).
  { destruct (Z.eqb_spec nn 2); cbn [andb]; [|eexists; split; [reflexivity|exact I2]].
    apply (mat_vst c0 c2 ldc M N _ i0 (j0 + 1) _ (w2 T) Hsep I2); lia. }
  destruct S3 as (c3 & -> & I3). cbn [bind].
  assert (S4 : exists c4, (if (mm =? 2) && (nn =? 2) then vst false 0 c3 (i0 + j0 * ldc + ldc + 1) (w4 T) else Ok c3) = Ok c4 /\
     is_mat c0 c4 ldc M N (fun i j => if (mm =? 2) && (nn =? 2) && (i =? i0 + 1) && (j =? j0 + 1) then q_of_v (w4 T) else
       if (nn =? 2) && (i =? i0) && (j =? j0 + 1) then q_of_v (w2 T) else
       if (mm =? 2) && (i =? i0 + 1) && (j =? j0) then q_of_v (w3 T) else if (i =? i0) && (j =? j0) then q_of_v (w1 T) else f i j)).
  { destruct (Z.eqb_spec mm 2), (Z.eqb_spec nn 2); cbn [andb] in *; try (eexists; split; [reflexivity|exact I3]).
    apply (mat_vst c0 c3 ldc M N _ (i0 + 1) (j0 + 1) _ (w4 T) Hsep I3); lia. }
  destruct S4 as (c4 & -> & I4). cbn [returns].
  eapply is_mat_ext; [|exact I4]. intros i j Hi Hj. cbv beta. rewrite W1, W2, W3, W4. unfold radd. inb.
  - assert (Ei : i = i0 \/ (i = i0 + 1 /\ mm = 2)) by lia. assert (Ej : j = j0 \/ (j = j0 + 1 /\ nn = 2)) by lia.
    destruct Ei as [->|[-> ->]], Ej as [->|[-> ->]]; rewrite ?Z.eqb_refl, ?Z.sub_diag, ?Z.add_simpl_l;
      repeat match goal with |- context [?x =? ?y] => destruct (Z.eqb_spec x y); try lia end; cbn [andb];
      rewrite ?E10, ?E01, ?E11 by auto; reflexivity.
  - repeat match goal with |- context [?x =? ?y] => destruct (Z.eqb_spec x y); cbn [andb]; try lia end; auto.
Qed.

Definition tile_sum (nK : Z) (U V : Z -> Z -> H) (i0 j0 i j : Z) : H -> H := facc nK (U (i - i0)) (V (j - j0)).

Lemma gemm_tiles_ok nI nJ nK aa (aPack : qarr) ba (bPack : qarr) (c0 c : qarr) Ci ldc M N f i0 j0 (U V : Z -> Z -> H) :
  0 <= nI -> 0 <= nJ -> 0 <= nK -> aa mod 32 = 0 -> ba mod 32 = 0 ->
  (forall g, 0 <= g -> 2 * g < nI -> panel T1 (U (2 * g)) (U (2 * g + 1)) (2 * g * nK) nK aPack) ->
  (forall g, 0 <= g -> 2 * g < nJ -> panel T2 (V (2 * g)) (V (2 * g + 1)) (2 * g * nK) nK bPack) ->
  sep ldc M N -> is_mat c0 c ldc M N f -> 0 <= i0 -> i0 + nI <= M -> 0 <= j0 -> j0 + nJ <= N -> Ci = i0 + j0 * ldc ->
  returns (gemm_tiles nI nJ nK aa aPack ba bPack c Ci ldc) (fun c' =>
    is_mat c0 c' ldc M N (radd i0 (i0 + nI) j0 (j0 + nJ) (tile_sum nK U V i0 j0) f)).
Proof.
  intros HnI HnJ HnK Haa Hba HA HB Hsep HI Hi0 HiM Hj0 HjN ->. unfold gemm_tiles.
  set (J := fun t jj '((c, bl, cb) : qarr * Z * Z) => is_mat c0 c ldc M N (radd i0 (i0 + nI) j0 (j0 + jj) (tile_sum nK U V i0 j0) f) /\
     bl = 2 * t * nK /\ cb = i0 + j0 * ldc + 2 * t * ldc).
  eapply returns_bind; [apply (blk_loop J); [lia|auto| |]|].
  - refine (conj _ (conj _ _)); try lia. eapply is_mat_ext; [|exact HI]. intros i j _ _. rewrite Z.add_0_r, radd_empty_c. auto.
  - intros t jj [[c1 bl] cb] Ht Ejj Hjj (H1 & -> & ->). cbv zeta.
    set (nJJ := Z.min 2 (nJ - jj)).
    set (I := fun s ii '((c, sa, sc) : qarr * Z * Z) =>
      is_mat c0 c ldc M N (radd i0 (i0 + ii) (j0 + jj) (j0 + jj + nJJ) (tile_sum nK U V i0 j0) (radd i0 (i0 + nI) j0 (j0 + jj) (tile_sum nK U V i0 j0) f)) /\
      sa = 2 * s * nK /\ sc = i0 + j0 * ldc + 2 * t * ldc + 2 * s).
    eapply returns_bind; [apply (blk_loop I); [lia|auto| |]|].
    + refine (conj _ (conj _ _)); try lia. eapply is_mat_ext; [|exact H1]. intros i j _ _. rewrite Z.add_0_r, radd_empty_r. auto.
    + intros s ii [[c2 sa] sc] Hs Eii Hii (H2 & -> & ->). cbv zeta.
      replace (Z.min (nI - ii) 2) with (Z.min 2 (nI - ii)) by lia. set (nII := Z.min 2 (nI - ii)).
      eapply returns_bind.
      * match type of H2 with is_mat _ _ _ _ _ ?F => apply (kern_ok nII nJJ nK aa aPack (2 * s * nK) ba bPack (2 * t * nK) c0 c2 _ ldc M N F (i0 + ii) (j0 + jj)
           (fun r => U (2 * s + r)) (fun r => V (2 * t + r))) end; try (unfold nII, nJJ; lia); auto.
        -- rewrite Z.add_0_r. apply HA; lia.
        -- rewrite Z.add_0_r. apply HB; lia.
      * intros c3 H3. cbn [returns]. refine (conj _ (conj _ _)); try lia.
        eapply is_mat_ext; [|exact H3]. intros i j _ _. rewrite Z.add_assoc.
        rewrite <- (radd_rows i0 (i0 + ii) (i0 + ii + nII)) by (unfold nII; lia).
        apply radd_ext. intros Hi Hj. unfold tile_sum. apply facc_ext. intros l Hl. split; f_equal; lia.
    + intros [[c2 sa] sc] (s & Hs & H2 & _). cbn [returns]. refine (conj _ (conj _ _)); try lia.
      eapply is_mat_ext; [|exact H2]. intros i j _ _. rewrite radd_cols by (unfold nJJ; lia).
      unfold nJJ. rewrite (Z.min_comm 2), Z.add_assoc. reflexivity.
  - intros [[c1 bl] cb] (t & _ & H1 & _). exact H1.
Qed.

(** ** operands *)
Definition tpos (o : mop) (ldim i l : Z) : Z := match o with OpN | OpR => i + l * ldim | OpT | OpC => l + i * ldim end.
Definition rawm (o : mop) (A : Z -> Z -> H) (i l : Z) : H := match o with OpN | OpR => A i l | OpT | OpC => A l i end.
Definition iscj (o : mop) : bool := match o with OpC | OpR => true | _ => false end.
Lemma opm_raw o A i l : opm o A i l = if iscj o then Hconj (rawm o A i l) else rawm o A i l.
Proof. destruct o; reflexivity. Qed.
Definition has_op (a : qarr) (o : mop) (ldim m k : Z) (A : Z -> Z -> H) : Prop :=
  forall i l, 0 <= i < m -> 0 <= l < k -> a (tpos o ldim i l) = Some (rawm o A i l).
Lemma holds_has_op a o ldim m k A : holds_mat a ldim (op_rows o m k) (op_cols o m k) A -> has_op a o ldim m k A.
Proof. intros Ha i l Hi Hl. destruct o; cbn; apply Ha; auto. Qed.

(** the operation selected by the characters of the optimised GEMM *)
Definition dec (c : ascii) : mop :=
  if Ascii.eqb c "T" then OpT else if Ascii.eqb c "C" then OpC else if Ascii.eqb c "R" then OpR else OpN.

Lemma panels_panel o cnj alpha R len F (buf : qarr) U :
  panels o cnj alpha R len F buf -> (forall r l, 0 <= r -> 0 <= l < len -> U r l = pre cnj alpha (padrow R F r l)) ->
  forall g, 0 <= g -> 2 * g < R -> panel o (U (2 * g)) (U (2 * g + 1)) (2 * g * len) len buf.
Proof. intros HP HU g Hg Hg2 l Hl. rewrite !HU by lia. apply (HP g Hg Hg2 l Hl). Qed.

Lemma apack_ok c alA nI nK (a : qarr) Ai lda aPack o m k A i0 k0 :
  dec c = o -> 0 <= nI -> 0 <= nK -> has_op a o lda m k A -> 0 <= i0 -> i0 + nI <= m -> 0 <= k0 -> k0 + nK <= k ->
  Ai = tpos o lda i0 k0 -> allocated aPack 0 (psize nI nK) ->
  returns (apack_call c alA nI nK a Ai lda aPack) (fun aPack' => keeps aPack aPack' /\
    forall g, 0 <= g -> 2 * g < nI ->
      let U r l := pre (iscj o) alA (padrow nI (fun r l => rawm o A (i0 + r) (k0 + l)) r l) in
      panel T1 (U (2 * g)) (U (2 * g + 1)) (2 * g * nK) nK aPack').
Proof.
  intros Ho HnI HnK Ha Hi0 Him Hk0 Hkk -> Hal.
  assert (E : apack_call c alA nI nK a (tpos o lda i0 k0) lda aPack =
    pack_gen T1 (iscj o) alA nI nK (tpos o lda 1 0) (tpos o lda 0 1) a (tpos o lda i0 k0) aPack).
  { unfold apack_call. unfold dec in Ho. destruct (Ascii.eqb c "T"); [|destruct (Ascii.eqb c "C"); [|destruct (Ascii.eqb c "R")]]; subst o;
      rewrite ?tpack_gen, ?npack_gen; cbn [iscj]; f_equal; cbn [tpos]; lia. }
  rewrite E. eapply returns_mono.
  - apply (pack_gen_ok T1 (iscj o) alA nI nK _ _ a _ aPack (fun r l => rawm o A (i0 + r) (k0 + l))); auto.
    intros r l Hr Hl. rewrite <- (Ha (i0 + r) (k0 + l)) by lia. f_equal. destruct o; cbn [tpos]; lia.
  - intros b' (HP & _ & HK). split; [exact HK|]. intros g Hg Hg2 U. apply (panels_panel _ _ _ _ _ _ _ U HP); auto.
Qed.
(** op(B) is k x n; the panels run along its columns *)
Lemma bpack_ok c alB nJ nK (b : qarr) Bp ldb bPack o k n B k0 j0 :
  dec c = o -> 0 <= nJ -> 0 <= nK -> has_op b o ldb k n B -> 0 <= j0 -> j0 + nJ <= n -> 0 <= k0 -> k0 + nK <= k ->
  Bp = tpos o ldb k0 j0 -> allocated bPack 0 (psize nJ nK) ->
  returns (bpack_call c alB nJ nK b Bp ldb bPack) (fun bPack' => keeps bPack bPack' /\
    forall g, 0 <= g -> 2 * g < nJ ->
      let V r l := pre (iscj o) alB (padrow nJ (fun r l => rawm o B (k0 + l) (j0 + r)) r l) in
      panel T2 (V (2 * g)) (V (2 * g + 1)) (2 * g * nK) nK bPack').
Proof.
  intros Ho HnI HnK Ha Hi0 Him Hk0 Hkk -> Hal.
  assert (E : bpack_call c alB nJ nK b (tpos o ldb k0 j0) ldb bPack =
    pack_gen T2 (iscj o) alB nJ nK (tpos o ldb 0 1) (tpos o ldb 1 0) b (tpos o ldb k0 j0) bPack).
  { unfold bpack_call. unfold dec in Ho. destruct (Ascii.eqb c "T"); [|destruct (Ascii.eqb c "C"); [|destruct (Ascii.eqb c "R")]]; subst o;
      rewrite ?tpack_gen, ?npack_gen; cbn [iscj]; f_equal; cbn [tpos]; lia. }
  rewrite E. eapply returns_mono.
  - apply (pack_gen_ok T2 (iscj o) alB nJ nK _ _ b _ bPack (fun r l => rawm o B (k0 + l) (j0 + r))); auto.
    intros r l Hr Hl. rewrite <- (Ha (k0 + l) (j0 + r)) by lia. f_equal. destruct o; cbn [tpos]; lia.
  - intros b' (HP & _ & HK). split; [exact HK|]. intros g Hg Hg2 U. apply (panels_panel _ _ _ _ _ _ _ U HP); auto.
Qed.

Lemma psize_mono R R' len len' : 0 <= R <= R' -> 0 <= len <= len' -> psize R len <= psize R' len'.
Proof.
  intros HR Hl. unfold psize. assert (0 <= (R + 1) / 2) by (apply Z.div_pos; lia).
  assert ((R + 1) / 2 <= (R' + 1) / 2) by (apply Z.div_le_mono; lia). nia.
Qed.

(** partial product over l in [k0, k0+nK) *)
Definition pprod (oa ob : mop) (alA alB : option (scal K)) (A B : Z -> Z -> H) (k0 nK i j : Z) : H -> H :=
  facc nK (fun l => pre (iscj oa) alA (rawm oa A i (k0 + l))) (fun l => pre (iscj ob) alB (rawm ob B (k0 + l) j)).

Section D.
Context (mc nc kc : Z) (aa ba : Z) (ca cb : ascii) (oa ob : mop) (m n k : Z) (alA alB : option (scal K)) (a : qarr) (lda : Z) (b : qarr) (ldb : Z)
  (c0 : qarr) (ldc : Z) (A B : Z -> Z -> H) (sa sb : Z).
Hypothesis (Hmc : 0 < mc) (Hnc : 0 < nc) (Hkc : 0 < kc) (Haa : aa mod 32 = 0) (Hba : ba mod 32 = 0)
  (Hca : dec ca = oa) (Hcb : dec cb = ob) (Hm : 0 <= m) (Hn : 0 <= n) (Hk : 0 <= k)
  (Ha : has_op a oa lda m k A) (Hb : has_op b ob ldb k n B) (Hsep : sep ldc m n)
  (Hsa : psize mc kc <= sa) (Hsb : psize nc kc <= sb).

Lemma gemm_mc_ok nJ nK Ap aPack bPack c Cj f j0 k0 :
  0 <= nJ -> 0 <= nK <= kc -> 0 <= j0 -> j0 + nJ <= n -> 0 <= k0 -> k0 + nK <= k ->
  Ap = tpos oa lda 0 k0 -> Cj = j0 * ldc -> allocated aPack 0 sa ->
  (forall g, 0 <= g -> 2 * g < nJ ->
      let V r l := pre (iscj ob) alB (padrow nJ (fun r l => rawm ob B (k0 + l) (j0 + r)) r l) in
      panel T2 (V (2 * g)) (V (2 * g + 1)) (2 * g * nK) nK bPack) ->
  is_mat c0 c ldc m n f ->
  returns (gemm_mc mc ca m alA nJ nK a Ap lda aa aPack ba bPack c Cj ldc) (fun '(c', aPack') =>
    keeps aPack aPack' /\ is_mat c0 c' ldc m n (radd 0 m j0 (j0 + nJ) (pprod oa ob alA alB A B k0 nK) f)).
Proof.
  intros HnJ HnK Hj0 HjN Hk0 Hkk -> -> Hal HB HI. unfold gemm_mc.
  set (G := pprod oa ob alA alB A B k0 nK).
  set (J := fun (t : Z) i '((c, ap, ai, ci) : qarr * qarr * Z * Z) => is_mat c0 c ldc m n (radd 0 i j0 (j0 + nJ) G f) /\
     keeps aPack ap /\ ai = tpos oa lda i k0 /\ ci = i + j0 * ldc).
  eapply returns_bind; [apply (blk_loop J); [lia|auto| |]|].
  - refine (conj _ (conj (keeps_refl _) (conj _ _))); try lia. eapply is_mat_ext; [|exact HI]. intros i j _ _. rewrite radd_empty_r. auto.
  - intros t i [[[c1 ap] ai] ci] Ht Ei Hi (H1 & HK & -> & ->). cbv zeta. set (nI := Z.min (m - i) mc).
    assert (HnI : 0 <= nI <= mc) by (unfold nI; lia).
    eapply returns_bind.
    + apply (apack_ok ca alA nI nK a _ lda ap oa m k A i k0); auto; try (unfold nI; lia).
      intros p Hp. apply (keeps_allocated _ _ _ _ HK Hal). pose proof (psize_mono nI mc nK kc ltac:(lia) ltac:(lia)). lia.
    + intros ap' [HK' HA]. eapply returns_bind.
      * match type of H1 with is_mat _ _ _ _ _ ?F => apply (gemm_tiles_ok nI nJ nK aa ap' ba bPack c0 c1 _ ldc m n F i j0
          (fun r l => pre (iscj oa) alA (padrow nI (fun r l => rawm oa A (i + r) (k0 + l)) r l))
          (fun r l => pre (iscj ob) alB (padrow nJ (fun r l => rawm ob B (k0 + l) (j0 + r)) r l))) end; auto; try (unfold nI; lia).
      * intros c2 H2. cbn [returns]. refine (conj _ (conj (keeps_trans _ _ _ HK HK') (conj _ _))); try lia.
        -- eapply is_mat_ext; [|exact H2]. intros i' j' _ _.
           rewrite <- (radd_rows 0 i (i + nI)) by lia. apply radd_ext. intros Hi' Hj'. unfold tile_sum, G, pprod.
           apply facc_ext. intros l Hl. unfold padrow. destruct (Z.ltb_spec (i' - i) nI); [|lia]. destruct (Z.ltb_spec (j' - j0) nJ); [|lia].
           rewrite !Zplus_minus. auto.
        -- unfold dec in Hca. destruct (Ascii.eqb ca "T"); [subst oa; cbn; lia|]. destruct (Ascii.eqb ca "C"); [subst oa; cbn; lia|].
           destruct (Ascii.eqb ca "R"); subst oa; cbn; lia.
  - intros [[[c1 ap] ai] ci] (t & _ & H1 & HK & _). cbn. auto.
Qed.

Lemma gemm_kc_ok nJ Bj aPack bPack c Cj f j0 :
  0 <= nJ <= nc -> 0 <= j0 -> j0 + nJ <= n -> Bj = tpos ob ldb 0 j0 -> Cj = j0 * ldc ->
  allocated aPack 0 sa -> allocated bPack 0 sb -> is_mat c0 c ldc m n f ->
  returns (gemm_kc mc kc ca cb m k alA alB nJ a lda b Bj ldb aa aPack ba bPack c Cj ldc) (fun '(c', aPack', bPack') =>
    keeps aPack aPack' /\ keeps bPack bPack' /\
    is_mat c0 c' ldc m n (radd 0 m j0 (j0 + nJ) (pprod oa ob alA alB A B 0 k) f)).
Proof.
  intros HnJ Hj0 HjN -> -> HalA HalB HI. unfold gemm_kc.
  set (J := fun (t : Z) kk '((c, ap, bp, pa, pb) : qarr * qarr * qarr * Z * Z) =>
     is_mat c0 c ldc m n (radd 0 m j0 (j0 + nJ) (pprod oa ob alA alB A B 0 kk) f) /\
     keeps aPack ap /\ keeps bPack bp /\ pa = tpos oa lda 0 kk /\ pb = tpos ob ldb kk j0).
  eapply returns_bind; [apply (blk_loop J); [lia|auto| |]|].
  - refine (conj _ (conj (keeps_refl _) (conj (keeps_refl _) (conj _ _)))); try (destruct oa; cbn; lia); try (destruct ob; cbn; lia).
    eapply is_mat_ext; [|exact HI]. intros i j _ _. unfold radd, pprod. rewrite facc_0. inb; auto.
  - intros t kk [[[[c1 ap] bp] pa] pb] Ht Ek Hkk (H1 & HKa & HKb & -> & ->). cbv zeta. set (nK := Z.min (k - kk) kc).
    eapply returns_bind.
    + apply (bpack_ok cb alB nJ nK b _ ldb bp ob k n B kk j0); auto; try (unfold nK; lia).
      intros p Hp. apply (keeps_allocated _ _ _ _ HKb HalB). pose proof (psize_mono nJ nc nK kc ltac:(lia) ltac:(unfold nK; lia)). lia.
    + intros bp' [HKb' HB]. eapply returns_bind.
      * match type of H1 with is_mat _ _ _ _ _ ?F => apply (gemm_mc_ok nJ nK (tpos oa lda 0 kk) ap bp' c1 (j0 * ldc) F j0 kk) end; auto; try (unfold nK; lia).
        intros p Hp. apply (keeps_allocated _ _ _ _ HKa HalA). lia.
      * intros [c2 ap'] [HKa' H2]. cbn [returns]. refine (conj _ (conj (keeps_trans _ _ _ HKa HKa') (conj (keeps_trans _ _ _ HKb HKb') (conj _ _)))).
        -- eapply is_mat_ext; [|exact H2]. intros i j _ _. unfold radd. inb; auto.
           unfold pprod. rewrite facc_split by (unfold nK; lia). reflexivity.
        -- unfold dec in Hca. destruct (Ascii.eqb ca "T"); [subst oa; cbn; lia|]. destruct (Ascii.eqb ca "C"); [subst oa; cbn; lia|].
           destruct (Ascii.eqb ca "R"); subst oa; cbn; lia.
        -- unfold dec in Hcb. destruct (Ascii.eqb cb "T"); [subst ob; cbn; lia|]. destruct (Ascii.eqb cb "C"); [subst ob; cbn; lia|].
           destruct (Ascii.eqb cb "R"); subst ob; cbn; lia.
  - intros [[[[c1 ap] bp] pa] pb] (t & _ & H1 & HKa & HKb & _). cbn. auto.
Qed.

Lemma gemm_nc_ok aPack bPack c f :
  allocated aPack 0 sa -> allocated bPack 0 sb -> is_mat c0 c ldc m n f ->
  returns (gemm_nc mc nc kc ca cb m n k alA alB a lda b ldb aa aPack ba bPack c ldc) (fun c' =>
    is_mat c0 c' ldc m n (fun i j => pprod oa ob alA alB A B 0 k i j (f i j))).
Proof.
  intros HalA HalB HI. unfold gemm_nc.
  set (J := fun (t : Z) j '((c, ap, bp, bj, cj) : qarr * qarr * qarr * Z * Z) =>
     is_mat c0 c ldc m n (radd 0 m 0 j (pprod oa ob alA alB A B 0 k) f) /\
     keeps aPack ap /\ keeps bPack bp /\ bj = tpos ob ldb 0 j /\ cj = j * ldc).
  eapply returns_bind; [apply (blk_loop J); [lia|auto| |]|].
  - refine (conj _ (conj (keeps_refl _) (conj (keeps_refl _) (conj _ _)))); try (destruct ob; cbn; lia); try lia.
    eapply is_mat_ext; [|exact HI]. intros i j _ _. rewrite radd_empty_c. auto.
  - intros t j [[[[c1 ap] bp] bj] cj] Ht Ej Hj (H1 & HKa & HKb & -> & ->). cbv zeta. set (nJ := Z.min (n - j) nc).
    eapply returns_bind.
    + match type of H1 with is_mat _ _ _ _ _ ?F => apply (gemm_kc_ok nJ (tpos ob ldb 0 j) ap bp c1 (j * ldc) F j) end; auto; try (unfold nJ; lia).
      * apply (keeps_allocated _ _ _ _ HKa HalA).
      * apply (keeps_allocated _ _ _ _ HKb HalB).
    + intros [[c2 ap'] bp'] (HKa' & HKb' & H2). cbn [returns].
      refine (conj _ (conj (keeps_trans _ _ _ HKa HKa') (conj (keeps_trans _ _ _ HKb HKb') (conj _ _)))); try lia.
      * eapply is_mat_ext; [|exact H2]. intros i j' _ _. apply radd_cols. unfold nJ; lia.
      * unfold dec in Hcb. destruct (Ascii.eqb cb "T"); [subst ob; cbn; lia|]. destruct (Ascii.eqb cb "C"); [subst ob; cbn; lia|].
        destruct (Ascii.eqb cb "R"); subst ob; cbn; lia.
  - intros [[[[c1 ap] bp] bj] cj] (t & _ & H1 & _). cbn [returns]. eapply is_mat_ext; [|exact H1].
    intros i j Hi Hj. unfold radd. inb; auto; lia.
Qed.
End D.
End L.
