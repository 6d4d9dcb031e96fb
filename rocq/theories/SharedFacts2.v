(** Matrix operations on one shared memory. *)
From Coq Require Import ZArith Lia Bool Ascii.
From Verif Require Import Num Res ResFacts Spec SpecFacts MQuat QuatFacts MSimd SimdFacts MOptL1 VecFacts LoopFacts L1Facts L1Facts2 L1Facts3
  MGenL1 MGenM MPack PackFacts MOptGemm OptGemmFacts OptGemmTop MShared SpecShared SharedFacts.
Local Open Scope Z_scope.

Section G.
Context {K : num}.
Local Notation qarr := (arr (quat K)).
Local Notation H := (quat K).
Ltac inb := repeat match goal with |- context [inbox ?a ?b ?c ?d ?e ?f] => destruct (inbox_spec a b c d e f) end.
Section D.
Context (mc nc kc : Z) (aa ba : Z) (ca cb : ascii) (oa ob : mop) (m n k : Z) (alA alB : option (scal K)) (pa lda pb ldb : Z)
  (c0 : qarr) (ldc : Z) (A B : Z -> Z -> H) (sa sb : Z).
Hypothesis (Hmc : 0 < mc) (Hnc : 0 < nc) (Hkc : 0 < kc) (Haa : aa mod 32 = 0) (Hba : ba mod 32 = 0)
  (Hca : dec ca = oa) (Hcb : dec cb = ob) (Hm : 0 <= m) (Hn : 0 <= n) (Hk : 0 <= k)
  (Ha : forall c, same_but_mat c0 c ldc m n -> has_op (shiftp c pa) oa lda m k A) (Hb : forall c, same_but_mat c0 c ldc m n -> has_op (shiftp c pb) ob ldb k n B) (Hsep : sep ldc m n)
  (Hsa : psize mc kc <= sa) (Hsb : psize nc kc <= sb).

Lemma gemm_mc_sh_ok nJ nK Ap aPack bPack c Cj f j0 k0 :
  0 <= nJ -> 0 <= nK <= kc -> 0 <= j0 -> j0 + nJ <= n -> 0 <= k0 -> k0 + nK <= k ->
  Ap = tpos oa lda 0 k0 -> Cj = j0 * ldc -> allocated aPack 0 sa ->
  (forall g, 0 <= g -> 2 * g < nJ ->
      let V r l := pre (iscj ob) alB (padrow nJ (fun r l => rawm ob B (k0 + l) (j0 + r)) r l) in
      panel T2 (V (2 * g)) (V (2 * g + 1)) (2 * g * nK) nK bPack) ->
  is_mat c0 c ldc m n f ->
  returns (gemm_mc_sh mc ca m alA nJ nK pa Ap lda aa aPack ba bPack c Cj ldc) (fun '(c', aPack') =>
    keeps aPack aPack' /\ is_mat c0 c' ldc m n (radd 0 m j0 (j0 + nJ) (pprod oa ob alA alB A B k0 nK) f)).
Proof.
  intros HnJ HnK Hj0 HjN Hk0 Hkk -> -> Hal HB HI. unfold gemm_mc_sh.
  set (G := pprod oa ob alA alB A B k0 nK).
  set (J := fun (t : Z) i '((c, ap, ai, ci) : qarr * qarr * Z * Z) => is_mat c0 c ldc m n (radd 0 i j0 (j0 + nJ) G f) /\
     keeps aPack ap /\ ai = tpos oa lda i k0 /\ ci = i + j0 * ldc).
  eapply returns_bind; [apply (blk_loop J); [lia|auto| |]|].
  - refine (conj _ (conj (keeps_refl _) (conj _ _))); try lia. eapply is_mat_ext; [|exact HI]. intros i j _ _. rewrite radd_empty_r. auto.
  - intros t i [[[c1 ap] ai] ci] Ht Ei Hi (H1 & HK & -> & ->). cbv zeta. set (nI := Z.min (m - i) mc).
    assert (HnI : 0 <= nI <= mc) by (unfold nI; lia).
    eapply returns_bind.
    + apply (apack_ok ca alA nI nK (shiftp c1 pa) _ lda ap oa m k A i k0); auto; try (apply Ha, (proj2 H1)); try (unfold nI; lia).
      intros p Hp. apply (keeps_allocated _ _ _ _ HK Hal). pose proof (psize_mono nI mc nK kc ltac:(lia) ltac:(lia)). lia.
    + intros ap' [HK' HA]. eapply returns_bind.
      * match type of H1 with is_mat _ _ _ _ _ ?F => apply (gemm_tiles_ok nI nJ nK aa ap' ba bPack c0 c1 _ ldc m n F i j0
          (fun r l => pre (iscj oa) alA (padrow nI (fun r l => rawm oa A (i + r) (k0 + l)) r l))
          (fun r l => pre (iscj ob) alB (padrow nJ (fun r l => rawm ob B (k0 + l) (j0 + r)) r l))) end; auto; try (unfold nI; lia).
      * intros c2 H2. cbn [returns]. refine (conj _ (conj (keeps_trans _ _ _ HK HK') (conj _ _))); try lia.
        -- eapply is_mat_ext; [|exact H2]. intros i' j' _ _.
           rewrite <- (radd_rows 0 i (i + nI)) by lia. apply radd_ext. intros Hi' Hj'. unfold tile_sum, G, pprod.
           apply facc_ext. intros l Hl. unfold padrow. destruct (Z.ltb_spec (i' - i) nI); [|lia]. destruct (Z.ltb_spec (j' - j0) nJ); [|lia].
           rewrite !Zplus_minus. auto.
        -- unfold dec in Hca. destruct (Ascii.eqb ca "T"); [subst oa; cbn; lia|]. destruct (Ascii.eqb ca "C"); [subst oa; cbn; lia|].
           destruct (Ascii.eqb ca "R"); subst oa; cbn; lia.
  - intros [[[c1 ap] ai] ci] (t & _ & H1 & HK & _). cbn. auto.
Qed.

Lemma gemm_kc_sh_ok nJ Bj aPack bPack c Cj f j0 :
  0 <= nJ <= nc -> 0 <= j0 -> j0 + nJ <= n -> Bj = tpos ob ldb 0 j0 -> Cj = j0 * ldc ->
  allocated aPack 0 sa -> allocated bPack 0 sb -> is_mat c0 c ldc m n f ->
  returns (gemm_kc_sh mc kc ca cb m k alA alB nJ pa lda pb Bj ldb aa aPack ba bPack c Cj ldc) (fun '(c', aPack', bPack') =>
    keeps aPack aPack' /\ keeps bPack bPack' /\
    is_mat c0 c' ldc m n (radd 0 m j0 (j0 + nJ) (pprod oa ob alA alB A B 0 k) f)).
Proof.
  intros HnJ Hj0 HjN -> -> HalA HalB HI. unfold gemm_kc_sh.
  set (J := fun (t : Z) kk '((c, ap, bp, ppa, ppb) : qarr * qarr * qarr * Z * Z) =>
     is_mat c0 c ldc m n (radd 0 m j0 (j0 + nJ) (pprod oa ob alA alB A B 0 kk) f) /\
     keeps aPack ap /\ keeps bPack bp /\ ppa = tpos oa lda 0 kk /\ ppb = tpos ob ldb kk j0).
  eapply returns_bind; [apply (blk_loop J); [lia|auto| |]|].
  - refine (conj _ (conj (keeps_refl _) (conj (keeps_refl _) (conj _ _)))); try (destruct oa; cbn; lia); try (destruct ob; cbn; lia).
    eapply is_mat_ext; [|exact HI]. intros i j _ _. unfold radd, pprod. rewrite facc_0. inb; auto.
  - intros t kk [[[[c1 ap] bp] ppa] ppb] Ht Ek Hkk (H1 & HKa & HKb & -> & ->). cbv zeta. set (nK := Z.min (k - kk) kc).
    eapply returns_bind.
    + apply (bpack_ok cb alB nJ nK (shiftp c1 pb) _ ldb bp ob k n B kk j0); auto; try (apply Hb, (proj2 H1)); try (unfold nK; lia).
      intros p Hp. apply (keeps_allocated _ _ _ _ HKb HalB). pose proof (psize_mono nJ nc nK kc ltac:(lia) ltac:(unfold nK; lia)). lia.
    + intros bp' [HKb' HB]. eapply returns_bind.
      * match type of H1 with is_mat _ _ _ _ _ ?F => apply (gemm_mc_sh_ok nJ nK (tpos oa lda 0 kk) ap bp' c1 (j0 * ldc) F j0 kk) end; auto; try (unfold nK; lia).
        intros p Hp. apply (keeps_allocated _ _ _ _ HKa HalA). lia.
      * intros [c2 ap'] [HKa' H2]. cbn [returns]. refine (conj _ (conj (keeps_trans _ _ _ HKa HKa') (conj (keeps_trans _ _ _ HKb HKb') (conj _ _)))).
        -- eapply is_mat_ext; [|exact H2]. intros i j _ _. unfold radd. inb; auto.
           unfold pprod. rewrite facc_split by (unfold nK; lia). reflexivity.
        -- unfold dec in Hca. destruct (Ascii.eqb ca "T"); [subst oa; cbn; lia|]. destruct (Ascii.eqb ca "C"); [subst oa; cbn; lia|].
           destruct (Ascii.eqb ca "R"); subst oa; cbn; lia.
        -- unfold dec in Hcb. destruct (Ascii.eqb cb "T"); [subst ob; cbn; lia|]. destruct (Ascii.eqb cb "C"); [subst ob; cbn; lia|].
           destruct (Ascii.eqb cb "R"); subst ob; cbn; lia.
  - intros [[[[c1 ap] bp] ppa] ppb] (t & _ & H1 & HKa & HKb & _). cbn. auto.
Qed.

Lemma gemm_nc_sh_ok aPack bPack c f :
  allocated aPack 0 sa -> allocated bPack 0 sb -> is_mat c0 c ldc m n f ->
  returns (gemm_nc_sh mc nc kc ca cb m n k alA alB pa lda pb ldb aa aPack ba bPack c ldc) (fun c' =>
    is_mat c0 c' ldc m n (fun i j => pprod oa ob alA alB A B 0 k i j (f i j))).
Proof.
  intros HalA HalB HI. unfold gemm_nc_sh.
  set (J := fun (t : Z) j '((c, ap, bp, bj, cj) : qarr * qarr * qarr * Z * Z) =>
     is_mat c0 c ldc m n (radd 0 m 0 j (pprod oa ob alA alB A B 0 k) f) /\
     keeps aPack ap /\ keeps bPack bp /\ bj = tpos ob ldb 0 j /\ cj = j * ldc).
  eapply returns_bind; [apply (blk_loop J); [lia|auto| |]|].
  - refine (conj _ (conj (keeps_refl _) (conj (keeps_refl _) (conj _ _)))); try (destruct ob; cbn; lia); try lia.
    eapply is_mat_ext; [|exact HI]. intros i j _ _. rewrite radd_empty_c. auto.
  - intros t j [[[[c1 ap] bp] bj] cj] Ht Ej Hj (H1 & HKa & HKb & -> & ->). cbv zeta. set (nJ := Z.min (n - j) nc).
    eapply returns_bind.
    + match type of H1 with is_mat _ _ _ _ _ ?F => apply (gemm_kc_sh_ok nJ (tpos ob ldb 0 j) ap bp c1 (j * ldc) F j) end; auto; try (unfold nJ; lia).
      * apply (keeps_allocated _ _ _ _ HKa HalA).
      * apply (keeps_allocated _ _ _ _ HKb HalB).
    + intros [[c2 ap'] bp'] (HKa' & HKb' & H2). cbn [returns].
      refine (conj _ (conj (keeps_trans _ _ _ HKa HKa') (conj (keeps_trans _ _ _ HKb HKb') (conj _ _)))); try lia.
      * eapply is_mat_ext; [|exact H2]. intros i j' _ _. apply radd_cols. unfold nJ; lia.
      * unfold dec in Hcb. destruct (Ascii.eqb cb "T"); [subst ob; cbn; lia|]. destruct (Ascii.eqb cb "C"); [subst ob; cbn; lia|].
        destruct (Ascii.eqb cb "R"); subst ob; cbn; lia.
  - intros [[[[c1 ap] bp] bj] cj] (t & _ & H1 & _). cbn [returns]. eapply is_mat_ext; [|exact H1].
    intros i j Hi Hj. unfold radd. inb; auto; lia.
Qed.
End D.

Lemma gemm_sh_raw mc nc kc aa bb ga gb ca cb oa ob m n k alpha pa lda pb ldb beta ba (mem : qarr) ldc A B w :
  0 < mc -> Z.even mc = true -> 0 < nc -> Z.even nc = true -> 0 < kc -> aa mod 32 = 0 -> bb mod 32 = 0 ->
  dec ca = oa -> dec cb = ob -> 0 <= m -> 0 <= n -> 0 <= k -> m <= ldc ->
  mat_at mem pa lda 1 (op_rows oa m k) (op_cols oa m k) A -> mat_at mem pb ldb 1 (op_rows ob k n) (op_cols ob k n) B -> mat_at mem 0 ldc 1 m n w ->
  win_apart pa lda (op_rows oa m k) (op_cols oa m k) 0 ldc m n -> win_apart pb ldb (op_rows ob k n) (op_cols ob k n) 0 ldc m n ->
  returns (gemm_sh mc nc kc aa bb ga gb ca cb m n k alpha pa lda pb ldb beta ba mem ldc) (fun mem' =>
    holds_mat mem' ldc m n (gemm_val oa ob k alpha beta A B w) /\ same_but_mat mem mem' ldc m n).
Proof.
  intros Hmc Emc Hnc Enc Hkc Haa Hba Hca Hcb Hm Hn Hk Hld Ha Hb Hc Wa Wb. unfold gemm_sh, scalm_avx.
  assert (RD : forall p ld o m1 k1 F, mat_at mem p ld 1 (op_rows o m1 k1) (op_cols o m1 k1) F -> win_apart p ld (op_rows o m1 k1) (op_cols o m1 k1) 0 ldc m n ->
    forall c, same_but_mat mem c ldc m n -> has_op (shiftp c p) o ld m1 k1 F).
  { intros p ld o m1 k1 F HF W c S. apply holds_has_op. intros i j Hi Hj. unfold shiftp. rewrite S.
    - rewrite <- (HF i j Hi Hj). f_equal. lia.
    - intros i' j' Hi' Hj' E. apply (W i j i' j' Hi Hj Hi' Hj'). lia. }
  assert (Hc' : holds_mat mem ldc m n w) by (intros i j Hi Hj; rewrite <- (Hc i j Hi Hj); f_equal; lia).
  eapply returns_bind.
  - apply (scalm_raw scalv_opt (scalq true beta) "L" m n beta ba mem ldc 1 w); try lia.
    + intros xa x v Hx. apply scalv_opt_raw; auto; lia.
    + apply disjoint_1; auto.
    + apply matinc_1; auto.
  - intros c1 [X1 S1]. apply matinc_1 in X1. apply same_matinc_1 in S1.
    apply (gemm_nc_sh_ok mc nc kc aa bb ca cb oa ob m n k (Some alpha) None pa lda pb ldb mem ldc A B
      (FixMod (kc * mc) REQ_ALIGN) (FixMod (kc * nc) REQ_ALIGN)) with (f := fun i j => scalq true beta (w i j)); auto using sep_ld, aligned_buf_alloc, buf_fits.
    split; auto.
Qed.
End G.
Lemma gemm_sh_ok (K : num) (L : laws K) mc nc kc aa bb ga gb ca cb oa ob m n k alpha pa lda pb ldb beta ba (mem : arr (quat K)) ldc A B w :
  0 < mc -> Z.even mc = true -> 0 < nc -> Z.even nc = true -> 0 < kc -> aa mod 32 = 0 -> bb mod 32 = 0 ->
  trans_char_r ca = Some oa -> trans_char_r cb = Some ob -> 0 <= m -> 0 <= n -> 0 <= k -> m <= ldc ->
  mat_at mem pa lda 1 (op_rows oa m k) (op_cols oa m k) A -> mat_at mem pb ldb 1 (op_rows ob k n) (op_cols ob k n) B -> mat_at mem 0 ldc 1 m n w ->
  win_apart pa lda (op_rows oa m k) (op_cols oa m k) 0 ldc m n -> win_apart pb ldb (op_rows ob k n) (op_cols ob k n) 0 ldc m n ->
  returns (gemm_sh mc nc kc aa bb ga gb ca cb m n k alpha pa lda pb ldb beta ba mem ldc) (fun mem' =>
    mat_at mem' 0 ldc 1 m n (gemm_elt oa ob k (emb alpha) A B (emb beta) w) /\ changes_mat mem mem' 0 ldc 1 m n).
Proof.
  intros. eapply returns_mono; [apply (gemm_sh_raw mc nc kc aa bb ga gb ca cb oa ob) with (A := A) (B := B) (w := w); auto using dec_char|].
  intros c' [Hh S]. split.
  - intros i j Hi Hj. rewrite <- (gemm_val_H L), <- (Hh i j Hi Hj). f_equal. lia.
  - intros q Hq. apply S. intros i j Hi Hj E. apply (Hq i j Hi Hj). lia.
Qed.

Lemma axpym_sh_ok (K : num) (L : laws K) (s : side) c m n alpha ba (mem : arr (quat K)) pa lda inca pb ldb incb f g :
  (forall d, alpha = SH (Quat n0 n0 n0 d) -> d = n0) -> side_char c = Some s -> incb <> 0 -> disjoint_mat ldb incb m n ->
  mat_at mem pa lda inca m n f -> mat_at mem pb ldb incb m n g -> mat_aligned m n pa lda inca pb ldb incb ->
  returns (axpym_sh c "N" m n alpha ba mem pa lda inca pb ldb incb) (fun mem' =>
    mat_at mem' pb ldb incb m n (fun i j => Hadd (g i j) (Hside s (emb alpha) (f i j))) /\ changes_mat mem mem' pb ldb incb m n).
Proof.
  intros Hz Hc Hib DJ Ha Hb AL. unfold axpym_sh.
  destruct ((n <=? 0) || (m <=? 0)) eqn:E0.
  { cbn [returns]. split; [intros i j Hi Hj|intros q _; auto]. exfalso. apply orb_true_iff in E0 as [E0|E0]; apply Z.leb_le in E0; lia. }
  destruct (s_eqb alpha n0) eqn:Ez.
  { cbn [returns]. split; [intros i j Hi Hj|intros q _; auto]. rewrite (s_eqb_zero L alpha Hz Ez). rewrite (Hb i j Hi Hj). f_equal.
    destruct s; cbn [Hside]; rewrite ?(Hmul_0_l L), ?(Hmul_0_r L), (Hadd_0_r L); reflexivity. }
  change (Ascii.eqb "N" "N") with true. cbn [assertb bind].
  apply orb_false_iff in E0 as [En Em]. apply Z.leb_gt in En, Em.
  set (new := fun i j => Hadd (g i j) (Hside s (emb alpha) (f i j))).
  eapply returns_bind; [apply (zfor_inv_max (fun t '((cur, la, lb) : arr (quat K) * Z * Z) =>
     mat_at cur pb ldb incb m n (fun i j => if j <? t then new i j else g i j) /\ changes_mat mem cur pb ldb incb m n /\
     la = pa + t * lda /\ lb = pb + t * ldb))|].
  - refine (conj _ (conj _ _)); [|intros q _; auto|lia]. intros i j Hi Hj. destruct (Z.ltb_spec j 0); [lia|]. apply Hb; auto.
  - intros t [[cur la] lb] Ht (HM & HC & -> & ->).
    assert (VA : vec_at cur (pa + t * lda) m inca (fun i => f i t)).
    { intros i Hi.
      destruct (range_dec (fun j' => exists i', 0 <= i' < m /\ pa + i * inca + t * lda = pb + i' * incb + j' * ldb)) with (n := n) as [(j' & Hj' & i' & Hi' & E)|N].
      { intros j'. destruct (range_dec (fun i' => pa + i * inca + t * lda = pb + i' * incb + j' * ldb)
          (fun i' => match Z.eq_dec (pa + i * inca + t * lda) (pb + i' * incb + j' * ldb) with left e => or_introl e | right e => or_intror e end) m) as [X|X]; [left; exact X|].
        right. intros (i' & Hi' & E). apply (X i' Hi' E). }
      - destruct (AL i t i' j' Hi Ht Hi' Hj' E) as [<- <-].
        replace (pa + t * lda + i * inca) with (pb + i * incb + t * ldb) by lia. rewrite HM by auto. destruct (Z.ltb_spec t t); [lia|].
        rewrite <- (Ha i t Hi Ht), E, (Hb i t Hi Ht). reflexivity.
      - replace (pa + t * lda + i * inca) with (pa + i * inca + t * lda) by lia. rewrite HC; [apply Ha; auto|].
        intros i' j' Hi' Hj' E. apply (N j' Hj'). exists i'. auto. }
    assert (VB : vec_at cur (pb + t * ldb) m incb (fun i => g i t)).
    { intros i Hi. replace (pb + t * ldb + i * incb) with (pb + i * incb + t * ldb) by lia. rewrite HM by auto. destruct (Z.ltb_spec t t); [lia|auto]. }
    assert (NB : not_behind m (pa + t * lda) inca (pb + t * ldb) incb).
    { intros i i' Hi' Him E. destruct (AL i t i' t); try lia. }
    pose proof (axpyv_sh_raw (Ascii.eqb c "L") c m alpha ba cur (pa + t * lda) inca (pb + t * ldb) incb _ _ eq_refl Hib NB VA VB) as R.
    eapply returns_bind; [exact R|]. intros m' [V' C']. cbn [returns].
    refine (conj _ (conj _ _)); [| |lia].
    + intros i j Hi Hj. destruct (Z.eq_dec j t) as [->|Hne].
      * replace (pb + i * incb + t * ldb) with (pb + t * ldb + i * incb) by lia. rewrite V' by auto. destruct (Z.ltb_spec t (t + 1)); [|lia].
        rewrite (axpy_step_H L). unfold new. unfold side_char in Hc. destruct (Ascii.eqb c "L"); [injection Hc as <-; reflexivity|].
        destruct (Ascii.eqb c "R"); [injection Hc as <-; reflexivity|discriminate].
      * rewrite C'.
        -- rewrite HM by auto. destruct (Z.ltb_spec j t), (Z.ltb_spec j (t + 1)); auto; lia.
        -- intros i' Hi' E. destruct (DJ i j i' t Hi Hj Hi' Ht); lia.
    + intros q Hq. rewrite C'; [apply HC; auto|]. intros i Hi E. apply (Hq i t Hi Ht). lia.
  - intros [[cur la] lb] (HM & HC & _). cbn [returns]. split; auto. intros i j Hi Hj. rewrite HM by auto. destruct (Z.ltb_spec j (Z.max 0 n)); [auto|lia].
Qed.
