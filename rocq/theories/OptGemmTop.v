(** The whole optimised GEMM. *)
From Coq Require Import ZArith Lia Ring Bool Ascii.
From Verif Require Import Num Res ResFacts Spec SpecFacts MQuat MSimd SimdFacts MOptL1 VecFacts LoopFacts L1Facts L1Facts2 L1Facts3
  MGenM MPack PackFacts MOptGemm OptGemmFacts.
Local Open Scope Z_scope.

Lemma FixMod_le x n : 0 <= x -> 0 < n -> x <= FixMod x n.
Proof.
  intros Hx Hn. unfold FixMod. pose proof (Z.rem_bound_pos x n Hx Hn). destruct (Z.eqb_spec (Z.rem x n) 0); lia.
Qed.
Lemma psize_even mc kc : Z.even mc = true -> psize mc kc = kc * mc.
Proof.
  intros E. apply Z.even_spec in E as [h ->]. unfold psize. replace (2 * h + 1) with (1 + h * 2) by lia.
  rewrite Z.div_add by lia. change (1 / 2) with 0. lia.
Qed.
Lemma buf_fits mc kc : 0 < mc -> 0 < kc -> Z.even mc = true -> psize mc kc <= FixMod (kc * mc) REQ_ALIGN.
Proof. intros Hm Hk E. rewrite psize_even by auto. apply FixMod_le; [nia|reflexivity]. Qed.
Lemma aligned_buf_alloc {K : num} n (g : Z -> quat K) : allocated (aligned_buf n g) 0 n.
Proof.
  intros p Hp. unfold aligned_buf. destruct (Z.leb_spec 0 p), (Z.ltb_spec p n); cbn [andb]; try lia. eauto.
Qed.
Lemma dec_char c o : trans_char_r c = Some o -> dec c = o.
Proof.
  unfold trans_char_r, trans_char, dec. destruct (Ascii.eqb_spec c "R") as [->|]; [intros E; injection E as <-; reflexivity|].
  destruct (Ascii.eqb_spec c "N") as [->|]; [intros E; injection E as <-; reflexivity|].
  destruct (Ascii.eqb c "T"); [congruence|]. destruct (Ascii.eqb c "C"); [congruence|]. discriminate.
Qed.
Lemma disjoint_1 ldim m n : m <= ldim -> disjoint_mat ldim 1 m n.
Proof. intros Hl i j i' j' Hi Hj Hi' Hj' E. apply (mpos_inj ldim m); auto; lia. Qed.
Lemma matinc_1 {A} (a : arr A) ldim m n f : holds_matinc a ldim 1 m n f <-> holds_mat a ldim m n f.
Proof. split; intros Hh i j Hi Hj; specialize (Hh i j Hi Hj); rewrite Z.mul_1_r in *; auto. Qed.
Lemma same_matinc_1 {A} (a a' : arr A) ldim m n : same_but_matinc a a' ldim 1 m n <-> same_but_mat a a' ldim m n.
Proof.
  split; intros Hh p Hp; apply Hh; intros i j Hi Hj; specialize (Hp i j Hi Hj); rewrite Z.mul_1_r in *; auto.
Qed.

Section G.
Context {K : num}.
Local Notation qarr := (arr (quat K)).
Local Notation H := (quat K).

(** the value the optimised GEMM leaves in C(i,j), for any scalar arithmetic: BETA*C, then one fused multiply-accumulate per l *)
Definition gemm_val_at (oa ob : mop) (k : Z) (alA alB : option (scal K)) (beta : scal K) (A B w : Z -> Z -> H) (i j : Z) : H :=
  pprod oa ob alA alB A B 0 k i j (scalq true beta (w i j)).

Definition gemm_val (oa ob : mop) (k : Z) (alpha beta : scal K) := gemm_val_at oa ob k (Some alpha) None beta.

Lemma gemm_opt_at_raw mc nc kc aa ba ga gb ca cb oa ob m n k alA alB (a : qarr) lda (b : qarr) ldb beta cadr (c : qarr) ldc A B w :
  0 < mc -> 0 < nc -> 0 < kc -> psize mc kc <= FixMod (kc * mc) REQ_ALIGN -> psize nc kc <= FixMod (kc * nc) REQ_ALIGN ->
  aa mod 32 = 0 -> ba mod 32 = 0 ->
  dec ca = oa -> dec cb = ob -> 0 <= m -> 0 <= n -> 0 <= k -> m <= ldc ->
  holds_mat a lda (op_rows oa m k) (op_cols oa m k) A -> holds_mat b ldb (op_rows ob k n) (op_cols ob k n) B ->
  holds_mat c ldc m n w ->
  returns (gemm_opt_at mc nc kc aa ba ga gb ca cb m n k alA alB a lda b ldb beta cadr c ldc) (fun c' =>
    holds_mat c' ldc m n (gemm_val_at oa ob k alA alB beta A B w) /\ same_but_mat c c' ldc m n).
Proof.
  intros Hmc Hnc Hkc Hsa Hsb Haa Hba Hca Hcb Hm Hn Hk Hld Ha Hb Hc. unfold gemm_opt_at, scalm_avx.
  eapply returns_bind.
  - apply (scalm_raw scalv_opt (scalq true beta) "L" m n beta cadr c ldc 1 w); try lia.
    + intros xa x v Hx. apply scalv_opt_raw; auto; lia.
    + apply disjoint_1; auto.
    + apply matinc_1; auto.
  - intros c1 [H1 S1]. apply matinc_1 in H1. apply same_matinc_1 in S1.
    apply (gemm_nc_ok mc nc kc aa ba ca cb oa ob m n k alA alB a lda b ldb c ldc A B
      (FixMod (kc * mc) REQ_ALIGN) (FixMod (kc * nc) REQ_ALIGN)) with (f := fun i j => scalq true beta (w i j)); auto using holds_has_op, sep_ld, aligned_buf_alloc.
    split; auto.
Qed.
Lemma gemm_opt_raw mc nc kc aa ba ga gb ca cb oa ob m n k alpha (a : qarr) lda (b : qarr) ldb beta cadr (c : qarr) ldc A B w :
  0 < mc -> 0 < nc -> 0 < kc -> psize mc kc <= FixMod (kc * mc) REQ_ALIGN -> psize nc kc <= FixMod (kc * nc) REQ_ALIGN ->
  aa mod 32 = 0 -> ba mod 32 = 0 ->
  dec ca = oa -> dec cb = ob -> 0 <= m -> 0 <= n -> 0 <= k -> m <= ldc ->
  holds_mat a lda (op_rows oa m k) (op_cols oa m k) A -> holds_mat b ldb (op_rows ob k n) (op_cols ob k n) B ->
  holds_mat c ldc m n w ->
  returns (gemm_opt mc nc kc aa ba ga gb ca cb m n k alpha a lda b ldb beta cadr c ldc) (fun c' =>
    holds_mat c' ldc m n (gemm_val oa ob k alpha beta A B w) /\ same_but_mat c c' ldc m n).
Proof. intros. apply gemm_opt_at_raw; auto. Qed.
End G.

Section L.
Context {K : num} (L : laws K).
Add Ring Kr : (l_ring K L).
Lemma qinc_H (x y r : quat K) : qinc x y r = Hadd r (Hmul x y).
Proof. destruct x, y, r. unfold qinc. cbn. rewrite !(l_fma K L), !(l_fnma K L). hunf. f_equal; ring. Qed.
Lemma facc_H n x y (r : quat K) : facc n x y r = Hadd r (Hsum n (fun l => Hmul (x l) (y l))).
Proof.
  destruct (Z_lt_le_dec n 0) as [Hn|Hn].
  { rewrite Hsum_neg by lia. unfold facc. replace (Z.to_nat n) with O by lia. cbn. rewrite (Hadd_0_r L). auto. }
  pattern n. apply natlike_ind; auto.
  - rewrite facc_0, Hsum_0, (Hadd_0_r L). auto.
  - intros p Hp IH. unfold Z.succ. rewrite facc_succ, Hsum_succ by lia. rewrite IH, qinc_H, (Hadd_assoc L). auto.
Qed.
Lemma gemm_val_H oa ob k alpha beta A B w i j :
  gemm_val oa ob k alpha beta A B w i j = gemm_elt (K:=K) oa ob k (emb alpha) A B (emb beta) w i j.
Proof.
  unfold gemm_val, gemm_val_at, pprod, gemm_elt. rewrite facc_H, (Hadd_comm L). f_equal.
  - rewrite (Hmul_sum_l L). apply Hsum_ext. intros l _.
    rewrite (pre_some L), pre_none, <- !opm_raw, (Hmul_assoc L). reflexivity.
  - unfold scalq. rewrite (scal_step_H L). reflexivity.
Qed.
End L.

(** every position is inside or outside the window *)
Lemma window_dec ldim m n p : m <= ldim -> 0 <= m ->
  (exists i j, 0 <= i < m /\ 0 <= j < n /\ p = i + j * ldim) \/ (forall i j, 0 <= i < m -> 0 <= j < n -> p <> i + j * ldim).
Proof.
  intros Hl Hm. destruct (Z.eq_dec ldim 0) as [->|Hne]; [right; intros; lia|].
  pose proof (Z.div_mod p ldim Hne) as D. pose proof (Z.mod_pos_bound p ldim ltac:(lia)) as B.
  destruct (Z_lt_le_dec (p mod ldim) m) as [Hi|Hi]; [destruct (Z_le_gt_dec 0 (p / ldim)) as [Hj|Hj];
    [destruct (Z_lt_le_dec (p / ldim) n) as [Hj'|Hj']|]|].
  - left. exists (p mod ldim), (p / ldim). lia.
  - right. intros i j Hi' Hj'' ->. rewrite Z.div_add, Z.div_small in Hj' by lia. lia.
  - right. intros i j Hi' Hj' ->. rewrite Z.div_add, Z.div_small in Hj by lia. lia.
  - right. intros i j Hi' Hj' ->. rewrite Z.mod_add, Z.mod_small in Hi by lia. lia.
Qed.

(** final forms *)
Lemma gemm_opt_ok (K : num) (L : laws K) mc nc kc aa ba ga gb ca cb oa ob m n k alpha (a : arr (quat K)) lda (b : arr (quat K)) ldb beta cadr (c : arr (quat K)) ldc A B w :
  0 < mc -> Z.even mc = true -> 0 < nc -> Z.even nc = true -> 0 < kc -> aa mod 32 = 0 -> ba mod 32 = 0 ->
  trans_char_r ca = Some oa -> trans_char_r cb = Some ob -> 0 <= m -> 0 <= n -> 0 <= k -> m <= ldc ->
  holds_mat a lda (op_rows oa m k) (op_cols oa m k) A -> holds_mat b ldb (op_rows ob k n) (op_cols ob k n) B ->
  holds_mat c ldc m n w ->
  returns (gemm_opt mc nc kc aa ba ga gb ca cb m n k alpha a lda b ldb beta cadr c ldc) (fun c' =>
    holds_mat c' ldc m n (gemm_elt oa ob k (emb alpha) A B (emb beta) w) /\ same_but_mat c c' ldc m n).
Proof.
  intros. eapply returns_mono; [apply (gemm_opt_raw mc nc kc aa ba ga gb ca cb oa ob) with (A := A) (B := B) (w := w); auto using buf_fits, dec_char|].
  intros c' [Hh S]. split; auto. intros i j Hi Hj. rewrite <- (gemm_val_H L). auto.
Qed.
Lemma gemm_opt_default_ok (K : num) (L : laws K) aa ba ga gb ca cb oa ob m n k alpha (a : arr (quat K)) lda (b : arr (quat K)) ldb beta cadr (c : arr (quat K)) ldc A B w :
  aa mod 32 = 0 -> ba mod 32 = 0 ->
  trans_char_r ca = Some oa -> trans_char_r cb = Some ob -> 0 <= m -> 0 <= n -> 0 <= k -> m <= ldc ->
  holds_mat a lda (op_rows oa m k) (op_cols oa m k) A -> holds_mat b ldb (op_rows ob k n) (op_cols ob k n) B ->
  holds_mat c ldc m n w ->
  returns (gemm_opt_default aa ba ga gb ca cb m n k alpha a lda b ldb beta cadr c ldc) (fun c' =>
    holds_mat c' ldc m n (gemm_elt oa ob k (emb alpha) A B (emb beta) w) /\ same_but_mat c c' ldc m n).
Proof. intros. apply (gemm_opt_ok K L); auto; reflexivity. Qed.
Lemma gemm_opt_indep (K : num) mc nc kc aa ba ga gb cadr mc' nc' kc' aa' ba' ga' gb' cadr'
  ca cb oa ob m n k alpha (a : arr (quat K)) lda (b : arr (quat K)) ldb beta (c : arr (quat K)) ldc A B w :
  0 < mc -> Z.even mc = true -> 0 < nc -> Z.even nc = true -> 0 < kc -> aa mod 32 = 0 -> ba mod 32 = 0 ->
  0 < mc' -> Z.even mc' = true -> 0 < nc' -> Z.even nc' = true -> 0 < kc' -> aa' mod 32 = 0 -> ba' mod 32 = 0 ->
  trans_char_r ca = Some oa -> trans_char_r cb = Some ob -> 0 <= m -> 0 <= n -> 0 <= k -> m <= ldc ->
  holds_mat a lda (op_rows oa m k) (op_cols oa m k) A -> holds_mat b ldb (op_rows ob k n) (op_cols ob k n) B ->
  holds_mat c ldc m n w ->
  returns (gemm_opt mc nc kc aa ba ga gb ca cb m n k alpha a lda b ldb beta cadr c ldc) (fun c1 =>
  returns (gemm_opt mc' nc' kc' aa' ba' ga' gb' ca cb m n k alpha a lda b ldb beta cadr' c ldc) (fun c2 =>
    forall p, c1 p = c2 p)).
Proof.
  intros. eapply returns_mono; [apply (gemm_opt_raw mc nc kc aa ba ga gb ca cb oa ob) with (A := A) (B := B) (w := w); auto using buf_fits, dec_char|].
  intros c1 [HH1 SS1].
  eapply returns_mono; [apply (gemm_opt_raw mc' nc' kc' aa' ba' ga' gb' ca cb oa ob) with (A := A) (B := B) (w := w); auto using buf_fits, dec_char|].
  intros c2 [HH2 SS2] p. destruct (window_dec ldc m n p) as [(i & j & Hi & Hj & ->)|Hp]; auto.
  - rewrite HH1, HH2; auto.
  - rewrite SS1, SS2; auto.
Qed.

Lemma pack_ok_aux (K : num) (L : laws K) (o : packop) cnj alpha R len rs ls (x : arr (quat K)) x0 (buf : arr (quat K)) F :
  0 <= R -> 0 <= len -> (forall r l, 0 <= r < R -> 0 <= l < len -> x (x0 + r * rs + l * ls) = Some (F r l)) ->
  (forall p, 0 <= p < 2 * ((R + 1) / 2) * len -> buf p <> None) ->
  returns (pack_gen o cnj alpha R len rs ls x x0 buf) (fun buf' =>
    packed (match o with T1 => pairA | T2 => pairB end) R len
      (fun r l => let q := if cnj then Hconj (F r l) else F r l in match alpha with Some s => Hmul (emb s) q | None => q end) buf' /\
    forall p, ~ (0 <= p < 2 * ((R + 1) / 2) * len) -> buf' p = buf p).
Proof.
  intros HR Hl Hx Hb. eapply returns_mono; [apply (pack_gen_ok o cnj alpha R len rs ls x x0 buf F); auto|].
  { intros p Hp. specialize (Hb p Hp). destruct (buf p); eauto; congruence. }
  intros b' (HP & HO & _). split; auto. intros g l Hg Hg2 Hl'.
  destruct (HP g Hg Hg2 l Hl') as [E1 E2].
  replace (2 * g * len + 2 * l) with (2 * (g * len + l)) in E1, E2 by lia. rewrite E1, E2.
  assert (EP : forall r, pre cnj alpha (padrow R F r l) =
    padded R (fun r l => let q := if cnj then Hconj (F r l) else F r l in match alpha with Some s => Hmul (emb s) q | None => q end) r l).
  { intros r. unfold padrow, padded. destruct (r <? R); [|apply (pre_zero L)].
    destruct alpha; [apply (pre_some L)|apply pre_none]. }
  rewrite <- !EP. destruct o; split; reflexivity.
Qed.
Lemma tpack_ok (K : num) (L : laws K) (o : packop) cnj alpha m n (x : arr (quat K)) x0 ldx (buf : arr (quat K)) F : 0 <= m -> 0 <= n ->
  (forall i j, 0 <= i < m -> 0 <= j < n -> x (x0 + i + j * ldx) = Some (F i j)) ->
  (forall p, 0 <= p < 2 * ((n + 1) / 2) * m -> buf p <> None) ->
  returns (tpack o cnj alpha m n x x0 ldx buf) (fun buf' =>
    packed (match o with T1 => pairA | T2 => pairB end) n m
      (fun r l => let q := if cnj then Hconj (F l r) else F l r in match alpha with Some s => Hmul (emb s) q | None => q end) buf' /\
    forall p, ~ (0 <= p < 2 * ((n + 1) / 2) * m) -> buf' p = buf p).
Proof.
  intros Hm Hn Hx Hb. rewrite tpack_gen. apply (pack_ok_aux K L o cnj alpha n m ldx 1 x x0 buf (fun r l => F l r)); auto.
  intros r l Hr Hl. rewrite <- Hx by auto. f_equal; lia.
Qed.
Lemma npack_ok (K : num) (L : laws K) (o : packop) cnj alpha m n (x : arr (quat K)) x0 ldx (buf : arr (quat K)) F : 0 <= m -> 0 <= n ->
  (forall i j, 0 <= i < m -> 0 <= j < n -> x (x0 + i + j * ldx) = Some (F i j)) ->
  (forall p, 0 <= p < 2 * ((m + 1) / 2) * n -> buf p <> None) ->
  returns (npack o cnj alpha m n x x0 ldx buf) (fun buf' =>
    packed (match o with T1 => pairA | T2 => pairB end) m n
      (fun r l => let q := if cnj then Hconj (F r l) else F r l in match alpha with Some s => Hmul (emb s) q | None => q end) buf' /\
    forall p, ~ (0 <= p < 2 * ((m + 1) / 2) * n) -> buf' p = buf p).
Proof.
  intros Hm Hn Hx Hb. rewrite npack_gen. apply (pack_ok_aux K L o cnj alpha m n 1 ldx x x0 buf F); auto.
  intros r l Hr Hl. rewrite <- Hx by auto. f_equal; lia.
Qed.
Lemma buffers_fit blk kc R len : 0 < blk -> Z.even blk = true -> 0 < kc -> 0 <= R <= blk -> 0 <= len <= kc ->
  2 * ((R + 1) / 2) * len <= FixMod (kc * blk) REQ_ALIGN.
Proof.
  intros Hb E Hk HR Hl. etransitivity; [|apply (buf_fits blk kc); auto]. rewrite psize_even by auto.
  apply Z.even_spec in E as [h ->]. assert ((R + 1) / 2 <= h) by (apply Z.lt_succ_r; apply Z.div_lt_upper_bound; lia).
  assert (0 <= (R + 1) / 2) by (apply Z.div_pos; lia). nia.
Qed.
Lemma odd_blocking_ub : exists (mc nc kc aa ba : Z) ga gb (a b c : arr (quat Znum)) A B w,
  0 < mc /\ 0 < nc /\ 0 < kc /\ aa mod 32 = 0 /\ ba mod 32 = 0 /\ holds_mat a 1 1 33 A /\ holds_mat b 33 33 1 B /\ holds_mat c 1 1 1 w /\
  gemm_opt mc nc kc aa ba ga gb "N" "N" 1 1 33 (SR (1 : Znum)) a 1 b 33 (SR (0 : Znum)) 0 c 1 = UB.
Proof.
  set (z := zq 1 0 0 0).
  exists 1, 2, 33, 32, 64, (fun _ => z), (fun _ => z), (fun _ => Some z), (fun _ => Some z), (fun _ => Some z),
    (fun _ _ => z), (fun _ _ => z), (fun _ _ => z). do 8 (split; [first [reflexivity | lia | intros i j _ _; reflexivity]|]).
  vm_compute. reflexivity.
Qed.
