(** Facts about the packing routines. *)
From Coq Require Import ZArith Lia Ring Bool.
From Verif Require Import Num Res ResFacts Spec SpecFacts MQuat MSimd SimdFacts MOptL1 VecFacts L1Facts MPack.
Local Open Scope Z_scope.

Section P.
Context {K : num}.
Local Notation qarr := (arr (quat K)).
Local Notation H := (quat K).

(** the two stored elements made from a pair *)
Definition pk (o : packop) (x y : H) : H * H :=
  match o with
  | T1 => (Quat (qr x) (qi x) (qr y) (qi y), Quat (qj x) (qk x) (qj y) (qk y))
  | T2 => (Quat (qr x) (qr y) (qj x) (qj y), Quat (qi x) (qi y) (qk x) (qk y))
  end.
Lemma packOP_pk o (u v : m256 K) : packOP o u v = (v_of_q (fst (pk o (q_of_v u) (q_of_v v))), v_of_q (snd (pk o (q_of_v u) (q_of_v v)))).
Proof. destruct o, u, v; reflexivity. Qed.
Definition pre (cnj : bool) (alpha : option (scal K)) (q : H) : H := q_of_v (preOP cnj alpha (v_of_q q)).

Definition allocated (buf : qarr) (lo hi : Z) : Prop := forall p, lo <= p < hi -> exists q, buf p = Some q.
(** no element is deallocated *)
Definition keeps (buf buf' : qarr) : Prop := forall p q, buf p = Some q -> exists q', buf' p = Some q'.
Lemma keeps_refl buf : keeps buf buf. Proof. intros p q E; eauto. Qed.
Lemma keeps_trans b1 b2 b3 : keeps b1 b2 -> keeps b2 b3 -> keeps b1 b3.
Proof. intros K1 K2 p q E. destruct (K1 p q E) as [q' E']. eauto. Qed.
Lemma keeps_upd b1 b2 p q : keeps b1 b2 -> keeps b1 (upd b2 p q).
Proof. intros K1 p' q' E. unfold upd. destruct (p' =? p); eauto. Qed.
Lemma keeps_allocated b1 b2 lo hi : keeps b1 b2 -> allocated b1 lo hi -> allocated b2 lo hi.
Proof. intros K1 Al p Hp. destruct (Al p Hp) as [q E]. eauto. Qed.
Definition same_outside (buf buf' : qarr) (lo hi : Z) : Prop := forall p, ~ (lo <= p < hi) -> buf' p = buf p.

Lemma vld_un a (m : qarr) e q : m e = Some q -> vld false a m e = Ok (v_of_q q).
Proof. intros E. unfold vld. cbn [andb]. rewrite (ld_some _ _ _ E). reflexivity. Qed.
Lemma vst_un a (m : qarr) e q v : m e = Some q -> vst false a m e v = Ok (upd m e (q_of_v v)).
Proof. intros E. unfold vst. cbn [andb]. apply (st_some _ _ _ _ E). Qed.

Definition strip (o : packop) (cnj : bool) (alpha : option (scal K)) (u v : Z -> H) (pos cnt : Z) (buf : qarr) : Prop :=
  forall l, 0 <= l < cnt ->
    buf (pos + 2 * l) = Some (fst (pk o (pre cnj alpha (u l)) (pre cnj alpha (v l)))) /\
    buf (pos + 2 * l + 1) = Some (snd (pk o (pre cnj alpha (u l)) (pre cnj alpha (v l)))).

Lemma pack_loop_ok o cnj alpha cnt inc (x : qarr) p1 p2 pos buf u v :
  0 <= cnt -> (forall l, 0 <= l < cnt -> x (p1 + l * inc) = Some (u l)) ->
  (forall l, 0 <= l < cnt -> match p2 with Some p => x (p + l * inc) = Some (v l) | None => v l = H0 end) ->
  allocated buf pos (pos + 2 * cnt) ->
  returns (pack_loop o cnj alpha cnt inc x p1 p2 pos buf) (fun '(pos', buf') =>
    pos' = pos + 2 * cnt /\ strip o cnj alpha u v pos cnt buf' /\ same_outside buf buf' pos (pos + 2 * cnt) /\ keeps buf buf').
Proof.
  intros Hc Hu Hv Hal. unfold pack_loop.
  set (I := fun l '(q1, q2, ps, b) => q1 = p1 + l * inc /\ q2 = option_map (fun p => p + l * inc) p2 /\ ps = pos + 2 * l /\
    strip o cnj alpha u v pos l b /\ same_outside buf b pos (pos + 2 * l) /\ keeps buf b).
  eapply returns_bind with (P := I cnt).
  - apply (zfor_inv I); auto.
    + unfold I. refine (conj _ (conj _ (conj _ (conj _ (conj _ (keeps_refl _)))))); try lia; try (intros l Hl; lia); [|intros p Hp; auto].
      destruct p2; cbn; f_equal; lia.
    + intros l [[[q1 q2] ps] b] Hl (-> & -> & -> & HS & HO & HK).
      rewrite (vld_un _ _ _ (u l)) by (apply Hu; lia). cbn [bind].
      assert (E2 : match option_map (fun p => p + l * inc) p2 with Some p => vld false 0 x p | None => Ok mm256_zero end = Ok (v_of_q (v l))).
      { specialize (Hv l Hl). destruct p2 as [p|]; cbn [option_map].
        - apply vld_un; auto.
        - rewrite Hv. reflexivity. }
      rewrite E2. cbn [bind]. rewrite packOP_pk. fold (pre cnj alpha (u l)). fold (pre cnj alpha (v l)).
      destruct (Hal (pos + 2 * l)) as [w1 Hw1]; [lia|]. destruct (Hal (pos + 2 * l + 1)) as [w2 Hw2]; [lia|].
      rewrite (vst_un _ _ _ w1) by (rewrite HO; auto; lia). cbn [bind].
      rewrite (vst_un _ _ _ w2) by (rewrite upd_diff, HO; auto; lia). cbn [bind returns]. rewrite !q_of_v_of_q.
      unfold I. refine (conj _ (conj _ (conj _ (conj _ (conj _ (keeps_upd _ _ _ _ (keeps_upd _ _ _ _ HK))))))); try lia.
      * destruct p2; cbn; f_equal; lia.
      * intros l' Hl'. destruct (Z.eq_dec l' l) as [->|Hne].
        -- rewrite upd_same. rewrite upd_diff by lia. rewrite upd_same. auto.
        -- rewrite !upd_diff by lia. apply HS; lia.
      * intros p Hp. rewrite !upd_diff by lia. apply HO; lia.
  - intros [[[q1 q2] ps] b] (_ & _ & -> & HS & HO & HK). cbn. auto.
Qed.

(** panel format of a logical R x len matrix F: panel g holds rows 2g, 2g+1 interleaved; a missing last row is 0 before
    conjugation and scaling *)
Definition padrow (R : Z) (F : Z -> Z -> H) (r l : Z) : H := if r <? R then F r l else H0.
Definition panels (o : packop) (cnj : bool) (alpha : option (scal K)) (R len : Z) (F : Z -> Z -> H) (buf : qarr) : Prop :=
  forall g, 0 <= g -> 2 * g < R -> strip o cnj alpha (padrow R F (2 * g)) (padrow R F (2 * g + 1)) (2 * g * len) len buf.
(** number of elements written *)
Definition psize (R len : Z) : Z := 2 * ((R + 1) / 2) * len.

(** common shape of TPACK and NPACK *)
Definition pack_gen (o : packop) (cnj : bool) (alpha : option (scal K)) (R len rs ls : Z) (x : qarr) (x0 : Z) (buf : qarr) : res qarr :=
  '(xb, pos, buf) <- zfor 0 (Z.quot R 2) (fun _ '(xb, pos, buf) =>
    '(pos, buf) <- pack_loop o cnj alpha len ls x xb (Some (xb + rs)) pos buf ;;
    Ok (xb + 2 * rs, pos, buf)) (x0, 0, buf) ;;
  let j := Z.rem R 2 in
  if j =? 0 then Ok buf else
  _ <- assertb (j =? 1) ;;
  '(_, buf) <- pack_loop o cnj alpha len ls x xb None pos buf ;;
  Ok buf.
Lemma tpack_gen o cnj alpha m n (x : qarr) x0 ldx buf : tpack o cnj alpha m n x x0 ldx buf = pack_gen o cnj alpha n m ldx 1 x x0 buf.
Proof. reflexivity. Qed.
Lemma npack_gen o cnj alpha m n (x : qarr) x0 ldx buf : npack o cnj alpha m n x x0 ldx buf = pack_gen o cnj alpha m n 1 ldx x x0 buf.
Proof. reflexivity. Qed.

Lemma pack_gen_ok o cnj alpha R len rs ls (x : qarr) x0 buf F :
  0 <= R -> 0 <= len -> (forall r l, 0 <= r < R -> 0 <= l < len -> x (x0 + r * rs + l * ls) = Some (F r l)) ->
  allocated buf 0 (psize R len) ->
  returns (pack_gen o cnj alpha R len rs ls x x0 buf) (fun buf' =>
    panels o cnj alpha R len F buf' /\ same_outside buf buf' 0 (psize R len) /\ keeps buf buf').
Proof.
  intros HR Hlen Hx Hal. unfold pack_gen.
  rewrite Z.quot_div_nonneg, Z.rem_mod_nonneg by lia.
  pose proof (Z.div_mod R 2 ltac:(lia)) as DM. pose proof (Z.mod_pos_bound R 2 ltac:(lia)) as MB.
  set (h := R / 2) in *. set (e := R mod 2) in *.
  assert (Hps : psize R len = 2 * (h + e) * len).
  { unfold psize. f_equal. f_equal. assert (E : e = 0 \/ e = 1) by lia. destruct E as [E|E]; rewrite E in *.
    - replace (R + 1) with (1 + h * 2) by lia. rewrite Z.div_add by lia. change (1 / 2) with 0. lia.
    - replace (R + 1) with (0 + (h + 1) * 2) by lia. rewrite Z.div_add by lia. change (0 / 2) with 0. lia. }
  set (I := fun g '(xb, pos, b) => xb = x0 + 2 * g * rs /\ pos = 2 * g * len /\
     (forall g', 0 <= g' < g -> strip o cnj alpha (padrow R F (2 * g')) (padrow R F (2 * g' + 1)) (2 * g' * len) len b) /\
     same_outside buf b 0 (2 * g * len) /\ keeps buf b).
  assert (Pad : forall r l, r < R -> padrow R F r l = F r l).
  { intros r l Hr. unfold padrow. destruct (Z.ltb_spec r R); auto; lia. }
  assert (Keep : forall g b b' g', 0 <= g' < g -> same_outside b b' (2 * g * len) (2 * g * len + 2 * len) ->
     strip o cnj alpha (padrow R F (2 * g')) (padrow R F (2 * g' + 1)) (2 * g' * len) len b ->
     strip o cnj alpha (padrow R F (2 * g')) (padrow R F (2 * g' + 1)) (2 * g' * len) len b').
  { intros g b b' g' Hg' HO HS l Hl. rewrite !HO by nia. apply HS; auto. }
  eapply returns_bind with (P := I h).
  - apply (zfor_inv I); [lia| |].
    + unfold I. refine (conj _ (conj _ (conj _ (conj _ (keeps_refl _))))); try (intros; lia). intros p Hp; auto.
    + intros g [[xb pos] b] Hg (-> & -> & HS & HO & HK).
      eapply returns_bind.
      * apply (pack_loop_ok o cnj alpha len ls x _ _ _ b (padrow R F (2 * g)) (padrow R F (2 * g + 1))); auto.
        -- intros l Hl. rewrite Pad, <- (Hx (2 * g) l) by lia. f_equal; lia.
        -- intros l Hl. rewrite Pad, <- (Hx (2 * g + 1) l) by lia. f_equal; lia.
        -- intros p Hp. rewrite HO by lia. apply Hal. rewrite Hps. nia.
      * intros [pos' b'] (-> & HS' & HO' & HK'). cbn [bind returns]. refine (conj _ (conj _ (conj _ (conj _ (keeps_trans _ _ _ HK HK'))))); try lia.
        -- intros g' Hg'. destruct (Z.eq_dec g' g) as [->|Hne]; auto.
           apply (Keep g b); auto; [lia|apply HS; lia].
        -- intros p Hp. rewrite HO', HO by nia. auto.
  - intros [[xb pos] b] (-> & -> & HS & HO & HK). cbv zeta.
    destruct (Z.eqb_spec e 0) as [E|E].
    + cbn [bind returns]. refine (conj _ (conj _ HK)).
      * intros g Hg Hg2. apply HS; lia.
      * rewrite Hps, E. intros p Hp. apply HO. nia.
    + assert (e = 1) as E1 by lia. rewrite E1. cbn [Z.eqb Pos.eqb assertb bind].
      eapply returns_bind.
      * apply (pack_loop_ok o cnj alpha len ls x _ None _ b (padrow R F (2 * h)) (padrow R F (2 * h + 1))); auto.
        -- intros l Hl. rewrite Pad, <- (Hx (2 * h) l) by lia. f_equal; lia.
        -- intros l Hl. unfold padrow. destruct (Z.ltb_spec (2 * h + 1) R); auto; lia.
        -- intros p Hp. rewrite HO by lia. apply Hal. rewrite Hps. nia.
      * intros [pos' b'] (-> & HS' & HO' & HK'). cbn [bind returns]. refine (conj _ (conj _ (keeps_trans _ _ _ HK HK'))).
        -- intros g Hg Hg2. destruct (Z.eq_dec g h) as [->|Hne]; auto.
           apply (Keep h b); auto; [lia|apply HS; lia].
        -- rewrite Hps, E1. intros p Hp. rewrite HO', HO by nia. auto.
Qed.
End P.

Section L.
Context {K : num} (L : laws K).
Add Ring Kr : (l_ring K L).
Lemma avx_mul_H (al : scal K) (x : m256 K) : q_of_v (avx_mul (Some al) x) = Hmul (emb al) (q_of_v x).
Proof.
  destruct al as [a|[a b]|q]; destruct x; cbn [avx_mul].
  - unfold q_of_v, emb; cbn; hunf; f_equal; ring.
  - unfold q_of_v, emb; cbn; hunf; f_equal; ring.
  - rewrite (MULDQ_NN_H L), q_of_v_of_q. reflexivity.
Qed.
Lemma pre_some (cnj : bool) al (q : quat K) : pre cnj (Some al) q = Hmul (emb al) (if cnj then Hconj q else q).
Proof. unfold pre, preOP. rewrite avx_mul_H. destruct cnj; rewrite ?QCONJ_H, q_of_v_of_q; reflexivity. Qed.
Lemma pre_none (cnj : bool) (q : quat K) : pre cnj None q = if cnj then Hconj q else q.
Proof. unfold pre, preOP. cbn [avx_mul]. destruct cnj; rewrite ?QCONJ_H, q_of_v_of_q; reflexivity. Qed.
Lemma pre_zero cnj al : pre (K:=K) cnj al H0 = H0.
Proof.
  destruct al as [al|]; [rewrite pre_some|rewrite pre_none]; destruct cnj; rewrite ?(Hconj_0 L), ?(Hmul_0_r L); reflexivity.
Qed.
End L.
