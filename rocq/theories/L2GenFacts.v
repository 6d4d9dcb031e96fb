(** Generic templates GEMV, GEMM, GER. *)
From Coq Require Import ZArith Lia Bool Ascii Ring.
From Verif Require Import Num Res ResFacts Spec SpecFacts VecFacts LoopFacts GemmLoops MQuat QuatFacts MGenL1 MForL1 L1Facts2 L1Facts3 MGenL2.
Local Open Scope Z_scope.

Section F.
Context {K : num} (L : laws K).
Add Ring Kr : (l_ring K L).
Local Notation qarr := (arr (quat K)).

(** the tests ALPHA == 0, BETA == 1, BETA == 0 are exact for this scalar *)
Definition eq_ok (s : scal K) (v : K) : Prop := s_eqb s v = true -> emb s = Hre v.
Lemma eq_ok_real (a v : K) : eq_ok (SR a) v.
Proof. intros E. cbn in E. apply (l_eqb K L) in E. subst. reflexivity. Qed.
Lemma eq_ok_cplx (z : cplx K) v : eq_ok (SC z) v.
Proof.
  intros E. cbn in E. apply andb_true_iff in E as [E1 E2]. apply (l_eqb K L) in E1, E2. destruct z as [p q]; cbn in *; subst. reflexivity.
Qed.
Lemma eq_ok_quat (q : quat K) v : (qk q = n0 \/ qk q <> n0 /\ ~ (qr q = v /\ qi q = n0 /\ qj q = n0)) -> eq_ok (SH q) v.
Proof.
  intros Hq E. apply (s_eqb_emb L) in E. cbn in E. destruct q as [p1 p2 p3 p4]; cbn in *. destruct E as (-> & -> & ->).
  destruct Hq as [->|[_ Hq]]; [reflexivity|]. destruct Hq; auto.
Qed.

Lemma eq_ok_all (s : scal K) v : (forall d, s = SH (Quat v n0 n0 d) -> d = n0) -> eq_ok s v.
Proof.
  intros Hd. destruct s as [a|z|[p1 p2 p3 p4]]; [apply eq_ok_real|apply eq_ok_cplx|].
  intros E. apply (s_eqb_emb L) in E. cbn in E. destruct E as (-> & -> & ->). rewrite (Hd p4) by auto. reflexivity.
Qed.
Lemma q_neqb_zero (q : quat K) : (forall d, q = Quat n0 n0 n0 d -> d = n0) -> qk q = n0 \/ q_neqb q (q_of_real n0) = true.
Proof.
  intros Hd. destruct (q_neqb q (q_of_real n0)) eqn:E; auto. left.
  unfold q_neqb in E. apply negb_false_iff in E. unfold q_eqb in E. cbn in E. rewrite !andb_true_iff in E.
  destruct q as [p1 p2 p3 p4]; cbn in *. repeat match goal with H : _ /\ _ |- _ => destruct H end.
  repeat match goal with H : neqb _ _ = true |- _ => apply (l_eqb K L) in H end. subst. apply Hd; auto.
Qed.

Lemma comm_split (al a v w : quat K) :
  Hadd (Hadd w (Hmul a (Hmul al v))) (Hmul (Hsub (Hmul al a) (Hmul a al)) v) = Hadd w (Hmul al (Hmul a v)).
Proof. destruct al, a, v, w. hunf. f_equal; ring. Qed.

Lemma Hre_minus (a b : K) : Hre (a - b)%num = Hsub (Hre a) (Hre b).
Proof. hunf. f_equal; ring. Qed.
Lemma Hre_conj (a : K) : Hre (smartconj_r a) = Hconj (Hre a).
Proof. unfold smartconj_r. hunf. f_equal; ring. Qed.

Section T.
Context {MT : Type}.
Variable qmul : quat K -> quat K -> quat K.
Variable mmul : MT -> quat K -> quat K.
Variable aM Ma : scal K -> MT -> MT.
Variable msub : MT -> MT -> MT.
Variable mconj : MT -> MT.
Variable val : MT -> quat K.
Hypothesis Hqm : forall p q, qmul p q = Hmul p q.
Hypothesis Hmm : forall a q, mmul a q = Hmul (val a) q.
Hypothesis Hsub' : forall a b, val (msub a b) = Hsub (val a) (val b).
Hypothesis Hcj : forall a, val (mconj a) = Hconj (val a).
Variable alpha : scal K.
Hypothesis HaM : forall a, val (aM alpha a) = Hmul (emb alpha) (val a).
Hypothesis HMa : forall a, val (Ma alpha a) = Hmul (val a) (emb alpha).

Lemma smul_l_emb s x : smul_l qmul s x = Hmul (emb s) x.
Proof. apply (smul_l_H L qmul s x Hqm). Qed.

Lemma gemv_n_step_H aij v p (y : qarr) w : y p = Some w ->
  gemv_n_step qmul mmul aM Ma msub alpha aij v p y = Ok (upd y p (Hadd w (Hmul (emb alpha) (Hmul (val aij) v)))).
Proof.
  intros Hl. unfold gemv_n_step. rewrite (ld_some _ _ _ Hl). cbn [bind]. rewrite (st_some _ _ _ _ Hl). do 2 f_equal.
  rewrite !q_addeq_H, !Hmm, Hsub', HaM, HMa, smul_l_emb.
  apply comm_split.
Qed.

Lemma gemv_beta_ok beta leny (y : qarr) incy w :
  eq_ok beta n0 -> eq_ok beta n1 -> 0 <= leny -> 0 < incy -> holds_vec y leny incy w ->
  returns (gemv_beta qmul beta leny y incy) (fun y' => is_vec y y' leny incy (fun i => Hmul (emb beta) (w i))).
Proof.
  intros B0 B1 Hn Hinc Hy. apply is_vec_refl in Hy. unfold gemv_beta.
  destruct (s_eqb beta n1) eqn:E1.
  { cbn [returns]. rewrite (B1 E1). eapply is_vec_ext; [|exact Hy]. intros; rewrite Hre_1, (Hmul_1_l L); auto. }
  destruct (Z.eqb_spec incy 1) as [->|Hne].
  - destruct (s_eqb beta n0) eqn:E0.
    + rewrite (B0 E0). apply (vmap_plain y y leny _ _ _ _ w); auto; try lia.
      intros i y' Hi Hl. rewrite Z.add_0_l, (ld_some _ _ _ Hl). cbn [bind]. rewrite (st_some _ _ _ _ Hl), Hre_0, (Hmul_0_l L). auto.
    + apply (vmap_plain y y leny _ _ _ _ w); auto; try lia.
      intros i y' Hi Hl. rewrite Z.add_0_l, (ld_some _ _ _ Hl). cbn [bind]. rewrite (st_some _ _ _ _ Hl), smul_l_emb. auto.
  - destruct (s_eqb beta n0) eqn:E0.
    + rewrite (B0 E0).
      apply (vmap_cursor y y leny incy _ _ _ (fun _ iy y => v <- ld y iy ;; st y iy (q_set_real v n0)) _ w); auto; try lia.
      intros i p y' Hi -> Hl. rewrite Z.add_0_l, <- (vpos_pos leny) by auto. rewrite (ld_some _ _ _ Hl). cbn [bind].
      rewrite (st_some _ _ _ _ Hl), Hre_0, (Hmul_0_l L). auto.
    + apply (vmap_cursor y y leny incy _ _ _ (fun _ iy y => v <- ld y iy ;; st y iy (smul_l qmul beta v)) _ w); auto; try lia.
      intros i p y' Hi -> Hl. rewrite Z.add_0_l, <- (vpos_pos leny) by auto. rewrite (ld_some _ _ _ Hl). cbn [bind].
      rewrite (st_some _ _ _ _ Hl), smul_l_emb. auto.
Qed.

Lemma gemv_n_ok m n (a : arr MT) lda (x : qarr) incx (y y' : qarr) incy A v w :
  0 <= m -> 0 <= n -> 0 < incx -> 0 < incy ->
  holds_mat a lda m n A -> holds_vec x n incx v -> is_vec y y' m incy w ->
  returns (gemv_n qmul mmul aM Ma msub alpha m n a lda x incx y' incy) (fun y'' =>
    is_vec y y'' m incy (fun i => Hadd (w i) (Hmul (emb alpha) (Hsum n (fun j => Hmul (val (A i j)) (v j)))))).
Proof.
  intros Hm Hn Hix Hiy Ha Hx Hy. unfold gemv_n.
  pose (I := fun (j : Z) y'' => is_vec y y'' m incy (fun i => Hadd (w i) (Hmul (emb alpha) (Hsum j (fun j => Hmul (val (A i j)) (v j)))))).
  assert (I0 : I 0 y').
  { unfold I. eapply is_vec_ext; [|exact Hy]. intros; rewrite Hsum_0, (Hmul_0_r L), (Hadd_0_r L); auto. }
  assert (Step : forall j i p (y0 : qarr), 0 <= j < n -> 0 <= i < m ->
     y0 p = Some (Hadd (w i) (Hmul (emb alpha) (Hsum j (fun j => Hmul (val (A i j)) (v j))))) ->
     (aij <- ld a (i + j * lda) ;; gemv_n_step qmul mmul aM Ma msub alpha aij (v j) p y0) =
       Ok (upd y0 p (Hadd (w i) (Hmul (emb alpha) (Hsum (j + 1) (fun j => Hmul (val (A i j)) (v j))))))).
  { intros j i p y0 Hj Hi Hl. rewrite (ld_some _ _ _ (Ha i j Hi Hj)). cbn [bind]. rewrite (gemv_n_step_H _ _ _ _ _ Hl).
    rewrite Hsum_succ by lia. rewrite (Hmul_add_l L), (Hadd_assoc L). reflexivity. }
  destruct (Z.eqb_spec incy 1) as [->|Hne].
  - pose (step := fun j jx y => v <- ld x jx ;;
       zfor 0 m (fun i y => aij <- ld a (i + j * lda) ;; gemv_n_step qmul mmul aM Ma msub alpha aij v i y) y).
    apply (cursori_n I step n); auto; try lia.
    intros j y0 Hj HI. unfold step. rewrite !Z.add_0_l, <- (vpos_pos n incx j) by auto. rewrite (ld_some _ _ _ (Hx j Hj)). cbn [bind].
    eapply (vmap_plain y y0 m); [lia|lia| |exact HI]. intros i y1 Hi Hl. rewrite Z.add_0_l. apply Step; auto.
  - pose (step := fun j jx y => v <- ld x jx ;;
       '(y, _) <- zfor 0 m (fun i '(y, iy) => y <- (aij <- ld a (i + j * lda) ;; gemv_n_step qmul mmul aM Ma msub alpha aij v iy y) ;; Ok (y, iy + incy)) (y, 0) ;; Ok y).
    apply (cursori_n I step n); auto; try lia.
    intros j y0 Hj HI. unfold step. rewrite !Z.add_0_l, <- (vpos_pos n incx j) by auto. rewrite (ld_some _ _ _ (Hx j Hj)). cbn [bind].
    eapply (vmap_cursor y y0 m incy _ _ _ (fun i iy y => aij <- ld a (i + j * lda) ;; gemv_n_step qmul mmul aM Ma msub alpha aij (v j) iy y));
      [lia|lia|lia| |exact HI].
    intros i p y1 Hi -> Hl. rewrite !Z.add_0_l, <- (vpos_pos m incy i) by auto. apply Step; auto.
Qed.
Lemma gemv_t_ok nc m n (a : arr MT) lda (x : qarr) incx (y y' : qarr) incy A v w :
  0 <= m -> 0 <= n -> 0 < incx -> 0 < incy ->
  holds_mat a lda m n A -> holds_vec x m incx v -> is_vec y y' n incy w ->
  returns (gemv_t qmul mmul mconj alpha nc m n a lda x incx y' incy) (fun y'' =>
    is_vec y y'' n incy (fun j => Hadd (w j) (Hmul (emb alpha) (Hsum m (fun i => Hmul (if nc then val (A i j) else Hconj (val (A i j))) (v i)))))).
Proof.
  intros Hm Hn Hix Hiy Ha Hx Hy. unfold gemv_t.
  set (new := fun j => Hadd (w j) (Hmul (emb alpha) (Hsum m (fun i => Hmul (if nc then val (A i j) else Hconj (val (A i j))) (v i))))).
  pose (z := q_of_real (K:=K) n0).
  pose (step := fun j jy y => 
    h <- (if incx =? 1 then zfor 0 m (fun i h => aij <- ld a (i + j * lda) ;; v <- ld x i ;; Ok (gemv_dot mmul mconj nc aij v h)) z
                else '(h, _) <- zfor 0 m (fun i '(h, ix) => h <- (aij <- ld a (i + j * lda) ;; v <- ld x ix ;; Ok (gemv_dot mmul mconj nc aij v h)) ;; Ok (h, ix + incx)) (z, 0) ;; Ok h) ;;
    w <- ld y jy ;; st y jy (q_addeq w (smul_l qmul alpha h))).
  apply (vmap_cursor y y' n incy 0 n 0 step new w); auto; try lia.
  intros j p y0 Hj -> Hl. unfold step. rewrite !Z.add_0_l, <- (vpos_pos n incy j) by auto.
  pose (t := fun i => Hmul (if nc then val (A i j) else Hconj (val (A i j))) (v i)).
  pose (I := fun (i : Z) h => h = Hsum i t).
  assert (Step : forall i p h, 0 <= i < m -> p = vpos m incx i -> I i h ->
     returns (aij <- ld a (i + j * lda) ;; v <- ld x p ;; Ok (gemv_dot mmul mconj nc aij v h)) (I (i + 1))).
  { intros i p h Hi -> ->. 
    rewrite (ld_some _ _ _ (Ha i j Hi Hj)). cbn [bind]. rewrite (ld_some _ _ _ (Hx i Hi)). cbn [bind returns].
    unfold I. rewrite Hsum_succ by lia. unfold gemv_dot. rewrite q_addeq_H, Hmm. unfold t at 3.
    destruct nc; auto. rewrite Hcj. auto. }
  assert (D : returns (if incx =? 1 then zfor 0 m (fun i h => aij <- ld a (i + j * lda) ;; v <- ld x i ;; Ok (gemv_dot mmul mconj nc aij v h)) z
                else '(h, _) <- zfor 0 m (fun i '(h, ix) => h <- (aij <- ld a (i + j * lda) ;; v <- ld x ix ;; Ok (gemv_dot mmul mconj nc aij v h)) ;; Ok (h, ix + incx)) (z, 0) ;; Ok h)
             (I m)).
  { destruct (Z.eqb_spec incx 1) as [->|Hne].
    - apply (plain_n I); auto; try lia; [|reflexivity]. intros i h Hi HI. rewrite Z.add_0_l. apply Step; auto. rewrite vpos_1; auto.
    - apply (cursori_n I (fun i ix h => aij <- ld a (i + j * lda) ;; v <- ld x ix ;; Ok (gemv_dot mmul mconj nc aij v h))); auto; try lia; [|reflexivity].
      intros i h Hi HI. rewrite !Z.add_0_l. apply Step; auto. rewrite vpos_pos; auto. }
  destruct (proj1 (returns_ex _ _) D) as (h & -> & ->).
  cbn [bind]. rewrite (ld_some _ _ _ Hl). cbn [bind].
  rewrite (st_some _ _ _ _ Hl), q_addeq_H, smul_l_emb. reflexivity.
Qed.

Lemma gemv_gen_ok c o m n (a : arr MT) lda (x : qarr) incx beta (y : qarr) incy A v w :
  trans_char c = Some o -> 0 < m -> 0 < n -> 0 < incx -> 0 < incy ->
  eq_ok alpha n0 -> eq_ok beta n0 -> eq_ok beta n1 ->
  holds_mat a lda m n A -> holds_vec x (op_cols o m n) incx v -> holds_vec y (op_rows o m n) incy w ->
  returns (gemv_gen qmul mmul aM Ma msub mconj c m n alpha a lda x incx beta y incy) (fun y' =>
    holds_vec y' (op_rows o m n) incy (gemv_elt o (op_cols o m n) (emb alpha) (fun i j => val (A i j)) v (emb beta) w) /\
    same_but_vec y y' (op_rows o m n) incy).
Proof.
  intros Hc Hm Hn Hix Hiy A0 B0 B1 Ha Hx Hy. unfold gemv_gen.
  replace (m =? 0) with false by lia. replace (n =? 0) with false by lia. cbn [orb].
  assert (Noop : emb alpha = H0 -> forall y' : qarr, is_vec y y' (op_rows o m n) incy (fun i => Hmul (emb beta) (w i)) ->
     is_vec y y' (op_rows o m n) incy (gemv_elt o (op_cols o m n) (emb alpha) (fun i j => val (A i j)) v (emb beta) w)).
  { intros E y'. apply is_vec_ext. intros i Hi. unfold gemv_elt. rewrite E, (Hmul_0_l L), (Hadd_0_l L). auto. }
  destruct (s_eqb alpha n0 && s_eqb beta n1) eqn:EQ.
  { apply andb_true_iff in EQ as [E0 E1]. apply A0 in E0. apply B1 in E1. rewrite Hre_0 in E0. rewrite Hre_1 in E1.
    apply Noop; auto. rewrite E1. eapply is_vec_ext; [|apply is_vec_refl; exact Hy]. intros; rewrite (Hmul_1_l L); auto. }
  clear EQ. unfold assertb. replace (incx >? 0) with true by lia. replace (incy >? 0) with true by lia. cbn [bind].
  eapply returns_bind with (P := fun y' => is_vec y y' (op_rows o m n) incy (fun i => Hmul (emb beta) (w i))).
  { replace (if negb (c =? "N")%char then n else m) with (op_rows o m n).
    - apply gemv_beta_ok; auto. destruct o; cbn; lia.
    - unfold trans_char in Hc. destruct (c =? "N")%char; [injection Hc as <-; auto|].
      destruct (c =? "T")%char; [injection Hc as <-; auto|]. destruct (c =? "C")%char; [injection Hc as <-; auto|discriminate]. }
  intros y' Hy'. destruct (s_eqb alpha n0) eqn:E0.
  { apply A0 in E0. rewrite Hre_0 in E0. apply Noop; auto. }
  assert (Fin : (o = OpT \/ o = OpC) ->
     returns (gemv_t qmul mmul mconj alpha (match o with OpT => true | _ => false end) m n a lda x incx y' incy) (fun y' =>
    holds_vec y' (op_rows o m n) incy (gemv_elt o (op_cols o m n) (emb alpha) (fun i j => val (A i j)) v (emb beta) w) /\
    same_but_vec y y' (op_rows o m n) incy)).
  { intros Ho.
    assert (Er : op_rows o m n = n) by (destruct Ho as [-> | ->]; reflexivity).
    assert (Ec : op_cols o m n = m) by (destruct Ho as [-> | ->]; reflexivity).
    rewrite Er, Ec in *.
    eapply returns_mono.
    - apply (gemv_t_ok _ m n a lda x incx y y' incy A v (fun i => Hmul (emb beta) (w i))); auto; try lia.
    - intros y'' H. eapply is_vec_ext in H; [exact H|]. intros j Hj. unfold gemv_elt. rewrite (Hadd_comm L). do 2 f_equal.
      destruct Ho as [-> | ->]; reflexivity. }
  unfold trans_char in Hc.
  destruct (Ascii.eqb_spec c "N") as [->|_]; [injection Hc as <-|
  destruct (Ascii.eqb_spec c "T") as [->|_]; [injection Hc as <-|
  destruct (Ascii.eqb_spec c "C") as [->|_]; [injection Hc as <-|discriminate]]].
  - cbn [op_rows op_cols] in *.
    eapply returns_mono.
    + apply (gemv_n_ok m n a lda x incx y y' incy A v (fun i => Hmul (emb beta) (w i))); auto; try lia.
    + intros y'' H. eapply is_vec_ext in H; [exact H|]. intros j Hj. unfold gemv_elt. rewrite (Hadd_comm L). reflexivity.
  - apply Fin; auto.
  - apply Fin; auto.
Qed.
(** ** GEMM *)
Lemma gemm_scale_H beta iz p (c : qarr) w : (iz = true -> emb beta = H0) -> c p = Some w ->
  gemm_scale qmul beta iz p c = Ok (upd c p (Hmul (emb beta) w)).
Proof.
  intros Hz Hl. unfold gemm_scale. rewrite (ld_some _ _ _ Hl). cbn [bind]. rewrite (st_some _ _ _ _ Hl). do 2 f_equal.
  destruct iz; [rewrite Hz, (Hmul_0_l L) by auto; reflexivity|]. apply smul_l_emb.
Qed.

Lemma gemm_nota_ok m n k (a : arr MT) lda bq beta (c : qarr) ldc A B w :
  0 <= m -> 0 <= n -> 0 <= k -> m <= ldc -> eq_ok beta n0 -> eq_ok beta n1 ->
  holds_mat a lda m k A -> (forall l j, 0 <= l < k -> 0 <= j < n -> bq l j = Ok (B l j)) -> holds_mat c ldc m n w ->
  returns (gemm_nota qmul mmul aM m n k alpha a lda bq beta c ldc) (fun c' => is_mat c c' ldc m n
    (gemm_elt OpN OpN k (emb alpha) (fun i l => val (A i l)) B (emb beta) w)).
Proof.
  intros Hm Hn Hk Hld B0 B1 Ha Hb Hc. unfold gemm_nota. pose proof (sep_ld _ m n Hld) as Hsep.
  pose (acc := fun j l i => Hadd (Hmul (emb beta) (w i j)) (Hmul (emb alpha) (Hsum l (fun l => Hmul (val (A i l)) (B l j))))).
  pose (pre := fun j c => if s_eqb beta n0 then zfor 0 m (fun i c => gemm_scale qmul beta true (i + j * ldc) c) c
          else if negb (s_eqb beta n1) then zfor 0 m (fun i c => gemm_scale qmul beta false (i + j * ldc) c) c
          else Ok c).
  pose (inner := fun j l i (c : qarr) => 
        w <- ld c (i + j * ldc) ;; ail <- ld a (i + l * lda) ;; blj <- bq l j ;;
        st c (i + j * ldc) (q_addeq w (mmul (aM alpha ail) blj))).
  eapply returns_mono; [apply (nota_loops c c ldc m n k 0 n m k pre inner w acc); auto; try lia|].
  - intros j f c0 Hj He HI. rewrite Z.add_0_l. unfold pre.
    assert (E0 : forall i, 0 <= i < m -> acc j 0 i = Hmul (emb beta) (f i j)).
    { intros i Hi. unfold acc. rewrite Hsum_0, (Hmul_0_r L), (Hadd_0_r L), He; auto. }
    assert (M : forall iz, (iz = true -> emb beta = H0) -> returns (zfor 0 m (fun i c => gemm_scale qmul beta iz (i + j * ldc) c) c0)
       (fun c1 => is_mat c c1 ldc m n (setcol j (acc j 0) f))).
    { intros iz Hz. apply (mcol_map c c0 ldc m n f j); auto; try lia.
      intros i c1 Hi Hl. rewrite Z.add_0_l, (gemm_scale_H _ _ _ _ _ Hz Hl), E0; auto. }
    destruct (s_eqb beta n0) eqn:Eb0; [apply M; intros _; apply B0; auto|].
    destruct (s_eqb beta n1) eqn:Eb1; cbn [negb]; [|apply M; discriminate].
    cbn [returns]. eapply is_mat_ext; [|exact HI]. intros i j' Hi Hj'. unfold setcol.
    destruct (Z.eqb_spec j' j) as [->|]; auto. rewrite E0, (B1 Eb1), Hre_1, (Hmul_1_l L) by auto. auto.
  - intros j l i c0 Hj Hl Hi Hc0. unfold inner. rewrite !Z.add_0_l.
    rewrite (ld_some _ _ _ Hc0). cbn [bind]. rewrite (ld_some _ _ _ (Ha i l Hi Hl)). cbn [bind]. rewrite Hb by auto. cbn [bind].
    rewrite (st_some _ _ _ _ Hc0). do 2 f_equal. rewrite q_addeq_H, Hmm, HaM. unfold acc.
    rewrite Hsum_succ by lia. rewrite <- (Hmul_assoc L), (Hmul_add_l L), (Hadd_assoc L). reflexivity.
  - apply is_mat_refl; auto.
  - intros c' H. eapply is_mat_ext; [|exact H]. intros i j Hi Hj. unfold acc, gemm_elt. apply (Hadd_comm L).
Qed.

Lemma gemm_transa_ok ca m n k (a : arr MT) lda bq beta (c : qarr) ldc A B w :
  0 <= m -> 0 <= n -> 0 <= k -> m <= ldc -> eq_ok beta n0 ->
  holds_mat a lda k m A -> (forall l j, 0 <= l < k -> 0 <= j < n -> bq l j = Ok (B l j)) -> holds_mat c ldc m n w ->
  returns (gemm_transa qmul mmul mconj ca m n k alpha a lda bq beta c ldc) (fun c' => is_mat c c' ldc m n
    (gemm_elt (if ca then OpC else OpT) OpN k (emb alpha) (fun i l => val (A i l)) B (emb beta) w)).
Proof.
  intros Hm Hn Hk Hld B0 Ha Hb Hc. unfold gemm_transa. pose proof (sep_ld _ m n Hld) as Hsep.
  set (new := gemm_elt (if ca then OpC else OpT) OpN k (emb alpha) (fun i l => val (A i l)) B (emb beta) w).
  pose (body := fun j i (c : qarr) => 
      h <- zfor 0 k (fun l h =>
             ali <- ld a (l + i * lda) ;; blj <- bq l j ;;
             Ok (q_addeq h (mmul (if ca then mconj ali else ali) blj))) (q_of_real n0) ;;
      w <- ld c (i + j * ldc) ;;
      st c (i + j * ldc) (if s_eqb beta n0 then smul_l qmul alpha h
                          else q_add (smul_l qmul alpha h) (smul_l qmul beta w))).
  apply (mat_map c c ldc m n 0 n m body new w); auto; try lia.
  2:{ apply is_mat_refl; auto. }
  intros i j c0 Hi Hj Hl. unfold body. rewrite !Z.add_0_l.
  pose (t := fun l => Hmul (if ca then Hconj (val (A l i)) else val (A l i)) (B l j)).
  assert (D : returns (zfor 0 k (fun l h =>
             ali <- ld a (l + i * lda) ;; blj <- bq l j ;;
             Ok (q_addeq h (mmul (if ca then mconj ali else ali) blj))) (q_of_real n0)) (fun h => h = Hsum k t)).
  { apply (plain_n (fun l h => h = Hsum l t)); auto; try lia.
    intros l h Hl' ->. rewrite Z.add_0_l. rewrite (ld_some _ _ _ (Ha l i Hl' Hi)). cbn [bind]. rewrite Hb by auto.
    cbn [bind returns]. rewrite Hsum_succ by lia. rewrite q_addeq_H, Hmm. unfold t at 2. destruct ca; rewrite ?Hcj; auto. }
  destruct (proj1 (returns_ex _ _) D) as (h & -> & ->). cbn [bind].
  rewrite (ld_some _ _ _ Hl). cbn [bind]. rewrite (st_some _ _ _ _ Hl). do 2 f_equal.
  rewrite !smul_l_emb. unfold new, gemm_elt.
  assert (Es : Hsum k t = Hsum k (fun l => Hmul (opm (if ca then OpC else OpT) (fun i0 l0 => val (A i0 l0)) i l) (opm OpN B l j))).
  { apply Hsum_ext. intros l Hl'. unfold t. destruct ca; reflexivity. }
  rewrite <- Es. destruct (s_eqb beta n0) eqn:E0.
  - rewrite (B0 E0), Hre_0, (Hmul_0_l L), (Hadd_0_r L). auto.
  - reflexivity.
Qed.

Lemma gemm_gen_ok ca cb oa ob m n k (a : arr MT) lda (b : qarr) ldb beta (c : qarr) ldc A B w :
  trans_char ca = Some oa -> trans_char cb = Some ob -> 0 <= m -> 0 <= n -> 0 <= k -> m <= ldc ->
  eq_ok alpha n0 -> eq_ok beta n0 -> eq_ok beta n1 ->
  holds_mat a lda (op_rows oa m k) (op_cols oa m k) A -> holds_mat b ldb (op_rows ob k n) (op_cols ob k n) B ->
  holds_mat c ldc m n w ->
  returns (gemm_gen qmul mmul aM mconj ca cb m n k alpha a lda b ldb beta c ldc) (fun c' =>
    holds_mat c' ldc m n (gemm_elt oa ob k (emb alpha) (fun i j => val (A i j)) B (emb beta) w) /\ same_but_mat c c' ldc m n).
Proof.
  intros Ca Cb Hm Hn Hk Hld A0 B0 B1 Ha Hb Hc. unfold gemm_gen.
  destruct (Z.eqb_spec m 0) as [->|Hm0]; [cbn; split; [intros i j Hi Hj; lia|intros p _; auto]|].
  destruct (Z.eqb_spec n 0) as [->|Hn0]; [cbn; split; [intros i j Hi Hj; lia|intros p _; auto]|].
  cbn [orb].
  set (new := gemm_elt oa ob k (emb alpha) (fun i j => val (A i j)) B (emb beta) w).
  assert (NewZ : emb alpha = H0 \/ k = 0 -> forall i j, new i j = Hmul (emb beta) (w i j)).
  { intros E i j. unfold new, gemm_elt. destruct E as [-> | ->].
    - rewrite (Hmul_0_l L), (Hadd_0_l L); auto.
    - rewrite Hsum_0, (Hmul_0_r L), (Hadd_0_l L); auto. }
  assert (Fin : forall c', is_mat c c' ldc m n new -> holds_mat c' ldc m n new /\ same_but_mat c c' ldc m n) by (intros c' H; exact H).
  destruct ((s_eqb alpha n0 || (k =? 0)) && s_eqb beta n1) eqn:EQ.
  { apply andb_true_iff in EQ as [E0 E1]. apply B1 in E1. cbn [returns]. apply Fin.
    eapply is_mat_ext; [|apply is_mat_refl; exact Hc]. intros i j Hi Hj. rewrite NewZ, E1, Hre_1, (Hmul_1_l L); auto.
    apply orb_true_iff in E0 as [E0|E0]; [left; apply A0; auto|right; lia]. }
  clear EQ. destruct (s_eqb alpha n0) eqn:E0.
  { apply (mat_map c c ldc m n 0 n m (fun j i c => gemm_scale qmul beta (s_eqb beta n0) (i + j * ldc) c) new w); auto; try lia.
    - apply sep_ld; auto.
    - intros i j c0 Hi Hj Hl. rewrite !Z.add_0_l.
      rewrite (gemm_scale_H beta _ _ _ (w i j)); auto. rewrite NewZ; auto.
    - apply is_mat_refl; auto. }
  assert (NN : forall bq, oa = OpN -> (forall l j, 0 <= l < k -> 0 <= j < n -> bq l j = Ok (opm ob B l j)) ->
    returns (gemm_nota qmul mmul aM m n k alpha a lda bq beta c ldc) (fun c' => is_mat c c' ldc m n new)).
  { intros bq -> Hbq. eapply returns_mono; [apply (gemm_nota_ok m n k a lda bq beta c ldc A (opm ob B) w); auto; lia|].
    intros c' H. exact H. }
  assert (TT : forall bq (cj : bool), oa = (if cj then OpC else OpT) -> (forall l j, 0 <= l < k -> 0 <= j < n -> bq l j = Ok (opm ob B l j)) ->
    returns (gemm_transa qmul mmul mconj cj m n k alpha a lda bq beta c ldc) (fun c' => is_mat c c' ldc m n new)).
  { intros bq cj Ho Hbq. eapply returns_mono; [apply (gemm_transa_ok cj m n k a lda bq beta c ldc A (opm ob B) w); auto; try lia|].
    - rewrite Ho in Ha. destruct cj; exact Ha.
    - intros c' H. eapply is_mat_ext; [|exact H]. intros i j Hi Hj. unfold new, gemm_elt. rewrite Ho. reflexivity. }
  assert (BN : ob = OpN -> forall l j, 0 <= l < k -> 0 <= j < n -> ld b (l + j * ldb) = Ok (opm ob B l j)).
  { intros -> l j Hl Hj. apply ld_some. apply Hb; auto. }
  assert (BT : ob = OpT -> forall l j, 0 <= l < k -> 0 <= j < n -> ld b (j + l * ldb) = Ok (opm ob B l j)).
  { intros -> l j Hl Hj. apply ld_some. apply Hb; auto. }
  assert (BC : ob = OpC -> forall l j, 0 <= l < k -> 0 <= j < n -> (v <- ld b (j + l * ldb) ;; Ok (q_conj v)) = Ok (opm ob B l j)).
  { intros -> l j Hl Hj. rewrite (ld_some _ _ (B j l)) by (apply Hb; auto). reflexivity. }
  clear E0. unfold trans_char in Ca, Cb.
  destruct (Ascii.eqb_spec ca "N") as [->|_]; [injection Ca as <-|
  destruct (Ascii.eqb_spec ca "T") as [->|_]; [injection Ca as <-|
  destruct (Ascii.eqb_spec ca "C") as [->|_]; [injection Ca as <-|discriminate]]];
  (destruct (Ascii.eqb_spec cb "N") as [->|_]; [injection Cb as <-|
  destruct (Ascii.eqb_spec cb "T") as [->|_]; [injection Cb as <-|
  destruct (Ascii.eqb_spec cb "C") as [->|_]; [injection Cb as <-|discriminate]]]); cbn [Ascii.eqb Bool.eqb];
  first [apply NN; auto; fail | apply TT; auto; fail].
Qed.
End T.

(** ** GER *)
Lemma ger_gen_ok qmul cnj m n alpha (x : qarr) incx (y : qarr) incy (a : qarr) lda v u A :
  (forall p q, qmul p q = Hmul p q) ->
  0 <= m -> 0 <= n -> 0 < incx -> 0 < incy -> m <= lda -> eq_ok alpha n0 ->
  (forall j, 0 <= j < n -> qk (u j) = n0 \/ q_neqb (u j) (q_of_real n0) = true) ->
  holds_vec x m incx v -> holds_vec y n incy u -> holds_mat a lda m n A ->
  returns (ger_gen qmul cnj m n alpha x incx y incy a lda) (fun a' =>
    holds_mat a' lda m n ((if cnj then gerc_elt else geru_elt) (emb alpha) v u A) /\ same_but_mat a a' lda m n).
Proof.
  intros Hqm Hm Hn Hix Hiy Hld A0 Hk Hx Hy Ha. unfold ger_gen.
  destruct (Z.eqb_spec m 0) as [->|Hm0]; [cbn; split; [intros i j Hi Hj; lia|intros p _; auto]|].
  destruct (Z.eqb_spec n 0) as [->|Hn0]; [cbn; split; [intros i j Hi Hj; lia|intros p _; auto]|].
  cbn [orb].
  set (uu := fun j => if cnj then Hconj (u j) else u j).
  set (new := fun i j => Hadd (A i j) (Hmul (emb alpha) (Hmul (v i) (uu j)))).
  assert (Fin : forall a', is_mat a a' lda m n new -> holds_mat a' lda m n ((if cnj then gerc_elt else geru_elt) (emb alpha) v u A) /\ same_but_mat a a' lda m n).
  { intros a' H. unfold new, uu in H. destruct cnj; exact H. }
  destruct (s_eqb alpha n0) eqn:E0.
  { apply A0 in E0. apply Fin. eapply is_mat_ext; [|apply is_mat_refl; exact Ha]. intros i j Hi Hj. unfold new.
    rewrite E0, Hre_0, (Hmul_0_l L), (Hadd_0_r L); auto. }
  unfold assertb. replace (incx >? 0) with true by lia. replace (incy >? 0) with true by lia. cbn [bind].
  pose proof (sep_ld lda m n Hld) as Hsep.
  assert (Z0 : forall j, 0 <= j < n -> q_neqb (u j) (q_of_real n0) = false -> forall i, new i j = A i j).
  { intros j Hj E i. destruct (Hk j Hj) as [Ek|Ek]; [|congruence]. unfold new.
    assert (Eu : u j = H0).
    { unfold q_neqb in E. apply negb_false_iff in E. unfold q_eqb in E. cbn in E.
      rewrite !andb_true_iff in E. destruct (u j) as [p1 p2 p3 p4]; cbn in *. destruct E as [[E1 E2] E3].
      repeat match goal with H : _ /\ _ |- _ => destruct H end.
      repeat match goal with H : neqb _ _ = true |- _ => apply (l_eqb K L) in H end. subst. reflexivity. }
    unfold uu. rewrite Eu. replace (if cnj then Hconj H0 else H0) with (@H0 K) by (destruct cnj; rewrite ?(Hconj_0 L); auto).
    rewrite !(Hmul_0_r L), (Hadd_0_r L); auto. }
  assert (Step : forall j i p (a0 : qarr), 0 <= j < n -> 0 <= i < m -> p = vpos m incx i -> a0 (i + j * lda) = Some (A i j) ->
    ger_step qmul cnj alpha x p (u j) (i + j * lda) a0 = Ok (upd a0 (i + j * lda) (new i j))).
  { intros j i p a0 Hj Hi -> Hl. unfold ger_step. rewrite (ld_some _ _ _ Hl). cbn [bind]. rewrite (ld_some _ _ _ (Hx i Hi)). cbn [bind].
    rewrite (st_some _ _ _ _ Hl). do 2 f_equal. rewrite q_addeq_H, Hqm. rewrite (smul_l_H L qmul alpha (v i) Hqm).
    unfold new, uu. rewrite (Hmul_assoc L). destruct cnj; reflexivity. }
  assert (Gen : forall (step : Z -> Z -> qarr -> res qarr),
    (forall j f a0, 0 <= j < n -> (forall i, 0 <= i < m -> f i j = A i j) -> is_mat a a0 lda m n f ->
       returns (step j (j * incy) a0) (fun a1 => is_mat a a1 lda m n (setcol j (fun i => new i j) f))) ->
    returns (bind (zfor 0 n (fun j '(a, jy) => a <- step j jy a ;; Ok (a, jy + incy)) (a, 0)) (fun '(a, _) => Ok a))
      (fun a' => is_mat a a' lda m n new)).
  { intros step Hs. eapply returns_mono.
    - apply (cursori_n (fun j a' => is_mat a a' lda m n (mprog new A j)) step n 0 n 0 incy); auto; try lia.
      + intros j a0 Hj HI. rewrite !Z.add_0_l. eapply returns_mono; [apply (Hs j (mprog new A j)); auto; intros; apply mprog_at|].
        intros a1 H1. eapply mprog_step; [exact Hj| |exact H1]; auto.
      + apply mprog_start. apply is_mat_refl; auto.
    - intros a' H. eapply mprog_end; exact H. }
  assert (NoCol : forall j f a0, 0 <= j < n -> (forall i, 0 <= i < m -> f i j = A i j) -> is_mat a a0 lda m n f ->
     q_neqb (u j) (q_of_real n0) = false -> is_mat a a0 lda m n (setcol j (fun i => new i j) f)).
  { intros j f a0 Hj He HI E. eapply is_mat_ext; [|exact HI]. intros i j' Hi Hj'. unfold setcol.
    destruct (Z.eqb_spec j' j) as [->|]; auto. rewrite He, Z0; auto. }
  eapply returns_mono; [|exact Fin].
  destruct (Z.eqb_spec incx 1) as [->|Hne].
  - pose (step := fun j jy a => v <- ld y jy ;;
            if q_neqb v (q_of_real n0) then zfor 0 m (fun i a => ger_step qmul cnj alpha x i v (i + j * lda) a) a else Ok a).
    apply (Gen step). intros j f a0 Hj He HI. unfold step. rewrite <- (vpos_pos n incy j) by auto. rewrite (ld_some _ _ _ (Hy j Hj)). cbn [bind].
    destruct (q_neqb (u j) (q_of_real n0)) eqn:E; [|cbn [returns]; apply NoCol; auto].
    apply (mcol_map a a0 lda m n f j); auto; try lia.
    intros i a1 Hi Hl. rewrite Z.add_0_l. apply Step; auto. { rewrite vpos_1; auto. } rewrite Hl, He; auto.
  - pose (step := fun j jy a => v <- ld y jy ;;
            if q_neqb v (q_of_real n0) then
              '(a, _) <- zfor 0 m (fun i '(a, ix) => a <- ger_step qmul cnj alpha x ix v (i + j * lda) a ;; Ok (a, ix + incx)) (a, 0) ;; Ok a
            else Ok a).
    apply (Gen step). intros j f a0 Hj He HI. unfold step. rewrite <- (vpos_pos n incy j) by auto. rewrite (ld_some _ _ _ (Hy j Hj)). cbn [bind].
    destruct (q_neqb (u j) (q_of_real n0)) eqn:E; [|cbn [returns]; apply NoCol; auto].
    apply (mcol_map_cursor a a0 lda m n f j 0 m 0 incx (fun i ix a => ger_step qmul cnj alpha x ix (u j) (i + j * lda) a)); auto; try lia.
    intros i p a1 Hi -> Hl. rewrite !Z.add_0_l. apply Step; auto. { rewrite vpos_pos; auto. } rewrite Hl, He; auto.
Qed.
End F.
