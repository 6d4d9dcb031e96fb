(** What the Fortran and the generic GEMM compute for ANY scalar arithmetic (no algebraic law): used for the frame,
    safety, BETA = 0 and ALPHA = 0 properties, which therefore also hold for floating point. *)
From Coq Require Import ZArith Lia Bool Ascii.
From Verif Require Import Num Res ResFacts Spec SpecFacts VecFacts LoopFacts GemmLoops MQuat MForL1 MForL2 MForL3 ForL3Facts MGenL1 MGenL2 OptGemmFacts.
Local Open Scope Z_scope.

Section I.
Context {X : Type}.
Fixpoint iterN (n : nat) (f : Z -> X -> X) (s : X) : X := match n with O => s | S p => f (Z.of_nat p) (iterN p f s) end.
Definition ziter (n : Z) (f : Z -> X -> X) (s : X) : X := iterN (Z.to_nat n) f s.
Lemma ziter_0 f s : ziter 0 f s = s. Proof. reflexivity. Qed.
Lemma ziter_succ n f s : 0 <= n -> ziter (n + 1) f s = f n (ziter n f s).
Proof. intros Hn. unfold ziter. replace (Z.to_nat (n + 1)) with (S (Z.to_nat n)) by lia. cbn [iterN]. rewrite Z2Nat.id by lia. reflexivity. Qed.
End I.

Section F.
Context {K : num}.
Local Notation qarr := (arr (quat K)).
Local Notation H := (quat K).

(** how the Fortran kernels read a TRANS character *)
Definition fdec (c : ascii) : mop := if lsame c "N" then OpN else if lsame c "C" then OpC else OpT.
Definition hpre_elt (beta : scal K) (w : H) : H := if fzero beta then hq c0 c0 else if negb (fone beta) then hbeta_elt beta w else w.
Definition hgemm_main (oa ob : mop) (k : Z) (alpha beta : scal K) (A B : Z -> Z -> H) (i j : Z) (w : H) : H :=
  match oa with
  | OpN | OpR => ziter k (fun l acc => (if iscj ob then hnc_elt alpha else hn_elt alpha) (A i l) (rawm ob B l j) acc) (hpre_elt beta w)
  | OpT | OpC => let h := ziter k (fun l h => hgdot_elt (iscj oa) (iscj ob) (A l i) (rawm ob B l j) h) (hq c0 c0) in
           if fzero beta then halpha_elt alpha h else halphabeta_elt alpha beta h w
  end.
Definition hgemm_val (oa ob : mop) (k : Z) (alpha beta : scal K) (A B w : Z -> Z -> H) (i j : Z) : H :=
  if (fzero alpha || (k =? 0)) && fone beta then w i j else
  if fzero alpha then if fzero beta then hq c0 c0 else hbeta_elt beta (w i j) else
  hgemm_main oa ob k alpha beta A B i j (w i j).

Lemma hgemm_pre_raw m n beta ldc j (c cc : qarr) f :
  0 <= m -> m <= ldc -> 0 <= j < n -> is_mat c cc ldc m n f ->
  returns (hgemm_pre m beta ldc (1 + j) cc) (fun c1 => is_mat c c1 ldc m n (setcol j (fun i => hpre_elt beta (f i j)) f)).
Proof.
  intros Hm Hld Hj HI. unfold hgemm_pre, fdo, hpre_elt. pose proof (sep_ld ldc m n Hld) as Hsep.
  destruct (fzero beta) eqn:E0.
  { apply (mcol_map c cc ldc m n f j); auto; try lia.
    intros i c1 Hi Hl. rewrite fpos_S, (st_some _ _ _ _ Hl). reflexivity. }
  destruct (fone beta) eqn:E1; cbn [negb].
  - cbn [returns]. eapply is_mat_ext; [|exact HI]. intros i j' Hi Hj'. unfold setcol.
    destruct (Z.eqb_spec j' j) as [->|]; auto.
  - apply (mcol_map c cc ldc m n f j); auto; try lia.
    intros i c1 Hi Hl. rewrite fpos_S, (ld_some _ _ _ Hl). cbn [bind]. rewrite (st_some _ _ _ _ Hl). reflexivity.
Qed.

Lemma hgemm_nota_raw upd_elt bpos m n k (a : qarr) lda (b : qarr) beta (c : qarr) ldc A B w :
  0 <= m -> 0 <= n -> 0 <= k -> m <= ldc ->
  holds_mat a lda m k A -> (forall l j, 0 <= l < k -> 0 <= j < n -> b (bpos (1 + l) (1 + j)) = Some (B l j)) -> holds_mat c ldc m n w ->
  returns (hgemm_nota upd_elt bpos m n k a lda b beta c ldc) (fun c' => is_mat c c' ldc m n
    (fun i j => ziter k (fun l acc => upd_elt (A i l) (B l j) acc) (hpre_elt beta (w i j)))).
Proof.
  intros Hm Hn Hk Hld Ha Hb Hc. unfold hgemm_nota, fdo. pose proof (sep_ld _ m n Hld) as Hsep.
  pose (acc := fun j l i => ziter l (fun l acc => upd_elt (A i l) (B l j) acc) (hpre_elt beta (w i j))).
  pose (inner := fun j l i (c : qarr) => bv <- ld b (bpos l j) ;; w <- ld c (fpos ldc i j) ;; av <- ld a (fpos lda i l) ;;
        st c (fpos ldc i j) (upd_elt av bv w)).
  apply (nota_loops c c ldc m n k 1 (n + 1) (m + 1) (k + 1) (hgemm_pre m beta ldc) inner w acc); auto; try lia.
  - intros j f cc Hj He HI. eapply returns_mono; [apply (hgemm_pre_raw m n beta ldc j c cc f); auto|].
    intros c1 H1. eapply is_mat_ext; [|exact H1]. intros i j' Hi Hj'. unfold setcol. destruct (j' =? j); auto.
    unfold acc. rewrite ziter_0, He; auto.
  - intros j l i cc Hj Hl Hi Hc0. unfold inner.
    rewrite (ld_some _ _ _ (Hb l j Hl Hj)). cbn [bind]. rewrite !fpos_S.
    rewrite (ld_some _ _ _ Hc0). cbn [bind]. rewrite (ld_some _ _ _ (Ha i l Hi Hl)). cbn [bind].
    rewrite (st_some _ _ _ _ Hc0). do 2 f_equal. unfold acc. rewrite ziter_succ by lia. reflexivity.
  - apply is_mat_refl; auto.
Qed.

Lemma hgemm_transa_raw (ca cb : bool) bpos alpha m n k (a : qarr) lda (b : qarr) beta (c : qarr) ldc A B w :
  0 <= m -> 0 <= n -> 0 <= k -> m <= ldc ->
  holds_mat a lda k m A -> (forall l j, 0 <= l < k -> 0 <= j < n -> b (bpos (1 + l) (1 + j)) = Some (B l j)) -> holds_mat c ldc m n w ->
  returns (hgemm_transa ca cb bpos m n k alpha a lda b beta c ldc) (fun c' => is_mat c c' ldc m n
    (fun i j => let h := ziter k (fun l h => hgdot_elt ca cb (A l i) (B l j) h) (hq c0 c0) in
       if fzero beta then halpha_elt alpha h else halphabeta_elt alpha beta h (w i j))).
Proof.
  intros Hm Hn Hk Hld Ha Hb Hc. unfold hgemm_transa, fdo. pose proof (sep_ld _ m n Hld) as Hsep.
  set (new := fun i j => let h := ziter k (fun l h => hgdot_elt ca cb (A l i) (B l j) h) (hq c0 c0) in
       if fzero beta then halpha_elt alpha h else halphabeta_elt alpha beta h (w i j)).
  pose (body := fun j i (c : qarr) => 
      h <- zfor 1 (k + 1) (fun l h =>
             av <- ld a (fpos lda l i) ;; bv <- ld b (bpos l j) ;; Ok (hgdot_elt ca cb av bv h)) (hq c0 c0) ;;
      if fzero beta then st c (fpos ldc i j) (halpha_elt alpha h)
      else w <- ld c (fpos ldc i j) ;; st c (fpos ldc i j) (halphabeta_elt alpha beta h w)).
  apply (mat_map c c ldc m n 1 (n + 1) (m + 1) body new w); auto; try lia.
  2:{ apply is_mat_refl; auto. }
  intros i j c1 Hi Hj Hl. unfold body. rewrite !fpos_S.
  assert (D : returns (zfor 1 (k + 1) (fun l h =>
             av <- ld a (fpos lda l (1 + i)) ;; bv <- ld b (bpos l (1 + j)) ;; Ok (hgdot_elt ca cb av bv h)) (hq c0 c0))
     (fun h => h = ziter k (fun l h => hgdot_elt ca cb (A l i) (B l j) h) (hq c0 c0))).
  { apply (plain_n (fun l h => h = ziter l (fun l h => hgdot_elt ca cb (A l i) (B l j) h) (hq c0 c0))); auto; try lia.
    intros l h Hl' ->. rewrite fpos_S. rewrite (ld_some _ _ _ (Ha l i Hl' Hi)). cbn [bind].
    rewrite (ld_some _ _ _ (Hb l j Hl' Hj)). cbn [bind returns]. rewrite ziter_succ by lia. reflexivity. }
  destruct (proj1 (returns_ex _ _) D) as (h & -> & ->). cbn [bind]. unfold new. cbv zeta.
  destruct (fzero beta).
  - rewrite (st_some _ _ _ _ Hl). reflexivity.
  - rewrite (ld_some _ _ _ Hl). cbn [bind]. rewrite (st_some _ _ _ _ Hl). reflexivity.
Qed.

(** A and B need only be readable when ALPHA is not zero *)
Lemma hgemm_raw ca cb m n k alpha (a : qarr) lda (b : qarr) ldb beta (c : qarr) ldc A B w :
  0 <= m -> 0 <= n -> 0 <= k -> m <= ldc ->
  (fzero alpha = false -> holds_mat a lda (op_rows (fdec ca) m k) (op_cols (fdec ca) m k) A) ->
  (fzero alpha = false -> holds_mat b ldb (op_rows (fdec cb) k n) (op_cols (fdec cb) k n) B) ->
  holds_mat c ldc m n w ->
  returns (hgemm ca cb m n k alpha a lda b ldb beta c ldc) (fun c' =>
    is_mat c c' ldc m n (hgemm_val (fdec ca) (fdec cb) k alpha beta A B w)).
Proof.
  intros Hm Hn Hk Hld Ha Hb Hc. unfold hgemm, hgemm_val.
  destruct (Z.eqb_spec m 0) as [->|Hm0]; [cbn [orb returns]; split; [intros i j Hi Hj; lia|intros p _; auto]|].
  destruct (Z.eqb_spec n 0) as [->|Hn0]; [cbn [orb returns]; split; [intros i j Hi Hj; lia|intros p _; auto]|].
  cbn [orb].
  destruct ((fzero alpha || (k =? 0)) && fone beta) eqn:EQ.
  { cbn [returns]. apply is_mat_refl; exact Hc. }
  pose proof (sep_ld ldc m n Hld) as Hsep.
  clear EQ. destruct (fzero alpha) eqn:E0.
  { unfold fdo. destruct (fzero beta) eqn:B0.
    - apply (mat_map c c ldc m n 1 (n + 1) (m + 1) (fun j i c => st c (fpos ldc i j) (hq c0 c0)) _ w); auto; try lia.
      + intros i j c1 Hi Hj Hl. rewrite fpos_S, (st_some _ _ _ _ Hl). reflexivity.
      + apply is_mat_refl; auto.
    - apply (mat_map c c ldc m n 1 (n + 1) (m + 1) (fun j i c => v <- ld c (fpos ldc i j) ;; st c (fpos ldc i j) (hbeta_elt beta v)) _ w); auto; try lia.
      + intros i j c1 Hi Hj Hl. rewrite fpos_S, (ld_some _ _ _ Hl). cbn [bind]. rewrite (st_some _ _ _ _ Hl). reflexivity.
      + apply is_mat_refl; auto. }
  specialize (Ha eq_refl). specialize (Hb eq_refl).
  assert (BN : fdec cb = OpN -> forall l j, 0 <= l < k -> 0 <= j < n -> b (fpos ldb (1 + l) (1 + j)) = Some (rawm (fdec cb) B l j)).
  { intros E l j Hl Hj. rewrite E in *. rewrite fpos_S. apply Hb; auto. }
  assert (BT : fdec cb = OpT \/ fdec cb = OpC -> forall l j, 0 <= l < k -> 0 <= j < n -> b (fpos ldb (1 + j) (1 + l)) = Some (rawm (fdec cb) B l j)).
  { intros [E|E] l j Hl Hj; rewrite E in *; rewrite fpos_S; apply Hb; auto. }
  unfold hgemm_main. unfold fdec in *.
  destruct (lsame ca "N") eqn:ECA; [|destruct (lsame ca "C") eqn:ECA2];
  (destruct (lsame cb "N") eqn:ECB; [|destruct (lsame cb "C") eqn:ECB2]);
  cbn [iscj op_rows op_cols] in *;
  first [apply hgemm_nota_raw; auto; fail | apply hgemm_transa_raw; auto; fail].
Qed.
End F.

(** ** the generic C++ template *)
Section G.
Context {K : num} {MT : Type}.
Local Notation qarr := (arr (quat K)).
Local Notation H := (quat K).
Variable qmul : quat K -> quat K -> quat K.
Variable mmul : MT -> quat K -> quat K.
Variable aM : scal K -> MT -> MT.
Variable mconj : MT -> MT.

Definition gdec (c : ascii) : mop := if Ascii.eqb c "N" then OpN else if Ascii.eqb c "C" then OpC else OpT.
Definition gscale_elt (beta : scal K) (iz : bool) (w : H) : H := if iz then q_set_real w n0 else smul_l qmul beta w.
Definition gpre_elt (beta : scal K) (w : H) : H :=
  if s_eqb beta n0 then gscale_elt beta true w else if negb (s_eqb beta n1) then gscale_elt beta false w else w.
Definition bval (ob : mop) (B : Z -> Z -> H) (l j : Z) : H := if iscj ob then q_conj (rawm ob B l j) else rawm ob B l j.
Definition ggemm_main (oa ob : mop) (k : Z) (alpha beta : scal K) (A : Z -> Z -> MT) (B : Z -> Z -> H) (i j : Z) (w : H) : H :=
  match oa with
  | OpN | OpR => ziter k (fun l acc => q_addeq acc (mmul (aM alpha (A i l)) (bval ob B l j))) (gpre_elt beta w)
  | OpT | OpC => let h := ziter k (fun l h => q_addeq h (mmul (if iscj oa then mconj (A l i) else A l i) (bval ob B l j))) (q_of_real n0) in
           if s_eqb beta n0 then smul_l qmul alpha h else q_add (smul_l qmul alpha h) (smul_l qmul beta w)
  end.
Definition ggemm_val (oa ob : mop) (k : Z) (alpha beta : scal K) (A : Z -> Z -> MT) (B w : Z -> Z -> H) (i j : Z) : H :=
  if (s_eqb alpha n0 || (k =? 0)) && s_eqb beta n1 then w i j else
  if s_eqb alpha n0 then gscale_elt beta (s_eqb beta n0) (w i j) else
  ggemm_main oa ob k alpha beta A B i j (w i j).

Lemma gemm_scale_raw beta iz p (c : qarr) w : c p = Some w -> gemm_scale qmul beta iz p c = Ok (upd c p (gscale_elt beta iz w)).
Proof. intros Hl. unfold gemm_scale. rewrite (ld_some _ _ _ Hl). cbn [bind]. rewrite (st_some _ _ _ _ Hl). reflexivity. Qed.

Lemma gemm_nota_raw m n k alpha (a : arr MT) lda bq beta (c : qarr) ldc A B w :
  0 <= m -> 0 <= n -> 0 <= k -> m <= ldc ->
  holds_mat a lda m k A -> (forall l j, 0 <= l < k -> 0 <= j < n -> bq l j = Ok (B l j)) -> holds_mat c ldc m n w ->
  returns (gemm_nota qmul mmul aM m n k alpha a lda bq beta c ldc) (fun c' => is_mat c c' ldc m n
    (fun i j => ziter k (fun l acc => q_addeq acc (mmul (aM alpha (A i l)) (B l j))) (gpre_elt beta (w i j)))).
Proof.
  intros Hm Hn Hk Hld Ha Hb Hc. unfold gemm_nota. pose proof (sep_ld _ m n Hld) as Hsep.
  pose (acc := fun j l i => ziter l (fun l acc => q_addeq acc (mmul (aM alpha (A i l)) (B l j))) (gpre_elt beta (w i j))).
  pose (pre := fun j c => if s_eqb beta n0 then zfor 0 m (fun i c => gemm_scale qmul beta true (i + j * ldc) c) c
          else if negb (s_eqb beta n1) then zfor 0 m (fun i c => gemm_scale qmul beta false (i + j * ldc) c) c
          else Ok c).
  pose (inner := fun j l i (c : qarr) => 
        w <- ld c (i + j * ldc) ;; ail <- ld a (i + l * lda) ;; blj <- bq l j ;;
        st c (i + j * ldc) (q_addeq w (mmul (aM alpha ail) blj))).
  apply (nota_loops c c ldc m n k 0 n m k pre inner w acc); auto; try lia.
  - intros j f cc Hj He HI. rewrite Z.add_0_l. unfold pre.
    assert (E0 : forall i, 0 <= i < m -> acc j 0 i = gpre_elt beta (f i j)).
    { intros i Hi. unfold acc. rewrite ziter_0, He; auto. }
    assert (M : forall iz, (forall i, 0 <= i < m -> acc j 0 i = gscale_elt beta iz (f i j)) ->
       returns (zfor 0 m (fun i c => gemm_scale qmul beta iz (i + j * ldc) c) cc) (fun c1 => is_mat c c1 ldc m n (setcol j (acc j 0) f))).
    { intros iz Hz. apply (mcol_map c cc ldc m n f j); auto; try lia.
      intros i c1 Hi Hl. rewrite Z.add_0_l, (gemm_scale_raw _ _ _ _ _ Hl), Hz; auto. }
    unfold gpre_elt in E0. destruct (s_eqb beta n0) eqn:Eb0; [apply M; auto|].
    destruct (s_eqb beta n1) eqn:Eb1; cbn [negb] in *; [|apply M; auto].
    cbn [returns]. eapply is_mat_ext; [|exact HI]. intros i j' Hi Hj'. unfold setcol.
    destruct (Z.eqb_spec j' j) as [->|]; auto. rewrite E0; auto.
  - intros j l i cc Hj Hl Hi Hc0. unfold inner. rewrite !Z.add_0_l.
    rewrite (ld_some _ _ _ Hc0). cbn [bind]. rewrite (ld_some _ _ _ (Ha i l Hi Hl)). cbn [bind]. rewrite Hb by auto. cbn [bind].
    rewrite (st_some _ _ _ _ Hc0). do 2 f_equal. unfold acc. rewrite ziter_succ by lia. reflexivity.
  - apply is_mat_refl; auto.
Qed.

Lemma gemm_transa_raw (ca : bool) m n k alpha (a : arr MT) lda bq beta (c : qarr) ldc A B w :
  0 <= m -> 0 <= n -> 0 <= k -> m <= ldc ->
  holds_mat a lda k m A -> (forall l j, 0 <= l < k -> 0 <= j < n -> bq l j = Ok (B l j)) -> holds_mat c ldc m n w ->
  returns (gemm_transa qmul mmul mconj ca m n k alpha a lda bq beta c ldc) (fun c' => is_mat c c' ldc m n
    (fun i j => let h := ziter k (fun l h => q_addeq h (mmul (if ca then mconj (A l i) else A l i) (B l j))) (q_of_real n0) in
           if s_eqb beta n0 then smul_l qmul alpha h else q_add (smul_l qmul alpha h) (smul_l qmul beta (w i j)))).
Proof.
  intros Hm Hn Hk Hld Ha Hb Hc. unfold gemm_transa. pose proof (sep_ld _ m n Hld) as Hsep.
  set (new := fun i j => let h := ziter k (fun l h => q_addeq h (mmul (if ca then mconj (A l i) else A l i) (B l j))) (q_of_real n0) in
           if s_eqb beta n0 then smul_l qmul alpha h else q_add (smul_l qmul alpha h) (smul_l qmul beta (w i j))).
  pose (body := fun j i (c : qarr) => 
      h <- zfor 0 k (fun l h =>
             ali <- ld a (l + i * lda) ;; blj <- bq l j ;;
             Ok (q_addeq h (mmul (if ca then mconj ali else ali) blj))) (q_of_real n0) ;;
      w <- ld c (i + j * ldc) ;;
      st c (i + j * ldc) (if s_eqb beta n0 then smul_l qmul alpha h
                          else q_add (smul_l qmul alpha h) (smul_l qmul beta w))).
  apply (mat_map c c ldc m n 0 n m body new w); auto; try lia.
  2:{ apply is_mat_refl; auto. }
  intros i j cc Hi Hj Hl. unfold body. rewrite !Z.add_0_l.
  pose (t := fun l => ziter l (fun l h => q_addeq h (mmul (if ca then mconj (A l i) else A l i) (B l j))) (q_of_real n0)).
  assert (D : returns (zfor 0 k (fun l h =>
             ali <- ld a (l + i * lda) ;; blj <- bq l j ;;
             Ok (q_addeq h (mmul (if ca then mconj ali else ali) blj))) (q_of_real n0)) (fun h => h = t k)).
  { apply (plain_n (fun l h => h = t l)); auto; try lia.
    intros l h Hl' ->. rewrite Z.add_0_l. rewrite (ld_some _ _ _ (Ha l i Hl' Hi)). cbn [bind]. rewrite Hb by auto.
    cbn [bind returns]. unfold t. rewrite ziter_succ by lia. reflexivity. }
  destruct (proj1 (returns_ex _ _) D) as (h & -> & ->). cbn [bind].
  rewrite (ld_some _ _ _ Hl). cbn [bind]. rewrite (st_some _ _ _ _ Hl). reflexivity.
Qed.

Lemma gemm_gen_raw ca cb m n k alpha (a : arr MT) lda (b : qarr) ldb beta (c : qarr) ldc A B w :
  0 <= m -> 0 <= n -> 0 <= k -> m <= ldc ->
  (s_eqb alpha n0 = false -> holds_mat a lda (op_rows (gdec ca) m k) (op_cols (gdec ca) m k) A) ->
  (s_eqb alpha n0 = false -> holds_mat b ldb (op_rows (gdec cb) k n) (op_cols (gdec cb) k n) B) ->
  holds_mat c ldc m n w ->
  returns (gemm_gen qmul mmul aM mconj ca cb m n k alpha a lda b ldb beta c ldc) (fun c' =>
    is_mat c c' ldc m n (ggemm_val (gdec ca) (gdec cb) k alpha beta A B w)).
Proof.
  intros Hm Hn Hk Hld Ha Hb Hc. unfold gemm_gen, ggemm_val.
  destruct (Z.eqb_spec m 0) as [->|Hm0]; [cbn [orb returns]; split; [intros i j Hi Hj; lia|intros p _; auto]|].
  destruct (Z.eqb_spec n 0) as [->|Hn0]; [cbn [orb returns]; split; [intros i j Hi Hj; lia|intros p _; auto]|].
  cbn [orb].
  destruct ((s_eqb alpha n0 || (k =? 0)) && s_eqb beta n1) eqn:EQ.
  { cbn [returns]. apply is_mat_refl; exact Hc. }
  clear EQ. destruct (s_eqb alpha n0) eqn:E0.
  { apply (mat_map c c ldc m n 0 n m (fun j i c => gemm_scale qmul beta (s_eqb beta n0) (i + j * ldc) c) _ w); auto; try lia.
    - apply sep_ld; auto.
    - intros i j cc Hi Hj Hl. rewrite !Z.add_0_l. apply gemm_scale_raw; auto.
    - apply is_mat_refl; auto. }
  specialize (Ha eq_refl). specialize (Hb eq_refl).
  assert (BN : gdec cb = OpN -> forall l j, 0 <= l < k -> 0 <= j < n -> ld b (l + j * ldb) = Ok (bval (gdec cb) B l j)).
  { intros E l j Hl Hj. rewrite E in *. apply ld_some. apply Hb; auto. }
  assert (BT : gdec cb = OpT -> forall l j, 0 <= l < k -> 0 <= j < n -> ld b (j + l * ldb) = Ok (bval (gdec cb) B l j)).
  { intros E l j Hl Hj. rewrite E in *. apply ld_some. apply Hb; auto. }
  assert (BC : gdec cb = OpC -> forall l j, 0 <= l < k -> 0 <= j < n -> (v <- ld b (j + l * ldb) ;; Ok (q_conj v)) = Ok (bval (gdec cb) B l j)).
  { intros E l j Hl Hj. rewrite E in *. rewrite (ld_some _ _ (B j l)) by (apply Hb; auto). reflexivity. }
  unfold ggemm_main. unfold gdec in *.
  destruct (Ascii.eqb ca "N") eqn:ECA; [|destruct (Ascii.eqb ca "C") eqn:ECA2];
  (destruct (Ascii.eqb cb "N") eqn:ECB; [|destruct (Ascii.eqb cb "C") eqn:ECB2]);
  cbn [iscj op_rows op_cols] in *;
  first [apply gemm_nota_raw; auto; fail
        | eapply returns_mono; [eapply gemm_transa_raw; eauto|intros c' HH; exact HH]].
Qed.
End G.
