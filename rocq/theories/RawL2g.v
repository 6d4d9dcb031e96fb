(** What the generic GEMV template computes for ANY scalar arithmetic (no algebraic law). *)
From Coq Require Import ZArith Lia Bool Ascii.
From Verif Require Import Num Res ResFacts Spec SpecFacts VecFacts LoopFacts GemmLoops MQuat MForL1 MGenL1 MGenL2 RawL3.
Local Open Scope Z_scope.

Section G.
Context {K : num} {MT : Type}.
Local Notation qarr := (arr (quat K)).
Local Notation H := (quat K).
Variable qmul : quat K -> quat K -> quat K.
Variable mmul : MT -> quat K -> quat K.
Variable aM Ma : scal K -> MT -> MT.
Variable msub : MT -> MT -> MT.
Variable mconj : MT -> MT.

Definition ggpre (beta : scal K) (w : H) : H := if s_eqb beta n1 then w else if s_eqb beta n0 then q_set_real w n0 else smul_l qmul beta w.
Definition gn_elt (alpha : scal K) (aij : MT) (v w : H) : H :=
  q_addeq (q_addeq w (mmul aij (smul_l qmul alpha v))) (mmul (msub (aM alpha aij) (Ma alpha aij)) v).
Definition ggemv_val (o : mop) (k : Z) (alpha beta : scal K) (A : Z -> Z -> MT) (v w : Z -> H) (i : Z) : H :=
  if s_eqb alpha n0 && s_eqb beta n1 then w i else
  if s_eqb alpha n0 then ggpre beta (w i) else
  match o with
  | OpN | OpR => ziter k (fun j acc => gn_elt alpha (A i j) (v j) acc) (ggpre beta (w i))
  | OpT => q_addeq (ggpre beta (w i)) (smul_l qmul alpha (ziter k (fun j h => gemv_dot mmul mconj true (A j i) (v j) h) (q_of_real n0)))
  | OpC => q_addeq (ggpre beta (w i)) (smul_l qmul alpha (ziter k (fun j h => gemv_dot mmul mconj false (A j i) (v j) h) (q_of_real n0)))
  end.

Lemma gemv_beta_raw beta leny (y : qarr) incy w :
  0 <= leny -> 0 < incy -> holds_vec y leny incy w ->
  returns (gemv_beta qmul beta leny y incy) (fun y' => is_vec y y' leny incy (fun i => ggpre beta (w i))).
Proof.
  intros Hn Hinc Hy. apply is_vec_refl in Hy. unfold gemv_beta, ggpre.
  destruct (s_eqb beta n1) eqn:E1; [cbn [returns]; exact Hy|].
  destruct (Z.eqb_spec incy 1) as [->|Hne].
  - destruct (s_eqb beta n0) eqn:E0.
    + apply (vmap_plain y y leny _ _ _ _ w); auto; try lia.
      intros i y' Hi Hl. rewrite Z.add_0_l, (ld_some _ _ _ Hl). cbn [bind]. rewrite (st_some _ _ _ _ Hl). auto.
    + apply (vmap_plain y y leny _ _ _ _ w); auto; try lia.
      intros i y' Hi Hl. rewrite Z.add_0_l, (ld_some _ _ _ Hl). cbn [bind]. rewrite (st_some _ _ _ _ Hl). auto.
  - destruct (s_eqb beta n0) eqn:E0.
    + apply (vmap_cursor y y leny incy _ _ _ (fun _ iy y => v <- ld y iy ;; st y iy (q_set_real v n0)) _ w); auto; try lia.
      intros i p y' Hi -> Hl. rewrite Z.add_0_l, <- (vpos_pos leny) by auto. rewrite (ld_some _ _ _ Hl). cbn [bind].
      rewrite (st_some _ _ _ _ Hl). auto.
    + apply (vmap_cursor y y leny incy _ _ _ (fun _ iy y => v <- ld y iy ;; st y iy (smul_l qmul beta v)) _ w); auto; try lia.
      intros i p y' Hi -> Hl. rewrite Z.add_0_l, <- (vpos_pos leny) by auto. rewrite (ld_some _ _ _ Hl). cbn [bind].
      rewrite (st_some _ _ _ _ Hl). auto.
Qed.

Lemma gemv_n_raw alpha m n (a : arr MT) lda (x : qarr) incx (y y' : qarr) incy A v w :
  0 <= m -> 0 <= n -> 0 < incx -> 0 < incy ->
  holds_mat a lda m n A -> holds_vec x n incx v -> is_vec y y' m incy w ->
  returns (gemv_n qmul mmul aM Ma msub alpha m n a lda x incx y' incy) (fun y'' =>
    is_vec y y'' m incy (fun i => ziter n (fun j acc => gn_elt alpha (A i j) (v j) acc) (w i))).
Proof.
  intros Hm Hn Hix Hiy Ha Hx Hy. unfold gemv_n.
  pose (I := fun (j : Z) y'' => is_vec y y'' m incy (fun i => ziter j (fun j acc => gn_elt alpha (A i j) (v j) acc) (w i))).
  assert (I0 : I 0 y') by exact Hy.
  assert (Step : forall j i p (y0 : qarr), 0 <= j < n -> 0 <= i < m ->
     y0 p = Some (ziter j (fun j acc => gn_elt alpha (A i j) (v j) acc) (w i)) ->
     (aij <- ld a (i + j * lda) ;; gemv_n_step qmul mmul aM Ma msub alpha aij (v j) p y0) =
       Ok (upd y0 p (ziter (j + 1) (fun j acc => gn_elt alpha (A i j) (v j) acc) (w i)))).
  { intros j i p y0 Hj Hi Hl. rewrite (ld_some _ _ _ (Ha i j Hi Hj)). cbn [bind]. unfold gemv_n_step.
    rewrite (ld_some _ _ _ Hl). cbn [bind]. rewrite (st_some _ _ _ _ Hl), ziter_succ by lia. reflexivity. }
  destruct (Z.eqb_spec incy 1) as [->|Hne].
  - pose (step := fun j jx y => v <- ld x jx ;;
       zfor 0 m (fun i y => aij <- ld a (i + j * lda) ;; gemv_n_step qmul mmul aM Ma msub alpha aij v i y) y).
    apply (cursori_n I step n); auto; try lia.
    intros j y0 Hj HI. unfold step. rewrite !Z.add_0_l, <- (vpos_pos n incx j) by auto. rewrite (ld_some _ _ _ (Hx j Hj)). cbn [bind].
    eapply (vmap_plain y y0 m); [lia|lia| |exact HI]. intros i y1 Hi Hl. rewrite Z.add_0_l. apply Step; auto.
  - pose (step := fun j jx y => v <- ld x jx ;;
       '(y, _) <- zfor 0 m (fun i '(y, iy) => y <- (aij <- ld a (i + j * lda) ;; gemv_n_step qmul mmul aM Ma msub alpha aij v iy y) ;; Ok (y, iy + incy)) (y, 0) ;; Ok y).
    apply (cursori_n I step n); auto; try lia.
    intros j y0 Hj HI. unfold step. rewrite !Z.add_0_l, <- (vpos_pos n incx j) by auto. rewrite (ld_some _ _ _ (Hx j Hj)). cbn [bind].
    eapply (vmap_cursor y y0 m incy _ _ _ (fun i iy y => aij <- ld a (i + j * lda) ;; gemv_n_step qmul mmul aM Ma msub alpha aij (v j) iy y));
      [lia|lia|lia| |exact HI].
    intros i p y1 Hi -> Hl. rewrite !Z.add_0_l, <- (vpos_pos m incy i) by auto. apply Step; auto.
Qed.
Lemma gemv_t_raw alpha nc m n (a : arr MT) lda (x : qarr) incx (y y' : qarr) incy A v w :
  0 <= m -> 0 <= n -> 0 < incx -> 0 < incy ->
  holds_mat a lda m n A -> holds_vec x m incx v -> is_vec y y' n incy w ->
  returns (gemv_t qmul mmul mconj alpha nc m n a lda x incx y' incy) (fun y'' =>
    is_vec y y'' n incy (fun j => q_addeq (w j) (smul_l qmul alpha (ziter m (fun i h => gemv_dot mmul mconj nc (A i j) (v i) h) (q_of_real n0))))).
Proof.
  intros Hm Hn Hix Hiy Ha Hx Hy. unfold gemv_t.
  set (new := fun j => q_addeq (w j) (smul_l qmul alpha (ziter m (fun i h => gemv_dot mmul mconj nc (A i j) (v i) h) (q_of_real n0)))).
  pose (z := q_of_real (K:=K) n0).
  pose (step := fun j jy y => 
    h <- (if incx =? 1 then zfor 0 m (fun i h => aij <- ld a (i + j * lda) ;; v <- ld x i ;; Ok (gemv_dot mmul mconj nc aij v h)) z
                else '(h, _) <- zfor 0 m (fun i '(h, ix) => h <- (aij <- ld a (i + j * lda) ;; v <- ld x ix ;; Ok (gemv_dot mmul mconj nc aij v h)) ;; Ok (h, ix + incx)) (z, 0) ;; Ok h) ;;
    w <- ld y jy ;; st y jy (q_addeq w (smul_l qmul alpha h))).
  apply (vmap_cursor y y' n incy 0 n 0 step new w); auto; try lia.
  intros j p y0 Hj -> Hl. unfold step. rewrite !Z.add_0_l, <- (vpos_pos n incy j) by auto.
  pose (I := fun (i : Z) h => h = ziter i (fun i h => gemv_dot mmul mconj nc (A i j) (v i) h) (q_of_real n0)).
  assert (Step : forall i p h, 0 <= i < m -> p = vpos m incx i -> I i h ->
     returns (aij <- ld a (i + j * lda) ;; v <- ld x p ;; Ok (gemv_dot mmul mconj nc aij v h)) (I (i + 1))).
  { intros i p h Hi -> ->. 
    rewrite (ld_some _ _ _ (Ha i j Hi Hj)). cbn [bind]. rewrite (ld_some _ _ _ (Hx i Hi)). cbn [bind returns].
    unfold I. rewrite ziter_succ by lia. reflexivity. }
  assert (D : returns (if incx =? 1 then zfor 0 m (fun i h => aij <- ld a (i + j * lda) ;; v <- ld x i ;; Ok (gemv_dot mmul mconj nc aij v h)) z
                else '(h, _) <- zfor 0 m (fun i '(h, ix) => h <- (aij <- ld a (i + j * lda) ;; v <- ld x ix ;; Ok (gemv_dot mmul mconj nc aij v h)) ;; Ok (h, ix + incx)) (z, 0) ;; Ok h)
             (I m)).
  { destruct (Z.eqb_spec incx 1) as [->|Hne].
    - apply (plain_n I); auto; try lia; [|reflexivity]. intros i h Hi HI. rewrite Z.add_0_l. apply Step; auto. rewrite vpos_1; auto.
    - apply (cursori_n I (fun i ix h => aij <- ld a (i + j * lda) ;; v <- ld x ix ;; Ok (gemv_dot mmul mconj nc aij v h))); auto; try lia; [|reflexivity].
      intros i h Hi HI. rewrite !Z.add_0_l. apply Step; auto. rewrite vpos_pos; auto. }
  destruct (proj1 (returns_ex _ _) D) as (h & -> & ->).
  cbn [bind]. rewrite (ld_some _ _ _ Hl). cbn [bind].
  rewrite (st_some _ _ _ _ Hl). reflexivity.
Qed.

(** A and X need only be readable when ALPHA is not zero *)
Lemma gemv_gen_raw c o m n alpha (a : arr MT) lda (x : qarr) incx beta (y : qarr) incy A v w :
  trans_char c = Some o -> 0 < m -> 0 < n -> 0 < incx -> 0 < incy ->
  (s_eqb alpha n0 = false -> holds_mat a lda m n A) -> (s_eqb alpha n0 = false -> holds_vec x (op_cols o m n) incx v) -> holds_vec y (op_rows o m n) incy w ->
  returns (gemv_gen qmul mmul aM Ma msub mconj c m n alpha a lda x incx beta y incy) (fun y' =>
    is_vec y y' (op_rows o m n) incy (ggemv_val o (op_cols o m n) alpha beta A v w)).
Proof.
  intros Hc Hm Hn Hix Hiy Ha Hx Hy. unfold gemv_gen, ggemv_val.
  replace (m =? 0) with false by lia. replace (n =? 0) with false by lia. cbn [orb].
  destruct (s_eqb alpha n0 && s_eqb beta n1) eqn:EQ; [cbn [returns]; apply is_vec_refl; exact Hy|].
  clear EQ. unfold assertb. replace (incx >? 0) with true by lia. replace (incy >? 0) with true by lia. cbn [bind].
  eapply returns_bind with (P := fun y' => is_vec y y' (op_rows o m n) incy (fun i => ggpre beta (w i))).
  { replace (if negb (c =? "N")%char then n else m) with (op_rows o m n).
    - apply gemv_beta_raw; auto. destruct o; cbn; lia.
    - unfold trans_char in Hc. destruct (c =? "N")%char; [injection Hc as <-; auto|].
      destruct (c =? "T")%char; [injection Hc as <-; auto|]. destruct (c =? "C")%char; [injection Hc as <-; auto|discriminate]. }
  intros y' Hy'. destruct (s_eqb alpha n0) eqn:E0; [cbn [returns]; exact Hy'|].
  specialize (Ha eq_refl). specialize (Hx eq_refl). unfold trans_char in Hc.
  destruct (Ascii.eqb_spec c "N") as [->|_]; [injection Hc as <-|
  destruct (Ascii.eqb_spec c "T") as [->|_]; [injection Hc as <-|
  destruct (Ascii.eqb_spec c "C") as [->|_]; [injection Hc as <-|discriminate]]]; cbn [op_rows op_cols] in *.
  - apply (gemv_n_raw alpha m n a lda x incx y y' incy A v (fun i => ggpre beta (w i))); auto; try lia.
  - apply (gemv_t_raw alpha true m n a lda x incx y y' incy A v (fun i => ggpre beta (w i))); auto; try lia.
  - apply (gemv_t_raw alpha false m n a lda x incx y y' incy A v (fun i => ggpre beta (w i))); auto; try lia.
Qed.
End G.
