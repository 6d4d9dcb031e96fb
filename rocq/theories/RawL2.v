(** What the Fortran GEMV and GER compute for ANY scalar arithmetic (no algebraic law) and for EVERY shape and stride, also
    where the code takes the wrong lengths or increments. *)
From Coq Require Import ZArith Lia Bool Ascii.
From Verif Require Import Num Res ResFacts Spec SpecFacts VecFacts LoopFacts MQuat MForL1 MForL2 MForL3 L2Facts OptGemmFacts RawL3.
Local Open Scope Z_scope.

(** ** elements on a line of the memory: p0, p0+inc, ... *)
Definition on_line {A} (y : arr A) (p0 inc n : Z) (f : Z -> A) : Prop := forall i, 0 <= i < n -> y (p0 + i * inc) = Some (f i).
Definition off_line {A} (y y' : arr A) (p0 inc n : Z) : Prop := forall p, (forall i, 0 <= i < n -> p <> p0 + i * inc) -> y' p = y p.
Definition is_line {A} (y y' : arr A) (p0 inc n : Z) (f : Z -> A) : Prop := on_line y' p0 inc n f /\ off_line y y' p0 inc n.

Section L.
Context {A : Type}.
Lemma is_line_refl (y : arr A) p0 inc n f : on_line y p0 inc n f -> is_line y y p0 inc n f.
Proof. intros Hv. split; auto. intros p _. reflexivity. Qed.
Lemma is_line_ext (y y' : arr A) p0 inc n f g : (forall i, 0 <= i < n -> f i = g i) -> is_line y y' p0 inc n f -> is_line y y' p0 inc n g.
Proof. intros E [Hv Hs]. split; auto. intros i Hi. rewrite <- E by auto. auto. Qed.
Lemma line_upd (y y' : arr A) p0 inc n f i q : inc <> 0 -> 0 <= i < n -> is_line y y' p0 inc n f ->
  is_line y (upd y' (p0 + i * inc) q) p0 inc n (fun k => if k =? i then q else f k).
Proof.
  intros Hinc Hi [Hv Hs]. split.
  - intros k Hk. destruct (Z.eqb_spec k i) as [->|Hne]; [apply upd_same|]. rewrite upd_diff; auto. intros E. apply Hne. nia.
  - intros p Hp. rewrite upd_diff by (apply Hp; auto). auto.
Qed.
(** the first [cnt] elements rewritten one after the other *)
Lemma lmap_cursor (y y' : arr A) N p0 inc cnt lo hi k0 (step : Z -> Z -> arr A -> res (arr A)) (new old : Z -> A) :
  hi - lo = cnt -> 0 <= cnt <= N -> inc <> 0 ->
  (forall i p y, 0 <= i < cnt -> p = k0 + i * inc -> y (p0 + i * inc) = Some (old i) -> step (lo + i) p y = Ok (upd y (p0 + i * inc) (new i))) ->
  is_line y y' p0 inc N old ->
  returns (bind (zfor lo hi (fun i '(s, ix) => bind (step i ix s) (fun s => Ok (s, ix + inc))) (y', k0)) (fun '(s, _) => Ok s))
    (fun y'' => is_line y y'' p0 inc N (prog new old cnt)).
Proof.
  intros En Hn Hinc Hs Hv.
  apply (cursori_n (fun i y'' => is_line y y'' p0 inc N (prog new old i)) step cnt); auto; try lia.
  - intros i s Hi HI. rewrite Hs; auto.
    + cbn [returns]. eapply is_line_ext; [|eapply (line_upd y s p0 inc N _ i (new i) Hinc); [lia|exact HI]].
      intros k Hk. unfold prog. cbn beta. destruct (Z.eqb_spec k i) as [->|Hki]; [destruct (Z.ltb_spec i (i + 1)); auto; lia|destruct (Z.ltb_spec k i), (Z.ltb_spec k (i + 1)); auto; lia].
    + rewrite (proj1 HI i) by lia. unfold prog. destruct (Z.ltb_spec i i); auto; lia.
  - eapply is_line_ext; [|exact Hv]. intros k Hk. unfold prog. destruct (Z.ltb_spec k 0); auto; lia.
Qed.
Lemma lmap_plain (y y' : arr A) N p0 inc cnt lo hi (body : Z -> arr A -> res (arr A)) (new old : Z -> A) :
  hi - lo = cnt -> 0 <= cnt <= N -> inc <> 0 ->
  (forall i y, 0 <= i < cnt -> y (p0 + i * inc) = Some (old i) -> body (lo + i) y = Ok (upd y (p0 + i * inc) (new i))) ->
  is_line y y' p0 inc N old ->
  returns (zfor lo hi body y') (fun y'' => is_line y y'' p0 inc N (prog new old cnt)).
Proof.
  intros En Hn Hinc Hs Hv.
  apply (plain_n (fun i y'' => is_line y y'' p0 inc N (prog new old i)) body cnt); auto; try lia.
  - intros i s Hi HI. rewrite Hs; auto.
    + cbn [returns]. eapply is_line_ext; [|eapply (line_upd y s p0 inc N _ i (new i) Hinc); [lia|exact HI]].
      intros k Hk. unfold prog. cbn beta. destruct (Z.eqb_spec k i) as [->|Hki]; [destruct (Z.ltb_spec i (i + 1)); auto; lia|destruct (Z.ltb_spec k i), (Z.ltb_spec k (i + 1)); auto; lia].
    + rewrite (proj1 HI i) by lia. unfold prog. destruct (Z.ltb_spec i i); auto; lia.
  - eapply is_line_ext; [|exact Hv]. intros k Hk. unfold prog. destruct (Z.ltb_spec k 0); auto; lia.
Qed.
End L.

Section F.
Context {K : num}.
Local Notation qarr := (arr (quat K)).
Local Notation H := (quat K).

(** position of the first element the code uses for a vector of (assumed) length len *)
Definition line0 (len inc : Z) : Z := if inc >? 0 then 0 else (1 - len) * inc.
Lemma fstart_line len inc : fstart len inc = line0 len inc + 1.
Proof. unfold fstart, line0. destruct (Z.gtb_spec inc 0); lia. Qed.
Lemma line0_1 len : line0 len 1 = 0. Proof. reflexivity. Qed.
Lemma line0_vpos len inc i : inc <> 0 -> line0 len inc + i * inc = vpos len inc i.
Proof. intros Hi. unfold line0, vpos. destruct (Z.gtb_spec inc 0), (Z.ltb_spec inc 0); lia. Qed.

(** BETA stage: the first leny elements; hgemvdh.f with a stride scales the first element leny times *)
Definition hgb_val (alpha beta : scal K) (incy leny : Z) (w : Z -> H) (i : Z) : H :=
  if fone beta then w i else
  if negb (incy =? 1) && negb (fzero beta) && match alpha, beta with SR _, SH _ => true | _, _ => false end
  then if i =? 0 then ziter leny (fun _ => hbeta_elt beta) (w 0) else w i
  else if i <? leny then hpre_elt beta (w i) else w i.
Lemma hgemv_beta_raw alpha beta leny (y : qarr) incy N w :
  1 <= leny -> incy <> 0 -> (fone beta = false -> leny <= N) -> on_line y (line0 leny incy) incy N w ->
  returns (hgemv_beta alpha beta leny (fstart leny incy) y incy) (fun y' => is_line y y' (line0 leny incy) incy N (hgb_val alpha beta incy leny w)).
Proof.
  intros Hl Hinc HN Hy. apply is_line_refl in Hy. unfold hgemv_beta, fdo, hgb_val, hpre_elt. destruct (fone beta) eqn:E1; [exact Hy|]. specialize (HN eq_refl).
  rewrite fstart_line. destruct (Z.eqb_spec incy 1) as [->|Hne]; cbn [negb andb].
  - rewrite line0_1 in *. destruct (fzero beta) eqn:E0.
    + apply (lmap_plain y y N 0 1 leny 1 (leny + 1) _ (fun i => hq c0 c0) w); auto; try lia. intros i y' Hi E.
      replace (1 + i - 1) with (0 + i * 1) by lia. rewrite (st_some _ _ _ _ E). reflexivity.
    + apply (lmap_plain y y N 0 1 leny 1 (leny + 1) _ (fun i => hbeta_elt beta (w i)) w); auto; try lia. intros i y' Hi E.
      replace (1 + i - 1) with (0 + i * 1) by lia. rewrite (ld_some _ _ _ E). cbn [bind]. rewrite (st_some _ _ _ _ E). reflexivity.
  - destruct (fzero beta) eqn:E0; cbn [negb andb].
    + apply (lmap_cursor y y N (line0 leny incy) incy leny 1 (leny + 1) _ (fun _ p y => st y (p - 1) (hq c0 c0)) (fun i => hq c0 c0) w); auto; try lia.
      intros i p y' Hi -> E. replace (line0 leny incy + 1 + i * incy - 1) with (line0 leny incy + i * incy) by lia. rewrite (st_some _ _ _ _ E). reflexivity.
    + destruct (match alpha, beta with SR _, SH _ => true | _, _ => false end) eqn:EM.
      * replace (match alpha, beta with SR _, SH _ => 0 | _, _ => incy end) with 0 by (destruct alpha, beta; try discriminate; reflexivity).
        eapply returns_mono; [apply (cursori_n (fun i y' => is_line y y' (line0 leny incy) incy N (fun k => if k =? 0 then ziter i (fun _ => hbeta_elt beta) (w 0) else w k))
          (fun _ iy y => v <- ld y (iy - 1) ;; st y (iy - 1) (hbeta_elt beta v)) leny); auto; try lia|].
        -- intros i s Hi HI. replace (line0 leny incy + 1 + i * 0 - 1) with (line0 leny incy + 0 * incy) by lia.
           pose proof (proj1 HI 0 ltac:(lia)) as E. cbn beta in E. rewrite Z.eqb_refl in E. rewrite (ld_some _ _ _ E). cbn [bind]. rewrite (st_some _ _ _ _ E). cbn [returns].
           eapply is_line_ext; [|eapply (line_upd y s (line0 leny incy) incy N _ 0 _ Hinc); [lia|exact HI]]. intros k Hk. cbn beta. destruct (Z.eqb_spec k 0) as [->|]; auto. rewrite ziter_succ by lia. reflexivity.
        -- eapply is_line_ext; [|exact Hy]. intros k Hk. cbn beta. destruct (Z.eqb_spec k 0) as [->|]; auto.
        -- intros y' HI. exact HI.
      * replace (match alpha, beta with SR _, SH _ => 0 | _, _ => incy end) with incy by (destruct alpha, beta; try discriminate; reflexivity).
        apply (lmap_cursor y y N (line0 leny incy) incy leny 1 (leny + 1) _ (fun _ p y => v <- ld y (p - 1) ;; st y (p - 1) (hbeta_elt beta v)) (fun i => hbeta_elt beta (w i)) w); auto; try lia.
        intros i p y' Hi -> E. replace (line0 leny incy + 1 + i * incy - 1) with (line0 leny incy + i * incy) by lia.
        rewrite (ld_some _ _ _ E). cbn [bind]. rewrite (st_some _ _ _ _ E). reflexivity.
Qed.

(** 'N' *)
Definition hgn_elt (alpha : scal K) (incy : Z) : H -> H -> H -> H := if incy =? 1 then hn_elt alpha else hn_elt_strided alpha.
Lemma hgemv_n_raw alpha m n (a : qarr) lda (x : qarr) lx incx (y y' : qarr) ly incy N A v w :
  0 <= m <= N -> 0 <= n -> incy <> 0 ->
  holds_mat a lda m n A -> on_line x (line0 lx incx) incx n v -> is_line y y' (line0 ly incy) incy N w ->
  returns (hgemv_n alpha m n a lda x (fstart lx incx) incx y' (fstart ly incy) incy) (fun y'' => is_line y y'' (line0 ly incy) incy N
    (fun i => if i <? m then ziter n (fun j acc => hgn_elt alpha incy (A i j) (v j) acc) (w i) else w i)).
Proof.
  intros Hm Hn Hiy Ha Hx Hy. unfold hgemv_n, fdo, hgn_elt. rewrite !fstart_line.
  destruct (Z.eqb_spec incy 1) as [->|Hne].
  - pose (f := fun i j => ziter j (fun j acc => hn_elt alpha (A i j) (v j) acc) (w i)).
    pose (step := fun j jx y => v <- ld x (jx - 1) ;; zfor 1 (m + 1) (fun i y => hn_step (hn_elt alpha) a lda i j v (i - 1) y) y).
    apply (cursori_n (fun j y'' => is_line y y'' (line0 ly 1) 1 N (fun i => if i <? m then f i j else w i)) step n); auto; try lia.
    + intros j y0 Hj HI. unfold step. replace (line0 lx incx + 1 + j * incx - 1) with (line0 lx incx + j * incx) by lia. rewrite (ld_some _ _ _ (Hx j Hj)). cbn [bind].
      eapply returns_mono; [eapply (lmap_plain y y0 N (line0 ly 1) 1 m 1 (m + 1) _ (fun i => f i (j + 1)) _); [lia|lia|lia| |exact HI]|].
      * intros i y1 Hi E. rewrite line0_1 in *. cbn beta in E. destruct (Z.ltb_spec i m) as [_|]; [|lia]. unfold hn_step. replace (1 + i - 1) with (0 + i * 1) by lia.
        rewrite (ld_some _ _ _ E). cbn [bind]. replace (0 + i * 1 + (1 + j - 1) * lda) with (i + j * lda) by lia. rewrite (ld_some _ _ _ (Ha i j Hi Hj)). cbn [bind].
        rewrite (st_some _ _ _ _ E). unfold f. rewrite ziter_succ by lia. reflexivity.
      * intros y1 HI1. eapply is_line_ext; [|exact HI1]. intros i Hi. unfold prog. destruct (i <? m); auto.
    + eapply is_line_ext; [|exact Hy]. intros i Hi. destruct (i <? m); auto.
  - pose (f := fun i j => ziter j (fun j acc => hn_elt_strided alpha (A i j) (v j) acc) (w i)).
    pose (step := fun j jx y => v <- ld x (jx - 1) ;;
       '(y, _) <- zfor 1 (m + 1) (fun i '(y, iy) => y <- hn_step (hn_elt_strided alpha) a lda i j v (iy - 1) y ;; Ok (y, iy + incy)) (y, line0 ly incy + 1) ;; Ok y).
    apply (cursori_n (fun j y'' => is_line y y'' (line0 ly incy) incy N (fun i => if i <? m then f i j else w i)) step n); auto; try lia.
    + intros j y0 Hj HI. unfold step. replace (line0 lx incx + 1 + j * incx - 1) with (line0 lx incx + j * incx) by lia. rewrite (ld_some _ _ _ (Hx j Hj)). cbn [bind].
      eapply returns_mono; [eapply (lmap_cursor y y0 N (line0 ly incy) incy m 1 (m + 1) _ (fun i p y => hn_step (hn_elt_strided alpha) a lda i (1 + j) (v j) (p - 1) y) (fun i => f i (j + 1)) _); [lia|lia|lia| |exact HI]|].
      * intros i p y1 Hi -> E. cbn beta in E. destruct (Z.ltb_spec i m) as [_|]; [|lia]. unfold hn_step. replace (line0 ly incy + 1 + i * incy - 1) with (line0 ly incy + i * incy) by lia.
        rewrite (ld_some _ _ _ E). cbn [bind]. replace (1 + i - 1 + (1 + j - 1) * lda) with (i + j * lda) by lia. rewrite (ld_some _ _ _ (Ha i j Hi Hj)). cbn [bind].
        rewrite (st_some _ _ _ _ E). unfold f. rewrite ziter_succ by lia. reflexivity.
      * intros y1 HI1. eapply is_line_ext; [|exact HI1]. intros i Hi. unfold prog. destruct (i <? m); auto.
    + eapply is_line_ext; [|exact Hy]. intros i Hi. destruct (i <? m); auto.
Qed.

(** 'T' / 'C' *)
Lemma hgemv_dot_raw nc m n (a : qarr) lda (x : qarr) lx incx A v j :
  0 <= m -> 0 <= j < n -> holds_mat a lda m n A -> on_line x (line0 lx incx) incx m v ->
  (if incx =? 1 then fdo 1 m (fun i h => hdot_step nc a lda i (1 + j) x (i - 1) h) (hq c0 c0)
   else '(h, _) <- fdo 1 m (fun i '(h, ix) => h <- hdot_step nc a lda i (1 + j) x (ix - 1) h ;; Ok (h, ix + incx)) (hq c0 c0, fstart lx incx) ;; Ok h)
  = Ok (ziter m (fun i h => hdotT_elt nc (A i j) (v i) h) (hq c0 c0)).
Proof.
  intros Hm Hj Ha Hx. rewrite fstart_line. unfold fdo.
  pose (I := fun (i : Z) h => h = ziter i (fun i h => hdotT_elt nc (A i j) (v i) h) (hq c0 c0)).
  assert (Step : forall i p h, 0 <= i < m -> p = line0 lx incx + i * incx -> I i h -> returns (hdot_step nc a lda (1 + i) (1 + j) x p h) (I (i + 1))).
  { intros i p h Hi -> ->. unfold hdot_step. replace (1 + i - 1 + (1 + j - 1) * lda) with (i + j * lda) by lia.
    rewrite (ld_some _ _ _ (Ha i j Hi Hj)). cbn [bind]. rewrite (ld_some _ _ _ (Hx i Hi)). cbn [bind returns]. unfold I. rewrite ziter_succ by lia. reflexivity. }
  destruct (Z.eqb_spec incx 1) as [->|Hne].
  - edestruct (proj1 (returns_ex _ _) (plain_n I (fun i h => hdot_step nc a lda i (1 + j) x (i - 1) h) m 1 (m + 1) (hq c0 c0) ltac:(lia) Hm
      ltac:(intros i h Hi HI; apply Step; auto; rewrite line0_1; lia) eq_refl)) as (h & E & EI). rewrite E, EI. reflexivity.
  - edestruct (proj1 (returns_ex _ _) (cursori_n I (fun i ix h => hdot_step nc a lda i (1 + j) x (ix - 1) h) m 1 (m + 1) (line0 lx incx + 1) incx (hq c0 c0) ltac:(lia) Hm
      ltac:(intros i h Hi HI; apply Step; auto; lia) eq_refl)) as (h & E & EI). rewrite E, EI. reflexivity.
Qed.
Lemma hgemv_t_raw alpha nc m n (a : qarr) lda (x : qarr) lx incx (y y' : qarr) ly incy N A v w :
  0 <= m -> 0 <= n <= N -> incy <> 0 ->
  holds_mat a lda m n A -> on_line x (line0 lx incx) incx m v -> is_line y y' (line0 ly incy) incy N w ->
  returns (hgemv_t alpha nc m n a lda x (fstart lx incx) incx y' (fstart ly incy) incy) (fun y'' => is_line y y'' (line0 ly incy) incy N
    (fun j => if j <? n then haxpyT_elt alpha (ziter m (fun i h => hdotT_elt nc (A i j) (v i) h) (hq c0 c0)) (w j) else w j)).
Proof.
  intros Hm Hn Hiy Ha Hx Hy. unfold hgemv_t.
  pose (step := fun j jy y => 
    h <- (if incx =? 1 then fdo 1 m (fun i h => hdot_step nc a lda i j x (i - 1) h) (hq c0 c0)
           else '(h, _) <- fdo 1 m (fun i '(h, ix) => h <- hdot_step nc a lda i j x (ix - 1) h ;; Ok (h, ix + incx)) (hq c0 c0, fstart lx incx) ;; Ok h) ;;
    w <- ld y (jy - 1) ;; st y (jy - 1) (haxpyT_elt alpha h w)).
  eapply returns_mono; [eapply (lmap_cursor y y' N (line0 ly incy) incy n 1 (n + 1) (fstart ly incy) step (fun j => haxpyT_elt alpha (ziter m (fun i h => hdotT_elt nc (A i j) (v i) h) (hq c0 c0)) (w j)) w); auto; try lia|].
  - intros j p y0 Hj -> E. unfold step. rewrite (hgemv_dot_raw nc m n a lda x lx incx A v j) by auto. cbn [bind]. rewrite fstart_line.
    replace (line0 ly incy + 1 + j * incy - 1) with (line0 ly incy + j * incy) by lia. rewrite (ld_some _ _ _ E). cbn [bind]. rewrite (st_some _ _ _ _ E). reflexivity.
  - intros y'' HI. exact HI.
Qed.

(** the whole routine.  [hgemv_use]: how many elements of y are touched *)
Definition hgemv_rows (c : ascii) (m n : Z) : Z := if lsame c "N" then m else n.
Definition hgemv_cols (c : ascii) (m n : Z) : Z := if lsame c "N" then n else m.
Definition hgemv_use (alpha beta : scal K) (c : ascii) (m n : Z) : Z :=
  if fone beta then hgemv_rows c m n else Z.max (hgemv_rows c m n) (snd (hgemv_lens alpha beta c m n)).
Definition hgemv_main (c : ascii) (alpha : scal K) (incy m n : Z) (A : Z -> Z -> H) (v : Z -> H) (i : Z) (w : H) : H :=
  if fzero alpha then w else
  if lsame c "N" then if i <? m then ziter n (fun j acc => hgn_elt alpha incy (A i j) (v j) acc) w else w
  else if i <? n then haxpyT_elt alpha (ziter m (fun l h => hdotT_elt (lsame "T" c) (A l i) (v l) h) (hq c0 c0)) w else w.
Lemma hgemv_raw c m n alpha (a : qarr) lda (x : qarr) incx beta (y : qarr) incy A v w :
  0 < m -> 0 < n -> incy <> 0 ->
  let lenx := fst (hgemv_lens alpha beta c m n) in let leny := snd (hgemv_lens alpha beta c m n) in
  holds_mat a lda m n A -> on_line x (line0 lenx incx) incx (hgemv_cols c m n) v ->
  on_line y (line0 leny incy) incy (hgemv_use alpha beta c m n) w ->
  returns (hgemv c m n alpha a lda x incx beta y incy) (fun y' => is_line y y' (line0 leny incy) incy (hgemv_use alpha beta c m n)
    (fun i => hgemv_main c alpha incy m n A v i (hgb_val alpha beta incy leny w i))).
Proof.
  intros Hm Hn Hiy lenx leny Ha Hx Hy. unfold hgemv, hgemv_main.
  replace (m =? 0) with false by lia. replace (n =? 0) with false by lia. cbn [orb].
  destruct (fzero alpha) eqn:E0; cbn [andb].
  - destruct (fone beta) eqn:E1.
    + apply is_line_refl in Hy. eapply is_line_ext; [|exact Hy]. intros i Hi. unfold hgb_val. rewrite E1. reflexivity.
    + unfold leny, lenx in *. destruct (hgemv_lens alpha beta c m n) as [lx ly] eqn:EL. cbn [fst snd] in *.
      assert (1 <= ly) by (unfold hgemv_lens in EL; destruct (match alpha, beta with SR _, SR _ => lsame "N" c | _, _ => lsame "T" c end); injection EL as <- <-; lia).
      eapply returns_bind; [eapply (hgemv_beta_raw alpha beta ly y incy (hgemv_use alpha beta c m n) w); [auto|auto|intros E; unfold hgemv_use; rewrite E, EL; cbn [snd]; lia|exact Hy]|].
      intros y' HI. exact HI.
  - unfold leny, lenx in *. destruct (hgemv_lens alpha beta c m n) as [lx ly] eqn:EL. cbn [fst snd] in *.
    assert (1 <= ly) by (unfold hgemv_lens in EL; destruct (match alpha, beta with SR _, SR _ => lsame "N" c | _, _ => lsame "T" c end); injection EL as <- <-; lia).
    eapply returns_bind; [eapply (hgemv_beta_raw alpha beta ly y incy (hgemv_use alpha beta c m n) w); [auto|auto|intros E; unfold hgemv_use; rewrite E, EL; cbn [snd]; lia|exact Hy]|].
    intros y' HI.
    assert (HU : hgemv_rows c m n <= hgemv_use alpha beta c m n) by (unfold hgemv_use; destruct (fone beta); lia). unfold hgemv_rows in HU.
    unfold hgemv_cols in Hx. destruct (lsame c "N").
    + eapply returns_mono; [eapply (hgemv_n_raw alpha m n a lda x lx incx y y' ly incy (hgemv_use alpha beta c m n) A v _); [lia|lia|auto|exact Ha|exact Hx|exact HI]|]. intros y'' R. exact R.
    + eapply returns_mono; [eapply (hgemv_t_raw alpha (lsame "T" c) m n a lda x lx incx y y' ly incy (hgemv_use alpha beta c m n) A v _); [lia|lia|auto|exact Ha|exact Hx|exact HI]|]. intros y'' R. exact R.
Qed.

(** ** GER *)
Definition hger_val (cnj : bool) (alpha : scal K) (A : Z -> Z -> H) (v w : Z -> H) (i j : Z) : H :=
  if fzero alpha then A i j else if hnz (w j) then hger_elt cnj alpha (v i) (w j) (A i j) else A i j.
Lemma hger_raw cnj m n alpha (x : qarr) incx (y : qarr) incy (a : qarr) lda v w A :
  0 <= m -> 0 <= n -> incx <> 0 -> incy <> 0 -> m <= lda -> (incx = 1 \/ forall r, alpha <> SR r) ->
  holds_vec x m incx v -> holds_vec y n incy w -> holds_mat a lda m n A ->
  returns (hger cnj m n alpha x incx y incy a lda) (fun a' => is_mat a a' lda m n (hger_val cnj alpha A v w)).
Proof.
  intros Hm Hn Hix Hiy Hld Hal Hx Hy Ha. unfold hger, hger_val.
  destruct (Z.eqb_spec m 0) as [->|Hm0]; [split; [intros i j Hi; lia|intros p _; auto]|].
  destruct (Z.eqb_spec n 0) as [->|Hn0]; [split; [intros i j Hi Hj; lia|intros p _; auto]|].
  cbn [orb]. destruct (fzero alpha) eqn:E0; [apply is_mat_refl; auto|].
  set (new := fun i j => if hnz (w j) then hger_elt cnj alpha (v i) (w j) (A i j) else A i j).
  pose proof (sep_ld lda m n Hld) as Hsep.
  pose (I := fun (j : Z) a' => is_mat a a' lda m n (mprog new A j)).
  apply returns_mono with (P := I n); [|intros a' HH; apply mprog_end in HH; exact HH].
  assert (I0 : I 0 a) by (apply mprog_start, is_mat_refl; auto).
  assert (Skip : forall j a', 0 <= j < n -> hnz (w j) = false -> I j a' -> I (j + 1) a').
  { intros j a' Hj Hz HI.
    apply (mprog_step a a' lda m n new A j (fun i => A i j)); auto.
    - intros i Hi. unfold new. rewrite Hz. reflexivity.
    - eapply is_mat_ext; [|exact HI]. intros i j' Hi Hj'. unfold setcol. destruct (Z.eqb_spec j' j) as [->|]; auto. apply mprog_at. }
  assert (Step : forall j i p (a' : qarr), 0 <= j < n -> 0 <= i < m -> hnz (w j) = true -> p = vpos m incx i ->
     a' (i + j * lda) = Some (mprog new A j i j) ->
     hger_step cnj alpha x p (w j) (1 + i - 1 + (1 + j - 1) * lda) a' = Ok (upd a' (i + j * lda) (new i j))).
  { intros j i p a' Hj Hi Hz -> Hl. unfold hger_step. replace (1 + i - 1 + (1 + j - 1) * lda) with (i + j * lda) by lia.
    rewrite (ld_some _ _ _ Hl). cbn [bind]. rewrite (ld_some _ _ _ (Hx i Hi)). cbn [bind].
    rewrite (st_some _ _ _ _ Hl), mprog_at. unfold new. rewrite Hz. reflexivity. }
  unfold fdo. destruct (Z.eqb_spec incx 1) as [->|Hne].
  - pose (step := fun j jy a => v <- ld y (jy - 1) ;;
       if hnz v then zfor 1 (m + 1) (fun i a => hger_step cnj alpha x (i - 1) v (i - 1 + (j - 1) * lda) a) a else Ok a).
    apply (cursori_n I step n); auto; try lia.
    intros j a' Hj HI. unfold step. rewrite fstart_pos by auto. rewrite (ld_some _ _ _ (Hy j Hj)). cbn [bind].
    destruct (hnz (w j)) eqn:Ez; [|apply Skip; auto].
    eapply returns_mono; [|intros a'' HH; apply (mprog_step a a'' lda m n new A j (fun i => new i j)); auto; exact HH].
    eapply (mcol_map a a' lda m n (mprog new A j) j); auto; [lia|].
    intros i a1 Hi Hl. replace (1 + i - 1) with i by lia.
    replace i with (1 + i - 1) at 2 by lia. apply Step; auto. rewrite vpos_1; auto.
  - destruct Hal as [?|Hal]; [lia|].
    pose (step := fun j jy a => v <- ld y (jy - 1) ;;
       if hnz v then
              '(a, _) <- zfor 1 (m + 1) (fun i '(a, ix) => a <- hger_step_strided cnj alpha x (ix - 1) v (i - 1 + (j - 1) * lda) a ;; Ok (a, ix + incx)) (a, fstart m incx) ;; Ok a
       else Ok a).
    apply (cursori_n I step n); auto; try lia.
    intros j a' Hj HI. unfold step. rewrite fstart_pos by auto. rewrite (ld_some _ _ _ (Hy j Hj)). cbn [bind].
    destruct (hnz (w j)) eqn:Ez; [|apply Skip; auto].
    eapply returns_mono; [|intros a'' HH; apply (mprog_step a a'' lda m n new A j (fun i => new i j)); auto; exact HH].
    eapply (mcol_map_cursor a a' lda m n (mprog new A j) j _ _ _ _
      (fun i ix a => hger_step_strided cnj alpha x (ix - 1) (w j) (i - 1 + (1 + j - 1) * lda) a)); auto; [lia|].
    intros i p a1 Hi -> Hl.
    replace (hger_step_strided cnj alpha) with (hger_step cnj alpha) by (destruct alpha as [r| |]; auto; destruct (Hal r); auto).
    rewrite fstart_pos by auto. apply Step; auto.
Qed.

(** ** GEMV where the lengths and strides are used as documented *)
Definition hgpre (beta : scal K) (w : H) : H := if fone beta then w else hpre_elt beta w.
Definition hgemv_val (o : mop) (k : Z) (alpha beta : scal K) (A : Z -> Z -> H) (v w : Z -> H) (i : Z) : H :=
  let w0 := hgpre beta (w i) in
  if fzero alpha then w0 else
  match o with
  | OpN | OpR => ziter k (fun l acc => hn_elt alpha (A i l) (v l) acc) w0
  | OpT | OpC => haxpyT_elt alpha (ziter k (fun l h => hgdot_elt (iscj o) false (A l i) (v l) h) (hq c0 c0)) w0
  end.
Definition real_pair (alpha beta : scal K) : Prop := exists r s, alpha = SR r /\ beta = SR s.
Lemma is_line_vec (y y' : qarr) len inc f : inc <> 0 -> is_line y y' (line0 len inc) inc len f -> holds_vec y' len inc f /\ same_but_vec y y' len inc.
Proof.
  intros Hinc [V S]. split.
  - intros i Hi. rewrite <- line0_vpos by auto. auto.
  - intros p Hp. apply S. intros i Hi. rewrite line0_vpos by auto. auto.
Qed.
Lemma vec_line (x : qarr) len inc f : inc <> 0 -> holds_vec x len inc f -> on_line x (line0 len inc) inc len f.
Proof. intros Hinc V i Hi. rewrite line0_vpos by auto. auto. Qed.
Lemma lsame_N c o : trans_char c = Some o -> lsame c "N" = match o with OpN => true | _ => false end /\ lsame "T" c = match o with OpT => true | _ => false end /\
  lsame "N" c = match o with OpN => true | _ => false end /\ o <> OpR.
Proof.
  unfold trans_char. destruct (Ascii.eqb_spec c "N") as [->|]; [intros [= <-]; repeat split; discriminate|].
  destruct (Ascii.eqb_spec c "T") as [->|]; [intros [= <-]; repeat split; discriminate|].
  destruct (Ascii.eqb_spec c "C") as [->|]; [intros [= <-]; repeat split; discriminate|]. discriminate.
Qed.
Lemma hgemv_lens_good c o alpha beta m n : trans_char c = Some o -> (m = n \/ c = "C"%char \/ real_pair alpha beta) ->
  hgemv_lens alpha beta c m n = (op_cols o m n, op_rows o m n).
Proof.
  intros Hc Hs. destruct (lsame_N c o Hc) as (E1 & E2 & E3 & E4). unfold hgemv_lens.
  destruct Hs as [->|[->|(r & s & -> & ->)]].
  - destruct (match alpha, beta with SR _, SR _ => lsame "N" c | _, _ => lsame "T" c end), o; auto; congruence.
  - injection Hc as <-. destruct alpha, beta; reflexivity.
  - rewrite E3. destruct o; auto; congruence.
Qed.
Lemma hgemv_good c o m n alpha (a : qarr) lda (x : qarr) incx beta (y : qarr) incy A v w :
  trans_char c = Some o -> 0 < m -> 0 < n -> incx <> 0 -> incy <> 0 ->
  (m = n \/ c = "C"%char \/ real_pair alpha beta) ->
  (incy = 1 \/ ~ (exists r q, alpha = SR r /\ beta = SH q) /\ ~ (c = "N"%char /\ exists q, alpha = SH q)) ->
  holds_mat a lda m n A -> holds_vec x (op_cols o m n) incx v -> holds_vec y (op_rows o m n) incy w ->
  returns (hgemv c m n alpha a lda x incx beta y incy) (fun y' =>
    holds_vec y' (op_rows o m n) incy (hgemv_val o (op_cols o m n) alpha beta A v w) /\ same_but_vec y y' (op_rows o m n) incy).
Proof.
  intros Hc Hm Hn Hix Hiy Hs Hb Ha Hx Hy. pose proof (hgemv_lens_good c o alpha beta m n Hc Hs) as EL. destruct (lsame_N c o Hc) as (E1 & E2 & E3 & E4).
  assert (ER : hgemv_rows c m n = op_rows o m n) by (unfold hgemv_rows; rewrite E1; destruct o; auto; congruence).
  assert (EC : hgemv_cols c m n = op_cols o m n) by (unfold hgemv_cols; rewrite E1; destruct o; auto; congruence).
  assert (EU : hgemv_use alpha beta c m n = op_rows o m n) by (unfold hgemv_use; rewrite EL, ER; cbn [snd]; destruct (fone beta); lia).
  pose proof (hgemv_raw c m n alpha a lda x incx beta y incy A v w Hm Hn Hiy) as R. cbv zeta in R. rewrite EL, EC, EU in R. cbn [fst snd] in R.
  eapply returns_mono; [apply R; auto using vec_line|]. clear R. intros y' HI.
  apply is_line_vec; auto. eapply is_line_ext; [|exact HI]. intros i Hi. cbn beta. clear HI.
  assert (EB : hgb_val alpha beta incy (op_rows o m n) w i = hgpre beta (w i)).
  { unfold hgb_val, hgpre. destruct (fone beta); auto.
    replace (negb (incy =? 1) && negb (fzero beta) && match alpha, beta with SR _, SH _ => true | _, _ => false end) with false.
    - destruct (Z.ltb_spec i (op_rows o m n)); [auto|lia].
    - symmetry. destruct Hb as [->|[Hb _]]; [reflexivity|]. destruct alpha, beta; rewrite ?andb_false_r; auto. exfalso. apply Hb; eauto. }
  rewrite EB. unfold hgemv_main, hgemv_val. destruct (fzero alpha); auto. rewrite E1, E2.
  assert (EN : o = OpN -> hgn_elt alpha incy = hn_elt alpha).
  { intros ->. unfold hgn_elt. destruct Hb as [->|[_ Hb]]; [reflexivity|]. destruct (incy =? 1); auto. unfold hn_elt_strided. destruct alpha; auto.
    exfalso. apply Hb. split; eauto. unfold trans_char in Hc. destruct (Ascii.eqb_spec c "N"); auto. destruct (Ascii.eqb c "T"); [discriminate|]. destruct (Ascii.eqb c "C"); discriminate. }
  assert (DE : forall nc (a x h : H), hdotT_elt nc a x h = hgdot_elt (negb nc) false a x h) by (intros [] ? ? ?; reflexivity).
  destruct o; cbn [op_rows op_cols iscj] in *; [rewrite EN by auto; destruct (Z.ltb_spec i m); [reflexivity|lia]| | |congruence];
    (destruct (Z.ltb_spec i n); [reflexivity|lia]).
Qed.
End F.
