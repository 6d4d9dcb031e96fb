(** The access trees of MIoOpt.v, run alone on arrays of doubles, are the kernels of MOptL1.v, MGenM.v, MPack.v and MOptGemm.v on the quaternions
    these doubles make up. *)
From Coq Require Import ZArith Lia Bool Ascii List.
From Verif Require Import Num Res ResFacts SpecPar ParFacts FSyntax FSem FIo FIoFacts FProg MSrc MQuat MSimd MOptL1 MGenL1 MGenM MPack MOptGemm MIoOpt.
Import ListNotations.
Local Open Scope Z_scope.

Section Sim.
Context {V : Type}.
(** if the kernel returns b, so does the tree, in related states *)
Definition sim {A B} (R : list (arr V) -> A -> B -> Prop) (t : io V A) (ms : list (arr V)) (r : res B) : Prop :=
  forall b, r = Ok b -> exists a ms', alone t ms = Ok (a, ms') /\ R ms' a b.
Lemma sim_ret {A B} (R : list (arr V) -> A -> B -> Prop) a ms b : R ms a b -> sim R (Ret a) ms (Ok b).
Proof. intros H b' [= <-]. exists a, ms. auto. Qed.
Lemma sim_lift {A} (R : list (arr V) -> A -> A -> Prop) (r : res A) ms : (forall a, r = Ok a -> R ms a a) -> sim R (lift r) ms r.
Proof. intros H b ->. exists b, ms. split; [reflexivity|auto]. Qed.
Lemma sim_bind {A B A' B'} (R : list (arr V) -> A -> B -> Prop) (R' : list (arr V) -> A' -> B' -> Prop) t ms r f g :
  sim R t ms r -> (forall a ms' b, R ms' a b -> sim R' (f a) ms' (g b)) -> sim R' (iobind t f) ms (bind r g).
Proof.
  intros H1 H2 b. destruct r as [b0| |]; try discriminate. cbn [bind]. intros E. destruct (H1 b0 eq_refl) as (a & ms' & Ea & Ra). destruct (H2 a ms' b0 Ra b E) as (a2 & ms2 & E2 & R2).
  exists a2, ms2. split; [|exact R2]. rewrite alone_bind, Ea. exact E2.
Qed.
Lemma sim_loop {A B} (R : list (arr V) -> A -> B -> Prop) body body' n : (forall i a ms b, R ms a b -> sim R (body i a) ms (body' i b)) ->
  forall i a ms b, R ms a b -> sim R (ioloop n i body a) ms (floop n i body' b).
Proof.
  intros Hb. induction n as [|n IH]; intros i a ms b H; cbn [ioloop floop]; [apply sim_ret; exact H|]. apply (sim_bind R); [apply Hb; exact H|]. intros a' ms' b' H'. apply IH. exact H'.
Qed.
Lemma sim_for {A B} (R : list (arr V) -> A -> B -> Prop) lo hi body body' a ms b : R ms a b -> (forall i a ms b, R ms a b -> sim R (body i a) ms (body' i b)) ->
  sim R (iofor lo hi body a) ms (zfor lo hi body' b).
Proof. intros H Hb. unfold iofor, zfor. apply sim_loop; auto. Qed.
Lemma sim_forstep {A B} (R : list (arr V) -> A -> B -> Prop) lo hi s body body' a ms b : R ms a b -> (forall i a ms b, R ms a b -> sim R (body i a) ms (body' i b)) ->
  sim R (ioforstep lo hi s body a) ms (zforstep lo hi s body' b).
Proof. intros H Hb. unfold ioforstep, zforstep. apply sim_for; auto. Qed.
Lemma sim_mono {A B} (R R' : list (arr V) -> A -> B -> Prop) t ms r : sim R t ms r -> (forall ms a b, R ms a b -> R' ms a b) -> sim R' t ms r.
Proof. intros H HR b E. destruct (H b E) as (a & ms' & E1 & E2). eauto 6. Qed.
Lemma sim_eq {A B} (R : list (arr V) -> A -> B -> Prop) t ms r r' : r' = r -> sim R t ms r -> sim R t ms r'.
Proof. intros ->. auto. Qed.
Lemma set_set (l : list (arr V)) n a b : SpecPar.set_nth (SpecPar.set_nth l n a) n b = SpecPar.set_nth l n b.
Proof. revert n. induction l as [|x l IH]; intros [|n]; cbn [SpecPar.set_nth]; auto. f_equal. apply IH. Qed.
Lemma set_same (l : list (arr V)) n a : nth_error l n = Some a -> SpecPar.set_nth l n a = l.
Proof. revert n. induction l as [|x l IH]; intros [|n] E; cbn [SpecPar.set_nth nth_error] in *; try discriminate; [congruence|f_equal; auto]. Qed.
End Sim.

Section O.
Context {K : num}.
Local Notation qarr := (arr (quat K)).
Local Notation mems := (list (arr K)).
Lemma cell_at (q : qarr) e t : 0 <= t < 4 -> cells q (4 * e + t) = option_map (fun v => comp v t) (q e).
Proof.
  intros H. unfold cells. rewrite (Z.mul_comm 4 e), Z.div_add_l by lia. rewrite (Z.div_small t 4) by lia. rewrite Z.add_0_r.
  rewrite (Z.add_comm (e * 4)), Z.mod_add by lia. rewrite Z.mod_small by lia. reflexivity.
Qed.
Lemma quats_at m (q : qarr) e : quats m q -> m (4 * e) = option_map qr (q e) /\ m (4 * e + 1) = option_map qi (q e) /\ m (4 * e + 2) = option_map qj (q e) /\ m (4 * e + 3) = option_map qk (q e).
Proof.
  intros H. assert (A := cell_at q e 0 ltac:(lia)). rewrite Z.add_0_r in A. rewrite !H, A, !cell_at by lia. repeat split; reflexivity.
Qed.
Lemma quats_upd m (q : qarr) e v : quats m q -> quats (upd (upd (upd (upd m (4 * e) (qr v)) (4 * e + 1) (qi v)) (4 * e + 2) (qj v)) (4 * e + 3) (qk v)) (upd q e v).
Proof.
  intros H z. unfold upd. assert (D := Z.div_mod z 4 ltac:(lia)). assert (D2 := Z.mod_pos_bound z 4 ltac:(lia)). unfold cells.
  destruct (Z.eqb_spec (z / 4) e) as [<-|N].
  - assert (z mod 4 = 0 \/ z mod 4 = 1 \/ z mod 4 = 2 \/ z mod 4 = 3) as C by lia.
    destruct (Z.eqb_spec z (4 * (z / 4) + 3)) as [E3|N3]; [replace (z mod 4) with 3 by lia; reflexivity|].
    destruct (Z.eqb_spec z (4 * (z / 4) + 2)) as [E2|N2]; [replace (z mod 4) with 2 by lia; reflexivity|].
    destruct (Z.eqb_spec z (4 * (z / 4) + 1)) as [E1|N1]; [replace (z mod 4) with 1 by lia; reflexivity|].
    destruct (Z.eqb_spec z (4 * (z / 4))) as [E0|N0]; [replace (z mod 4) with 0 by lia; reflexivity|]. lia.
  - rewrite !(proj2 (Z.eqb_neq _ _)) by lia. apply H.
Qed.
Lemma sim_vget al ad x e (ms : mems) m (q : qarr) : nth_error ms x = Some m -> quats m q ->
  sim (fun ms' a b => ms' = ms /\ a = b) (vget al ad x e) ms (vld al ad q e).
Proof.
  intros Em Hq b. unfold vget, vld. destruct (al && negb ((ad + 32 * e) mod 32 =? 0)); [discriminate|]. unfold ld. destruct (q e) as [w|] eqn:Ew; [|discriminate]. cbn [bind]. intros [= <-].
  destruct (quats_at m q e Hq) as (A & B & C & D). rewrite Ew in A, B, C, D. cbn [option_map] in *. exists (v_of_q w), ms. split; [|auto].
  cbn [alone]. rewrite Em. unfold ld. rewrite A. cbn [bind]. rewrite B. cbn [bind]. rewrite C. cbn [bind]. rewrite D. cbn [bind]. destruct w; reflexivity.
Qed.
Lemma sim_vput al ad x e v (ms : mems) m (q : qarr) : nth_error ms x = Some m -> quats m q ->
  sim (fun ms' _ b => exists m', ms' = SpecPar.set_nth ms x m' /\ quats m' b) (vput al ad x e v) ms (vst al ad q e v).
Proof.
  intros Em Hq b. unfold vput, vst. destruct (al && negb ((ad + 32 * e) mod 32 =? 0)); [discriminate|]. unfold st. destruct (q e) as [w|] eqn:Ew; [|discriminate]. intros [= <-].
  destruct (quats_at m q e Hq) as (A & B & C & D). rewrite Ew in A, B, C, D. cbn [option_map] in *. set (p := q_of_v v).
  assert (U := quats_upd m q e p Hq). eexists tt, _. split; [|eexists; split; [reflexivity|exact U]].
  assert (Lx := nth_len _ _ _ Em). cbn [alone]. rewrite Em. unfold st. rewrite A. cbn [bind alone]. rewrite nth_set_nth_eq by exact Lx.
  unfold upd at 1. rewrite (proj2 (Z.eqb_neq (4 * e + 1) (4 * e))) by lia. rewrite B. cbn [bind alone]. rewrite set_set, nth_set_nth_eq by exact Lx.
  unfold upd at 1 2. rewrite (proj2 (Z.eqb_neq (4 * e + 2) (4 * e + 1))), (proj2 (Z.eqb_neq (4 * e + 2) (4 * e))) by lia. rewrite C. cbn [bind alone]. rewrite set_set, nth_set_nth_eq by exact Lx.
  unfold upd at 1 2 3. rewrite (proj2 (Z.eqb_neq (4 * e + 3) (4 * e + 2))), (proj2 (Z.eqb_neq (4 * e + 3) (4 * e + 1))), (proj2 (Z.eqb_neq (4 * e + 3) (4 * e))) by lia. rewrite D. cbn [bind alone]. rewrite set_set. reflexivity.
Qed.
(** an operand given by a pointer into an array *)
Lemma sim_vget_at al ad x o e (ms : mems) m (q : qarr) : nth_error ms x = Some m -> quats m (shiftp q (- o)) ->
  sim (fun ms' a b => ms' = ms /\ a = b) (vget al (ad - 32 * o) x (o + e)) ms (vld al ad q e).
Proof.
  intros Em Hq. apply (sim_eq _ _ _ (vld al (ad - 32 * o) (shiftp q (- o)) (o + e))); [|apply (sim_vget _ _ _ _ _ m); auto].
  unfold vld, ld, shiftp. replace (ad - 32 * o + 32 * (o + e)) with (ad + 32 * e) by lia. replace (- o + (o + e)) with e by lia. reflexivity.
Qed.
Lemma sim_vput_at al ad x o e v (ms : mems) m (q : qarr) : nth_error ms x = Some m -> quats m (shiftp q (- o)) ->
  sim (fun ms' _ b => exists m', ms' = SpecPar.set_nth ms x m' /\ quats m' (shiftp b (- o))) (vput al (ad - 32 * o) x (o + e) v) ms (vst al ad q e v).
Proof.
  intros Em Hq b Eb. assert (S := sim_vput al (ad - 32 * o) x (o + e) v ms m _ Em Hq). unfold sim, vst, st in *. replace (ad - 32 * o + 32 * (o + e)) with (ad + 32 * e) in S by lia.
  replace (shiftp q (- o) (o + e)) with (q e) in S by (unfold shiftp; f_equal; lia).
  destruct (al && negb ((ad + 32 * e) mod 32 =? 0)); [discriminate|]. destruct (q e); [|discriminate]. injection Eb as <-. destruct (S _ eq_refl) as (a & ms' & E & m' & E2 & Q).
  exists a, ms'. split; [exact E|]. exists m'. split; [exact E2|]. intros z. rewrite (Q z). unfold cells, shiftp, upd. destruct (Z.eqb_spec (z / 4) (o + e)); destruct (Z.eqb_spec (- o + z / 4) e); try lia; reflexivity.
Qed.
Lemma quats_shift m (q : qarr) o : quats m q <-> quats m (shiftp (shiftp q o) (- o)).
Proof. unfold quats, cells, shiftp. split; intros H z; rewrite (H z); do 2 f_equal; lia. Qed.

(** ** level 1 *)
Ltac two := intros ? ? ? [-> ->].
Lemma sim_swapv n xa incx ya incy mx my (x y : qarr) : quats mx x -> quats my y ->
  sim (fun ms' _ b => exists mx' my', ms' = [mx'; my'] /\ quats mx' (fst b) /\ quats my' (snd b)) (swapv_io n xa incx ya incy) [mx; my] (swapv_opt n xa x incx ya y incy).
Proof.
  intros Hx Hy. unfold swapv_io, swapv_opt. cbv zeta.
  set (R := fun (ms' : mems) (a : Z * Z) (b : qarr * qarr * Z * Z) => exists mx' my', ms' = [mx'; my'] /\ quats mx' (fst (fst (fst b))) /\ quats my' (snd (fst (fst b))) /\ a = (snd (fst b), snd b)).
  apply (sim_bind R).
  - destruct (IS_ALIGNED xa && IS_ALIGNED ya); (apply sim_for; [exists mx, my; auto|]; intros i a ms [[[x0 y0] lx] ly] (mx' & my' & -> & Qx & Qy & ->); cbn [fst snd] in *;
      (eapply sim_bind; [apply (sim_vget _ _ _ _ _ mx'); [reflexivity|exact Qx]|two]); (eapply sim_bind; [apply (sim_vget _ _ _ _ _ my'); [reflexivity|exact Qy]|two]);
      (eapply sim_bind; [apply (sim_vput _ _ _ _ _ _ my'); [reflexivity|exact Qy]|]); intros ? ms' y2 (my2 & -> & Qy2); cbn [SpecPar.set_nth];
      (eapply sim_bind; [apply (sim_vput _ _ _ _ _ _ mx'); [reflexivity|exact Qx]|]); intros ? ms' x2 (mx2 & -> & Qx2); cbn [SpecPar.set_nth]; apply sim_ret; exists mx2, my2; auto).
  - intros a ms [[[x0 y0] lx] ly] (mx' & my' & -> & Qx & Qy & ->). apply sim_ret. exists mx', my'. auto.
Qed.
Lemma sim_copyv n xa incx ya incy mx my (x y : qarr) : quats mx x -> quats my y ->
  sim (fun ms' _ b => exists my', ms' = [mx; my'] /\ quats my' b) (copyv_io n xa incx ya incy) [mx; my] (copyv_opt n xa x incx ya y incy).
Proof.
  intros Hx Hy. unfold copyv_io, copyv_opt. cbv zeta.
  set (R := fun (ms' : mems) (a : Z * Z) (b : qarr * Z * Z) => exists my', ms' = [mx; my'] /\ quats my' (fst (fst b)) /\ a = (snd (fst b), snd b)).
  apply (sim_bind R).
  - destruct (IS_ALIGNED xa && IS_ALIGNED ya); (apply sim_for; [exists my; auto|]; intros i a ms [[y0 lx] ly] (my' & -> & Qy & ->); cbn [fst snd] in *;
      (eapply sim_bind; [apply (sim_vget _ _ _ _ _ mx); [reflexivity|exact Hx]|two]);
      (eapply sim_bind; [apply (sim_vput _ _ _ _ _ _ my'); [reflexivity|exact Qy]|]); intros ? ms' y2 (my2 & -> & Qy2); cbn [SpecPar.set_nth]; apply sim_ret; exists my2; auto).
  - intros a ms [[y0 lx] ly] (my' & -> & Qy & ->). apply sim_ret. exists my'. auto.
Qed.
Lemma sim_scalv side n alpha xa s o incx ms m (x : qarr) : nth_error ms s = Some m -> quats m (shiftp x (- o)) ->
  sim (fun ms' _ b => exists m', ms' = SpecPar.set_nth ms s m' /\ quats m' (shiftp b (- o))) (scalv_io side n alpha xa s o incx) ms (scalv_opt side n alpha xa x incx).
Proof.
  intros Em Hx. unfold scalv_io, scalv_opt. cbv zeta.
  set (R := fun (ms' : mems) (a : Z) (b : qarr * Z) => (exists m', ms' = SpecPar.set_nth ms s m' /\ quats m' (shiftp (fst b) (- o))) /\ a = snd b).
  assert (Ls := nth_len _ _ _ Em).
  apply (sim_bind R).
  - apply sim_for; [split; [exists m; rewrite (set_same _ _ _ Em); auto|reflexivity]|]. intros i a ms' [x0 l] ((m' & -> & Q) & ->). cbn [fst snd] in *.
    eapply sim_bind; [apply (sim_vget_at _ _ _ _ _ _ m'); [apply nth_set_nth_eq; exact Ls|exact Q]|two].
    eapply sim_bind; [apply (sim_vput_at _ _ _ _ _ _ _ m'); [apply nth_set_nth_eq; exact Ls|exact Q]|]. intros ? ms' x2 (m2 & -> & Q2). rewrite set_set. apply sim_ret. split; [exists m2; auto|reflexivity].
  - intros a ms' [x0 l] ((m' & -> & Q) & ->). apply sim_ret. exists m'. auto.
Qed.
Lemma sim_axpyv side n alpha xa ox incx ya oy incy mx my (x y : qarr) : quats mx (shiftp x (- ox)) -> quats my (shiftp y (- oy)) ->
  sim (fun ms' _ b => exists my', ms' = [mx; my'] /\ quats my' (shiftp b (- oy))) (axpyv_io side n alpha xa ox incx ya oy incy) [mx; my] (axpyv_opt side n alpha xa x incx ya y incy).
Proof.
  intros Hx Hy. unfold axpyv_io, axpyv_opt. cbv zeta.
  set (R := fun (ms' : mems) (a : Z * Z) (b : qarr * Z * Z) => (exists my', ms' = [mx; my'] /\ quats my' (shiftp (fst (fst b)) (- oy))) /\ a = (snd (fst b), snd b)).
  apply (sim_bind R).
  - apply sim_for; [split; [exists my; auto|reflexivity]|]. intros i a ms' [[y0 lx] ly] ((my' & -> & Q) & ->). cbn [fst snd] in *.
    eapply sim_bind; [apply (sim_vget_at _ _ _ _ _ _ mx); [reflexivity|exact Hx]|two].
    eapply sim_bind; [apply (sim_vget_at _ _ _ _ _ _ my'); [reflexivity|exact Q]|two].
    eapply sim_bind; [apply (sim_vput_at _ _ _ _ _ _ _ my'); [reflexivity|exact Q]|]. intros ? ms' y2 (m2 & -> & Q2). cbn [SpecPar.set_nth]. apply sim_ret. split; [exists m2; auto|reflexivity].
  - intros a ms' [[y0 lx] ly] ((m' & -> & Q) & ->). apply sim_ret. exists m'. auto.
Qed.
Lemma sim_dot cnj n xa incx ya incy mx my (x y : qarr) : quats mx x -> quats my y ->
  sim (fun ms' a b => ms' = [mx; my] /\ a = b) (dot_io cnj n xa incx ya incy) [mx; my] (dot_opt cnj n xa x incx ya y incy).
Proof.
  intros Hx Hy. unfold dot_io, dot_opt. cbv zeta.
  apply (sim_bind (fun ms' a b => ms' = [mx; my] /\ a = b)).
  - apply sim_for; [auto|]. intros i a ms [[r lx] ly] [-> ->].
    do 4 (eapply sim_bind; [apply (sim_vget _ _ _ _ _ mx); [reflexivity|exact Hx]|two]). do 4 (eapply sim_bind; [apply (sim_vget _ _ _ _ _ my); [reflexivity|exact Hy]|two]).
    apply sim_ret. auto.
  - intros a ms [[r lx] ly] [-> ->]. apply (sim_bind (fun ms' a b => ms' = [mx; my] /\ a = b)).
    + apply sim_for; [auto|]. intros i a ms b [-> ->]. eapply sim_bind; [apply (sim_vget _ _ _ _ _ mx); [reflexivity|exact Hx]|two]. eapply sim_bind; [apply (sim_vget _ _ _ _ _ my); [reflexivity|exact Hy]|two]. apply sim_ret. auto.
    + intros a ms b [-> ->]. apply sim_ret. auto.
Qed.
Lemma sim_assert (b : bool) (ms : mems) : sim (fun ms' (_ _ : unit) => ms' = ms) (lift (assertb b)) ms (assertb b).
Proof. apply sim_lift. auto. Qed.
Lemma sim_scalm side transa m n alpha aa s lda inca ms ma (a : qarr) : nth_error ms s = Some ma -> quats ma a ->
  sim (fun ms' _ b => exists m', ms' = SpecPar.set_nth ms s m' /\ quats m' b) (scalm_io side transa m n alpha aa s lda inca) ms (scalm_avx side transa m n alpha aa a lda inca).
Proof.
  intros Em Ha. unfold scalm_io, scalm_avx, scalm. assert (Ls := nth_len _ _ _ Em). destruct ((n <=? 0) || (m <=? 0) || (inca <=? 0)); [apply sim_ret; exists ma; rewrite (set_same _ _ _ Em); auto|].
  eapply sim_bind; [apply sim_assert|]. intros _ ? _ ->.
  set (R := fun (ms' : mems) (a : Z) (b : qarr * Z) => (exists m', ms' = SpecPar.set_nth ms s m' /\ quats m' (fst b)) /\ a = snd b).
  apply (sim_bind R).
  - apply sim_for; [split; [exists ma; rewrite (set_same _ _ _ Em); auto|reflexivity]|]. intros i l ms' [a0 l0] ((m' & -> & Q) & ->). cbn [fst snd] in *.
    eapply sim_bind; [apply (sim_scalv _ _ _ _ _ _ _ _ m'); [apply nth_set_nth_eq; exact Ls|apply (proj1 (quats_shift _ _ _) Q)]|]. intros ? ms' x2 (m2 & -> & Q2). rewrite set_set. apply sim_ret. split; [exists m2; auto|reflexivity].
  - intros l ms' [a0 l0] ((m' & -> & Q) & ->). apply sim_ret. exists m'. auto.
Qed.
Lemma sim_axpym side transa m n alpha aa lda inca ba ldb incb ma mb (a b : qarr) : quats ma a -> quats mb b ->
  sim (fun ms' _ b' => exists m', ms' = [ma; m'] /\ quats m' b') (axpym_io side transa m n alpha aa lda inca ba ldb incb) [ma; mb] (axpym_avx side transa m n alpha aa a lda inca ba b ldb incb).
Proof.
  intros Ha Hb. unfold axpym_io, axpym_avx, axpym. destruct ((n <=? 0) || (m <=? 0)); [apply sim_ret; exists mb; auto|]. destruct (s_eqb alpha n0); [apply sim_ret; exists mb; auto|].
  eapply sim_bind; [apply sim_assert|]. intros _ ? _ ->.
  set (R := fun (ms' : mems) (a : Z * Z) (b : qarr * Z * Z) => (exists m', ms' = [ma; m'] /\ quats m' (fst (fst b))) /\ a = (snd (fst b), snd b)).
  apply (sim_bind R).
  - apply sim_for; [split; [exists mb; auto|reflexivity]|]. intros i l ms' [[b0 la] lb] ((m' & -> & Q) & ->). cbn [fst snd] in *.
    eapply sim_bind; [apply sim_axpyv; [apply (proj1 (quats_shift _ _ _) Ha)|apply (proj1 (quats_shift _ _ _) Q)]|]. intros ? ms' x2 (m2 & -> & Q2). apply sim_ret. split; [exists m2; auto|reflexivity].
  - intros l ms' [[b0 la] lb] ((m' & -> & Q) & ->). apply sim_ret. exists m'. auto.
Qed.

(** ** the optimised GEMM *)
Lemma sim_pack_loop o cnj alpha cnt inc x p1 p2 pos buf (ms : mems) m (q : qarr) : nth_error ms x = Some m -> quats m q ->
  sim (fun ms' a b => ms' = ms /\ a = b) (pack_loop_io o cnj alpha cnt inc x p1 p2 pos buf) ms (pack_loop o cnj alpha cnt inc q p1 p2 pos buf).
Proof.
  intros Em Hq. unfold pack_loop_io, pack_loop. apply (sim_bind (fun ms' a b => ms' = ms /\ a = b)).
  - apply sim_for; [auto|]. intros i a ms' [[[u1 u2] ps] bf] [-> ->]. eapply sim_bind; [apply (sim_vget _ _ _ _ _ m); [exact Em|exact Hq]|two].
    apply (sim_bind (fun ms' a b => ms' = ms /\ a = b)); [destruct u2; [apply (sim_vget _ _ _ _ _ m); [exact Em|exact Hq]|apply sim_ret; auto]|two].
    destruct (packOP o _ _) as [t1 t2]. apply (sim_bind (fun ms' a b => ms' = ms /\ a = b)); [apply sim_lift; auto|two]. apply (sim_bind (fun ms' a b => ms' = ms /\ a = b)); [apply sim_lift; auto|two]. apply sim_ret. auto.
  - intros a ms' [[[u1 u2] ps] bf] [-> ->]. apply sim_ret. auto.
Qed.
Lemma sim_tpack o cnj alpha m n x x0 ldx buf (ms : mems) mx (q : qarr) : nth_error ms x = Some mx -> quats mx q ->
  sim (fun ms' a b => ms' = ms /\ a = b) (tpack_io o cnj alpha m n x x0 ldx buf) ms (tpack o cnj alpha m n q x0 ldx buf).
Proof.
  intros Em Hq. unfold tpack_io, tpack. apply (sim_bind (fun ms' a b => ms' = ms /\ a = b)).
  - apply sim_for; [auto|]. intros i a ms' [[xb ps] bf] [-> ->]. eapply sim_bind; [apply (sim_pack_loop _ _ _ _ _ _ _ _ _ _ _ mx); [exact Em|exact Hq]|two]. destruct b as [p1 b1]. apply sim_ret. auto.
  - intros a ms' [[xb ps] bf] [-> ->]. cbv zeta. destruct (Z.rem n 2 =? 0); [apply sim_ret; auto|]. eapply sim_bind; [apply sim_assert|]. intros _ ? _ ->.
    eapply sim_bind; [apply (sim_pack_loop _ _ _ _ _ _ _ _ _ _ _ mx); [exact Em|exact Hq]|two]. destruct b as [p1 b1]. apply sim_ret. auto.
Qed.
Lemma sim_npack o cnj alpha m n x x0 ldx buf (ms : mems) mx (q : qarr) : nth_error ms x = Some mx -> quats mx q ->
  sim (fun ms' a b => ms' = ms /\ a = b) (npack_io o cnj alpha m n x x0 ldx buf) ms (npack o cnj alpha m n q x0 ldx buf).
Proof.
  intros Em Hq. unfold npack_io, npack. apply (sim_bind (fun ms' a b => ms' = ms /\ a = b)).
  - apply sim_for; [auto|]. intros i a ms' [[xb ps] bf] [-> ->]. eapply sim_bind; [apply (sim_pack_loop _ _ _ _ _ _ _ _ _ _ _ mx); [exact Em|exact Hq]|two]. destruct b as [p1 b1]. apply sim_ret. auto.
  - intros a ms' [[xb ps] bf] [-> ->]. cbv zeta. destruct (Z.rem m 2 =? 0); [apply sim_ret; auto|]. eapply sim_bind; [apply sim_assert|]. intros _ ? _ ->.
    eapply sim_bind; [apply (sim_pack_loop _ _ _ _ _ _ _ _ _ _ _ mx); [exact Em|exact Hq]|two]. destruct b as [p1 b1]. apply sim_ret. auto.
Qed.
Section G.
Variables (ma mb : arr K) (a b : qarr).
Hypotheses (Ha : quats ma a) (Hb : quats mb b).
Lemma sim_apack t al nI nK Ai lda buf mc : sim (fun ms' a b => ms' = [ma; mb; mc] /\ a = b) (apack_call_io t al nI nK Ai lda buf) [ma; mb; mc] (apack_call t al nI nK a Ai lda buf).
Proof. unfold apack_call_io, apack_call. destruct (Ascii.eqb t "T"), (Ascii.eqb t "C"), (Ascii.eqb t "R"); lazymatch goal with |- sim _ (tpack_io _ _ _ _ _ _ _ _ _) _ _ => apply (sim_tpack _ _ _ _ _ _ _ _ _ _ ma) | |- _ => apply (sim_npack _ _ _ _ _ _ _ _ _ _ ma) end; auto. Qed.
Lemma sim_bpack t al nJ nK Bp ldb buf mc : sim (fun ms' a b => ms' = [ma; mb; mc] /\ a = b) (bpack_call_io t al nJ nK Bp ldb buf) [ma; mb; mc] (bpack_call t al nJ nK b Bp ldb buf).
Proof. unfold bpack_call_io, bpack_call. destruct (Ascii.eqb t "T"), (Ascii.eqb t "C"), (Ascii.eqb t "R"); lazymatch goal with |- sim _ (tpack_io _ _ _ _ _ _ _ _ _) _ _ => apply (sim_tpack _ _ _ _ _ _ _ _ _ _ mb) | |- _ => apply (sim_npack _ _ _ _ _ _ _ _ _ _ mb) end; auto. Qed.
Local Notation RC := (fun ms' (_ : unit) (c' : qarr) => exists mc', ms' = [ma; mb; mc'] /\ quats mc' c').
Lemma sim_put3 (cb : bool) e v mc (c : qarr) : quats mc c -> sim RC (if cb then vput false 0 2 e v else Ret tt) [ma; mb; mc] (if cb then vst false 0 c e v else Ok c).
Proof.
  intros Hc. destruct cb; [|apply sim_ret; exists mc; auto]. eapply sim_mono; [apply (sim_vput _ _ _ _ _ _ mc); [reflexivity|exact Hc]|]. intros ms u c' (m' & -> & Q). exists m'. auto.
Qed.
Lemma sim_get3 (cb : bool) e mc (c : qarr) : quats mc c -> sim (fun ms' a b => ms' = [ma; mb; mc] /\ a = b) (if cb then vget false 0 2 e else Ret mm256_zero) [ma; mb; mc] (if cb then vld false 0 c e else Ok mm256_zero).
Proof. intros Hc. destruct cb; [|apply sim_ret; auto]. apply (sim_vget _ _ _ _ _ mc); auto. Qed.
Lemma sim_kern m n k aa ap oa ba bp ob oc ldc mc (c : qarr) : quats mc c ->
  sim RC (kern_io m n k aa ap oa ba bp ob oc ldc) [ma; mb; mc] (kern m n k aa ap oa ba bp ob c oc ldc).
Proof.
  intros Hc. unfold kern_io, kern. cbv zeta. eapply sim_bind; [apply (sim_get3 true _ mc); exact Hc|two]. do 3 (eapply sim_bind; [apply (sim_get3 _ _ mc); exact Hc|two]).
  apply (sim_bind (fun ms' a b => ms' = [ma; mb; mc] /\ a = b)); [apply sim_lift; auto|]. intros ? ? [[r lA] lB] [-> ->].
  eapply sim_bind; [apply (sim_put3 true _ _ mc); exact Hc|]. intros ? ? c1 (mc1 & -> & Q1).
  eapply sim_bind; [apply (sim_put3 _ _ _ mc1); exact Q1|]. intros ? ? c2 (mc2 & -> & Q2).
  eapply sim_bind; [apply (sim_put3 _ _ _ mc2); exact Q2|]. intros ? ? c3 (mc3 & -> & Q3). apply (sim_put3 _ _ _ mc3 c3 Q3).
Qed.
Lemma sim_tiles nI nJ nK aa ap ba bp Ci ldc mc (c : qarr) : quats mc c ->
  sim RC (gemm_tiles_io nI nJ nK aa ap ba bp Ci ldc) [ma; mb; mc] (gemm_tiles nI nJ nK aa ap ba bp c Ci ldc).
Proof.
  intros Hc. unfold gemm_tiles_io, gemm_tiles.
  set (R := fun (ms' : mems) (u : Z * Z) (v : qarr * Z * Z) => (exists m', ms' = [ma; mb; m'] /\ quats m' (fst (fst v))) /\ u = (snd (fst v), snd v)).
  apply (sim_bind R).
  - apply sim_forstep; [split; [exists mc; auto|reflexivity]|]. intros jj ? ? [[c1 BL] CB] ((m1 & -> & Q1) & ->). cbn [fst snd] in *. cbv zeta. apply (sim_bind R).
    + apply sim_forstep; [split; [exists m1; auto|reflexivity]|]. intros ii ? ? [[c2 sA] sC] ((m2 & -> & Q2) & ->). cbn [fst snd] in *. eapply sim_bind; [apply sim_kern; exact Q2|]. intros ? ? c3 (m3 & -> & Q3). apply sim_ret. split; [exists m3; auto|reflexivity].
    + intros ? ? [[c2 sA] sC] ((m2 & -> & Q2) & ->). apply sim_ret. split; [exists m2; auto|reflexivity].
  - intros ? ? [[c1 BL] CB] ((m1 & -> & Q1) & ->). apply sim_ret. exists m1. auto.
Qed.
Lemma sim_mc mcb ta m alA nJ nK Ap lda aa ap ba bp Cj ldc mc (c : qarr) : quats mc c ->
  sim (fun ms' u v => (exists m', ms' = [ma; mb; m'] /\ quats m' (fst v)) /\ u = snd v) (gemm_mc_io mcb ta m alA nJ nK Ap lda aa ap ba bp Cj ldc) [ma; mb; mc] (gemm_mc mcb ta m alA nJ nK a Ap lda aa ap ba bp c Cj ldc).
Proof.
  intros Hc. unfold gemm_mc_io, gemm_mc.
  set (R := fun (ms' : mems) (u : qarr * Z * Z) (v : qarr * qarr * Z * Z) => (exists m', ms' = [ma; mb; m'] /\ quats m' (fst (fst (fst v)))) /\ u = (snd (fst (fst v)), snd (fst v), snd v)).
  apply (sim_bind R).
  - apply sim_forstep; [split; [exists mc; auto|reflexivity]|]. intros i ? ? [[[c1 p1] Ai] Ci] ((m1 & -> & Q1) & ->). cbn [fst snd] in *. cbv zeta. eapply sim_bind; [apply sim_apack|two].
    eapply sim_bind; [apply sim_tiles; exact Q1|]. intros ? ? c3 (m3 & -> & Q3). apply sim_ret. split; [exists m3; auto|reflexivity].
  - intros ? ? [[[c1 p1] Ai] Ci] ((m1 & -> & Q1) & ->). apply sim_ret. split; [exists m1; auto|reflexivity].
Qed.
Lemma sim_kc mcb kcb ta tb m k alA alB nJ lda Bj ldb aa ap ba bp Cj ldc mc (c : qarr) : quats mc c ->
  sim (fun ms' u v => (exists m', ms' = [ma; mb; m'] /\ quats m' (fst (fst v))) /\ u = (snd (fst v), snd v)) (gemm_kc_io mcb kcb ta tb m k alA alB nJ lda Bj ldb aa ap ba bp Cj ldc) [ma; mb; mc]
    (gemm_kc mcb kcb ta tb m k alA alB nJ a lda b Bj ldb aa ap ba bp c Cj ldc).
Proof.
  intros Hc. unfold gemm_kc_io, gemm_kc.
  set (R := fun (ms' : mems) (u : qarr * qarr * Z * Z) (v : qarr * qarr * qarr * Z * Z) => (exists m', ms' = [ma; mb; m'] /\ quats m' (fst (fst (fst (fst v))))) /\ u = (snd (fst (fst (fst v))), snd (fst (fst v)), snd (fst v), snd v)).
  apply (sim_bind R).
  - apply sim_forstep; [split; [exists mc; auto|reflexivity]|]. intros i ? ? [[[[c1 p1] p2] A1] B1] ((m1 & -> & Q1) & ->). cbn [fst snd] in *. cbv zeta. eapply sim_bind; [apply sim_bpack|two].
    eapply sim_bind; [apply sim_mc; exact Q1|]. intros ? ? [c3 p3] ((m3 & -> & Q3) & ->). cbn [fst snd] in *. apply sim_ret. split; [exists m3; auto|reflexivity].
  - intros ? ? [[[[c1 p1] p2] A1] B1] ((m1 & -> & Q1) & ->). apply sim_ret. split; [exists m1; auto|reflexivity].
Qed.
Lemma sim_nc mcb ncb kcb ta tb m n k alA alB lda ldb aa ap ba bp ldc mc (c : qarr) : quats mc c ->
  sim RC (gemm_nc_io mcb ncb kcb ta tb m n k alA alB lda ldb aa ap ba bp ldc) [ma; mb; mc] (gemm_nc mcb ncb kcb ta tb m n k alA alB a lda b ldb aa ap ba bp c ldc).
Proof.
  intros Hc. unfold gemm_nc_io, gemm_nc.
  set (R := fun (ms' : mems) (u : qarr * qarr * Z * Z) (v : qarr * qarr * qarr * Z * Z) => (exists m', ms' = [ma; mb; m'] /\ quats m' (fst (fst (fst (fst v))))) /\ u = (snd (fst (fst (fst v))), snd (fst (fst v)), snd (fst v), snd v)).
  apply (sim_bind R).
  - apply sim_forstep; [split; [exists mc; auto|reflexivity]|]. intros i ? ? [[[[c1 p1] p2] A1] B1] ((m1 & -> & Q1) & ->). cbn [fst snd] in *. cbv zeta.
    eapply sim_bind; [apply sim_kc; exact Q1|]. intros ? ? [[c3 p3] p4] ((m3 & -> & Q3) & ->). cbn [fst snd] in *. apply sim_ret. split; [exists m3; auto|reflexivity].
  - intros ? ? [[[[c1 p1] p2] A1] B1] ((m1 & -> & Q1) & ->). apply sim_ret. exists m1; auto.
Qed.
Lemma sim_gemm mcb ncb kcb aa ba ga gb ta tb m n k alpha lda ldb beta ca ldc mc (c : qarr) : quats mc c ->
  sim RC (gemm_io mcb ncb kcb aa ba ga gb ta tb m n k alpha lda ldb beta ca ldc) [ma; mb; mc] (gemm_opt mcb ncb kcb aa ba ga gb ta tb m n k alpha a lda b ldb beta ca c ldc).
Proof.
  intros Hc. unfold gemm_io, gemm_opt, gemm_opt_at. cbv zeta. eapply sim_bind; [apply (sim_scalm _ _ _ _ _ _ _ _ _ _ mc); [reflexivity|exact Hc]|]. intros ? ? c1 (m1 & -> & Q1). cbn [SpecPar.set_nth]. apply sim_nc. exact Q1.
Qed.
End G.

(** ** which arguments are written *)
Lemma puts_vget wr al ad x e : puts_in wr (vget (K := K) al ad x e).
Proof. unfold vget. destruct (_ && _); cbn [puts_in]; auto. Qed.
Lemma puts_vput (wr : nat -> bool) al ad x e (v : m256 K) : wr x = true -> puts_in wr (vput al ad x e v).
Proof. intros H. unfold vput. destruct (_ && _); cbn [puts_in]; auto. Qed.
Ltac puts := repeat first
  [ exact I | assumption | apply puts_vget | apply puts_vput; assumption | apply puts_lift
  | match goal with |- puts_in _ (iobind _ _) => apply puts_bind; [|intros ?] end
  | match goal with |- puts_in _ (iofor _ _ _ _) => unfold iofor end
  | match goal with |- puts_in _ (ioforstep _ _ _ _ _) => unfold ioforstep, iofor end
  | match goal with |- puts_in _ (ioloop _ _ _ _) => apply puts_loop; intros ? ? end
  | match goal with p : (_ * _)%type |- _ => destruct p end
  | match goal with |- puts_in _ (if ?c then _ else _) => destruct c end
  | match goal with |- puts_in _ (match ?c with Some _ => _ | None => _ end) => destruct c end
  | match goal with |- puts_in _ (let '(_, _) := ?c in _) => destruct c end ].
Lemma puts_swapv (wr : nat -> bool) n xa incx ya incy : wr 0%nat = true -> wr 1%nat = true -> puts_in wr (swapv_io (K := K) n xa incx ya incy).
Proof. intros. unfold swapv_io. cbv zeta. puts. Qed.
Lemma puts_copyv (wr : nat -> bool) n xa incx ya incy : wr 1%nat = true -> puts_in wr (copyv_io (K := K) n xa incx ya incy).
Proof. intros. unfold copyv_io. cbv zeta. puts. Qed.
Lemma puts_scalv (wr : nat -> bool) side n alpha xa s o incx : wr s = true -> puts_in wr (scalv_io (K := K) side n alpha xa s o incx).
Proof. intros. unfold scalv_io. cbv zeta. puts. Qed.
Lemma puts_axpyv (wr : nat -> bool) side n alpha xa ox incx ya oy incy : wr 1%nat = true -> puts_in wr (axpyv_io (K := K) side n alpha xa ox incx ya oy incy).
Proof. intros. unfold axpyv_io. cbv zeta. puts. Qed.
Lemma puts_dot wr cj n xa incx ya incy : puts_in wr (dot_io (K := K) cj n xa incx ya incy).
Proof. unfold dot_io. cbv zeta. puts. Qed.
Lemma puts_scalm (wr : nat -> bool) side t m n alpha aa s lda inca : wr s = true -> puts_in wr (scalm_io (K := K) side t m n alpha aa s lda inca).
Proof. intros. unfold scalm_io. puts. apply puts_scalv; assumption. Qed.
Lemma puts_axpym (wr : nat -> bool) side t m n alpha aa lda inca ba ldb incb : wr 1%nat = true -> puts_in wr (axpym_io (K := K) side t m n alpha aa lda inca ba ldb incb).
Proof. intros. unfold axpym_io. puts. apply puts_axpyv; assumption. Qed.
Lemma puts_pack_loop wr o cnj alpha cnt inc x p1 p2 pos buf : puts_in wr (pack_loop_io (K := K) o cnj alpha cnt inc x p1 p2 pos buf).
Proof. unfold pack_loop_io. puts. Qed.
Lemma puts_tpack wr o cnj alpha m n x x0 ldx buf : puts_in wr (tpack_io (K := K) o cnj alpha m n x x0 ldx buf).
Proof. unfold tpack_io. cbv zeta. puts; apply puts_pack_loop. Qed.
Lemma puts_npack wr o cnj alpha m n x x0 ldx buf : puts_in wr (npack_io (K := K) o cnj alpha m n x x0 ldx buf).
Proof. unfold npack_io. cbv zeta. puts; apply puts_pack_loop. Qed.
Lemma puts_kern (wr : nat -> bool) m n k aa ap oa ba bp ob oc ldc : wr 2%nat = true -> puts_in wr (kern_io (K := K) m n k aa ap oa ba bp ob oc ldc).
Proof. intros. unfold kern_io. cbv zeta. puts. Qed.
Lemma puts_gemm (wr : nat -> bool) mcb ncb kcb aa ba ga gb ta tb m n k alpha lda ldb beta ca ldc : wr 2%nat = true -> puts_in wr (gemm_io (K := K) mcb ncb kcb aa ba ga gb ta tb m n k alpha lda ldb beta ca ldc).
Proof.
  intros W. unfold gemm_io, gemm_nc_io, gemm_kc_io, gemm_mc_io, gemm_tiles_io. cbv zeta.
  assert (PA : forall t al nI nK Ai l buf, puts_in wr (apack_call_io (K := K) t al nI nK Ai l buf)) by (intros; unfold apack_call_io; repeat match goal with |- context [if ?b then _ else _] => destruct b end; match goal with |- puts_in _ (tpack_io _ _ _ _ _ _ _ _ _) => apply puts_tpack | |- _ => apply puts_npack end).
  assert (PB : forall t al nI nK Ai l buf, puts_in wr (bpack_call_io (K := K) t al nI nK Ai l buf)) by (intros; unfold bpack_call_io; repeat match goal with |- context [if ?b then _ else _] => destruct b end; match goal with |- puts_in _ (tpack_io _ _ _ _ _ _ _ _ _) => apply puts_tpack | |- _ => apply puts_npack end).
  puts; first [apply puts_scalm; exact W|apply PA|apply PB|apply puts_kern; exact W].
Qed.
End O.
