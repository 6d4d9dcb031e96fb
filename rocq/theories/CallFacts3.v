(** In any arithmetic: each public call, run alone on exactly the cells it owns, ends with determined results; hence also together with others. *)
From Coq Require Import ZArith Lia Bool Ascii String List.
From Verif Require Import Num Res ResFacts Spec SpecFacts MQuat MSimd MGenL1 VecFacts L1Facts L1Facts2 L1Facts3 MSimd MOptL1 MGenM MOptGemm MForL1 MForL2 MForL3 FSyntax FParse FSem FIo FIoFacts FProg MSrc SpecPar ParFacts ParGen SpecCalls SpecCalls2 MPar MCalls
  MIoOpt IoOptFacts MCalls2 ParText CallFacts CallFacts2 PropsL1 PropsSrc OptGemmTop ErrFacts3 RawL1 RawL2 RawL3 BlockFacts.
Import ListNotations.
Local Open Scope Z_scope.

Section F.
Context {K : num}.
Local Notation mem := (arr K).
Local Notation R := (option (quat K)).
(** the postcondition leaves no choice *)
Definition functional (P : R -> mem -> Prop) (W : Z -> Prop) : Prop := forall r1 r2 M1 M2, P r1 M1 -> P r2 M2 -> r1 = r2 /\ forall z, W z -> M1 z = M2 z.
Definition det (M : mem) (e : bufs K) (c : pcall K) : Prop := exists P, behaves M (Task (pthread e c) (preads c) (pwrites c) P) /\ functional P (pwrites c).
Lemma vec_fun p n inc f (M1 M2 : mem) : (forall i, 0 <= i < n -> quat_at M1 p (vpos n inc i) = Some (f i)) -> (forall i, 0 <= i < n -> quat_at M2 p (vpos n inc i) = Some (f i)) ->
  forall z, vec_cells p n inc z -> M1 z = M2 z.
Proof. intros A B z (i & t & Hi & Ht & ->). rewrite (quat_cell M1 p _ _ t (A i Hi) Ht), (quat_cell M2 p _ _ t (B i Hi) Ht). reflexivity. Qed.
Lemma mat_fun p ld m n f (M1 M2 : mem) : (forall i j, 0 <= i < m -> 0 <= j < n -> quat_at M1 p (i + j * ld) = Some (f i j)) -> (forall i j, 0 <= i < m -> 0 <= j < n -> quat_at M2 p (i + j * ld) = Some (f i j)) ->
  forall z, mat_cells p ld m n z -> M1 z = M2 z.
Proof. intros A B z (i & j & t & Hi & Hj & Ht & ->). rewrite (quat_cell M1 p _ _ t (A i j Hi Hj) Ht), (quat_cell M2 p _ _ t (B i j Hi Hj) Ht). reflexivity. Qed.
Lemma imat_fun p ld inc m n f (M1 M2 : mem) : (forall i j, 0 <= i < m -> 0 <= j < n -> quat_at M1 p (i * inc + j * ld) = Some (f i j)) -> (forall i j, 0 <= i < m -> 0 <= j < n -> quat_at M2 p (i * inc + j * ld) = Some (f i j)) ->
  forall z, imat_cells p ld inc m n z -> M1 z = M2 z.
Proof. intros A B z (i & j & t & Hi & Hj & Ht & ->). rewrite (quat_cell M1 p _ _ t (A i j Hi Hj) Ht), (quat_cell M2 p _ _ t (B i j Hi Hj) Ht). reflexivity. Qed.
Definition pvec p n inc (f : Z -> quat K) : R -> mem -> Prop := fun r M' => r = None /\ forall i, 0 <= i < n -> quat_at M' p (vpos n inc i) = Some (f i).
Definition pmat p ld m n (f : Z -> Z -> quat K) : R -> mem -> Prop := fun r M' => r = None /\ forall i j, 0 <= i < m -> 0 <= j < n -> quat_at M' p (i + j * ld) = Some (f i j).
Definition pimat p ld inc m n (f : Z -> Z -> quat K) : R -> mem -> Prop := fun r M' => r = None /\ forall i j, 0 <= i < m -> 0 <= j < n -> quat_at M' p (i * inc + j * ld) = Some (f i j).
Lemma pvec_fun p n inc f : functional (pvec p n inc f) (vec_cells p n inc).
Proof. intros r1 r2 M1 M2 (-> & A) (-> & B). split; [reflexivity|]. apply (vec_fun p n inc f); assumption. Qed.
Lemma pmat_fun p ld m n f : functional (pmat p ld m n f) (mat_cells p ld m n).
Proof. intros r1 r2 M1 M2 (-> & A) (-> & B). split; [reflexivity|]. apply (mat_fun p ld m n f); assumption. Qed.
Lemma pimat_fun p ld inc m n f : functional (pimat p ld inc m n f) (imat_cells p ld inc m n).
Proof. intros r1 r2 M1 M2 (-> & A) (-> & B). split; [reflexivity|]. apply (imat_fun p ld inc m n f); assumption. Qed.
(** the calls of Fortran texts *)
Definition call_okP (M : mem) (c : hcall K) (P : mem -> Prop) : Prop := exists ys mem,
  In (t_name (tcall_of c), t_src (tcall_of c), t_out (tcall_of c), t_pos (tcall_of c)) kernels /\
  Forall2 (part_of M) (t_args (tcall_of c)) ys /\ fcall (t_name (tcall_of c)) (t_src (tcall_of c)) ys (t_out (tcall_of c)) = Ok mem /\
  (forall n z, uses (tcall_of c) ys n z -> (n = t_pos (tcall_of c) -> writes c z) /\ (n <> t_pos (tcall_of c) -> reads c z)) /\
  (forall M', (forall a q v, nth_error (t_args (tcall_of c)) (t_pos (tcall_of c)) = Some (FPtr a) -> mem q = Some v -> M' (a + q) = Some v) -> P M').
Lemma behaves_textP M (c : hcall K) P k : call_okP M c P -> k_th k = text c -> (forall z, writes c z -> k_writes k z) -> (forall z, reads c z -> k_reads k z) ->
  (forall M', P M' -> k_post k None M') -> behaves M k.
Proof.
  intros (ys & mm & E2 & E3 & E4 & E5 & E6) Et Hw Hr Hp. destruct (job_of M _ _ _ E2 E3 E4) as (j & O1). assert (St := ok_start _ _ _ _ _ O1). fold (hthread c) in St.
  assert (O2 := O1). destruct O1 as [p o out Ej Ep Epos Nd On Er Em Pt].
  exists (j_arrs j), (j_wr j), None, out. rewrite Et. unfold text. cbn [SpecPar.code base]. rewrite <- St. cbn [start SpecPar.code base].
  refine (conj _ (conj _ (conj _ (conj _ (conj _ _))))).
  - apply (noret_alone _ _ _ tt). exact Er.
  - apply noret_puts. subst j. cbn [call_job j_code j_wr]. apply puts_prog. exact On.
  - intros x m q v E Ev.
    subst j. cbn [call_job j_arrs j_base] in *. destruct (bind_arrs_at _ _ _ _ _ E) as [(n & En & Ey)|En].
    + destruct (F2_nth _ _ _ _ _ Pt Ey) as (u & Eu & Pu). destruct u as [|a]; [contradiction|]. cbn [part_of] in Pu. rewrite (slot_base_at _ _ _ _ _ Nd En Eu). apply Pu. exact Ev.
    + exfalso. unfold none_arrs in En. apply nth_error_In in En. apply in_map_iff in En. destruct En as (d & <- & _). discriminate.
  - intros x m q E Nq. assert (Fz : foot j x (j_base j x + q)) by (exists m, q; auto). destruct (foot_uses _ _ _ _ _ _ _ O2 Fz) as (n & U & Un & Un2). destruct (E5 _ _ U) as [W Rd].
    destruct (j_wr j x) eqn:Wx; [apply Hw, W, Un; reflexivity|apply Hr, Rd]. intros En. specialize (Un2 En). discriminate.
  - intros x y m m' q q' N Wx Wy. exfalso. subst j. cbn [call_job j_wr] in Wx, Wy. apply Nat.eqb_eq in Wx. apply Nat.eqb_eq in Wy. congruence.
  - intros M' H. apply Hp, E6. intros a q v Ea Ev. assert (Eout : j_out j = out) by (subst j; reflexivity).
    apply (ok_base _ _ _ _ _ p q v a O2 Ea Ep (([], M') : conf K unit)); [cbn [snd]; rewrite Eout; exact H|exact Ev].
Qed.
(** SCALM and AXPYM return *)
Lemma scalm_ret c m n al aa (a : arr (quat K)) lda inca f : 0 < inca -> disjoint_mat lda inca m n -> holds_matinc a lda inca m n f ->
  exists a' f', scalm_avx c "N" m n al aa a lda inca = Ok a' /\ holds_matinc a' lda inca m n f'.
Proof.
  intros Hi Hd Ha. destruct (returns_ok _ _ (scalm_raw scalv_opt (scalq (Ascii.eqb c "L") al) c m n al aa a lda inca f (fun xa x v Hx => scalv_opt_raw _ c m al xa x inca v eq_refl Hi Hx) Hi Hd Ha)) as (a' & E & V & _). eauto.
Qed.
Lemma axpym_ret c m n al aa (a : arr (quat K)) lda inca ba b ldb incb f g : 0 < inca -> 0 < incb -> disjoint_mat ldb incb m n -> holds_matinc a lda inca m n f -> holds_matinc b ldb incb m n g ->
  exists b' f', axpym_avx c "N" m n al aa a lda inca ba b ldb incb = Ok b' /\ holds_matinc b' ldb incb m n f'.
Proof.
  intros Hia Hib Hd Ha Hb. unfold axpym_avx, axpym. destruct (_ || _) eqn:Eo; [exists b, g; auto|]. destruct (s_eqb al n0); [exists b, g; auto|]. cbn [assertb Ascii.eqb Bool.eqb bind].
  set (new := fun i j => q_of_v (axpy_step (Ascii.eqb c "L") al (v_of_q (f i j)) (v_of_q (g i j)))).
  assert (Hn : 0 <= n) by (apply orb_false_iff in Eo; destruct Eo as [E1 E2]; apply Z.leb_gt in E1; lia).
  match goal with |- exists b' f', ?t = _ /\ _ => assert (X : returns t (fun b' => holds_matinc b' ldb incb m n new)) end.
  { eapply returns_bind with (P := fun '(b', l, l') => is_matinc b b' ldb incb m n (cprog new g n) /\ l = n * lda /\ l' = n * ldb).
    - apply (zfor_inv (fun j '(b', l, l') => is_matinc b b' ldb incb m n (cprog new g j) /\ l = j * lda /\ l' = j * ldb)); [lia| |].
      + split; [apply is_matinc_init; auto|lia].
      + intros j [[b' l] l'] Hj (HI & -> & ->).
        eapply returns_bind.
        * apply (axpyv_opt_raw (Ascii.eqb c "L") c m al _ _ inca _ _ incb (fun i => f i j) (fun i => g i j) eq_refl Hia Hib).
          { intros i Hi. unfold shiftp. rewrite vpos_pos, Z.add_comm by auto. auto. }
          { apply (proj1 (col_step b b' b' ldb incb m n new g j Hd Hj Hib HI)). }
        * intros x' [Hx Hsx]. cbn [returns]. split; [|lia].
          apply (proj2 (col_step b b' x' ldb incb m n new g j Hd Hj Hib HI)); auto.
    - intros [[b' l] l'] [HI _]. apply is_matinc_done in HI. exact (proj1 HI). }
  destruct (returns_ok _ _ X) as (b' & E & V). eauto.
Qed.
Lemma dot_ret cj n xa (x : arr (quat K)) incx ya y incy v w : 0 < incx -> 0 < incy -> holds_vec x n incx v -> holds_vec y n incy w -> exists r, dot_opt cj n xa x incx ya y incy = Ok r.
Proof.
  intros Hi Hi' Hx Hy. destruct (Z_lt_le_dec n 0) as [Hneg|Hn]; [|eexists; apply (dot_opt_raw cj n xa x incx ya y incy v w); auto].
  unfold dot_opt. assert (Hq0 : Z.quot n 4 <= 0) by (replace n with (- - n) by lia; rewrite Z.quot_opp_l by lia; pose proof (Z.quot_pos (- n) 4); lia).
  pose proof (Z.rem_nonpos n 4 ltac:(lia) ltac:(lia)) as Hr0. rewrite zfor_none by lia. cbn [bind]. rewrite zfor_none by lia. cbn [bind]. eauto.
Qed.
End F.
Ltac unf := cbn [k_th k_reads k_writes k_post pthread SpecPar.code base preads pwrites].
Section G.
Context {K : num} (E00 : neqb (@n0 K) n0 = true).
Local Notation mem := (arr K).
Local Notation qv x := (AM (cells x)).
Local Notation i z := (AV (VI z)).
Local Notation ch c := (AV (VC c)).
Lemma det_swap M e n x incx y incy : ppre M (PSwap n x incx y incy) -> det (K := K) M e (PSwap n x incx y incy).
Proof.
  intros Hp. exists (ppost M (PSwap n x incx y incy)). split; [apply (bh_swap M e n x incx y incy Hp)|].
  intros r1 r2 M1 M2 (-> & A) (-> & B). split; [reflexivity|]. intros z [Hz|Hz].
  - apply (vec_fun x n incx (vec_at M y n incy) M1 M2 (fun k Hk => proj1 (A k Hk)) (fun k Hk => proj1 (B k Hk)) z Hz).
  - apply (vec_fun y n incy (vec_at M x n incx) M1 M2 (fun k Hk => proj2 (A k Hk)) (fun k Hk => proj2 (B k Hk)) z Hz).
Qed.
Lemma det_copy M e n x incx y incy : ppre M (PCopy n x incx y incy) -> det (K := K) M e (PCopy n x incx y incy).
Proof. intros Hp. exists (ppost M (PCopy n x incx y incy)). split; [apply (bh_copy M e n x incx y incy Hp)|apply (pvec_fun y n incy (vec_at M x n incx))]. Qed.
Lemma det_scal M e s n al x incx : ppre M (PScal s n al x incx) -> det (K := K) M e (PScal s n al x incx).
Proof.
  intros (_ & Hi & Hx). destruct (returns_ok _ _ (scalv_opt_raw _ s n al (8 * x) (rv M x n incx) incx _ eq_refl Hi (rv_holds _ _ _ _ Hx))) as (x' & E & Vx & _).
  destruct (sim_scalv s n al (8 * x) 0 0 incx [cells (rv M x n incx)] _ (rv M x n incx) eq_refl (proj1 (quats_shift0 _ _) (quats_cells _)) _ E) as (u & ms' & Ea & mx' & -> & Qx).
  eexists. split; [|apply (pvec_fun x n incx)].
  exists [cells (rv M x n incx)], (fun s => Nat.eqb s 0), None, [mx']. unf.
  refine (conj (noret_alone _ _ _ _ Ea) (conj _ (conj _ (conj _ (conj _ _))))).
  - apply noret_puts, puts_scalv; reflexivity.
  - part1.
  - foot1.
  - one_slot.
  - intros M' H. split; [reflexivity|]. intros k Hk. apply (back M' mx' x x'); [intros q v; apply (H 0%nat mx' q v eq_refl)|apply (proj2 (quats_shift0 _ _) Qx)|apply Vx; exact Hk].
Qed.
Lemma det_axpy M e s n al x incx y incy : ppre M (PAxpy s n al x incx y incy) -> det (K := K) M e (PAxpy s n al x incx y incy).
Proof.
  intros (_ & Hi & Hi' & Hx & Hy).
  destruct (returns_ok _ _ (axpyv_opt_raw _ s n al (8 * x) (rv M x n incx) incx (8 * y) (rv M y n incy) incy _ _ eq_refl Hi Hi' (rv_holds _ _ _ _ Hx) (rv_holds _ _ _ _ Hy))) as (y' & E & Vy & _).
  destruct (sim_axpyv s n al (8 * x) 0 incx (8 * y) 0 incy _ _ (rv M x n incx) (rv M y n incy) (proj1 (quats_shift0 _ _) (quats_cells _)) (proj1 (quats_shift0 _ _) (quats_cells _)) _ E) as (u & ms' & Ea & my' & -> & Qy).
  eexists. split; [|apply (pvec_fun y n incy)].
  exists [cells (rv M x n incx); cells (rv M y n incy)], (fun s => Nat.eqb s 1), None, [cells (rv M x n incx); my']. unf.
  refine (conj (noret_alone _ _ _ _ Ea) (conj _ (conj _ (conj _ (conj _ _))))).
  - apply noret_puts, puts_axpyv; reflexivity.
  - part1.
  - foot1.
  - one_slot.
  - intros M' H. split; [reflexivity|]. intros k Hk. apply (back M' my' y y'); [intros q v; apply (H 1%nat my' q v eq_refl)|apply (proj2 (quats_shift0 _ _) Qy)|apply Vy; exact Hk].
Qed.
Lemma det_dot M e cj n x incx y incy : ppre M (PDot cj n x incx y incy) -> det (K := K) M e (PDot cj n x incx y incy).
Proof.
  intros (Hi & Hi' & Hx & Hy). destruct (dot_ret cj n (8 * x) (rv M x n incx) incx (8 * y) (rv M y n incy) incy _ _ Hi Hi' (rv_holds _ _ _ _ Hx) (rv_holds _ _ _ _ Hy)) as (r & E).
  destruct (sim_dot cj n (8 * x) incx (8 * y) incy _ _ _ _ (quats_cells (rv M x n incx)) (quats_cells (rv M y n incy)) _ E) as (u & ms' & Ea & -> & ->).
  exists (fun r' _ => r' = Some r). split; [|intros r1 r2 M1 M2 -> ->; split; [reflexivity|contradiction]].
  eexists [cells (rv M x n incx); cells (rv M y n incy)], (fun s => false), _, [cells (rv M x n incx); cells (rv M y n incy)]. unf.
  refine (conj _ (conj _ (conj _ (conj _ (conj _ _))))).
  - rewrite alone_bind, Ea. reflexivity.
  - apply puts_bind; [apply puts_dot|intros; exact I].
  - part1.
  - foot1.
  - discriminate.
  - intros M' _. reflexivity.
Qed.
Lemma det_scalm M e s m n al a lda inca : ppre M (PScalm s m n al a lda inca) -> det (K := K) M e (PScalm s m n al a lda inca).
Proof.
  intros (_ & Hi & Hd & Ha). destruct (scalm_ret s m n al (8 * a) (ri M a lda inca m n) lda inca _ Hi Hd (ri_holds _ _ _ _ _ _ Ha)) as (x' & f' & E & Vx).
  destruct (sim_scalm s "N" m n al (8 * a) 0 lda inca [cells (ri M a lda inca m n)] _ (ri M a lda inca m n) eq_refl (quats_cells _) _ E) as (u & ms' & Ea & mx' & -> & Qx).
  eexists. split; [|apply (pimat_fun a lda inca m n f')].
  exists [cells (ri M a lda inca m n)], (fun s => Nat.eqb s 0), None, [mx']. unf.
  refine (conj (noret_alone _ _ _ _ Ea) (conj _ (conj _ (conj _ (conj _ _))))).
  - apply noret_puts, puts_scalm; reflexivity.
  - part1.
  - foot1.
  - one_slot.
  - intros M' H. split; [reflexivity|]. intros k j Hk Hj. apply (back M' mx' a x'); [intros q v; apply (H 0%nat mx' q v eq_refl)|exact Qx|apply (Vx k j Hk Hj)].
Qed.
Lemma det_axpym M e s m n al a lda inca b ldb incb : ppre M (PAxpym s m n al a lda inca b ldb incb) -> det (K := K) M e (PAxpym s m n al a lda inca b ldb incb).
Proof.
  intros (_ & Hi & Hi' & Hd & Ha & Hb & _).
  destruct (axpym_ret s m n al (8 * a) (ri M a lda inca m n) lda inca (8 * b) (ri M b ldb incb m n) ldb incb _ _ Hi Hi' Hd (ri_holds _ _ _ _ _ _ Ha) (ri_holds _ _ _ _ _ _ Hb)) as (x' & f' & E & Vx).
  destruct (sim_axpym s "N" m n al (8 * a) lda inca (8 * b) ldb incb _ _ _ _ (quats_cells (ri M a lda inca m n)) (quats_cells (ri M b ldb incb m n)) _ E) as (u & ms' & Ea & mx' & -> & Qx).
  eexists. split; [|apply (pimat_fun b ldb incb m n f')].
  exists [cells (ri M a lda inca m n); cells (ri M b ldb incb m n)], (fun s => Nat.eqb s 1), None, [cells (ri M a lda inca m n); mx']. unf.
  refine (conj (noret_alone _ _ _ _ Ea) (conj _ (conj _ (conj _ (conj _ _))))).
  - apply noret_puts, puts_axpym; reflexivity.
  - part1.
  - foot1.
  - one_slot.
  - intros M' H. split; [reflexivity|]. intros k j Hk Hj. apply (back M' mx' b x'); [intros q v; apply (H 1%nat mx' q v eq_refl)|exact Qx|apply (Vx k j Hk Hj)].
Qed.
Lemma det_gemm_opt M e ta tb m n k al pal a lda b ldb be pbe c ldc : aligned e -> pre M (KGemm ta tb m n k al pal a lda b ldb be pbe c ldc) ->
  exists P, functional P (writes (KGemm ta tb m n k al pal a lda b ldb be pbe c ldc)) /\
  behaves (V := K) M (Task (Thread (noret (gemm_io 64 512 64 (b_aa e) (b_ba e) (b_ga e) (b_gb e) ta tb m n k al lda ldb be (8 * c) ldc)) (at_ [a; b; c]))
    (reads (KGemm ta tb m n k al pal a lda b ldb be pbe c ldc)) (writes (KGemm ta tb m n k al pal a lda b ldb be pbe c ldc)) P).
Proof.
  intros (A1 & A2) (Ta & Tb & Hm & Hn & Hk & Hl & _ & _ & Ha & Hb & Hc). unfold reads, writes. unfold rows, cols in *. destruct (trans_char ta) as [oa|] eqn:Eta; [|contradiction]. destruct (trans_char tb) as [ob|] eqn:Etb; [|contradiction].
  destruct (returns_ok _ _ (gemm_opt_raw 64 512 64 (b_aa e) (b_ba e) (b_ga e) (b_gb e) ta tb oa ob m n k al (rm M a lda (op_rows oa m k) (op_cols oa m k)) lda (rm M b ldb (op_rows ob k n) (op_cols ob k n)) ldb be (8 * c) (rm M c ldc m n) ldc
    _ _ _ ltac:(lia) ltac:(lia) ltac:(lia) ltac:(vm_compute; discriminate) ltac:(vm_compute; discriminate) A1 A2 (dec_char _ _ (trans_r _ _ Eta)) (dec_char _ _ (trans_r _ _ Etb)) Hm Hn Hk Hl (rm_holds _ _ _ _ _ Ha) (rm_holds _ _ _ _ _ Hb) (rm_holds _ _ _ _ _ Hc))) as (c' & E & Vc & _).
  destruct (sim_gemm _ _ _ _ (quats_cells (rm M a lda (op_rows oa m k) (op_cols oa m k))) (quats_cells (rm M b ldb (op_rows ob k n) (op_cols ob k n))) 64 512 64 (b_aa e) (b_ba e) (b_ga e) (b_gb e) ta tb m n k al lda ldb be (8 * c) ldc _ _ (quats_cells (rm M c ldc m n)) _ E)
    as (u & ms' & Ea & mc' & -> & Qc).
  eexists. split; [apply (pmat_fun c ldc m n)|].
  exists [cells (rm M a lda (op_rows oa m k) (op_cols oa m k)); cells (rm M b ldb (op_rows ob k n) (op_cols ob k n)); cells (rm M c ldc m n)], (fun s => Nat.eqb s 2), None,
    [cells (rm M a lda (op_rows oa m k) (op_cols oa m k)); cells (rm M b ldb (op_rows ob k n) (op_cols ob k n)); mc']. unf.
  refine (conj (noret_alone _ _ _ _ Ea) (conj _ (conj _ (conj _ (conj _ _))))).
  - apply noret_puts, puts_gemm; reflexivity.
  - part1.
  - foot1.
  - one_slot.
  - intros M' H. split; [reflexivity|]. intros k' j Hi Hj. apply (back M' mc' c c'); [intros q v; apply (H 2%nat mc' q v eq_refl)|exact Qc|apply (Vc k' j Hi Hj)].
Qed.
Lemma okP_gemv M t m n al a lda x incx be y incy : pre M (KGemv t m n al a lda x incx be y incy) ->
  exists f, call_okP (K := K) M (KGemv t m n al a lda x incx be y incy) (pvec y (rows t m n) incy f None).
Proof.
  intros (Ht & Hm & Hn & Hi & Hi' & Ha & Hx & Hy). unfold rows, cols in *. destruct (trans_char t) as [o|] eqn:Et; [|contradiction].
  destruct (returns_ok _ _ (so_ret _ _ _ _ (C62_gemv_text K E00 t m n (SR al) (rm M a lda m n) lda (rv M x (op_cols o m n) incx) incx (SR be) (rv M y (op_rows o m n) incy) incy)
    (hgemv_good t o m n (SR al) (rm M a lda m n) lda (rv M x (op_cols o m n) incx) incx (SR be) (rv M y (op_rows o m n) incy) incy _ _ _ Et Hm Hn Hi Hi' ltac:(right; right; unfold real_pair; eauto)
       ltac:(right; split; [intros (r & q & _ & E); discriminate E|intros (_ & q & E); discriminate E]) (rm_holds _ _ _ _ _ Ha) (rv_holds _ _ _ _ Hx) (rv_holds _ _ _ _ Hy)))) as (mm & Em & y' & Q & Hy' & _).
  eexists. exists [ch t; i m; i n; AV (VR al); qv (rm M a lda m n); i lda; qv (rv M x (op_cols o m n) incx); i incx; AV (VR be); qv (rv M y (op_rows o m n) incy); i incy], mm.
  refine (conj _ (conj _ (conj _ (conj _ _)))).
  - cbn [tcall_of]; in_kernels.
  - cbn [tcall_of t_args]; parts.
  - unfold gemv_text in Em. cbn [tcall_of t_name t_src t_out]; exact Em.
  - clear - Et. cbn [tcall_of writes reads]. unfold rows, cols. rewrite Et. clear Et. uses_cases; first [dom U3|left; dom U3|right; dom U3].
  - intros M' H. split; [reflexivity|]. intros k Hk. apply (back M' mm y y' _ _ (fun q v => H y q v eq_refl) Q). apply Hy'. exact Hk.
Qed.
Lemma okP_ger M cj m n al pal x incx y incy a lda : pre M (KGer cj m n al pal x incx y incy a lda) ->
  exists f, call_okP (K := K) M (KGer cj m n al pal x incx y incy a lda) (pmat a lda m n f None).
Proof.
  intros (Hm & Hn & Hi & Hi' & Hl & Hr & Ht & Hx & Hy & Ha).
  assert (Rr : exists mm a' f, (if cj then gerc_text else geru_text) m n al (rv M x m incx) incx (rv M y n incy) incy (rm M a lda m n) lda = Ok mm /\ quats mm a' /\ holds_mat a' lda m n f).
  { assert (D : incx = 1 \/ forall r, al <> SR r) by (destruct al; [left; apply Hr; eauto|right; discriminate|right; discriminate]).
    destruct (C62_ger_text K E00 m n al (rv M x m incx) incx (rv M y n incy) incy (rm M a lda m n) lda) as [U C].
    assert (W := fun cj => hger_raw cj m n al (rv M x m incx) incx (rv M y n incy) incy (rm M a lda m n) lda _ _ _ Hm Hn Hi Hi' Hl D (rv_holds _ _ _ _ Hx) (rv_holds _ _ _ _ Hy) (rm_holds _ _ _ _ _ Ha)).
    destruct cj; [destruct (returns_ok _ _ (so_ret _ _ _ _ C (W true))) as (mm & Em & a' & Q & B & _)|destruct (returns_ok _ _ (so_ret _ _ _ _ U (W false))) as (mm & Em & a' & Q & B & _)]; exists mm, a'; eexists; exact (conj Em (conj Q B)). }
  destruct Rr as (mm & a' & f & Em & Q & Ha'). exists f.
  exists [i m; i n; pass al; qv (rv M x m incx); i incx; qv (rv M y n incy); i incy; qv (rm M a lda m n); i lda], mm.
  refine (conj _ (conj _ (conj _ (conj _ _)))).
  - destruct cj, al; cbn [tcall_of]; in_kernels.
  - destruct cj, al; cbn [tcall_of t_args]; parts.
  - unfold gerc_text, geru_text in Em. destruct cj, al; cbn [tcall_of t_name t_src t_out]; exact Em.
  - clear. destruct cj, al; cbn [tcall_of passp pass writes reads scal_cells]; uses_cases; first [dom U3|left; apply (one_dom _ _ _ U3)|right; left; dom U3|right; right; dom U3].
  - intros M' H. split; [reflexivity|]. intros k j Hk Hj. assert (Ea : nth_error (t_args (tcall_of (KGer cj m n al pal x incx y incy a lda))) (t_pos (tcall_of (KGer cj m n al pal x incx y incy a lda))) = Some (FPtr a)) by (destruct cj, al; reflexivity).
    apply (back M' mm a a' _ _ (fun q v => H a q v Ea) Q). apply Ha'; assumption.
Qed.
Lemma okP_gemm M ta tb m n k al pal a lda b ldb be pbe c ldc : pre M (KGemm ta tb m n k al pal a lda b ldb be pbe c ldc) ->
  exists f, call_okP (K := K) M (KGemm ta tb m n k al pal a lda b ldb be pbe c ldc) (pmat c ldc m n f None).
Proof.
  intros (Hta & Htb & Hm & Hn & Hk & Hl & Hal & Hbe & Ha & Hb & Hc). unfold rows, cols in *. destruct (trans_char ta) as [oa|] eqn:Eta; [|contradiction]. destruct (trans_char tb) as [ob|] eqn:Etb; [|contradiction].
  assert (Da := fdec_char _ _ Eta). assert (Db := fdec_char _ _ Etb).
  destruct (returns_ok _ _ (so_ret _ _ _ _ (C62_gemm_text K E00 ta tb m n k al (rm M a lda (op_rows oa m k) (op_cols oa m k)) lda (rm M b ldb (op_rows ob k n) (op_cols ob k n)) ldb be (rm M c ldc m n) ldc Hm)
    (hgemm_raw ta tb m n k al (rm M a lda (op_rows oa m k) (op_cols oa m k)) lda (rm M b ldb (op_rows ob k n) (op_cols ob k n)) ldb be (rm M c ldc m n) ldc (mat_at M a lda) (mat_at M b ldb) (mat_at M c ldc)
      Hm Hn Hk Hl ltac:(intros _; rewrite Da; apply (rm_holds _ _ _ _ _ Ha)) ltac:(intros _; rewrite Db; apply (rm_holds _ _ _ _ _ Hb)) (rm_holds _ _ _ _ _ Hc)))) as (mm & Em & c' & Q & Hc' & _).
  clear Da Db. eexists.
  exists [ch ta; ch tb; i m; i n; i k; pass al; qv (rm M a lda (op_rows oa m k) (op_cols oa m k)); i lda; qv (rm M b ldb (op_rows ob k n) (op_cols ob k n)); i ldb; pass be; qv (rm M c ldc m n); i ldc], mm.
  refine (conj _ (conj _ (conj _ (conj _ _)))).
  - destruct al, be; cbn [tcall_of]; in_kernels.
  - destruct al, be; cbn [tcall_of t_args]; parts.
  - unfold gemm_text in Em. destruct al, be; cbn [tcall_of t_name t_src t_out]; exact Em.
  - clear - Eta Etb. assert (W : forall z, reads (KGemm ta tb m n k al pal a lda b ldb be pbe c ldc) z =
      (scal_cells al pal z \/ scal_cells be pbe z \/ mat_cells a lda (op_rows oa m k) (op_cols oa m k) z \/ mat_cells b ldb (op_rows ob k n) (op_cols ob k n) z)) by (intros; cbn [reads]; unfold rows, cols; rewrite Eta, Etb; reflexivity).
    intros nn zz U. rewrite W. clear W Eta Etb. revert nn zz U. destruct al, be; cbn [tcall_of passp pass writes scal_cells]; uses_cases;
      first [dom U3|left; apply (one_dom _ _ _ U3)|right; left; apply (one_dom _ _ _ U3)|right; right; left; dom U3|right; right; right; dom U3].
  - intros M' H. split; [reflexivity|]. intros ii j Hii Hj.
    assert (Ea : nth_error (t_args (tcall_of (KGemm ta tb m n k al pal a lda b ldb be pbe c ldc))) (t_pos (tcall_of (KGemm ta tb m n k al pal a lda b ldb be pbe c ldc))) = Some (FPtr c)) by (destruct al, be; reflexivity).
    apply (back M' mm c c' _ _ (fun q v => H c q v Ea) Q). apply Hc'; assumption.
Qed.
Theorem det_call M e c : aligned e -> ppre M c -> det (K := K) M e c.
Proof.
  intros He Hp. destruct c as [n x incx y incy|n x incx y incy|s n al x incx|s n al x incx y incy|cj n x incx y incy|s m n al a lda inca|s m n al a lda inca b ldb incb|t m n al a lda x incx be y incy|cj m n al pal x incx y incy a lda|ta tb m n k al pal a lda b ldb be pbe c ldc].
  - apply det_swap; exact Hp.
  - apply det_copy; exact Hp.
  - apply det_scal; exact Hp.
  - apply det_axpy; exact Hp.
  - apply det_dot; exact Hp.
  - apply det_scalm; exact Hp.
  - apply det_axpym; exact Hp.
  - destruct (okP_gemv M t m n al a lda x incx be y incy Hp) as (f & Ok). exists (pvec y (rows t m n) incy f). split; [|apply (pvec_fun y (rows t m n) incy f)].
    apply (behaves_textP M (KGemv t m n al a lda x incx be y incy) _ _ Ok); [reflexivity|auto|auto|auto].
  - destruct (okP_ger M cj m n al pal x incx y incy a lda Hp) as (f & Ok). exists (pmat a lda m n f). split; [|apply (pmat_fun a lda m n f)].
    apply (behaves_textP M (KGer cj m n al pal x incx y incy a lda) _ _ Ok); [reflexivity|auto|auto|auto].
  - destruct al as [al|al|al], be as [be|be|be];
      lazymatch goal with
      | |- det _ _ (PGemm _ _ _ _ _ (SH _) _ _ _ _ _ _ _ _ _) => idtac
      | |- det _ _ (PGemm _ _ _ _ _ _ _ _ _ _ _ (SH _) _ _ _) => idtac
      | |- _ => destruct (det_gemm_opt M e ta tb m n k _ pal a lda b ldb _ pbe c ldc He Hp) as (P & HF & HB); exists P; exact (conj HB HF)
      end; (destruct (okP_gemm M ta tb m n k _ pal a lda b ldb _ pbe c ldc Hp) as (f & Ok); exists (pmat c ldc m n f); split; [|apply (pmat_fun c ldc m n f)];
      eapply behaves_textP; [exact Ok|reflexivity|auto|auto|auto]).
Qed.
Theorem same_bits (M : mem) (cs : list (bufs K * pcall K)) :
  (forall e c, In (e, c) cs -> aligned e /\ ppre M c) ->
  (forall e c z, In (e, c) cs -> pwrites c z -> ~ preads c z) ->
  (forall i j e c e' c' z, nth_error cs i = Some (e, c) -> nth_error cs j = Some (e', c') -> i <> j -> pwrites c z -> ~ preads c' z /\ ~ pwrites c' z) ->
  exists N, forall l conf, run (map (fun p => pthread (fst p) (snd p)) cs, M) l conf ->
    (length l <= N)%nat /\
    (forall i th, nth_error (fst conf) i = Some th -> (exists r, finished th r) \/ exists conf', step conf i conf') /\
    ((forall th, In th (fst conf) -> exists r, finished th r) ->
      (forall i e c l1 conf1, nth_error cs i = Some (e, c) -> run ([pthread e c], M) l1 conf1 -> (forall th, In th (fst conf1) -> exists r, finished th r) ->
        exists th th1 r, nth_error (fst conf) i = Some th /\ fst conf1 = [th1] /\ finished th r /\ finished th1 r /\ forall z, pwrites c z -> snd conf z = snd conf1 z) /\
      (forall z, (forall e c, In (e, c) cs -> ~ pwrites c z) -> snd conf z = M z)).
Proof.
  intros Hp Hs Hd.
  set (rel := fun (p : bufs K * pcall K) (k : task K (option (quat K))) => k_th k = pthread (fst p) (snd p) /\ k_reads k = preads (snd p) /\ k_writes k = pwrites (snd p) /\ behaves M k /\ functional (k_post k) (pwrites (snd p))).
  assert (D : exists ks, Forall2 rel cs ks).
  { clear Hs Hd. induction cs as [|[e c] cs IH]; [exists []; constructor|]. destruct (Hp e c (or_introl eq_refl)) as [He Hc]. destruct (det_call M e c He Hc) as (P & HB & HF). destruct IH as (ks & F); [intros; apply Hp; right; auto|].
    exists (Task (pthread e c) (preads c) (pwrites c) P :: ks). constructor; [|exact F]. exact (conj eq_refl (conj eq_refl (conj eq_refl (conj HB HF)))). }
  destruct D as (ks & F).
  destruct (tasks_interleave M ks) as (N & HN).
  - intros k Hk. apply In_nth_error in Hk. destruct Hk as (n & En). destruct (F2n _ _ _ _ _ F En) as (p & _ & _ & _ & _ & B & _). exact B.
  - intros k z Hk. apply In_nth_error in Hk. destruct Hk as (n & En). destruct (F2n _ _ _ _ _ F En) as ([e c] & Ep & _ & -> & -> & _). apply (Hs e c z (nth_error_In _ _ Ep)).
  - intros n n' k k' z En En'. destruct (F2n _ _ _ _ _ F En) as ([e c] & Ep & _ & _ & -> & _). destruct (F2n _ _ _ _ _ F En') as ([e' c'] & Ep' & _ & -> & -> & _). apply (Hd n n' e c e' c' z Ep Ep').
  - exists N. intros l cf Rn.
    assert (Em : map (fun p => pthread (fst p) (snd p)) cs = map k_th ks) by (clear - F; induction F as [|p k cs ks (E & _) _ IH]; [reflexivity|cbn [map]; rewrite IH, E; reflexivity]).
    rewrite Em in Rn. destruct (HN l cf Rn) as (L1 & L2 & L3). refine (conj L1 (conj L2 _)). intros Fin. destruct (L3 Fin) as (A & B). split.
    + intros n e c l1 cf1 En Rn1 Fin1. destruct (F2n' _ _ _ _ _ F En) as (k & Ek & Et & Er & Ew & HB & HF). destruct (A n k Ek) as (th & r & Eth & Fth & Pth). cbn [fst snd] in *.
      destruct (tasks_interleave M [k]) as (N1 & HN1).
      * intros k' [<-|[]]. exact HB.
      * intros k' z [<-|[]]. rewrite Er, Ew. apply (Hs e c z (nth_error_In _ _ En)).
      * intros [|a] [|b] k1 k2 z E1 E2 NE; try (cbn [nth_error] in *; destruct a; discriminate); try (cbn [nth_error] in *; destruct b; discriminate); exfalso; apply NE; reflexivity.
      * cbn [map] in HN1. rewrite Et in HN1. destruct (HN1 l1 cf1 Rn1) as (_ & _ & L3'). destruct (L3' Fin1) as (A' & _). destruct (A' 0%nat k eq_refl) as (th1 & r1 & Eth1 & Fth1 & Pth1).
        destruct (HF r r1 _ _ Pth Pth1) as (-> & Ez).
        assert (El : length (fst cf1) = 1%nat).
        { clear - Rn1. remember ([pthread e c], M) as cf0. assert (length (fst cf0) = 1%nat) by (subst; reflexivity). clear Heqcf0. induction Rn1 as [|cf0 n cf2 l cf3 (t & cd & _ & _ & Ef) _ IH]; [assumption|]. apply IH. rewrite Ef. clear - H. destruct (fst cf0) as [|x [|y l']]; try discriminate. destruct n as [|[|n]]; reflexivity. }
        exists th, th1, r1. refine (conj Eth (conj _ (conj Fth (conj Fth1 Ez)))). destruct (fst cf1) as [|x [|y l']]; try discriminate. cbn [nth_error] in Eth1. injection Eth1 as ->. reflexivity.
    + intros z Hz. apply B. intros k Hk. apply In_nth_error in Hk. destruct Hk as (n & En). destruct (F2n _ _ _ _ _ F En) as ([e c] & Ep & _ & _ & -> & _). apply (Hz e c (nth_error_In _ _ Ep)).
Qed.
End G.
