(** Each public call, run alone on exactly the cells it owns, does what its contract says; hence also together with others. *)
From Coq Require Import ZArith Lia Bool Ascii String List.
From Verif Require Import Num Res ResFacts Spec SpecFacts MSimd MOptL1 MGenM MOptGemm MForL1 FSyntax FParse FSem FIo FIoFacts FProg MSrc SpecPar ParFacts ParGen SpecCalls SpecCalls2 MPar MCalls MIoOpt IoOptFacts MCalls2 ParText CallFacts
  PropsL1 OptGemmTop.
Import ListNotations.
Local Open Scope Z_scope.

Section F.
Context {K : num}.
Local Notation mem := (arr K).
Definition in_imat (ld inc m n e : Z) : bool := existsb (fun j => existsb (fun i => e =? i * inc + j * ld) (zseq m)) (zseq n).
Lemma in_imat_iff ld inc m n e : in_imat ld inc m n e = true <-> exists i j, 0 <= i < m /\ 0 <= j < n /\ e = i * inc + j * ld.
Proof.
  unfold in_imat. rewrite existsb_exists. split.
  - intros (j & A & B). rewrite existsb_exists in B. destruct B as (i & B & C). rewrite in_zseq in A, B. apply Z.eqb_eq in C. eauto.
  - intros (i & j & A & B & ->). exists j. rewrite in_zseq. split; [exact B|]. rewrite existsb_exists. exists i. rewrite in_zseq. split; [exact A|apply Z.eqb_refl].
Qed.
Definition ri (M : mem) p ld inc m n : arr (quat K) := fun e => if in_imat ld inc m n e then quat_at M p e else None.
Lemma ri_holds M p ld inc m n : has_imat M p ld inc m n -> holds_matinc (ri M p ld inc m n) ld inc m n (imat_at M p ld inc).
Proof.
  intros H i j Hi Hj. unfold ri. rewrite (proj2 (in_imat_iff ld inc m n _)) by (exists i, j; auto). unfold imat_at. specialize (H i j Hi Hj). destruct (quat_at M p (i * inc + j * ld)); [reflexivity|contradiction].
Qed.
Lemma ri_part (M : mem) p ld inc m n : part_of M (FPtr p) (AM (cells (ri M p ld inc m n))).
Proof. apply part_quat. intros e q. unfold ri. destruct (in_imat ld inc m n e); [auto|discriminate]. Qed.
Lemma ri_dom (M : mem) p ld inc m n q : cells (ri M p ld inc m n) q <> None -> imat_cells p ld inc m n (p + q).
Proof.
  unfold cells, ri. destruct (in_imat ld inc m n (q / 4)) eqn:E; [|intros H; exfalso; apply H; reflexivity]. intros _. apply in_imat_iff in E. destruct E as (i & j & Hi & Hj & Ei).
  exists i, j, (q mod 4). assert (D := Z.mod_pos_bound q 4 ltac:(lia)). assert (D4 := Z.div_mod q 4 ltac:(lia)). rewrite <- Ei. lia.
Qed.
Definition ptask (M : mem) (e : bufs K) (c : pcall K) : task K (option (quat K)) := Task (pthread e c) (preads c) (pwrites c) (ppost M c).
Lemma quats_cells (x : arr (quat K)) : quats (cells x) x.
Proof. intros z. reflexivity. Qed.
Lemma quats_shift0 (x : arr (quat K)) m : quats m x <-> quats m (shiftp x (- 0)).
Proof. unfold quats, cells, shiftp. split; intros H z; rewrite (H z); reflexivity. Qed.
Lemma noret_alone (t : io K unit) ms ms' u : alone t ms = Ok (u, ms') -> alone (noret t) ms = Ok (None, ms').
Proof. intros E. unfold noret. rewrite alone_bind, E. reflexivity. Qed.
Lemma noret_puts wr (t : io K unit) : puts_in wr t -> puts_in wr (noret t).
Proof. intros H. apply puts_bind; [exact H|intros; exact I]. Qed.
(** the calls of Fortran texts *)
Lemma behaves_text M (c : hcall K) k : call_ok M c -> k_th k = text c -> (forall z, writes c z -> k_writes k z) -> (forall z, reads c z -> k_reads k z) ->
  (forall M', post M M' c -> k_post k None M') -> behaves M k.
Proof.
  intros (ys & mm & E2 & E3 & E4 & E5 & E6) Et Hw Hr Hp. destruct (job_of M _ _ _ E2 E3 E4) as (j & O1). assert (St := ok_start _ _ _ _ _ O1). fold (hthread c) in St.
  assert (O2 := O1). destruct O1 as [p o out Ej Ep Epos Nd On Er Em Pt].
  exists (j_arrs j), (j_wr j), None, out. rewrite Et. unfold text. cbn [code base]. rewrite <- St. cbn [start code base].
  refine (conj _ (conj _ (conj _ (conj _ (conj _ _))))).
  - apply (noret_alone _ _ _ tt). exact Er.
  - apply noret_puts. subst j. cbn [call_job j_code j_wr]. apply puts_prog. exact On.
  - intros x m q v E Ev.
    subst j. cbn [call_job j_arrs j_base] in *. destruct (bind_arrs_at _ _ _ _ _ E) as [(n & En & Ey)|En].
    + destruct (F2_nth _ _ _ _ _ Pt Ey) as (u & Eu & Pu). destruct u as [|a]; [contradiction|]. cbn [part_of] in Pu. rewrite (slot_base_at _ _ _ _ _ Nd En Eu). apply Pu. exact Ev.
    + exfalso. unfold none_arrs in En. apply nth_error_In in En. apply in_map_iff in En. destruct En as (d & <- & _). discriminate.
  - intros x m q E Nq. assert (Fz : foot j x (j_base j x + q)) by (exists m, q; auto). destruct (foot_uses _ _ _ _ _ _ _ O2 Fz) as (n & U & Un & Un2). destruct (E5 _ _ U) as [W R].
    destruct (j_wr j x) eqn:Wx; [apply Hw, W, Un; reflexivity|apply Hr, R]. intros En. specialize (Un2 En). discriminate.
  - intros x y m m' q q' N Wx Wy. exfalso. subst j. cbn [call_job j_wr] in Wx, Wy. apply Nat.eqb_eq in Wx. apply Nat.eqb_eq in Wy. congruence.
  - intros M' H. apply Hp, E6. intros a q v Ea Ev. assert (Eout : j_out j = out) by (subst j; reflexivity).
    apply (ok_base _ _ _ _ _ p q v a O2 Ea Ep (([], M') : conf K unit)); [cbn [snd]; rewrite Eout; exact H|exact Ev].
Qed.
End F.
Ltac slots E := repeat (match type of E with nth_error _ ?x = _ => lazymatch type of E with nth_error [] _ = _ => fail | _ => is_var x; destruct x as [|x]; cbn [nth_error] in E; [injection E as <-|] end end); try (match type of E with nth_error [] ?x = _ => destruct x; discriminate E end).
Ltac part1 := let x := fresh "x" in let m := fresh "m" in let p := fresh "p" in let v := fresh "v" in let E := fresh "E" in
  intros x m p v E; slots E; cbn [at_ nth]; match goal with |- cells (rv ?M ?a ?n ?i) _ = _ -> _ => apply (rv_part M a n i) | |- cells (rm ?M ?a ?l ?m ?n) _ = _ -> _ => apply (rm_part M a l m n) | |- cells (ri ?M ?a ?l ?i ?m ?n) _ = _ -> _ => apply (ri_part M a l i m n) end.
Ltac foot1 := let x := fresh "x" in let m := fresh "m" in let p := fresh "p" in let E := fresh "E" in
  intros x m p E; slots E; cbn [at_ nth Nat.eqb]; intros ND; first [apply rv_dom in ND|apply rm_dom in ND|apply ri_dom in ND]; auto.
Ltac one_slot := intros ? ? ? ? ? ? NE W1 W2; exfalso; apply NE; apply Nat.eqb_eq in W1; apply Nat.eqb_eq in W2; congruence.
Section G.
Context {K : num} (L : laws K).
Local Notation mem := (arr K).
Lemma bh_swap M e n x incx y incy : ppre M (PSwap n x incx y incy) -> behaves (V := K) M (ptask M e (PSwap n x incx y incy)).
Proof.
  intros (Hi & Hi' & Hx & Hy & Hd).
  destruct (returns_ok _ _ (C12_swapv_opt K n (8 * x) (rv M x n incx) incx (8 * y) (rv M y n incy) incy _ _ Hi Hi' (rv_holds _ _ _ _ Hx) (rv_holds _ _ _ _ Hy))) as ([x' y'] & E & (Vx & _) & (Vy & _)).
  destruct (sim_swapv n (8 * x) incx (8 * y) incy _ _ _ _ (quats_cells (rv M x n incx)) (quats_cells (rv M y n incy)) _ E) as (u & ms' & Ea & mx' & my' & -> & Qx & Qy). cbn [fst snd] in *.
  exists [cells (rv M x n incx); cells (rv M y n incy)], (fun _ => true), None, [mx'; my']. cbn [ptask k_th k_reads k_writes k_post pthread code base preads pwrites ppost].
  refine (conj (noret_alone _ _ _ _ Ea) (conj _ (conj _ (conj _ (conj _ _))))).
  - apply noret_puts, puts_swapv; reflexivity.
  - part1.
  - foot1.
  - intros s s' m m' p q NE _ _ E1 E2. slots E1; slots E2; try contradiction; cbn [at_ nth]; intros N1 N2 Ez; apply rv_dom in N1; apply rv_dom in N2; [rewrite Ez in N1|rewrite Ez in N1]; [apply (Hd _ N1 N2)|apply (Hd _ N2 N1)].
  - intros M' H. split; [reflexivity|]. intros i Hk. split.
    + apply (back M' mx' x x'); [intros q v; apply (H 0%nat mx' q v eq_refl)|exact Qx|apply Vx; exact Hk].
    + apply (back M' my' y y'); [intros q v; apply (H 1%nat my' q v eq_refl)|exact Qy|apply Vy; exact Hk].
Qed.
Lemma bh_copy M e n x incx y incy : ppre M (PCopy n x incx y incy) -> behaves (V := K) M (ptask M e (PCopy n x incx y incy)).
Proof.
  intros (Hi & Hi' & Hx & Hy).
  destruct (returns_ok _ _ (C13_copyv_opt K n (8 * x) (rv M x n incx) incx (8 * y) (rv M y n incy) incy _ _ Hi Hi' (rv_holds _ _ _ _ Hx) (rv_holds _ _ _ _ Hy))) as (y' & E & Vy & _).
  destruct (sim_copyv n (8 * x) incx (8 * y) incy _ _ _ _ (quats_cells (rv M x n incx)) (quats_cells (rv M y n incy)) _ E) as (u & ms' & Ea & my' & -> & Qy).
  exists [cells (rv M x n incx); cells (rv M y n incy)], (fun s => Nat.eqb s 1), None, [cells (rv M x n incx); my']. cbn [ptask k_th k_reads k_writes k_post pthread code base preads pwrites ppost].
  refine (conj (noret_alone _ _ _ _ Ea) (conj _ (conj _ (conj _ (conj _ _))))).
  - apply noret_puts, puts_copyv; reflexivity.
  - part1.
  - foot1.
  - one_slot.
  - intros M' H. split; [reflexivity|]. intros i Hk. apply (back M' my' y y'); [intros q v; apply (H 1%nat my' q v eq_refl)|exact Qy|apply Vy; exact Hk].
Qed.
Lemma bh_scal M e s n al x incx : ppre M (PScal s n al x incx) -> behaves (V := K) M (ptask M e (PScal s n al x incx)).
Proof.
  intros (Hs & Hi & Hx). destruct (side_char s) as [sd|] eqn:Es; [|contradiction].
  destruct (returns_ok _ _ (C14_scalv_opt K L s sd n al (8 * x) (rv M x n incx) incx _ Es Hi (rv_holds _ _ _ _ Hx))) as (x' & E & Vx & _).
  destruct (sim_scalv s n al (8 * x) 0 0 incx [cells (rv M x n incx)] _ (rv M x n incx) eq_refl (proj1 (quats_shift0 _ _) (quats_cells _)) _ E) as (u & ms' & Ea & mx' & -> & Qx).
  exists [cells (rv M x n incx)], (fun s => Nat.eqb s 0), None, [mx']. cbn [ptask k_th k_reads k_writes k_post pthread code base preads pwrites ppost].
  refine (conj (noret_alone _ _ _ _ Ea) (conj _ (conj _ (conj _ (conj _ _))))).
  - apply noret_puts, puts_scalv; reflexivity.
  - part1.
  - foot1.
  - one_slot.
  - intros M' H. split; [reflexivity|]. intros i sd' Es' Hk. assert (sd' = sd) as -> by congruence. apply (back M' mx' x x'); [intros q v; apply (H 0%nat mx' q v eq_refl)|apply (proj2 (quats_shift0 _ _) Qx)|apply Vx; exact Hk].
Qed.
Lemma bh_axpy M e s n al x incx y incy : ppre M (PAxpy s n al x incx y incy) -> behaves (V := K) M (ptask M e (PAxpy s n al x incx y incy)).
Proof.
  intros (Hs & Hi & Hi' & Hx & Hy). destruct (side_char s) as [sd|] eqn:Es; [|contradiction].
  destruct (returns_ok _ _ (C15_axpyv_opt K L s sd n al (8 * x) (rv M x n incx) incx (8 * y) (rv M y n incy) incy _ _ Es Hi Hi' (rv_holds _ _ _ _ Hx) (rv_holds _ _ _ _ Hy))) as (y' & E & Vy & _).
  destruct (sim_axpyv s n al (8 * x) 0 incx (8 * y) 0 incy _ _ (rv M x n incx) (rv M y n incy) (proj1 (quats_shift0 _ _) (quats_cells _)) (proj1 (quats_shift0 _ _) (quats_cells _)) _ E) as (u & ms' & Ea & my' & -> & Qy).
  exists [cells (rv M x n incx); cells (rv M y n incy)], (fun s => Nat.eqb s 1), None, [cells (rv M x n incx); my']. cbn [ptask k_th k_reads k_writes k_post pthread code base preads pwrites ppost].
  refine (conj (noret_alone _ _ _ _ Ea) (conj _ (conj _ (conj _ (conj _ _))))).
  - apply noret_puts, puts_axpyv; reflexivity.
  - part1.
  - foot1.
  - one_slot.
  - intros M' H. split; [reflexivity|]. intros i sd' Es' Hk. assert (sd' = sd) as -> by congruence. apply (back M' my' y y'); [intros q v; apply (H 1%nat my' q v eq_refl)|apply (proj2 (quats_shift0 _ _) Qy)|apply Vy; exact Hk].
Qed.
Lemma bh_dot M e cj n x incx y incy : ppre M (PDot cj n x incx y incy) -> behaves (V := K) M (ptask M e (PDot cj n x incx y incy)).
Proof.
  intros (Hi & Hi' & Hx & Hy).
  assert (E : dot_opt cj n (8 * x) (rv M x n incx) incx (8 * y) (rv M y n incy) incy =
    Ok (Hsum n (fun i => Hmul (if cj : bool then Hconj (vec_at M x n incx i) else vec_at M x n incx i) (vec_at M y n incy i)))).
  { destruct cj; [apply (C17_dotcv_opt K L)|apply (C16_dotuv_opt K L)]; auto using rv_holds. }
  destruct (sim_dot cj n (8 * x) incx (8 * y) incy _ _ _ _ (quats_cells (rv M x n incx)) (quats_cells (rv M y n incy)) _ E) as (u & ms' & Ea & -> & ->).
  eexists [cells (rv M x n incx); cells (rv M y n incy)], (fun s => false), _, [cells (rv M x n incx); cells (rv M y n incy)]. cbn [ptask k_th k_reads k_writes k_post pthread code base preads pwrites ppost].
  refine (conj _ (conj _ (conj _ (conj _ (conj _ _))))).
  - rewrite alone_bind, Ea. reflexivity.
  - apply puts_bind; [apply puts_dot|intros; exact I].
  - part1.
  - foot1.
  - discriminate.
  - intros M' _. reflexivity.
Qed.
Lemma bh_scalm M e s m n al a lda inca : ppre M (PScalm s m n al a lda inca) -> behaves (V := K) M (ptask M e (PScalm s m n al a lda inca)).
Proof.
  intros (Hs & Hi & Hd & Ha). destruct (side_char s) as [sd|] eqn:Es; [|contradiction].
  destruct (returns_ok _ _ (C21_scalm_avx K L s sd m n al (8 * a) (ri M a lda inca m n) lda inca _ Es Hi Hd (ri_holds _ _ _ _ _ _ Ha))) as (x' & E & Vx & _).
  destruct (sim_scalm s "N" m n al (8 * a) 0 lda inca [cells (ri M a lda inca m n)] _ (ri M a lda inca m n) eq_refl (quats_cells _) _ E) as (u & ms' & Ea & mx' & -> & Qx).
  exists [cells (ri M a lda inca m n)], (fun s => Nat.eqb s 0), None, [mx']. cbn [ptask k_th k_reads k_writes k_post pthread code base preads pwrites ppost].
  refine (conj (noret_alone _ _ _ _ Ea) (conj _ (conj _ (conj _ (conj _ _))))).
  - apply noret_puts, puts_scalm; reflexivity.
  - part1.
  - foot1.
  - one_slot.
  - intros M' H. split; [reflexivity|]. intros i j sd' Es' Hk Hj. assert (sd' = sd) as -> by congruence. apply (back M' mx' a x'); [intros q v; apply (H 0%nat mx' q v eq_refl)|exact Qx|apply (Vx i j Hk Hj)].
Qed.
Lemma bh_axpym M e s m n al a lda inca b ldb incb : ppre M (PAxpym s m n al a lda inca b ldb incb) -> behaves (V := K) M (ptask M e (PAxpym s m n al a lda inca b ldb incb)).
Proof.
  intros (Hs & Hi & Hi' & Hd & Ha & Hb & Hz). destruct (side_char s) as [sd|] eqn:Es; [|contradiction].
  destruct (returns_ok _ _ (C22_axpym_avx_partial K L s sd m n al (8 * a) (ri M a lda inca m n) lda inca (8 * b) (ri M b ldb incb m n) ldb incb _ _ Hz Es Hi Hi' Hd (ri_holds _ _ _ _ _ _ Ha) (ri_holds _ _ _ _ _ _ Hb))) as (x' & E & Vx & _).
  destruct (sim_axpym s "N" m n al (8 * a) lda inca (8 * b) ldb incb _ _ _ _ (quats_cells (ri M a lda inca m n)) (quats_cells (ri M b ldb incb m n)) _ E) as (u & ms' & Ea & mx' & -> & Qx).
  exists [cells (ri M a lda inca m n); cells (ri M b ldb incb m n)], (fun s => Nat.eqb s 1), None, [cells (ri M a lda inca m n); mx']. cbn [ptask k_th k_reads k_writes k_post pthread code base preads pwrites ppost].
  refine (conj (noret_alone _ _ _ _ Ea) (conj _ (conj _ (conj _ (conj _ _))))).
  - apply noret_puts, puts_axpym; reflexivity.
  - part1.
  - foot1.
  - one_slot.
  - intros M' H. split; [reflexivity|]. intros i j sd' Es' Hk Hj. assert (sd' = sd) as -> by congruence. apply (back M' mx' b x'); [intros q v; apply (H 1%nat mx' q v eq_refl)|exact Qx|apply (Vx i j Hk Hj)].
Qed.
Lemma trans_r c o : trans_char c = Some o -> trans_char_r c = Some o.
Proof. unfold trans_char_r, trans_char. intros E. destruct (Ascii.eqb_spec c "R") as [->|]; [discriminate|exact E]. Qed.
Lemma bh_gemm_opt M e ta tb m n k al pal a lda b ldb be pbe c ldc k' : aligned e -> pre M (KGemm ta tb m n k al pal a lda b ldb be pbe c ldc) ->
  k_th k' = Thread (noret (gemm_io 64 512 64 (b_aa e) (b_ba e) (b_ga e) (b_gb e) ta tb m n k al lda ldb be (8 * c) ldc)) (at_ [a; b; c]) ->
  (forall z, writes (KGemm ta tb m n k al pal a lda b ldb be pbe c ldc) z -> k_writes k' z) -> (forall z, reads (KGemm ta tb m n k al pal a lda b ldb be pbe c ldc) z -> k_reads k' z) ->
  (forall M', post M M' (KGemm ta tb m n k al pal a lda b ldb be pbe c ldc) -> k_post k' None M') -> behaves (V := K) M k'.
Proof.
  intros (A1 & A2) (Ta & Tb & Hm & Hn & Hk & Hl & _ & _ & Ha & Hb & Hc) Et Hw Hr Hp. unfold writes, reads, post in Hw, Hr, Hp. unfold rows, cols in *. destruct (trans_char ta) as [oa|] eqn:Eta; [|contradiction]. destruct (trans_char tb) as [ob|] eqn:Etb; [|contradiction].
  destruct (returns_ok _ _ (gemm_opt_default_ok K L (b_aa e) (b_ba e) (b_ga e) (b_gb e) ta tb oa ob m n k al (rm M a lda (op_rows oa m k) (op_cols oa m k)) lda (rm M b ldb (op_rows ob k n) (op_cols ob k n)) ldb be (8 * c) (rm M c ldc m n) ldc
    _ _ _ A1 A2 (trans_r _ _ Eta) (trans_r _ _ Etb) Hm Hn Hk Hl (rm_holds _ _ _ _ _ Ha) (rm_holds _ _ _ _ _ Hb) (rm_holds _ _ _ _ _ Hc))) as (c' & E & Vc & _).
  destruct (sim_gemm _ _ _ _ (quats_cells (rm M a lda (op_rows oa m k) (op_cols oa m k))) (quats_cells (rm M b ldb (op_rows ob k n) (op_cols ob k n))) 64 512 64 (b_aa e) (b_ba e) (b_ga e) (b_gb e) ta tb m n k al lda ldb be (8 * c) ldc _ _ (quats_cells (rm M c ldc m n)) _ E)
    as (u & ms' & Ea & mc' & -> & Qc).
  exists [cells (rm M a lda (op_rows oa m k) (op_cols oa m k)); cells (rm M b ldb (op_rows ob k n) (op_cols ob k n)); cells (rm M c ldc m n)], (fun s => Nat.eqb s 2), None,
    [cells (rm M a lda (op_rows oa m k) (op_cols oa m k)); cells (rm M b ldb (op_rows ob k n) (op_cols ob k n)); mc'].
  rewrite Et. cbn [code base].
  refine (conj (noret_alone _ _ _ _ Ea) (conj _ (conj _ (conj _ (conj _ _))))).
  - apply noret_puts, puts_gemm; reflexivity.
  - part1.
  - foot1.
  - one_slot.
  - intros M' H. apply Hp. intros i j oa' ob' Ea' Eb' Hi Hj. assert (oa' = oa) as -> by congruence. assert (ob' = ob) as -> by congruence. apply (back M' mc' c c'); [intros q v; apply (H 2%nat mc' q v eq_refl)|exact Qc|apply (Vc i j Hi Hj)].
Qed.
Theorem behaves_call M e c : aligned e -> ppre M c -> behaves (V := K) M (ptask M e c).
Proof.
  intros He Hp. destruct c as [n x incx y incy|n x incx y incy|s n al x incx|s n al x incx y incy|cj n x incx y incy|s m n al a lda inca|s m n al a lda inca b ldb incb|t m n al a lda x incx be y incy|cj m n al pal x incx y incy a lda|ta tb m n k al pal a lda b ldb be pbe c ldc].
  - apply bh_swap; exact Hp.
  - apply bh_copy; exact Hp.
  - apply bh_scal; exact Hp.
  - apply bh_axpy; exact Hp.
  - apply bh_dot; exact Hp.
  - apply bh_scalm; exact Hp.
  - apply bh_axpym; exact Hp.
  - apply (behaves_text M (KGemv t m n al a lda x incx be y incy)); [apply (call_okay L M); exact Hp|reflexivity|auto|auto|intros M' H; exact (conj eq_refl H)].
  - apply (behaves_text M (KGer cj m n al pal x incx y incy a lda)); [apply (call_okay L M); exact Hp|reflexivity|auto|auto|intros M' H; exact (conj eq_refl H)].
  - destruct al as [al|al|al], be as [be|be|be];
      lazymatch goal with
      | |- behaves _ (ptask _ _ (PGemm _ _ _ _ _ (SH _) _ _ _ _ _ _ _ _ _)) => idtac
      | |- behaves _ (ptask _ _ (PGemm _ _ _ _ _ _ _ _ _ _ _ (SH _) _ _ _)) => idtac
      | |- _ => apply (bh_gemm_opt M e ta tb m n k _ pal a lda b ldb _ pbe c ldc _ He Hp); [reflexivity|auto|auto|intros M' H; exact (conj eq_refl H)]
      end; (eapply behaves_text; [apply (call_okay L M); exact Hp|reflexivity|auto|auto|intros M' H; exact (conj eq_refl H)]).
Qed.
Theorem public_interleave (M : mem) (cs : list (bufs K * pcall K)) :
  (forall e c, In (e, c) cs -> aligned e /\ ppre M c) ->
  (forall e c z, In (e, c) cs -> pwrites c z -> ~ preads c z) ->
  (forall i j e c e' c' z, nth_error cs i = Some (e, c) -> nth_error cs j = Some (e', c') -> i <> j -> pwrites c z -> ~ preads c' z /\ ~ pwrites c' z) ->
  exists N, forall l conf, run (map (fun p => pthread (fst p) (snd p)) cs, M) l conf ->
    (length l <= N)%nat /\
    (forall i th, nth_error (fst conf) i = Some th -> (exists r, finished th r) \/ exists conf', step conf i conf') /\
    ((forall th, In th (fst conf) -> exists r, finished th r) ->
      (forall i e c, nth_error cs i = Some (e, c) -> exists th r, nth_error (fst conf) i = Some th /\ finished th r /\ ppost M c r (snd conf)) /\
      (forall z, (forall e c, In (e, c) cs -> ~ pwrites c z) -> snd conf z = M z)).
Proof.
  intros Hp Hs Hd. set (tk := fun p : bufs K * pcall K => ptask M (fst p) (snd p)).
  destruct (tasks_interleave M (map tk cs)) as (N & HN).
  - intros k Hk. apply in_map_iff in Hk. destruct Hk as ([e c] & <- & Hin). destruct (Hp e c Hin). apply behaves_call; auto.
  - intros k z Hk. apply in_map_iff in Hk. destruct Hk as ([e c] & <- & Hin). apply (Hs e c z Hin).
  - intros i j k k' z Ei Ej. rewrite nth_error_map in Ei, Ej. destruct (nth_error cs i) as [[e c]|] eqn:Ei'; [|discriminate]. destruct (nth_error cs j) as [[e' c']|] eqn:Ej'; [|discriminate]. injection Ei as <-. injection Ej as <-. apply (Hd i j e c e' c' z Ei' Ej').
  - exists N. intros l cf R. rewrite map_map in HN. destruct (HN l cf R) as (L1 & L2 & L3). refine (conj L1 (conj L2 _)). intros Fin. destruct (L3 Fin) as (A & B). split.
    + intros i e c Ei. apply (A i (tk (e, c))). rewrite nth_error_map, Ei. reflexivity.
    + intros z Hz. apply B. intros k Hk. apply in_map_iff in Hk. destruct Hk as ([e c] & <- & Hin). apply (Hz e c Hin).
Qed.
End G.
