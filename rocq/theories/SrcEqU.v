(** The expansion and contraction sources hzexp.f, hdexp.f and hzcon.f compute what the model functions of MUtil.v compute. *)
From Coq Require Import ZArith Lia Bool Ascii String List.
From Verif Require Import Num Res ResFacts MForL1 MForL2 MForL3 MUtil FSyntax FParse FSem FProg FSimFacts FTac FTacM SrcUtil.
Import ListNotations.
Local Open Scope string_scope.
Local Open Scope Z_scope.
Definition prog_hzexp1 := Eval vm_compute in getp "HZEXP1" src_hzexp.
Definition prog_hzexp2 := Eval vm_compute in getp "HZEXP2" src_hzexp.
Definition prog_hdexp := Eval vm_compute in getp "HDEXP" src_hdexp.
Definition prog_hzcon1 := Eval vm_compute in getp "HZCON1" src_hzcon.
Definition prog_hzcon2 := Eval vm_compute in getp "HZCON2" src_hzcon.

Section A.
Context {K : num}.
Local Notation qarr := (arr (quat K)).
Local Notation zarr := (arr (cplx K)).
Local Notation mem := (arr K).
(** a DO loop with any invariant that does not mention the loop variable *)
Lemma block_do_any {T U} ext tys c x lo hi body l (s : state K) a b (g : Z -> T -> res T) (t : T) (k : T -> res U) (R : U -> state K * bool -> Prop) (J : T -> state K -> Prop) :
  eval ext c s lo = Ok (VI a) -> eval ext c s hi = Ok (VI b) -> nth_error tys x = Some TInt -> J t s ->
  (forall t s v, J t s -> J t (St (set_nth (sv s) x (Some (VI v))) (av s))) ->
  (forall i t s', J t s' -> norm J (block ext tys c body (St (set_nth (sv s') x (Some (VI i))) (av s'))) (g i t)) ->
  (forall t s', J t s' -> simr R (block ext tys c l s') (k t)) ->
  simr R (block ext tys c (RDo x lo hi body :: l) s) (t <- fdo a b g t ;; k t).
Proof.
  intros Ea Eb Hx H0 Hs B C. rewrite block_cons, exec_do, Ea, Eb. cbn [bind as_int]. rewrite !bind_assoc. eapply (simr_bind J).
  - apply fdo_sim; [exact H0|]. intros i t1 s1 Hi I1. unfold assign. rewrite Hx. cbn [bind conv].
    assert (B1 := B i t1 s1 I1). destruct (block ext tys c body _) as [[s2 r]| |], (g i t1) as [t2| |]; cbn [norm simr bind fst snd] in *; try contradiction; auto.
    destruct B1 as [-> B1]. exact B1.
  - intros t1 s1 I1. unfold assign. rewrite Hx. cbn [bind conv]. apply C. apply Hs. exact I1.
Qed.
Definition crep (m : mem) (b : zarr) : Prop := forall z, m z = ccells b z.
Lemma ccells_at (b : zarr) p t : 0 <= t < 2 -> ccells b (2 * p + t) = option_map (fun v => if t =? 0 then re v else im v) (b p).
Proof.
  intros Ht. unfold ccells. replace (2 * p + t) with (t + p * 2) by ring. rewrite Z.div_add, Z.mod_add by lia.
  rewrite (Z.div_small t 2), (Z.mod_small t 2) by lia. reflexivity.
Qed.
Lemma cput m (b : zarr) p z : crep m b -> simr (fun b' m' => crep m' b') (aput TCplx m p (VZ z)) (st b p z).
Proof.
  intros R. cbn [aput]. assert (E0 := R (2 * p + 0)). assert (E1 := R (2 * p + 1)). rewrite ccells_at in E0, E1 by lia. rewrite Z.add_0_r in E0. unfold st. rewrite E0.
  destruct (b p) as [v|] eqn:E; cbn [option_map bind]; [|exact I]. unfold upd at 1. rewrite (proj2 (Z.eqb_neq _ _)) by lia. rewrite E1. cbn [option_map simr].
  intros y. assert (Hy := Z.div_mod y 2 ltac:(lia)). assert (Hr := Z.mod_pos_bound y 2 ltac:(lia)). set (q := y / 2) in *. set (r := y mod 2) in *. rewrite Hy. clearbody q r. subst y.
  rewrite ccells_at by lia. unfold upd. destruct (q =? p) eqn:Eq.
  - apply Z.eqb_eq in Eq. subst q. assert (r = 0 \/ r = 1) as [-> | ->] by lia; cbn [Z.eqb].
    + rewrite Z.add_0_r. rewrite (proj2 (Z.eqb_neq _ _)), Z.eqb_refl by lia. reflexivity.
    + rewrite Z.eqb_refl. reflexivity.
  - apply Z.eqb_neq in Eq. rewrite !(proj2 (Z.eqb_neq _ _)) by lia. rewrite R, ccells_at by lia. reflexivity.
Qed.
Lemma cput3 m (b : zarr) ld r s z : crep m b -> simr (fun b' m' => crep m' b') (aput TCplx m (off [ld] [r; s]) (VZ z)) (st b (fpos ld r s) z).
Proof. intros R. replace (off [ld] [r; s]) with (fpos ld r s) by (cbn [off]; unfold fpos; ring). apply cput. exact R. Qed.
Lemma rput3 (m : mem) ld r s a : aput TReal m (off [ld] [r; s]) (VR a) = st m (fpos ld r s) a.
Proof. replace (off [ld] [r; s]) with (fpos ld r s) by (cbn [off]; unfold fpos; ring). reflexivity. Qed.
Lemma cget3 (m : mem) (b : zarr) d r s : crep m b -> aget TCplx m (off [d] [r; s]) = match b (fpos d r s) with Some z => Ok (VZ z) | None => UB end.
Proof.
  intros R. replace (off [d] [r; s]) with (fpos d r s) by (cbn [off]; unfold fpos; ring). generalize (fpos d r s). intros p. cbn [aget].
  assert (E0 := R (2 * p + 0)). assert (E1 := R (2 * p + 1)). rewrite ccells_at in E0, E1 by lia. rewrite Z.add_0_r in E0. unfold ld. rewrite E0, E1.
  destruct (b p) as [[x y]|]; reflexivity.
Qed.
Lemma sub_call {T} name src p args out w (R : T -> mem -> Prop) s c m : program name src = Some p ->
  bind_args (p_args p) args (St (map (fun _ => None) (p_sc p)) (map (fun _ _ => None) (p_ar p))) = Ok s ->
  eval_dims lsame_ext s (p_ar p) = Ok c ->
  (forall (l : list (arr K)) k, nth_error l w = Some k -> find_array out (p_ar p) l = Ok k) ->
  simr (fun t sb => exists k, nth_error (av (fst sb)) w = Some k /\ R t k) (block lsame_ext (map snd (p_sc p)) c (p_body p) s) m ->
  simr R (fcall name src args out) m.
Proof.
  intros Ep Es Ec Eo H. unfold fcall. rewrite Ep. unfold run_sub, run_state. rewrite Es. cbn [bind]. rewrite Ec. cbn [bind].
  destruct (block _ _ _ _ _) as [[s1 b]| |], m; cbn [simr bind] in *; try contradiction; auto.
  destruct H as (k & E & R1). cbn [fst] in E. rewrite (Eo _ _ E). exact R1.
Qed.
End A.
Ltac ustart P w := eapply (sub_call _ _ P _ _ w); [vm_compute; reflexivity|reflexivity|reflexivity
    |let ll := fresh "ll" in let kk := fresh "kk" in let E := fresh "E" in intros ll kk E; do 3 (destruct ll as [|? ll]; [cbn in E |- *; congruence|]); cbn in E |- *; congruence|];
  cbn [map snd p_sc p_body P p_ar set_nth sv av].
(** one store into B *)
Ltac uput :=
  rewrite block_cons; feval;
  match goal with Q : crep ?m ?b |- context [aput TCplx ?m (off [?d] [?r; ?s]) (VZ ?z)] =>
    let H := fresh in pose proof (cput3 m b d r s z Q) as H;
    destruct (aput TCplx m (off [d] [r; s]) (VZ z)) as [?| |], (st b (fpos d r s) z) as [?| |]; cbn [simr] in H; try contradiction; cbn [bind]; [|exact I]
  end; fcbn.
(** one read of B *)
Ltac uget Q := match goal with |- context [aget TCplx ?m (off [?d] [?r; ?s])] => rewrite (cget3 m _ d r s Q); match goal with |- context [match ?b (fpos d r s) with Some _ => _ | None => _ end] => destruct (b (fpos d r s)) end; cbn [bind]; [|exact I] end.
(** the body of the contraction loops *)
Ltac ucon RA RB :=
  unfold norm, hzcon_get, ld; rewrite block_cons; fcbn;
  uget RB;
  match goal with |- context [st ?a (fpos ?d ?i ?j) _] => change (fpos d i j) with (i - 1 + (j - 1) * d); destruct (a (i - 1 + (j - 1) * d)) as [?|] eqn:?E end;
  (fput; fcbn; cbn [bind]);
  [ rewrite block_if; fcbn; destruct (lsame _ _); cbn [app bind]; rewrite block_cons; fcbn;
    (uget RB; fcalls1; fcbn; fput; fcbn; cbn [bind]; unfold st; match goal with E : _ = Some _ |- _ => rewrite E end; cbn [bind];
     try fasg; rewrite ?block_nil; split; [reflexivity|]; cbn [fst snd]; do 2 eexists; split; [reflexivity|frep])
  | destruct (lsame _ _); repeat (match goal with |- context [match ?x with Some _ => _ | None => UB end] => destruct x; cbn [bind] end); unfold st; repeat (match goal with E : _ = None |- _ => rewrite E end); try exact I ].

Section F.
Context {K : num}.
Local Notation qarr := (arr (quat K)).
Local Notation zarr := (arr (cplx K)).
Local Notation mem := (arr K).
Lemma src_hzexp1_ok m n (a : qarr) lda (b : zarr) ldb :
  simr (fun b' mm => forall z, mm z = ccells b' z)
   (fcall "HZEXP1" src_hzexp [AV (VI m); AV (VI n); AM (cells a); AV (VI lda); AM (ccells b); AV (VI ldb)] "B")
    (hzexp1 m n a lda b ldb).
Proof.
  ustart prog_hzexp1 1%nat. generalize (cells a) (rep_cells a); intros ma Ra. assert (Rb : crep (ccells b) b) by (intros z; reflexivity). revert Rb. generalize (ccells b). intros mb Rb.
  unfold hzexp1. fasg.
  eapply (block_do_any _ _ _ _ _ _ _ _ _ _ _ _ _ _ _ (fun (t : zarr * Z) s => exists vj vib vi mb, s = St [Some (VI m); Some (VI n); Some (VI lda); Some (VI ldb); Some (VI (snd t)); vj; vib; vi] [ma; mb] /\ crep mb (fst t)));
    [reflexivity|reflexivity|reflexivity|do 4 eexists; split; [reflexivity|exact Rb]| | | ].
  - intros t s v (vj & vib & vi & mb' & -> & R'). cbn [sv av set_nth]. do 4 eexists. split; [reflexivity|exact R'].
  - intros j [b1 jb] s (vj & vib & vi & mb1 & -> & R1). cbn [sv av set_nth fst snd] in *. fasg. unfold norm.
    eapply (block_do_any _ _ _ _ _ _ _ _ _ _ _ _ _ _ _ (fun (t : zarr * Z) s => exists vi mb, s = St [Some (VI m); Some (VI n); Some (VI lda); Some (VI ldb); Some (VI jb); Some (VI j); Some (VI (snd t)); vi] [ma; mb] /\ crep mb (fst t)));
      [reflexivity|reflexivity|reflexivity|do 2 eexists; split; [reflexivity|exact R1]| | | ].
    + intros t s v (vi' & mb' & -> & R'). cbn [sv av set_nth]. do 2 eexists. split; [reflexivity|exact R'].
    + intros i [b2 ib] s (vi' & mb2 & -> & R2). cbn [sv av set_nth fst snd] in *. unfold ld.
      change (fpos lda i j) with (i - 1 + (j - 1) * lda). unfold norm, hzexp_put. destruct (a (i - 1 + (j - 1) * lda)) as [q|] eqn:E; cbn [bind].
      * do 4 uput. cbn [bind]. fasg. split; [reflexivity|]. cbn [fst snd]. do 2 eexists. split; [reflexivity|assumption].
      * rewrite block_cons. feval. exact I.
    + intros [b2 ib] s (vi' & mb2 & -> & R2). cbn [fst snd] in *. fasg. split; [reflexivity|]. cbn [fst snd]. do 4 eexists. split; [reflexivity|assumption].
  - intros [b1 jb] s (vj & vib & vi & mb1 & -> & R1). rewrite block_nil. eexists. split; [reflexivity|exact R1].
Qed.
Lemma src_hzexp2_ok m n (a : qarr) lda (b : zarr) ldb :
  simr (fun b' mm => forall z, mm z = ccells b' z)
   (fcall "HZEXP2" src_hzexp [AV (VI m); AV (VI n); AM (cells a); AV (VI lda); AM (ccells b); AV (VI ldb)] "B")
    (hzexp2 m n a lda b ldb).
Proof.
  ustart prog_hzexp2 1%nat. generalize (cells a) (rep_cells a); intros ma Ra. assert (Rb : crep (ccells b) b) by (intros z; reflexivity). revert Rb. generalize (ccells b). intros mb Rb.
  unfold hzexp2. rewrite <- (bind_ret (fdo _ _ _ _)).
  eapply (block_do_any _ _ _ _ _ _ _ _ _ _ _ _ _ _ _ (fun (t : zarr) s => exists vj vi mb, s = St [Some (VI m); Some (VI n); Some (VI lda); Some (VI ldb); vj; vi] [ma; mb] /\ crep mb t));
    [reflexivity|reflexivity|reflexivity|do 3 eexists; split; [reflexivity|exact Rb]| | | ].
  - intros t s v (vj & vi & mb' & -> & R'). cbn [sv av set_nth]. do 3 eexists. split; [reflexivity|exact R'].
  - intros j b1 s (vj & vi & mb1 & -> & R1). cbn [sv av set_nth fst snd] in *. unfold norm. rewrite <- (bind_ret (fdo _ _ _ _)).
    eapply (block_do_any _ _ _ _ _ _ _ _ _ _ _ _ _ _ _ (fun (t : zarr) s => exists vi mb, s = St [Some (VI m); Some (VI n); Some (VI lda); Some (VI ldb); Some (VI j); vi] [ma; mb] /\ crep mb t));
      [reflexivity|reflexivity|reflexivity|do 2 eexists; split; [reflexivity|exact R1]| | | ].
    + intros t s v (vi' & mb' & -> & R'). cbn [sv av set_nth]. do 2 eexists. split; [reflexivity|exact R'].
    + intros i b2 s (vi' & mb2 & -> & R2). cbn [sv av set_nth fst snd] in *. unfold ld.
      change (fpos lda i j) with (i - 1 + (j - 1) * lda). unfold norm, hzexp_put. destruct (a (i - 1 + (j - 1) * lda)) as [q|] eqn:E; cbn [bind].
      * do 4 uput. rewrite block_nil. split; [reflexivity|]. cbn [fst snd]. do 2 eexists. split; [reflexivity|assumption].
      * rewrite block_cons. feval. exact I.
    + intros b2 s (vi' & mb2 & -> & R2). rewrite block_nil. split; [reflexivity|]. cbn [fst snd]. do 3 eexists. split; [reflexivity|assumption].
  - intros b1 s (vj & vi & mb1 & -> & R1). rewrite block_nil. eexists. split; [reflexivity|exact R1].
Qed.
Lemma src_hdexp_ok m n (a : qarr) lda (b : mem) ldb :
  simr (fun b' mm => forall z, mm z = b' z)
   (fcall "HDEXP" src_hdexp [AV (VI m); AV (VI n); AM (cells a); AV (VI lda); AM b; AV (VI ldb)] "B")
    (hdexp m n a lda b ldb).
Proof.
  ustart prog_hdexp 1%nat. generalize (cells a) (rep_cells a); intros ma Ra.
  unfold hdexp. fasg.
  eapply (block_do_any _ _ _ _ _ _ _ _ _ _ _ _ _ _ _ (fun (t : mem * Z) s => exists vj vib vi, s = St [Some (VI m); Some (VI n); Some (VI lda); Some (VI ldb); Some (VI (snd t)); vj; vib; vi] [ma; fst t]));
    [reflexivity|reflexivity|reflexivity|do 3 eexists; reflexivity| | | ].
  - intros t s v (vj & vib & vi & ->). cbn [sv av set_nth]. do 3 eexists. reflexivity.
  - intros j [b1 jb] s (vj & vib & vi & ->). cbn [sv av set_nth fst snd] in *. fasg. unfold norm.
    eapply (block_do_any _ _ _ _ _ _ _ _ _ _ _ _ _ _ _ (fun (t : mem * Z) s => exists vi, s = St [Some (VI m); Some (VI n); Some (VI lda); Some (VI ldb); Some (VI jb); Some (VI j); Some (VI (snd t)); vi] [ma; fst t]));
      [reflexivity|reflexivity|reflexivity|do 1 eexists; reflexivity| | | ].
    + intros t s v (vi' & ->). cbn [sv av set_nth]. eexists. reflexivity.
    + intros i [b2 ib] s (vi' & ->). cbn [sv av set_nth fst snd] in *. unfold ld.
      change (fpos lda i j) with (i - 1 + (j - 1) * lda). unfold norm, hdexp_put. destruct (a (i - 1 + (j - 1) * lda)) as [q|] eqn:E; cbn [bind].
      * do 16 (rewrite block_cons; feval; rewrite rput3;
            try change (cf 1 q) with (qr q); try change (cf 2 q) with (qi q); try change (cf 3 q) with (qj q); try change (cf 4 q) with (qk q);
            match goal with |- context [st ?b ?p ?z] => let Es := fresh in destruct (st b p z) as [?| |] eqn:Es; cbn [bind]; [|exact I|unfold st in Es; destruct (b p); discriminate Es]; clear Es end; fcbn).
        fasg. split; [reflexivity|]. cbn [fst snd]. eexists. reflexivity.
      * rewrite block_cons. feval. exact I.
    + intros [b2 ib] s (vi' & ->). cbn [fst snd] in *. fasg. split; [reflexivity|]. cbn [fst snd]. do 3 eexists. reflexivity.
  - intros [b1 jb] s (vj & vib & vi & ->). rewrite block_nil. eexists. split; reflexivity.
Qed.

Lemma src_hzcon1_ok uplo m n (a : qarr) lda (b : zarr) ldb :
  simr (fun a' mm => forall z, mm z = cells a' z)
   (fcall "HZCON1" src_hzcon [AV (VC uplo); AV (VI m); AV (VI n); AM (cells a); AV (VI lda); AM (ccells b); AV (VI ldb)] "A")
    (hzcon1 uplo m n a lda b ldb).
Proof.
  ustart prog_hzcon1 0%nat. generalize (cells a) (rep_cells a); intros ma Ra. assert (Rb : crep (ccells b) b) by (intros z; reflexivity). revert Rb. generalize (ccells b). intros mb Rb.
  unfold hzcon1. do 2 fasg.
  eapply (block_do_any _ _ _ _ _ _ _ _ _ _ _ _ _ _ _ (fun (t : qarr * Z) s => exists vj vib vi ma, s = St [Some (VC uplo); Some (VI m); Some (VI n); Some (VI lda); Some (VI ldb); Some (VL (lsame uplo "U")); Some (VI (snd t)); vj; vib; vi] [ma; mb] /\ rep ma (fst t)));
    [reflexivity|reflexivity|reflexivity|do 4 eexists; split; [reflexivity|exact Ra]| | | ].
  - intros t s v (vj & vib & vi & ma' & -> & R'). cbn [sv av set_nth]. do 4 eexists. split; [reflexivity|exact R'].
  - intros j [a1 jb] s (vj & vib & vi & ma1 & -> & R1). cbn [sv av set_nth fst snd] in *. fasg. unfold norm.
    eapply (block_do_any _ _ _ _ _ _ _ _ _ _ _ _ _ _ _ (fun (t : qarr * Z) s => exists vi ma, s = St [Some (VC uplo); Some (VI m); Some (VI n); Some (VI lda); Some (VI ldb); Some (VL (lsame uplo "U")); Some (VI jb); Some (VI j); Some (VI (snd t)); vi] [ma; mb] /\ rep ma (fst t)));
      [reflexivity|reflexivity|reflexivity|do 2 eexists; split; [reflexivity|exact R1]| | | ].
    + intros t s v (vi' & ma' & -> & R'). cbn [sv av set_nth]. do 2 eexists. split; [reflexivity|exact R'].
    + intros i [a2 ib] s (vi' & ma2 & -> & R2). cbn [sv av set_nth fst snd] in *. ucon R2 Rb.
    + intros [a2 ib] s (vi' & ma2 & -> & R2). cbn [fst snd] in *. fasg. split; [reflexivity|]. cbn [fst snd]. do 4 eexists. split; [reflexivity|assumption].
  - intros [a1 jb] s (vj & vib & vi & ma1 & -> & R1). rewrite block_nil. eexists. split; [reflexivity|exact R1].
Qed.
Lemma src_hzcon2_ok uplo m n (a : qarr) lda (b : zarr) ldb :
  simr (fun a' mm => forall z, mm z = cells a' z)
   (fcall "HZCON2" src_hzcon [AV (VC uplo); AV (VI m); AV (VI n); AM (cells a); AV (VI lda); AM (ccells b); AV (VI ldb)] "A")
    (hzcon2 uplo m n a lda b ldb).
Proof.
  ustart prog_hzcon2 0%nat. generalize (cells a) (rep_cells a); intros ma Ra. assert (Rb : crep (ccells b) b) by (intros z; reflexivity). revert Rb. generalize (ccells b). intros mb Rb.
  unfold hzcon2. fasg. rewrite <- (bind_ret (fdo _ _ _ _)).
  eapply (block_do_any _ _ _ _ _ _ _ _ _ _ _ _ _ _ _ (fun (t : qarr) s => exists vj vi ma, s = St [Some (VC uplo); Some (VI m); Some (VI n); Some (VI lda); Some (VI ldb); Some (VL (lsame uplo "U")); vj; vi] [ma; mb] /\ rep ma t));
    [reflexivity|reflexivity|reflexivity|do 3 eexists; split; [reflexivity|exact Ra]| | | ].
  - intros t s v (vj & vi & ma' & -> & R'). cbn [sv av set_nth]. do 3 eexists. split; [reflexivity|exact R'].
  - intros j a1 s (vj & vi & ma1 & -> & R1). cbn [sv av set_nth fst snd] in *. unfold norm. rewrite <- (bind_ret (fdo _ _ _ _)).
    eapply (block_do_any _ _ _ _ _ _ _ _ _ _ _ _ _ _ _ (fun (t : qarr) s => exists vi ma, s = St [Some (VC uplo); Some (VI m); Some (VI n); Some (VI lda); Some (VI ldb); Some (VL (lsame uplo "U")); Some (VI j); vi] [ma; mb] /\ rep ma t));
      [reflexivity|reflexivity|reflexivity|do 2 eexists; split; [reflexivity|exact R1]| | | ].
    + intros t s v (vi' & ma' & -> & R'). cbn [sv av set_nth]. do 2 eexists. split; [reflexivity|exact R'].
    + intros i a2 s (vi' & ma2 & -> & R2). cbn [sv av set_nth fst snd] in *. ucon R2 Rb.
    + intros a2 s (vi' & ma2 & -> & R2). rewrite block_nil. split; [reflexivity|]. cbn [fst snd]. do 3 eexists. split; [reflexivity|assumption].
  - intros a1 s (vj & vi & ma1 & -> & R1). rewrite block_nil. eexists. split; [reflexivity|exact R1].
Qed.
End F.
