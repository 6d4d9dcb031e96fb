(** Each call of SpecCalls.v, run as its Fortran text on exactly the cells it owns, does what its contract says. *)
From Coq Require Import ZArith Lia Bool Ascii String List.
From Verif Require Import Num Res ResFacts Spec SpecFacts MForL1 FSyntax FParse FSem FIo FProg MSrc PropsSrc SpecPar SpecCalls MPar MCalls ParText.
Import ListNotations.
Local Open Scope string_scope.
Local Open Scope Z_scope.

Definition zseq (n : Z) : list Z := map Z.of_nat (seq 0 (Z.to_nat n)).
Lemma in_zseq n i : In i (zseq n) <-> 0 <= i < n.
Proof.
  unfold zseq. rewrite in_map_iff. split.
  - intros (k & <- & Hk). apply in_seq in Hk. lia.
  - intros H. exists (Z.to_nat i). split; [lia|]. apply in_seq. lia.
Qed.
Definition in_vec (n inc e : Z) : bool := existsb (fun i => e =? vpos n inc i) (zseq n).
Definition in_mat (ld m n e : Z) : bool := existsb (fun j => (0 <=? e - j * ld) && (e - j * ld <? m)) (zseq n).
Lemma in_vec_iff n inc e : in_vec n inc e = true <-> exists i, 0 <= i < n /\ e = vpos n inc i.
Proof. unfold in_vec. rewrite existsb_exists. split; intros (i & A & B); exists i; rewrite in_zseq in *; [apply Z.eqb_eq in B; auto|split; [exact A|apply Z.eqb_eq; exact B]]. Qed.
Lemma in_mat_iff ld m n e : in_mat ld m n e = true <-> exists i j, 0 <= i < m /\ 0 <= j < n /\ e = i + j * ld.
Proof.
  unfold in_mat. rewrite existsb_exists. split.
  - intros (j & A & B). rewrite in_zseq in A. exists (e - j * ld), j. lia.
  - intros (i & j & A & B & ->). exists j. rewrite in_zseq. split; [exact B|]. apply andb_true_intro. split; [apply Z.leb_le|apply Z.ltb_lt]; lia.
Qed.
Section F.
Context {K : num}.
Local Notation mem := (arr K).
Definition rv (M : mem) p n inc : arr (quat K) := fun e => if in_vec n inc e then quat_at M p e else None.
Definition rm (M : mem) p ld m n : arr (quat K) := fun e => if in_mat ld m n e then quat_at M p e else None.
Lemma rv_holds M p n inc : has_vec M p n inc -> holds_vec (rv M p n inc) n inc (vec_at M p n inc).
Proof.
  intros H i Hi. unfold rv. rewrite (proj2 (in_vec_iff n inc _)) by (exists i; auto). unfold vec_at. specialize (H i Hi). destruct (quat_at M p (vpos n inc i)); [reflexivity|contradiction].
Qed.
Lemma rm_holds M p ld m n : has_mat M p ld m n -> holds_mat (rm M p ld m n) ld m n (mat_at M p ld).
Proof.
  intros H i j Hi Hj. unfold rm. rewrite (proj2 (in_mat_iff ld m n _)) by (exists i, j; auto). unfold mat_at. specialize (H i j Hi Hj). destruct (quat_at M p (i + j * ld)); [reflexivity|contradiction].
Qed.
Lemma quat_cell (M : mem) p e q t : quat_at M p e = Some q -> 0 <= t < 4 -> M (p + 4 * e + t) = Some (comp q t).
Proof.
  unfold quat_at. intros E Ht. destruct (M (p + 4 * e)) eqn:E0; [|discriminate]. destruct (M (p + 4 * e + 1)) eqn:E1; [|discriminate]. destruct (M (p + 4 * e + 2)) eqn:E2; [|discriminate]. destruct (M (p + 4 * e + 3)) eqn:E3; [|discriminate]. injection E as <-.
  assert (t = 0 \/ t = 1 \/ t = 2 \/ t = 3) as [-> | [-> | [-> | ->]]] by lia; [rewrite Z.add_0_r, E0|rewrite E1|rewrite E2|rewrite E3]; reflexivity.
Qed.
Lemma quat_of_cells (M : mem) p e q : (forall t, 0 <= t < 4 -> M (p + 4 * e + t) = Some (comp q t)) -> quat_at M p e = Some q.
Proof.
  intros H. unfold quat_at. assert (A0 := H 0). assert (A1 := H 1). assert (A2 := H 2). assert (A3 := H 3). rewrite Z.add_0_r in A0. rewrite A0, A1, A2, A3 by lia. destruct q; reflexivity.
Qed.
Lemma part_quat (M : mem) p (x : arr (quat K)) : (forall e q, x e = Some q -> quat_at M p e = Some q) -> part_of M (FPtr p) (AM (cells x)).
Proof.
  intros H q v. unfold cells. destruct (x (q / 4)) as [w|] eqn:E; [|discriminate]. cbn [option_map]. intros [= <-]. assert (D := quat_cell M p (q / 4) w (q mod 4) (H _ _ E) (Z.mod_pos_bound q 4 ltac:(lia))).
  replace (p + q) with (p + 4 * (q / 4) + q mod 4); [exact D|]. assert (D4 := Z.div_mod q 4 ltac:(lia)). lia.
Qed.
Lemma rv_part (M : mem) p n inc : part_of M (FPtr p) (AM (cells (rv M p n inc))).
Proof. apply part_quat. intros e q. unfold rv. destruct (in_vec n inc e); [auto|discriminate]. Qed.
Lemma rm_part (M : mem) p ld m n : part_of M (FPtr p) (AM (cells (rm M p ld m n))).
Proof. apply part_quat. intros e q. unfold rm. destruct (in_mat ld m n e); [auto|discriminate]. Qed.
Lemma one_part (M : mem) p q : quat_at M p 0 = Some q -> part_of M (FPtr p) (AM (cells (one q))).
Proof. intros H. apply part_quat. intros e w. unfold one. destruct (Z.eqb_spec e 0) as [->|]; [intros [= <-]; exact H|discriminate]. Qed.
Lemma scal_part (M : mem) s p : scal_there M s p -> part_of M (passp s p) (pass s).
Proof. destruct s as [a|z|q]; cbn [scal_there passp pass]; try reflexivity. apply one_part. Qed.
Lemma scal_part2 (M : mem) s p : scal_there2 M s p -> part_of M (passp2 s p) (pass2 s).
Proof.
  destruct s as [a|z|q]; cbn [scal_there2 scal_there passp2 pass2 passp pass]; try reflexivity; [|apply one_part]. intros [A B] q v. unfold ccells.
  destruct (Z.eqb_spec (q / 2) 0) as [E|]; [|discriminate]. cbn [option_map]. intros [= <-]. assert (D := Z.div_mod q 2 ltac:(lia)). assert (D2 := Z.mod_pos_bound q 2 ltac:(lia)).
  destruct (Z.eqb_spec (q mod 2) 0); [replace q with 0 by lia; rewrite Z.add_0_r; exact A|replace q with 1 by lia; exact B].
Qed.
Lemma rv_dom (M : mem) p n inc q : cells (rv M p n inc) q <> None -> vec_cells p n inc (p + q).
Proof.
  unfold cells, rv. destruct (in_vec n inc (q / 4)) eqn:E; [|intros H; exfalso; apply H; reflexivity]. intros _. apply in_vec_iff in E. destruct E as (i & Hi & Ei).
  exists i, (q mod 4). assert (D := Z.mod_pos_bound q 4 ltac:(lia)). assert (D4 := Z.div_mod q 4 ltac:(lia)). rewrite <- Ei. lia.
Qed.
Lemma rm_dom (M : mem) p ld m n q : cells (rm M p ld m n) q <> None -> mat_cells p ld m n (p + q).
Proof.
  unfold cells, rm. destruct (in_mat ld m n (q / 4)) eqn:E; [|intros H; exfalso; apply H; reflexivity]. intros _. apply in_mat_iff in E. destruct E as (i & j & Hi & Hj & Ei).
  exists i, j, (q mod 4). assert (D := Z.mod_pos_bound q 4 ltac:(lia)). assert (D4 := Z.div_mod q 4 ltac:(lia)). rewrite <- Ei. lia.
Qed.
Lemma one_dom p (w : quat K) q : cells (one w) q <> None -> p <= p + q < p + 4.
Proof.
  unfold cells, one. destruct (Z.eqb_spec (q / 4) 0) as [E|]; [|intros H; exfalso; apply H; reflexivity]. intros _. assert (D := Z.mod_pos_bound q 4 ltac:(lia)). assert (D4 := Z.div_mod q 4 ltac:(lia)). lia.
Qed.
Lemma two_dom p (w : cplx K) q : ccells (fun e => if e =? 0 then Some w else None) q <> None -> p <= p + q < p + 2.
Proof.
  unfold ccells. destruct (Z.eqb_spec (q / 2) 0) as [E|]; [|intros H; exfalso; apply H; reflexivity]. intros _. assert (D := Z.mod_pos_bound q 2 ltac:(lia)). assert (D4 := Z.div_mod q 2 ltac:(lia)). lia.
Qed.
Lemma back (M' m : mem) p (x : arr (quat K)) e w : (forall q v, m q = Some v -> M' (p + q) = Some v) -> quats m x -> x e = Some w -> quat_at M' p e = Some w.
Proof.
  intros H Q E. apply quat_of_cells. intros t Ht. rewrite <- Z.add_assoc. apply H. rewrite Q. unfold cells.
  replace ((4 * e + t) / 4) with e by (rewrite (Z.mul_comm 4), Z.div_add_l by lia; rewrite (Z.div_small t 4) by lia; lia).
  replace ((4 * e + t) mod 4) with t by (rewrite Z.add_comm, (Z.mul_comm 4), Z.mod_add by lia; rewrite Z.mod_small by lia; reflexivity). rewrite E. reflexivity.
Qed.

Definition call_ok (M : mem) (c : hcall K) : Prop := exists ys mem,
  In (t_name (tcall_of c), t_src (tcall_of c), t_out (tcall_of c), t_pos (tcall_of c)) kernels /\
  Forall2 (part_of M) (t_args (tcall_of c)) ys /\ fcall (t_name (tcall_of c)) (t_src (tcall_of c)) ys (t_out (tcall_of c)) = Ok mem /\
  (forall n z, uses (tcall_of c) ys n z -> (n = t_pos (tcall_of c) -> writes c z) /\ (n <> t_pos (tcall_of c) -> reads c z)) /\
  (forall M', (forall a q v, nth_error (t_args (tcall_of c)) (t_pos (tcall_of c)) = Some (FPtr a) -> mem q = Some v -> M' (a + q) = Some v) -> post M M' c).
Lemma returns_ok {A} (r : res A) P : returns r P -> exists a, r = Ok a /\ P a.
Proof. destruct r; cbn; eauto; contradiction. Qed.
End F.
Ltac in_kernels := cbn [t_name t_src t_out t_pos];
  match goal with |- In (?nm, _, _, _) _ =>
    let k := eval vm_compute in (match find_pos (fun k => String.eqb nm (fst (fst (fst k)))) kernels with Some k => k | None => O end) in
    apply (nth_error_In kernels k); reflexivity end.
Ltac parts := repeat (apply Forall2_cons; [first [reflexivity|apply rv_part|apply rm_part|apply scal_part; assumption|apply scal_part2; assumption|apply one_part; assumption]|]); apply Forall2_nil.
Ltac uses_cases := intros nn zz (aa & mm & pp & U1 & U2 & U3 & ->); cbn [t_args t_pos] in *;
  repeat (lazymatch type of U1 with nth_error [] _ = _ => fail | _ => idtac end; destruct nn as [|nn]; cbn [nth_error] in U1, U2;
          [first [discriminate U1|discriminate U2|(injection U1 as <-; injection U2 as <-; split; intros NN; [try discriminate NN|try (exfalso; apply NN; reflexivity)])]|]);
  try (destruct nn; discriminate U1).
Ltac dom U3 := first [apply (rv_dom _ _ _ _ _ U3)|apply (rm_dom _ _ _ _ _ _ U3)].
Section G.
Context {K : num} (L : laws K).
Local Notation mem := (arr K).
Local Notation qv x := (AM (cells x)).
Local Notation i z := (AV (VI z)).
Local Notation ch c := (AV (VC c)).
Lemma ok_scal M s n al pal x incx : pre M (KScal s n al pal x incx) -> call_ok (K := K) M (KScal s n al pal x incx).
Proof.
  intros (Hs & Hi & Ha & Ht & Hv). destruct (side_char s) as [sd|] eqn:Es; [|contradiction].
  destruct (returns_ok _ _ (C63_scal_partial K L s sd n al (rv M x n incx) incx _ Es Hi Ha (rv_holds _ _ _ _ Hv))) as (m & Em & x' & Q & Hx' & _).
  exists [ch s; i n; pass al; qv (rv M x n incx); i incx], m.
  refine (conj _ (conj _ (conj _ (conj _ _)))).
  - destruct al; cbn [tcall_of]; in_kernels.
  - destruct al; cbn [tcall_of t_args]; parts.
  - unfold scal_text in Em. destruct al; cbn [tcall_of t_name t_src t_out]; exact Em.
  - clear. destruct al; cbn [tcall_of passp pass writes reads scal_cells]; uses_cases; first [dom U3|apply (one_dom _ _ _ U3)].
  - intros M' H. cbn [post]. intros k sd' Es' Hk. assert (sd' = sd) as -> by congruence. apply (back M' m x x'); [|exact Q|apply Hx'; exact Hk].
    intros q v. apply H. destruct al; reflexivity.
Qed.
Lemma ok_axpy M s n al pal x incx y incy : pre M (KAxpy s n al pal x incx y incy) -> call_ok (K := K) M (KAxpy s n al pal x incx y incy).
Proof.
  intros (Hs & Hi & Hi' & Ht & Hx & Hy). destruct (side_char s) as [sd|] eqn:Es; [|contradiction].
  destruct (returns_ok _ _ (C63_axpy K L s sd n al (rv M x n incx) incx (rv M y n incy) incy _ _ Es Hi Hi' (rv_holds _ _ _ _ Hx) (rv_holds _ _ _ _ Hy))) as (m & Em & x' & Q & Hx' & _).
  exists [ch s; i n; pass2 al; qv (rv M x n incx); i incx; qv (rv M y n incy); i incy], m.
  refine (conj _ (conj _ (conj _ (conj _ _)))).
  - destruct al; cbn [tcall_of]; in_kernels.
  - assert (E := scal_part2 M al pal Ht). destruct al; cbn [tcall_of t_args passp2 pass2] in *; repeat (apply Forall2_cons; [first [exact E|reflexivity|apply rv_part]|]); apply Forall2_nil.
  - unfold axpy_text in Em. destruct al; cbn [tcall_of t_name t_src t_out]; exact Em.
  - clear. destruct al; cbn [tcall_of passp passp2 pass pass2 writes reads scal_cells scal_cells2]; uses_cases;
      first [dom U3|right; dom U3|left; apply (two_dom _ _ _ U3)|left; apply (one_dom _ _ _ U3)].
  - intros M' H. cbn [post]. intros k sd' Es' Hk. assert (sd' = sd) as -> by congruence. apply (back M' m y x'); [|exact Q|apply Hx'; exact Hk].
    intros q v. apply H. destruct al; reflexivity.
Qed.
Lemma ok_dot M cj r n x incx y incy : pre M (KDot cj r n x incx y incy) -> call_ok (K := K) M (KDot cj r n x incx y incy).
Proof.
  intros (Hi & Hi' & Hx & Hy & Hr). destruct (quat_at M r 0) as [r0|] eqn:Er; [|contradiction].
  destruct (C63_dot K L r0 n (rv M x n incx) incx (rv M y n incy) incy _ _ Hi Hi' (rv_holds _ _ _ _ Hx) (rv_holds _ _ _ _ Hy)) as (RU & RC).
  assert (R : exists m, (if cj then dotc_text else dotu_text) r0 n (rv M x n incx) incx (rv M y n incy) incy = Ok m /\
    quats m (one (Hsum n (fun i => Hmul (if cj : bool then Hconj (vec_at M x n incx i) else vec_at M x n incx i) (vec_at M y n incy i))))).
  { destruct cj; [destruct (returns_ok _ _ RC) as (m & A & B)|destruct (returns_ok _ _ RU) as (m & A & B)]; exists m; exact (conj A B). }
  clear RU RC. destruct R as (m & Em & Q).
  exists [qv (one r0); i n; qv (rv M x n incx); i incx; qv (rv M y n incy); i incy], m.
  refine (conj _ (conj _ (conj _ (conj _ _)))).
  - destruct cj; cbn [tcall_of]; in_kernels.
  - destruct cj; cbn [tcall_of t_args]; parts.
  - unfold dotu_text, dotc_text in Em. destruct cj; cbn [tcall_of t_name t_src t_out]; exact Em.
  - clear. destruct cj; cbn [tcall_of writes reads]; uses_cases; first [apply (one_dom _ _ _ U3)|left; dom U3|right; dom U3].
  - intros M' H. cbn [post]. apply (back M' m r _ _ _ (fun q v => H r q v ltac:(destruct cj; reflexivity)) Q). reflexivity.
Qed.
Lemma ok_gemv M t m n al a lda x incx be y incy : pre M (KGemv t m n al a lda x incx be y incy) -> call_ok (K := K) M (KGemv t m n al a lda x incx be y incy).
Proof.
  intros (Ht & Hm & Hn & Hi & Hi' & Ha & Hx & Hy). unfold rows, cols in *. destruct (trans_char t) as [o|] eqn:Et; [|contradiction].
  destruct (returns_ok _ _ (C63_gemv_dd K L al be t o m n (rm M a lda m n) lda (rv M x (op_cols o m n) incx) incx (rv M y (op_rows o m n) incy) incy _ _ _ Et Hm Hn Hi Hi' (rm_holds _ _ _ _ _ Ha) (rv_holds _ _ _ _ Hx) (rv_holds _ _ _ _ Hy)))
    as (mm & Em & y' & Q & Hy' & _).
  exists [ch t; i m; i n; AV (VR al); qv (rm M a lda m n); i lda; qv (rv M x (op_cols o m n) incx); i incx; AV (VR be); qv (rv M y (op_rows o m n) incy); i incy], mm.
  refine (conj _ (conj _ (conj _ (conj _ _)))).
  - cbn [tcall_of]; in_kernels.
  - cbn [tcall_of t_args]; parts.
  - unfold gemv_text in Em. cbn [tcall_of t_name t_src t_out]; exact Em.
  - clear - Et. cbn [tcall_of writes reads]. unfold rows, cols. rewrite Et. clear Et. uses_cases; first [dom U3|left; dom U3|right; dom U3].
  - intros M' H. cbn [post]. intros k o' Eo Hk. rewrite Et in Eo. injection Eo as <-. apply (back M' mm y y' _ _ (fun q v => H y q v eq_refl) Q). apply Hy'. exact Hk.
Qed.
Lemma ok_ger M cj m n al pal x incx y incy a lda : pre M (KGer cj m n al pal x incx y incy a lda) -> call_ok (K := K) M (KGer cj m n al pal x incx y incy a lda).
Proof.
  intros (Hm & Hn & Hi & Hi' & Hl & Hr & Ht & Hx & Hy & Ha).
  assert (R : exists mm a', (if cj then gerc_text else geru_text) m n al (rv M x m incx) incx (rv M y n incy) incy (rm M a lda m n) lda = Ok mm /\ quats mm a' /\
    holds_mat a' lda m n ((if cj : bool then gerc_elt else geru_elt) (emb al) (vec_at M x m incx) (vec_at M y n incy) (mat_at M a lda))).
  { assert (D : (exists r, al = SR r) \/ (forall r, al <> SR r)) by (destruct al; [left; eauto|right; discriminate|right; discriminate]).
    assert (X := rv_holds _ _ _ _ Hx). assert (Y := rv_holds _ _ _ _ Hy). assert (A := rm_holds _ _ _ _ _ Ha). destruct D as [(r & ->)|D].
    - assert (incx = 1) as -> by (apply Hr; eauto).
      destruct (C63_ger_d_partial K L m n r _ _ incy _ lda _ _ _ Hm Hn Hi' Hl X Y A) as (U & C). destruct cj; [destruct (returns_ok _ _ C) as (mm & E & a' & B & B' & _)|destruct (returns_ok _ _ U) as (mm & E & a' & B & B' & _)]; exists mm, a'; exact (conj E (conj B B')).
    - destruct (C63_ger K L m n al _ incx _ incy _ lda _ _ _ Hm Hn Hi Hi' Hl D X Y A) as (U & C). destruct cj; [destruct (returns_ok _ _ C) as (mm & E & a' & B & B' & _)|destruct (returns_ok _ _ U) as (mm & E & a' & B & B' & _)]; exists mm, a'; exact (conj E (conj B B')). }
  destruct R as (mm & a' & Em & Q & Ha').
  exists [i m; i n; pass al; qv (rv M x m incx); i incx; qv (rv M y n incy); i incy; qv (rm M a lda m n); i lda], mm.
  refine (conj _ (conj _ (conj _ (conj _ _)))).
  - destruct cj, al; cbn [tcall_of]; in_kernels.
  - destruct cj, al; cbn [tcall_of t_args]; parts.
  - unfold gerc_text, geru_text in Em. destruct cj, al; cbn [tcall_of t_name t_src t_out]; exact Em.
  - clear. destruct cj, al; cbn [tcall_of passp pass writes reads scal_cells]; uses_cases; first [dom U3|left; apply (one_dom _ _ _ U3)|right; left; dom U3|right; right; dom U3].
  - intros M' H. cbn [post]. intros k j Hk Hj. assert (Ea : nth_error (t_args (tcall_of (KGer cj m n al pal x incx y incy a lda))) (t_pos (tcall_of (KGer cj m n al pal x incx y incy a lda))) = Some (FPtr a)) by (destruct cj, al; reflexivity).
    apply (back M' mm a a' _ _ (fun q v => H a q v Ea) Q). apply Ha'; assumption.
Qed.
Lemma ok_gemm M ta tb m n k al pal a lda b ldb be pbe c ldc : pre M (KGemm ta tb m n k al pal a lda b ldb be pbe c ldc) -> call_ok (K := K) M (KGemm ta tb m n k al pal a lda b ldb be pbe c ldc).
Proof.
  intros (Hta & Htb & Hm & Hn & Hk & Hl & Hal & Hbe & Ha & Hb & Hc). unfold rows, cols in *. destruct (trans_char ta) as [oa|] eqn:Eta; [|contradiction]. destruct (trans_char tb) as [ob|] eqn:Etb; [|contradiction].
  destruct (returns_ok _ _ (C63_gemm K L ta tb oa ob m n k al (rm M a lda (op_rows oa m k) (op_cols oa m k)) lda (rm M b ldb (op_rows ob k n) (op_cols ob k n)) ldb be (rm M c ldc m n) ldc _ _ _
    Eta Etb Hm Hn Hk Hl (rm_holds _ _ _ _ _ Ha) (rm_holds _ _ _ _ _ Hb) (rm_holds _ _ _ _ _ Hc))) as (mm & Em & c' & Q & Hc' & _).
  exists [ch ta; ch tb; i m; i n; i k; pass al; qv (rm M a lda (op_rows oa m k) (op_cols oa m k)); i lda; qv (rm M b ldb (op_rows ob k n) (op_cols ob k n)); i ldb; pass be; qv (rm M c ldc m n); i ldc], mm.
  refine (conj _ (conj _ (conj _ (conj _ _)))).
  - destruct al, be; cbn [tcall_of]; in_kernels.
  - destruct al, be; cbn [tcall_of t_args]; parts.
  - unfold gemm_text in Em. destruct al, be; cbn [tcall_of t_name t_src t_out]; exact Em.
  - clear - Eta Etb. assert (W : forall z, reads (KGemm ta tb m n k al pal a lda b ldb be pbe c ldc) z =
      (scal_cells al pal z \/ scal_cells be pbe z \/ mat_cells a lda (op_rows oa m k) (op_cols oa m k) z \/ mat_cells b ldb (op_rows ob k n) (op_cols ob k n) z)) by (intros; cbn [reads]; unfold rows, cols; rewrite Eta, Etb; reflexivity).
    intros nn zz U. rewrite W. clear W Eta Etb. revert nn zz U. destruct al, be; cbn [tcall_of passp pass writes scal_cells]; uses_cases;
      first [dom U3|left; apply (one_dom _ _ _ U3)|right; left; apply (one_dom _ _ _ U3)|right; right; left; dom U3|right; right; right; dom U3].
  - intros M' H. cbn [post]. intros ii j oa' ob' Ea' Eb' Hii Hj. rewrite Eta in Ea'. rewrite Etb in Eb'. injection Ea' as <-. injection Eb' as <-.
    assert (Ea : nth_error (t_args (tcall_of (KGemm ta tb m n k al pal a lda b ldb be pbe c ldc))) (t_pos (tcall_of (KGemm ta tb m n k al pal a lda b ldb be pbe c ldc))) = Some (FPtr c)) by (destruct al, be; reflexivity).
    apply (back M' mm c c' _ _ (fun q v => H c q v Ea) Q). apply Hc'; assumption.
Qed.
Theorem call_okay M c : pre M c -> call_ok (K := K) M c.
Proof. destruct c; [apply ok_scal|apply ok_axpy|apply ok_dot|apply ok_gemv|apply ok_ger|apply ok_gemm]. Qed.

Theorem calls_interleave (M : mem) (cs : list (hcall K)) :
  (forall c, In c cs -> pre M c) ->
  (forall c z, In c cs -> writes c z -> ~ reads c z) ->
  (forall i j c c' z, nth_error cs i = Some c -> nth_error cs j = Some c' -> i <> j -> writes c z -> ~ reads c' z /\ ~ writes c' z) ->
  exists N, forall l conf, run (map hthread cs, M) l conf ->
    (length l <= N)%nat /\
    (forall i th, nth_error (fst conf) i = Some th -> finished th tt \/ exists conf', step conf i conf') /\
    ((forall th, In th (fst conf) -> finished th tt) ->
      (forall c, In c cs -> post M (snd conf) c) /\
      (forall z, (forall c, In c cs -> ~ writes c z) -> snd conf z = M z)).
Proof.
  intros Hp Hs Hd.
  assert (D : exists ds : list (tcall K * list (actual K) * arr K), Forall2 (fun c d => fst (fst d) = tcall_of c /\
     In (t_name (tcall_of c), t_src (tcall_of c), t_out (tcall_of c), t_pos (tcall_of c)) kernels /\
     Forall2 (part_of M) (t_args (tcall_of c)) (snd (fst d)) /\ fcall (t_name (tcall_of c)) (t_src (tcall_of c)) (snd (fst d)) (t_out (tcall_of c)) = Ok (snd d) /\
     (forall n z, uses (tcall_of c) (snd (fst d)) n z -> (n = t_pos (tcall_of c) -> writes c z) /\ (n <> t_pos (tcall_of c) -> reads c z)) /\
     (forall M', (forall a q v, nth_error (t_args (tcall_of c)) (t_pos (tcall_of c)) = Some (FPtr a) -> snd d q = Some v -> M' (a + q) = Some v) -> post M M' c)) cs ds).
  { clear Hs Hd. induction cs as [|c cs IH]; [exists []; constructor|]. destruct (call_okay M c (Hp c (or_introl eq_refl))) as (ys & mm & E). destruct IH as (ds & F); [intros; apply Hp; right; auto|].
    exists ((tcall_of c, ys, mm) :: ds). constructor; [|exact F]. cbn [fst snd]. exact (conj eq_refl E). }
  destruct D as (ds & F).
  destruct (texts_interleave M ds) as (N & HN).
  - intros t ys mm Hin. apply In_nth_error in Hin. destruct Hin as (k & Ek). destruct (F2_nth _ _ _ _ _ F Ek) as (c & Ec & E1 & E2 & E3 & E4 & _). cbn [fst snd] in *. subst t. exact (conj E2 (conj E3 E4)).
  - intros k k' t ys mm t' ys' mm' n z Ek Ek' U U'. destruct (F2_nth _ _ _ _ _ F Ek) as (c & Ec & E1 & _ & _ & _ & E5 & _). destruct (F2_nth _ _ _ _ _ F Ek') as (c' & Ec' & E1' & _ & _ & _ & E5' & _). cbn [fst snd] in *. subst t t'.
    assert (W : writes c z) by (apply (E5 _ _ U); reflexivity). destruct (Nat.eq_dec k k') as [<-|Nk].
    + split; [reflexivity|]. rewrite Ec in Ec'. injection Ec' as <-. destruct (Nat.eq_dec n (t_pos (tcall_of c))) as [|Nn]; [assumption|]. exfalso. apply (Hs c z (nth_error_In _ _ Ec) W). apply (E5' _ _ U'). exact Nn.
    + exfalso. destruct (Hd k k' c c' z Ec Ec' Nk W) as (A & B). destruct (Nat.eq_dec n (t_pos (tcall_of c'))) as [Nn|Nn]; [apply B|apply A]; apply (E5' _ _ U'); exact Nn.
  - exists N. intros l cf R.
    assert (Em : map hthread cs = map (fun k : tcall K * list (actual K) * arr K => call_thread (fst (fst k))) ds).
    { clear - F. induction F as [|c d cs ds (E & _) _ IH]; [reflexivity|]. cbn [map]. rewrite IH, E. reflexivity. }
    rewrite Em in R. destruct (HN l cf R) as (L1 & L2 & L3). refine (conj L1 (conj L2 _)). intros Fin. destruct (L3 Fin) as (A & B). split.
    + intros c Hc. apply In_nth_error in Hc. destruct Hc as (k & Ek). destruct (F2_nth' _ _ _ _ _ F Ek) as ([[t ys] mm] & Ed & E1 & _ & _ & _ & _ & E6). cbn [fst snd] in *. subst t. apply E6. intros a q v Ea Ev. apply (A _ _ _ a q v (nth_error_In _ _ Ed) Ea Ev).
    + intros z Hz. apply B. intros t ys mm Hin U. apply In_nth_error in Hin. destruct Hin as (k & Ek). destruct (F2_nth _ _ _ _ _ F Ek) as (c & Ec & E1 & _ & _ & _ & E5 & _). cbn [fst snd] in *. subst t.
      apply (Hz c (nth_error_In _ _ Ec)). apply (E5 _ _ U). reflexivity.
Qed.
End G.
