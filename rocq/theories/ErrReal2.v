(** Rounding errors of the real-matrix GEMV and GEMM: from the components to the routines. *)
From Coq Require Import ZArith Reals Lra Lia Psatz Bool Ascii.
From Flocq Require Import Core.Core IEEE754.BinarySingleNaN.
From Verif Require Import Num NumR Res ResFacts Spec SpecFacts VecFacts LoopFacts MQuat MForL1 MGenL1 MGenL2 OptGemmFacts RawL3 RawL2 RawL2g GemmMisc F64 SpecErr SpecErrF SpecErrR RoundFacts
  ErrFacts ErrFacts2 ErrFacts3 ErrFor2 ErrReal.
Local Open Scope R_scope.

Lemma ziter_proj {A B} (pi : A -> B) k (f : Z -> A -> A) (g : Z -> B -> B) a : (0 <= k)%Z -> (forall l x, (0 <= l < k)%Z -> pi (f l x) = g l (pi x)) -> pi (ziter k f a) = ziter k g (pi a).
Proof.
  intros Hk. pattern k. apply natlike_ind; auto. clear k Hk. intros k Hk IH Hf. unfold Z.succ in *. rewrite !ziter_succ by lia. rewrite Hf by lia. rewrite IH; auto.
  intros; apply Hf; lia.
Qed.

Section P.
Variable fused : bool.
Local Notation K := (F64 fused).
Local Notation FQ := (quat (F64 fused)).
Variable pi : FQ -> K.
Hypothesis pi_add : forall p q, pi (q_addeq p q) = nadd (pi p) (pi q).
Hypothesis pi_mul : forall q t, pi (q_muleq_r q t) = nmul (pi q) t.
Hypothesis pi_set : forall q, pi (q_set_real q n0) = n0.
Hypothesis pi_zero : pi (q_of_real n0) = n0.

Definition istr (o : mop) : bool := match o with OpN | OpR => false | _ => true end.
Lemma pi_gemm qmul oa ob k (alpha beta : K) (A : Z -> Z -> K) (B w : Z -> Z -> FQ) i j : (0 <= k)%Z ->
  pi (ggemm_val qmul r_mul_q rmulscal smartconj_r oa ob k (SR alpha) (SR beta) A B w i j) =
  s_gemm fused alpha beta (fun l => ropm oa A i l) (fun l => pi (bval ob B l j)) (pi (w i j)) (istr oa) k.
Proof.
  intros Hk. unfold ggemm_val, s_gemm, ggemm_main, gscale_elt, gpre_elt, s_pre, gscale_elt, q_add, s_dot. cbn [s_eqb smul_l].
  destruct ((neqb alpha n0 || (k =? 0)%Z) && neqb beta n1); auto.
  destruct (neqb alpha n0) eqn:E0. { destruct (neqb beta n0); [apply pi_set|apply pi_mul]. }
  assert (D : forall ca, pi (ziter k (fun l h => q_addeq h (r_mul_q (if (ca : bool) then smartconj_r (A l i) else A l i) (bval ob B l j))) (q_of_real n0)) =
    ziter k (fun l h => nadd h (nmul (pi (bval ob B l j)) (A l i))) n0).
  { intros ca. rewrite (ziter_proj pi k _ (fun l h => nadd h (nmul (pi (bval ob B l j)) (A l i)))); auto; [rewrite pi_zero; reflexivity|]. intros l x _. unfold r_mul_q, smartconj_r. rewrite pi_add, pi_mul. destruct ca; reflexivity. }
  assert (N : pi (ziter k (fun l acc => q_addeq acc (r_mul_q (rmulscal (SR alpha) (A i l)) (bval ob B l j))) 
      (if neqb beta n0 then q_set_real (w i j) n0 else if negb (neqb beta n1) then r_mul_q beta (w i j) else w i j)) =
    ziter k (fun l acc => nadd acc (nmul (pi (bval ob B l j)) (nmul alpha (A i l)))) (if neqb beta n0 then n0 else if negb (neqb beta n1) then nmul (pi (w i j)) beta else pi (w i j))).
  { replace (if neqb beta n0 then n0 else if negb (neqb beta n1) then nmul (pi (w i j)) beta else pi (w i j))
      with (pi (if neqb beta n0 then q_set_real (w i j) n0 else if negb (neqb beta n1) then r_mul_q beta (w i j) else w i j))
      by (destruct (neqb beta n0); [apply pi_set|]; destruct (neqb beta n1); cbn [negb]; [reflexivity|apply pi_mul]).
    apply (ziter_proj pi); auto. intros l x _. unfold r_mul_q, rmulscal. rewrite pi_add, pi_mul. reflexivity. }
  destruct oa; cbn [istr ropm iscj]; auto.
  - destruct (neqb beta n0); rewrite ?pi_add; unfold r_mul_q at 1; rewrite pi_mul, (D false); [reflexivity|]. unfold r_mul_q. rewrite pi_mul. reflexivity.
  - destruct (neqb beta n0); rewrite ?pi_add; unfold r_mul_q at 1; rewrite pi_mul, (D true); [reflexivity|]. unfold r_mul_q. rewrite pi_mul. reflexivity.
Qed.
Lemma pi_gemv qmul o k (alpha beta : K) (A : Z -> Z -> K) (v w : Z -> FQ) i : (0 <= k)%Z ->
  pi (ggemv_val qmul r_mul_q rmulscal rscalmul nsub smartconj_r o k (SR alpha) (SR beta) A v w i) =
  s_gemv fused alpha beta (fun l => ropm o A i l) (fun l => pi (v l)) (pi (w i)) (istr o) k.
Proof.
  intros Hk. unfold ggemv_val, s_gemv, s_dot. cbn [s_eqb smul_l].
  assert (PR : pi (ggpre qmul (SR beta) (w i)) = s_pre' fused beta (pi (w i))).
  { unfold ggpre, s_pre'. cbn [s_eqb smul_l]. destruct (neqb beta n1); auto. destruct (neqb beta n0); [apply pi_set|apply pi_mul]. }
  destruct (neqb alpha n0 && neqb beta n1); auto. destruct (neqb alpha n0) eqn:E0; auto.
  assert (D : forall nc, pi (ziter k (fun j h => gemv_dot r_mul_q smartconj_r nc (A j i) (v j) h) (q_of_real n0)) = ziter k (fun l h => nadd h (nmul (pi (v l)) (A l i))) n0).
  { intros nc. rewrite (ziter_proj pi k _ (fun l h => nadd h (nmul (pi (v l)) (A l i)))); auto; [rewrite pi_zero; reflexivity|]. intros l x _. unfold gemv_dot, r_mul_q, smartconj_r. rewrite pi_add, pi_mul. destruct nc; reflexivity. }
  assert (N : pi (ziter k (fun j acc => gn_elt qmul r_mul_q rmulscal rscalmul nsub (SR alpha) (A i j) (v j) acc) (ggpre qmul (SR beta) (w i))) =
    ziter k (fun l acc => nadd (nadd acc (nmul (nmul (pi (v l)) alpha) (A i l))) (nmul (pi (v l)) (nsub (nmul alpha (A i l)) (nmul (A i l) alpha)))) (s_pre' fused beta (pi (w i)))).
  { rewrite <- PR. apply (ziter_proj pi); auto. intros l x _. unfold gn_elt, rmulscal, rscalmul. cbn [smul_l]. unfold r_mul_q. rewrite !pi_add, !pi_mul. reflexivity. }
  destruct o; cbn [istr ropm]; auto; rewrite pi_add, PR; unfold r_mul_q at 1; rewrite pi_mul, D; reflexivity.
Qed.
End P.

(** exact values, by components *)
Section X.
Variable pr : quat Rnum -> R.
Hypothesis pr_add : forall p q, pr (Hadd (K := Rnum) p q) = pr p + pr q.
Hypothesis pr_mul : forall r q, pr (Hmul (K := Rnum) (Hre (K := Rnum) r) q) = r * pr q.
Hypothesis pr_maj : forall r q, pr (Qmaj (Hre (K := Rnum) r) q) = r * pr q.
Hypothesis pr_abs : forall q, pr (Qabs q) = Rabs (pr q).
Hypothesis pr_0 : pr (H0 (K := Rnum)) = 0.
Lemma pr_sum k f : (0 <= k)%Z -> pr (Hsum (K := Rnum) k f) = Rsum k (fun l => pr (f l)).
Proof.
  intros Hk. pattern k. apply natlike_ind; auto. clear k Hk. intros k Hk IH. unfold Z.succ. rewrite Hsum_succ, Rsum_succ, pr_add, IH by lia. reflexivity.
Qed.
Lemma Qabs_re r : Qabs (Hre (K := Rnum) r) = Hre (K := Rnum) (Rabs r). Proof. unfold Qabs, Hre; cbn. rewrite Rabs_R0. reflexivity. Qed.
Lemma Qmaj_re r s : Qmaj (Hre (K := Rnum) r) (Hre (K := Rnum) s) = Hre (K := Rnum) (r * s). Proof. unfold Qmaj, Hre; cbn. f_equal; ring. Qed.
Lemma opm_re o A i l : opm (K := Rnum) o (Rmat A) i l = Hre (K := Rnum) (B2R (ropm o A i l)).
Proof. destruct o; cbn [opm ropm]; auto; unfold Rmat, Hconj, Hre; cbn; rewrite Ropp_0; reflexivity. Qed.
Lemma Rsum_ext' n f g : (forall l, f l = g l) -> Rsum n f = Rsum n g.
Proof. intros Hf. unfold Rsum. induction (Z.to_nat n) as [|p IH]; cbn; auto. rewrite IH, Hf. reflexivity. Qed.
Definition rv (al be : R) (k : Z) (a : Z -> R) (col : Z -> quat Rnum) (w : quat Rnum) : quat Rnum :=
  Hadd (K := Rnum) (Hmul (K := Rnum) (Hre (K := Rnum) al) (Hsum (K := Rnum) k (fun l => Hmul (K := Rnum) (Hre (K := Rnum) (a l)) (col l)))) (Hmul (K := Rnum) (Hre (K := Rnum) be) w).
Definition rm (al be : R) (k : Z) (a : Z -> R) (col : Z -> quat Rnum) (w : quat Rnum) : quat Rnum :=
  Hadd (K := Rnum) (Qmaj (Qabs (Hre (K := Rnum) be)) (Qabs w))
    (Hsum (K := Rnum) k (fun l => Qmaj (Qmaj (Qabs (Hre (K := Rnum) al)) (Qabs (Hre (K := Rnum) (a l)))) (Qabs (col l)))).
Lemma pr_rv al be k a col w : (0 <= k)%Z -> pr (rv al be k a col w) = al * Rsum k (fun l => a l * pr (col l)) + be * pr w.
Proof. intros Hk. unfold rv. rewrite pr_add, !pr_mul, pr_sum by auto. do 2 f_equal. apply Rsum_ext'. intros l. apply pr_mul. Qed.
Lemma pr_rm al be k a col w : (0 <= k)%Z -> pr (rm al be k a col w) = Rabs be * Rabs (pr w) + Rsum k (fun l => Rabs al * Rabs (a l) * Rabs (pr (col l))).
Proof. intros Hk. unfold rm. rewrite pr_add, Qabs_re, pr_maj, pr_abs, pr_sum by auto. f_equal. apply Rsum_ext'. intros l. rewrite !Qabs_re, Qmaj_re, pr_maj, pr_abs. reflexivity. Qed.
Lemma pr_dot k a col : (0 <= k)%Z -> pr (Hsum (K := Rnum) k (fun l => Qmaj (Qabs (Hre (K := Rnum) (a l))) (Qabs (col l)))) = Rsum k (fun l => Rabs (a l) * Rabs (pr (col l))).
Proof. intros Hk. rewrite pr_sum by auto. apply Rsum_ext'. intros l. rewrite Qabs_re, pr_maj, pr_abs. reflexivity. Qed.
End X.

Section T.
Variable fused : bool.
Local Notation K := (F64 fused).
Local Notation FQ := (quat (F64 fused)).
Local Notation V x := (B2R (x : f64)).

Section Core.
Variables (P : Prop) (pi : FQ -> K) (pr : quat Rnum -> R).
Hypothesis pq : forall q : FQ, V (pi q) = pr (QR q).
Hypothesis pf : forall q : FQ, fin q -> is_finite (pi q : f64) = true.
Hypothesis pr_add : forall p q, pr (Hadd (K := Rnum) p q) = pr p + pr q.
Hypothesis pr_mul : forall r q, pr (Hmul (K := Rnum) (Hre (K := Rnum) r) q) = r * pr q.
Hypothesis pr_maj : forall r q, pr (Qmaj (Hre (K := Rnum) r) q) = r * pr q.
Hypothesis pr_abs : forall q, pr (Qabs q) = Rabs (pr q).
Hypothesis pr_0 : pr (H0 (K := Rnum)) = 0.
Hypothesis pr_below : forall d E m, below d E m -> pr m + err_bound d (pr m) E < bpow radix2 1024.
Hypothesis pr_q1 : forall q, Rabs (pr q) <= Q1 q.
Variables (al be : K) (k : Z) (a : Z -> K) (col : Z -> FQ) (w : FQ).
Hypothesis Hk : (0 <= k)%Z.
Hypothesis HP : P -> is_finite (al : f64) = true /\ is_finite (be : f64) = true /\ fin w /\ real_room k (V al) a col.
Lemma core_gemm tr :
  apx P (s_gemm fused al be a (fun l => pi (col l)) (pi w) tr k) (pr (rv (V al) (V be) k (fun l => V (a l)) (fun l => QR (col l)) (QR w)))
    (pr (rm (V al) (V be) k (fun l => V (a l)) (fun l => QR (col l)) (QR w))) (Z.to_nat (k + 3)) (real_units k (V al) (fun l => Q1 (QR (col l)))) /\
  apx P (s_gemv fused al be a (fun l => pi (col l)) (pi w) tr k) (pr (rv (V al) (V be) k (fun l => V (a l)) (fun l => QR (col l)) (QR w)))
    (pr (rm (V al) (V be) k (fun l => V (a l)) (fun l => QR (col l)) (QR w))) (Z.to_nat (k + 3)) (real_units k (V al) (fun l => Rabs (V (a l)))).
Proof.
  rewrite (pr_rv pr), (pr_rm pr) by auto.
  replace (V (al) * Rsum k (fun l => V (a l) * pr (QR (col l))) + V be * pr (QR w)) with (s_val fused al be a (fun l => pi (col l)) (pi w) k)
    by (unfold s_val; rewrite pq; do 2 f_equal; apply Rsum_ext'; intros l; rewrite pq; reflexivity).
  replace (Rabs (V be) * Rabs (pr (QR w)) + Rsum k (fun l => Rabs (V al) * Rabs (V (a l)) * Rabs (pr (QR (col l))))) with (s_mag fused al be a (fun l => pi (col l)) (pi w) k)
    by (unfold s_mag; rewrite pq; f_equal; apply Rsum_ext'; intros l; rewrite pq; reflexivity).
  assert (G1 : P -> is_finite (al : f64) = true) by (intros h; apply (HP h)).
  assert (G2 : P -> is_finite (be : f64) = true) by (intros h; apply (HP h)).
  assert (G3 : P -> is_finite (pi w : f64) = true) by (intros h; apply pf; apply (HP h)).
  assert (GR : P -> real_room k (V al) a col) by (intros h; apply (HP h)).
  assert (G4 : forall l, (0 <= l < k)%Z -> P -> is_finite (a l : f64) = true) by (intros l Hl h; apply (GR h); auto).
  assert (G5 : forall l, (0 <= l < k)%Z -> P -> is_finite (pi (col l) : f64) = true) by (intros l Hl h; apply pf; apply (GR h); auto).
  assert (G6 : forall l, (0 <= l < k)%Z -> P -> Rabs (V al * V (a l)) + err_bound 1 (Rabs (V al * V (a l))) 1 < bpow radix2 1024) by (intros l Hl h; apply (GR h); auto).
  assert (G7 : forall l, (0 <= l < k)%Z -> P -> Rabs (V al) * Rabs (V (pi (col l))) + err_bound 1 (Rabs (V al) * Rabs (V (pi (col l)))) 1 < bpow radix2 1024).
  { intros l Hl h. destruct (GR h) as [R1 _]. destruct (R1 l Hl) as (_ & _ & _ & B). apply pr_below in B. rewrite Qabs_re, pr_maj, pr_abs, <- pq in B. exact B. }
  assert (G8 : P -> Rsum k (fun l => Rabs (V (a l)) * Rabs (V (pi (col l)))) + err_bound (Z.to_nat (k + 1)) (Rsum k (fun l => Rabs (V (a l)) * Rabs (V (pi (col l))))) (2 * IZR k) < bpow radix2 1024).
  { intros h. destruct (GR h) as [_ B]. apply pr_below in B. rewrite (pr_dot pr pr_add pr_maj pr_abs pr_0 k (fun l => V (a l)) (fun l => QR (col l)) Hk) in B.
    erewrite (Rsum_ext' k (fun l => Rabs (V (a l)) * Rabs (V (pi (col l))))); [exact B|]. intros l. rewrite pq. reflexivity. }
  split.
  - apply (apx_gemm fused P); auto. intros l. rewrite pq. apply pr_q1.
  - apply (apx_gemv fused P); auto. intros l. apply Rle_refl.
Qed.
End Core.

Lemma below_r d E m : below d E m -> qr m + err_bound d (qr m) E < bpow radix2 1024. Proof. intros B; apply B. Qed.
Lemma below_i d E m : below d E m -> qi m + err_bound d (qi m) E < bpow radix2 1024. Proof. intros B; apply B. Qed.
Lemma below_j d E m : below d E m -> qj m + err_bound d (qj m) E < bpow radix2 1024. Proof. intros B; apply B. Qed.
Lemma below_k d E m : below d E m -> qk m + err_bound d (qk m) E < bpow radix2 1024. Proof. intros B; apply B. Qed.
Ltac q1 := intros q; unfold Q1; pose proof (Rabs_pos (qr q)); pose proof (Rabs_pos (qi q)); pose proof (Rabs_pos (qj q)); pose proof (Rabs_pos (qk q)); lra.

Lemma mul_r (r : R) (q : quat Rnum) : qr (Hmul (K := Rnum) (Hre (K := Rnum) r) q) = r * qr q. Proof. destruct q as [q1 q2 q3 q4]; unfold Hmul, Hre; cbn; match goal with |- ?a = ?b => change (@eq R a b) end; ring. Qed.
Lemma maj_r (r : R) (q : quat Rnum) : qr (Qmaj (Hre (K := Rnum) r) q) = r * qr q. Proof. destruct q as [q1 q2 q3 q4]; unfold Qmaj, Hre; cbn; match goal with |- ?a = ?b => change (@eq R a b) end; ring. Qed.
Lemma mul_i (r : R) (q : quat Rnum) : qi (Hmul (K := Rnum) (Hre (K := Rnum) r) q) = r * qi q. Proof. destruct q as [q1 q2 q3 q4]; unfold Hmul, Hre; cbn; match goal with |- ?a = ?b => change (@eq R a b) end; ring. Qed.
Lemma maj_i (r : R) (q : quat Rnum) : qi (Qmaj (Hre (K := Rnum) r) q) = r * qi q. Proof. destruct q as [q1 q2 q3 q4]; unfold Qmaj, Hre; cbn; match goal with |- ?a = ?b => change (@eq R a b) end; ring. Qed.
Lemma mul_j (r : R) (q : quat Rnum) : qj (Hmul (K := Rnum) (Hre (K := Rnum) r) q) = r * qj q. Proof. destruct q as [q1 q2 q3 q4]; unfold Hmul, Hre; cbn; match goal with |- ?a = ?b => change (@eq R a b) end; ring. Qed.
Lemma maj_j (r : R) (q : quat Rnum) : qj (Qmaj (Hre (K := Rnum) r) q) = r * qj q. Proof. destruct q as [q1 q2 q3 q4]; unfold Qmaj, Hre; cbn; match goal with |- ?a = ?b => change (@eq R a b) end; ring. Qed.
Lemma mul_k (r : R) (q : quat Rnum) : qk (Hmul (K := Rnum) (Hre (K := Rnum) r) q) = r * qk q. Proof. destruct q as [q1 q2 q3 q4]; unfold Hmul, Hre; cbn; match goal with |- ?a = ?b => change (@eq R a b) end; ring. Qed.
Lemma maj_k (r : R) (q : quat Rnum) : qk (Qmaj (Hre (K := Rnum) r) q) = r * qk q. Proof. destruct q as [q1 q2 q3 q4]; unfold Qmaj, Hre; cbn; match goal with |- ?a = ?b => change (@eq R a b) end; ring. Qed.
Lemma core_q (P : Prop) (al be : K) (k : Z) (a : Z -> K) (col : Z -> FQ) (w : FQ) tr : (0 <= k)%Z ->
  (P -> is_finite (al : f64) = true /\ is_finite (be : f64) = true /\ fin w /\ real_room k (V al) a col) ->
  let x := rv (V al) (V be) k (fun l => V (a l)) (fun l => QR (col l)) (QR w) in
  let m := rm (V al) (V be) k (fun l => V (a l)) (fun l => QR (col l)) (QR w) in
  (forall q : FQ, (forall pi, (pi = qr \/ pi = qi \/ pi = qj \/ pi = qk) -> pi q = s_gemm fused al be a (fun l => pi (col l)) (pi w) tr k) ->
     qapx fused P q x m (Z.to_nat (k + 3)) (real_units k (V al) (fun l => Q1 (QR (col l))))) /\
  (forall q : FQ, (forall pi, (pi = qr \/ pi = qi \/ pi = qj \/ pi = qk) -> pi q = s_gemv fused al be a (fun l => pi (col l)) (pi w) tr k) ->
     qapx fused P q x m (Z.to_nat (k + 3)) (real_units k (V al) (fun l => Rabs (V (a l))))).
Proof.
  intros Hk HP x m.
  assert (C1 := core_gemm P (@qr K) (@qr Rnum) (fun q => eq_refl) (fun q F => proj1 F) (fun p q => eq_refl)
    mul_r maj_r (fun q => eq_refl) eq_refl below_r ltac:(q1) al be k a col w Hk HP tr).
  assert (C2 := core_gemm P (@qi K) (@qi Rnum) (fun q => eq_refl) (fun q F => proj1 (proj2 F)) (fun p q => eq_refl)
    mul_i maj_i (fun q => eq_refl) eq_refl below_i ltac:(q1) al be k a col w Hk HP tr).
  assert (C3 := core_gemm P (@qj K) (@qj Rnum) (fun q => eq_refl) (fun q F => proj1 (proj2 (proj2 F))) (fun p q => eq_refl)
    mul_j maj_j (fun q => eq_refl) eq_refl below_j ltac:(q1) al be k a col w Hk HP tr).
  assert (C4 := core_gemm P (@qk K) (@qk Rnum) (fun q => eq_refl) (fun q F => proj2 (proj2 (proj2 F))) (fun p q => eq_refl)
    mul_k maj_k (fun q => eq_refl) eq_refl below_k ltac:(q1) al be k a col w Hk HP tr).
  destruct C1 as [A1 B1], C2 as [A2 B2], C3 as [A3 B3], C4 as [A4 B4].
  split; intros q Hq; refine (conj _ (conj _ (conj _ _)));
    [rewrite (Hq qr) by auto|rewrite (Hq qi) by auto|rewrite (Hq qj) by auto|rewrite (Hq qk) by auto|
     rewrite (Hq qr) by auto|rewrite (Hq qi) by auto|rewrite (Hq qj) by auto|rewrite (Hq qk) by auto]; assumption.
Qed.

Local Open Scope Z_scope.
Lemma bval_opm ob (B : Z -> Z -> FQ) l j : ob <> OpR -> bval ob B l j = opm ob B l j.
Proof. intros Ho. destruct ob; try congruence; reflexivity. Qed.

Lemma gemm_real_err qmul ca cb oa ob m n k (alpha beta : K) (a : arr K) lda (b : arr FQ) ldb (c : arr FQ) ldc A B w :
  trans_char ca = Some oa -> trans_char cb = Some ob -> 0 <= m -> 0 <= n -> 0 <= k -> m <= ldc ->
  holds_mat a lda (op_rows oa m k) (op_cols oa m k) A -> holds_mat b ldb (op_rows ob k n) (op_cols ob k n) B -> holds_mat c ldc m n w ->
  returns (gemm_real qmul ca cb m n k alpha a lda b ldb beta c ldc) (fun c' => same_but_mat c c' ldc m n /\
    forall i j, 0 <= i < m -> 0 <= j < n -> exists q, c' (i + j * ldc) = Some q /\
      let RB := fun i j => QR (B i j) in let RC := fun i j => QR (w i j) in
      let ra := Hre (K := Rnum) (V alpha) in let rb := Hre (K := Rnum) (V beta) in
      let d := Z.to_nat (k + 3) in let E := real_units k (V alpha) (fun l => Q1 (opm (K := Rnum) ob RB l j)) in let mg := gemm_mag oa ob k ra (Rmat A) RB rb RC i j in
      close d E q (gemm_elt (K := Rnum) oa ob k ra (Rmat A) RB rb RC i j) mg /\
      (is_finite (alpha : f64) = true -> is_finite (beta : f64) = true -> fin (w i j) -> real_room k (V alpha) (fun l => ropm oa A i l) (fun l => opm ob B l j) -> below d E mg -> fin q)).
Proof.
  intros Ca Cb Hm Hn Hk Hl Ha Hb Hc. pose proof (gdec_char _ _ Ca) as Da. pose proof (gdec_char _ _ Cb) as Db.
  assert (Hob : ob <> OpR) by (destruct (lsame_N _ _ Cb) as (_ & _ & _ & ?); auto).
  eapply returns_mono; [apply (gemm_gen_raw qmul r_mul_q rmulscal smartconj_r ca cb m n k (SR alpha) a lda b ldb (SR beta) c ldc A B w); rewrite ?Da, ?Db; auto|]. rewrite Da, Db.
  intros c' [Hh S]. split; auto. intros i j Hi Hj. eexists. split; [apply Hh; auto|].
  intros RB RC ra rb d E mg.
  set (q := ggemm_val _ _ _ _ _ _ _ _ _ _ _ _ _ _).
  assert (EV : rv (V alpha) (V beta) k (fun l => V (ropm oa A i l)) (fun l => QR (opm ob B l j)) (QR (w i j)) = gemm_elt (K := Rnum) oa ob k ra (Rmat A) RB rb RC i j).
  { unfold rv, gemm_elt. do 2 f_equal. apply Hsum_ext. intros l _. rewrite QR_opm, opm_re. reflexivity. }
  assert (EM : rm (V alpha) (V beta) k (fun l => V (ropm oa A i l)) (fun l => QR (opm ob B l j)) (QR (w i j)) = mg).
  { unfold rm, mg, gemm_mag. f_equal. apply Hsum_ext. intros l _. rewrite QR_opm, opm_re. reflexivity. }
  assert (EE : real_units k (V alpha) (fun l => Q1 (QR (opm ob B l j))) = E).
  { unfold E, real_units. f_equal. apply Rsum_ext'. intros l. rewrite QR_opm. reflexivity. }
  assert (HQ : forall pi, (pi = qr \/ pi = qi \/ pi = qj \/ pi = qk) -> pi q = s_gemm fused alpha beta (fun l => ropm oa A i l) (fun l => pi (opm ob B l j)) (pi (w i j)) (istr oa) k).
  { intros pi Hpi. unfold q. replace (fun l => pi (opm ob B l j)) with (fun l => pi (opm ob B l j)) by reflexivity.
    rewrite (pi_gemm fused pi); auto; try (intros; destruct Hpi as [-> | [-> | [-> | ->]]]; reflexivity).
    destruct ob; try congruence; reflexivity. }
  split.
  - destruct (core_q False alpha beta k (fun l => ropm oa A i l) (fun l => opm ob B l j) (w i j) (istr oa) Hk ltac:(tauto)) as [Q _].
    specialize (Q q HQ). rewrite EV, EM, EE in Q. apply qapx_close in Q. exact Q.
  - intros Fa Fb Fw Fr Bl.
    destruct (core_q True alpha beta k (fun l => ropm oa A i l) (fun l => opm ob B l j) (w i j) (istr oa) Hk ltac:(tauto)) as [Q _].
    specialize (Q q HQ). rewrite EV, EM, EE in Q. eapply qapx_fin; [exact Q|exact I|exact Bl].
Qed.
Lemma gemv_real_err qmul c o m n (alpha beta : K) (a : arr K) lda (x : arr FQ) incx (y : arr FQ) incy A v w :
  trans_char c = Some o -> 0 < m -> 0 < n -> 0 < incx -> 0 < incy ->
  holds_mat a lda m n A -> holds_vec x (op_cols o m n) incx v -> holds_vec y (op_rows o m n) incy w ->
  returns (gemv_real qmul c m n alpha a lda x incx beta y incy) (fun y' => same_but_vec y y' (op_rows o m n) incy /\
    forall i, 0 <= i < op_rows o m n -> exists q, y' (vpos (op_rows o m n) incy i) = Some q /\
      let k := op_cols o m n in let Rx := fun j => QR (v j) in let Ry := fun i => QR (w i) in
      let ra := Hre (K := Rnum) (V alpha) in let rb := Hre (K := Rnum) (V beta) in
      let d := Z.to_nat (k + 3) in let E := real_units k (V alpha) (fun l => Rabs (V (ropm o A i l))) in let mg := gemv_mag o k ra (Rmat A) Rx rb Ry i in
      close d E q (gemv_elt (K := Rnum) o k ra (Rmat A) Rx rb Ry i) mg /\
      (is_finite (alpha : f64) = true -> is_finite (beta : f64) = true -> fin (w i) -> real_room k (V alpha) (fun l => ropm o A i l) v -> below d E mg -> fin q)).
Proof.
  intros Hc Hm Hn Hix Hiy Ha Hx Hy.
  assert (Hk : 0 <= op_cols o m n) by (destruct o; cbn; lia).
  eapply returns_mono; [apply (gemv_gen_raw qmul r_mul_q rmulscal rscalmul nsub smartconj_r c o m n (SR alpha) a lda x incx (SR beta) y incy A v w); auto|].
  intros y' [Hh S]. split; auto. intros i Hi. eexists. split; [apply Hh; auto|].
  intros k Rx Ry ra rb d E mg. fold k in Hk |- *.
  set (q := ggemv_val _ _ _ _ _ _ _ _ _ _ _ _ _ _).
  assert (EV : rv (V alpha) (V beta) k (fun l => V (ropm o A i l)) (fun l => QR (v l)) (QR (w i)) = gemv_elt (K := Rnum) o k ra (Rmat A) Rx rb Ry i).
  { unfold rv, gemv_elt. do 2 f_equal. apply Hsum_ext. intros l _. rewrite opm_re. reflexivity. }
  assert (EM : rm (V alpha) (V beta) k (fun l => V (ropm o A i l)) (fun l => QR (v l)) (QR (w i)) = mg).
  { unfold rm, mg, gemv_mag. f_equal. apply Hsum_ext. intros l _. rewrite opm_re. reflexivity. }
  assert (HQ : forall pi, (pi = qr \/ pi = qi \/ pi = qj \/ pi = qk) -> pi q = s_gemv fused alpha beta (fun l => ropm o A i l) (fun l => pi (v l)) (pi (w i)) (istr o) k).
  { intros pi Hpi. unfold q. rewrite (pi_gemv fused pi); auto; try (intros; destruct Hpi as [-> | [-> | [-> | ->]]]; reflexivity). }
  split.
  - destruct (core_q False alpha beta k (fun l => ropm o A i l) v (w i) (istr o) Hk ltac:(tauto)) as [_ Q].
    specialize (Q q HQ). rewrite EV, EM in Q. apply qapx_close in Q. exact Q.
  - intros Fa Fb Fw Fr Bl.
    destruct (core_q True alpha beta k (fun l => ropm o A i l) v (w i) (istr o) Hk ltac:(tauto)) as [_ Q].
    specialize (Q q HQ). rewrite EV, EM in Q. eapply qapx_fin; [exact Q|exact I|exact Bl].
Qed.
End T.
