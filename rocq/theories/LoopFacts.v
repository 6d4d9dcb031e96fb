(** Loops that map over a strided vector or a matrix window. *)
From Coq Require Import ZArith Lia Bool.
From Verif Require Import Num Res ResFacts Spec SpecFacts VecFacts.
Local Open Scope Z_scope.

Lemma cursori_n {S} (I : Z -> S -> Prop) (step : Z -> Z -> S -> res S) n lo hi ix0 incx s :
  hi - lo = n -> 0 <= n ->
  (forall i s, 0 <= i < n -> I i s -> returns (step (lo + i) (ix0 + i * incx) s) (I (i + 1))) -> I 0 s ->
  returns (bind (zfor lo hi (fun i '(s, ix) => bind (step i ix s) (fun s => Ok (s, ix + incx))) (s, ix0))
             (fun '(s, _) => Ok s)) (I n).
Proof.
  intros En Hn Hs H0.
  eapply returns_bind with (P := fun '(s, ix) => I n s /\ ix = ix0 + n * incx).
  - apply (plain_n (fun i '(s, ix) => I i s /\ ix = ix0 + i * incx)); auto.
    + intros i [s' ix] Hi [HI ->].
      eapply returns_bind; [apply Hs; [lia|exact HI]|]. intros s'' H''. cbn. split; auto; lia.
    + split; auto; lia.
  - intros [s' ix] [HI _]. exact HI.
Qed.

(** ** vectors *)
Section V.
Context {A : Type}.
Implicit Types (x y : arr A).

Lemma is_vec_refl x n inc w : holds_vec x n inc w -> is_vec x x n inc w.
Proof. intros Hv; split; auto. intros p _; auto. Qed.
Lemma prog_start x x' n inc (new old : Z -> A) : is_vec x x' n inc old -> is_vec x x' n inc (prog new old 0).
Proof. apply is_vec_ext. intros k Hk. unfold prog. destruct (Z.ltb_spec k 0); auto; lia. Qed.
Lemma prog_end x x' n inc (new old : Z -> A) : is_vec x x' n inc (prog new old n) -> is_vec x x' n inc new.
Proof. apply is_vec_ext. intros k Hk. unfold prog. destruct (Z.ltb_spec k n); auto; lia. Qed.
Lemma vec_upd x x' n inc w i p q : is_vec x x' n inc w -> inc <> 0 -> 0 <= i < n -> p = vpos n inc i ->
  is_vec x (upd x' p q) n inc (fun k => if k =? i then q else w k).
Proof.
  intros [Hv Hs] Hinc Hi ->. split.
  - intros k Hk. destruct (Z.eqb_spec k i) as [->|Hne].
    + rewrite upd_same. auto.
    + rewrite upd_diff by (intros E; apply vpos_inj in E; auto). auto.
  - intros p Hp. rewrite upd_diff by (apply Hp; auto). apply Hs; auto.
Qed.
Lemma vec_trans x x' x'' n inc w w' : is_vec x x' n inc w -> is_vec x' x'' n inc w' -> is_vec x x'' n inc w'.
Proof. intros [H1 S1] [H2 S2]. split; auto. intros p Hp. rewrite S2, S1; auto. Qed.

(** y(pos i) := new i, one element after another *)
Lemma vmap_cursor y y' n inc lo hi k0 (step : Z -> Z -> arr A -> res (arr A)) (new old : Z -> A) :
  hi - lo = n -> 0 <= n -> inc <> 0 ->
  (forall i p y, 0 <= i < n -> p = k0 + i * inc -> y (vpos n inc i) = Some (old i) -> step (lo + i) p y = Ok (upd y (vpos n inc i) (new i))) ->
  is_vec y y' n inc old ->
  returns (bind (zfor lo hi (fun i '(s, ix) => bind (step i ix s) (fun s => Ok (s, ix + inc))) (y', k0))
             (fun '(s, _) => Ok s)) (fun y'' => is_vec y y'' n inc new).
Proof.
  intros En Hn Hinc Hs Hv. eapply returns_mono.
  - apply (cursori_n (fun i y'' => is_vec y y'' n inc (prog new old i)) step n); auto.
    + intros i s Hi HI. destruct (prog_step _ _ _ _ _ _ i _ HI Hinc Hi eq_refl) as [Ly Uy].
      rewrite Hs; auto.
    + apply prog_start; auto.
  - intros y'' H. apply prog_end in H. exact H.
Qed.
Lemma vmap_plain y y' n lo hi (body : Z -> arr A -> res (arr A)) (new old : Z -> A) :
  hi - lo = n -> 0 <= n ->
  (forall i y, 0 <= i < n -> y i = Some (old i) -> body (lo + i) y = Ok (upd y i (new i))) ->
  is_vec y y' n 1 old ->
  returns (zfor lo hi body y') (fun y'' => is_vec y y'' n 1 new).
Proof.
  intros En Hn Hs Hv. eapply returns_mono.
  - apply (plain_n (fun i y'' => is_vec y y'' n 1 (prog new old i)) body n); auto.
    + intros i s Hi HI. destruct (prog_step _ _ _ _ _ _ i _ HI ltac:(lia) Hi eq_refl) as [Ly Uy].
      rewrite vpos_1 in *. rewrite Hs; auto.
    + apply prog_start; auto.
  - intros y'' H. apply prog_end in H. exact H.
Qed.
End V.

(** ** matrix windows *)
Definition is_mat {A} (a a' : arr A) (ldim m n : Z) (f : Z -> Z -> A) : Prop :=
  holds_mat a' ldim m n f /\ same_but_mat a a' ldim m n.
(** no two elements of the window share a position *)
Definition sep (ldim m n : Z) : Prop :=
  forall i j i' j', 0 <= i < m -> 0 <= j < n -> 0 <= i' < m -> 0 <= j' < n ->
    i + j * ldim = i' + j' * ldim -> i = i' /\ j = j'.
Lemma sep_ld ldim m n : m <= ldim -> sep ldim m n.
Proof. intros Hl i j i' j' Hi _ Hi' _. apply (mpos_inj ldim m); auto. Qed.

Section M.
Context {A : Type}.
Lemma is_mat_refl (a : arr A) ldim m n f : holds_mat a ldim m n f -> is_mat a a ldim m n f.
Proof. intros Hv; split; auto. intros p _; auto. Qed.
Lemma is_mat_ext (a a' : arr A) ldim m n f f' : (forall i j, 0 <= i < m -> 0 <= j < n -> f i j = f' i j) ->
  is_mat a a' ldim m n f -> is_mat a a' ldim m n f'.
Proof. intros He [Hv Hs]; split; auto. intros i j Hi Hj. rewrite <- He by auto. apply Hv; auto. Qed.
Lemma is_mat_at (a a' : arr A) ldim m n f i j : is_mat a a' ldim m n f -> 0 <= i < m -> 0 <= j < n -> a' (i + j * ldim) = Some (f i j).
Proof. intros [Hv _]; auto. Qed.
Lemma mat_upd (a a' : arr A) ldim m n f i j q : sep ldim m n -> is_mat a a' ldim m n f -> 0 <= i < m -> 0 <= j < n ->
  is_mat a (upd a' (i + j * ldim) q) ldim m n (fun i' j' => if (i' =? i) && (j' =? j) then q else f i' j').
Proof.
  intros Hsep [Hv Hs] Hi Hj. split.
  - intros i' j' Hi' Hj'. destruct (Z.eqb_spec i' i) as [->|Hne]; [destruct (Z.eqb_spec j' j) as [->|Hne]|]; cbn [andb].
    + rewrite upd_same. auto.
    + rewrite upd_diff by (intros E; apply Hsep in E; auto; lia). auto.
    + rewrite upd_diff by (intros E; apply Hsep in E; auto; lia). auto.
  - intros p Hp. rewrite upd_diff by (apply Hp; auto). apply Hs; auto.
Qed.
Lemma mat_trans (a a' a'' : arr A) ldim m n f f' : is_mat a a' ldim m n f -> is_mat a' a'' ldim m n f' -> is_mat a a'' ldim m n f'.
Proof. intros [H1 S1] [H2 S2]. split; auto. intros p Hp. rewrite S2, S1; auto. Qed.

(** column j rewritten element by element: C(i,j) := new i *)
Definition setcol (j : Z) (new : Z -> A) (f : Z -> Z -> A) (i j' : Z) : A := if j' =? j then new i else f i j'.
Lemma mcol_map (c c' : arr A) ldim m n f j lo hi (body : Z -> arr A -> res (arr A)) (new : Z -> A) :
  sep ldim m n -> hi - lo = m -> 0 <= m -> 0 <= j < n ->
  (forall i c, 0 <= i < m -> c (i + j * ldim) = Some (f i j) -> body (lo + i) c = Ok (upd c (i + j * ldim) (new i))) ->
  is_mat c c' ldim m n f ->
  returns (zfor lo hi body c') (fun c'' => is_mat c c'' ldim m n (setcol j new f)).
Proof.
  intros Hsep Em Hm Hj Hs Hv. eapply returns_mono.
  - apply (plain_n (fun i c'' => is_mat c c'' ldim m n (setcol j (prog new (fun k => f k j) i) f)) body m); auto.
    + intros i s Hi HI. rewrite Hs; auto.
      2:{ rewrite (is_mat_at _ _ _ _ _ _ _ _ HI) by auto. unfold setcol, prog. rewrite Z.eqb_refl. destruct (Z.ltb_spec i i); auto; lia. }
      cbn. eapply is_mat_ext; [|apply (mat_upd _ _ _ _ _ _ i j (new i) Hsep HI); auto].
      intros i' j' Hi' Hj'. unfold setcol, prog. cbn.
      destruct (Z.eqb_spec i' i) as [->|]; destruct (Z.eqb_spec j' j) as [->|]; cbn [andb]; auto.
      * destruct (Z.ltb_spec i (i + 1)); auto; lia.
      * destruct (Z.ltb_spec i' i), (Z.ltb_spec i' (i + 1)); auto; lia.
    + eapply is_mat_ext; [|exact Hv]. intros i' j' Hi' Hj'. unfold setcol, prog.
      destruct (Z.eqb_spec j' j) as [->|]; auto. destruct (Z.ltb_spec i' 0); auto; lia.
  - intros c'' H. eapply is_mat_ext; [|exact H]. intros i' j' Hi' Hj'. unfold setcol, prog.
    destruct (Z.eqb_spec j' j); auto. destruct (Z.ltb_spec i' m); auto; lia.
Qed.
(** the same with a second cursor running along a vector *)
Lemma mcol_map_cursor (c c' : arr A) ldim m n f j lo hi k0 inc (body : Z -> Z -> arr A -> res (arr A)) (new : Z -> A) :
  sep ldim m n -> hi - lo = m -> 0 <= m -> 0 <= j < n ->
  (forall i p c, 0 <= i < m -> p = k0 + i * inc -> c (i + j * ldim) = Some (f i j) -> body (lo + i) p c = Ok (upd c (i + j * ldim) (new i))) ->
  is_mat c c' ldim m n f ->
  returns (bind (zfor lo hi (fun i '(s, ix) => bind (body i ix s) (fun s => Ok (s, ix + inc))) (c', k0))
             (fun '(s, _) => Ok s)) (fun c'' => is_mat c c'' ldim m n (setcol j new f)).
Proof.
  intros Hsep Em Hm Hj Hs Hv. eapply returns_mono.
  - apply (cursori_n (fun i c'' => is_mat c c'' ldim m n (setcol j (prog new (fun k => f k j) i) f)) body m); auto.
    + intros i s Hi HI. rewrite Hs; auto.
      2:{ rewrite (is_mat_at _ _ _ _ _ _ _ _ HI) by auto. unfold setcol, prog. rewrite Z.eqb_refl. destruct (Z.ltb_spec i i); auto; lia. }
      cbn. eapply is_mat_ext; [|apply (mat_upd _ _ _ _ _ _ i j (new i) Hsep HI); auto].
      intros i' j' Hi' Hj'. unfold setcol, prog. cbn.
      destruct (Z.eqb_spec i' i) as [->|]; destruct (Z.eqb_spec j' j) as [->|]; cbn [andb]; auto.
      * destruct (Z.ltb_spec i (i + 1)); auto; lia.
      * destruct (Z.ltb_spec i' i), (Z.ltb_spec i' (i + 1)); auto; lia.
    + eapply is_mat_ext; [|exact Hv]. intros i' j' Hi' Hj'. unfold setcol, prog.
      destruct (Z.eqb_spec j' j) as [->|]; auto. destruct (Z.ltb_spec i' 0); auto; lia.
  - intros c'' H. eapply is_mat_ext; [|exact H]. intros i' j' Hi' Hj'. unfold setcol, prog.
    destruct (Z.eqb_spec j' j); auto. destruct (Z.ltb_spec i' m); auto; lia.
Qed.
(** column after column *)
Definition mprog (new old : Z -> Z -> A) (j0 i j : Z) : A := if j <? j0 then new i j else old i j.
Lemma mprog_start (c c' : arr A) ldim m n new old : is_mat c c' ldim m n old -> is_mat c c' ldim m n (mprog new old 0).
Proof. apply is_mat_ext. intros i j Hi Hj. unfold mprog. destruct (Z.ltb_spec j 0); auto; lia. Qed.
Lemma mprog_end (c c' : arr A) ldim m n new old : is_mat c c' ldim m n (mprog new old n) -> is_mat c c' ldim m n new.
Proof. apply is_mat_ext. intros i j Hi Hj. unfold mprog. destruct (Z.ltb_spec j n); auto; lia. Qed.
Lemma mprog_step (c c' : arr A) ldim m n new old j col : 0 <= j < n -> (forall i, 0 <= i < m -> col i = new i j) ->
  is_mat c c' ldim m n (setcol j col (mprog new old j)) -> is_mat c c' ldim m n (mprog new old (j + 1)).
Proof.
  intros Hj He. apply is_mat_ext. intros i j' Hi Hj'. unfold setcol, mprog.
  destruct (Z.eqb_spec j' j) as [->|Hne].
  - rewrite He by auto. destruct (Z.ltb_spec j (j + 1)); auto; lia.
  - destruct (Z.ltb_spec j' j), (Z.ltb_spec j' (j + 1)); auto; lia.
Qed.
Lemma mprog_at (new old : Z -> Z -> A) i j : mprog new old j i j = old i j.
Proof. unfold mprog. destruct (Z.ltb_spec j j); auto; lia. Qed.
End M.
