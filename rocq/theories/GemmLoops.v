(** Loop nests of the non-blocked matrix products. *)
From Coq Require Import ZArith Lia Bool.
From Verif Require Import Num Res ResFacts Spec SpecFacts VecFacts LoopFacts.
Local Open Scope Z_scope.

Section G.
Context {A : Type}.

Lemma mat_cols (c c' : arr A) ldim m n lo hi (body : Z -> arr A -> res (arr A)) (new old : Z -> Z -> A) :
  hi - lo = n -> 0 <= n ->
  (forall j f c0, 0 <= j < n -> (forall i, 0 <= i < m -> f i j = old i j) -> is_mat c c0 ldim m n f ->
     returns (body (lo + j) c0) (fun c1 => is_mat c c1 ldim m n (setcol j (fun i => new i j) f))) ->
  is_mat c c' ldim m n old ->
  returns (zfor lo hi body c') (fun c'' => is_mat c c'' ldim m n new).
Proof.
  intros En Hn Hs Hv. eapply returns_mono.
  - apply (plain_n (fun j c'' => is_mat c c'' ldim m n (mprog new old j)) body n); auto.
    + intros j s Hj HI. eapply returns_mono.
      * apply (Hs j (mprog new old j)); auto. intros; apply mprog_at.
      * intros c1 H1. eapply mprog_step; [exact Hj| |exact H1]. auto.
    + apply mprog_start; auto.
  - intros c'' H. apply mprog_end in H. exact H.
Qed.

(** column accumulated over an l-loop of i-loops *)
Lemma col_accum (c c' : arr A) ldim m n f j k lo him hik (inner : Z -> Z -> arr A -> res (arr A)) (acc : Z -> Z -> A) :
  sep ldim m n -> him - lo = m -> 0 <= m -> hik - lo = k -> 0 <= k -> 0 <= j < n ->
  (forall l i c0, 0 <= l < k -> 0 <= i < m -> c0 (i + j * ldim) = Some (acc l i) ->
     inner (lo + l) (lo + i) c0 = Ok (upd c0 (i + j * ldim) (acc (l + 1) i))) ->
  is_mat c c' ldim m n (setcol j (acc 0) f) ->
  returns (zfor lo hik (fun l c => zfor lo him (inner l) c) c') (fun c'' => is_mat c c'' ldim m n (setcol j (acc k) f)).
Proof.
  intros Hsep Em Hm Ek Hk Hj Hs Hv.
  apply (plain_n (fun l c'' => is_mat c c'' ldim m n (setcol j (acc l) f)) _ k); auto.
  intros l c0 Hl HI. eapply returns_mono.
  - eapply (mcol_map c c0 ldim m n _ j _ _ _ (acc (l + 1))); [exact Hsep|exact Em|exact Hm|exact Hj| |exact HI].
    intros i c1 Hi Hc1. unfold setcol in Hc1. rewrite Z.eqb_refl in Hc1. apply Hs; auto.
  - intros c1 H1. eapply is_mat_ext; [|exact H1]. intros i j' Hi Hj'. unfold setcol. destruct (j' =? j); auto.
Qed.

Lemma nota_loops (c c' : arr A) ldim m n k lo hin him hik (pre : Z -> arr A -> res (arr A))
    (inner : Z -> Z -> Z -> arr A -> res (arr A)) (old : Z -> Z -> A) (acc : Z -> Z -> Z -> A) :
  sep ldim m n -> hin - lo = n -> 0 <= n -> him - lo = m -> 0 <= m -> hik - lo = k -> 0 <= k ->
  (forall j f c0, 0 <= j < n -> (forall i, 0 <= i < m -> f i j = old i j) -> is_mat c c0 ldim m n f ->
     returns (pre (lo + j) c0) (fun c1 => is_mat c c1 ldim m n (setcol j (acc j 0) f))) ->
  (forall j l i c0, 0 <= j < n -> 0 <= l < k -> 0 <= i < m -> c0 (i + j * ldim) = Some (acc j l i) ->
     inner (lo + j) (lo + l) (lo + i) c0 = Ok (upd c0 (i + j * ldim) (acc j (l + 1) i))) ->
  is_mat c c' ldim m n old ->
  returns (zfor lo hin (fun j c => c <- pre j c ;; zfor lo hik (fun l c => zfor lo him (inner j l) c) c) c')
    (fun c'' => is_mat c c'' ldim m n (fun i j => acc j k i)).
Proof.
  intros Hsep En Hn Em Hm Ek Hk Hp Hs Hv.
  eapply mat_cols; [exact En|exact Hn| |exact Hv].
  intros j f c0 Hj He HI. eapply returns_bind; [apply (Hp j f c0 Hj He HI)|].
  intros c1 H1. eapply col_accum; [exact Hsep|exact Em|exact Hm|exact Ek|exact Hk|exact Hj| |exact H1].
  intros; apply Hs; auto.
Qed.

(** element by element *)
Lemma mat_map (c c' : arr A) ldim m n lo hin him (body : Z -> Z -> arr A -> res (arr A)) (new old : Z -> Z -> A) :
  sep ldim m n -> hin - lo = n -> 0 <= n -> him - lo = m -> 0 <= m ->
  (forall i j c0, 0 <= i < m -> 0 <= j < n -> c0 (i + j * ldim) = Some (old i j) ->
     body (lo + j) (lo + i) c0 = Ok (upd c0 (i + j * ldim) (new i j))) ->
  is_mat c c' ldim m n old ->
  returns (zfor lo hin (fun j c => zfor lo him (body j) c) c') (fun c'' => is_mat c c'' ldim m n new).
Proof.
  intros Hsep En Hn Em Hm Hs Hv.
  eapply mat_cols; [exact En|exact Hn| |exact Hv].
  intros j f c0 Hj He HI. eapply (mcol_map c c0 ldim m n f j); [exact Hsep|exact Em|exact Hm|exact Hj| |exact HI].
  intros i c1 Hi Hc. rewrite He in Hc by auto. apply Hs; auto.
Qed.
End G.
