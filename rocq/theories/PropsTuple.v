(** C81: the tuple helpers of include/util/boilerplate.hpp (MTuple.v), for tuples of every size and every order in which the compiler evaluates the arguments of a call. *)
From Coq Require Import ZArith List Bool Lia Permutation.
From Verif Require Import Num Res ResFacts MQuat MSimd MOptL1 MPack MTuple.
Import ListNotations.
Local Open Scope Z_scope.

Section F.
Context {S A B : Type}.
Implicit Types (arg : nat -> code S B) (s : S).
Lemma find_in i (l : list (nat * B)) : In i (map fst l) -> exists b, find_arg i l = Some b.
Proof. induction l as [|[j b] l IH]; [intros []|]. cbn. intros [->|H]; [rewrite Nat.eqb_refl; eauto|]. destruct (Nat.eqb i j); eauto. Qed.
Lemma eval_ok arg (f : nat -> B) s order : (forall i, In i order -> arg i s = Ok (f i, s)) -> eval_in order arg s = Ok (map (fun i => (i, f i)) order, s).
Proof. induction order as [|i r IH]; intros H; [reflexivity|]. cbn. rewrite H by (left; reflexivity). cbn. rewrite IH by (intros; apply H; right; assumption). reflexivity. Qed.
Lemma find_map (f : nat -> B) i l : In i l -> find_arg i (map (fun i => (i, f i)) l) = Some (f i).
Proof. induction l as [|j l IH]; [intros []|]. cbn. destruct (Nat.eqb_spec i j) as [->|Hn]; [reflexivity|]. intros [->|H]; [congruence|auto]. Qed.
Lemma flat_single (f : nat -> B) g l : (forall i, In i l -> g i = [f i]) -> flat_map g l = map f l.
Proof. induction l as [|i l IH]; intros H; [reflexivity|]. cbn. rewrite H by (left; reflexivity). rewrite IH by (intros; apply H; right; assumption). reflexivity. Qed.
Lemma args_ok n order arg (f : nat -> B) s : Permutation order (seq 0 n) -> (forall i, (i < n)%nat -> arg i s = Ok (f i, s)) -> args_in n order arg s = Ok (map f (seq 0 n), s).
Proof.
  intros P H. unfold args_in. rewrite (eval_ok arg f s) by (intros i Hi; apply H; apply (Permutation_in _ P) in Hi; apply in_seq in Hi; lia). cbn. f_equal. f_equal.
  apply flat_single. intros i Hi. rewrite find_map; [reflexivity|]. apply (Permutation_in _ (Permutation_sym P)). exact Hi.
Qed.
Lemma eval_ub arg s order : (forall i, In i order -> (exists b, arg i s = Ok (b, s)) \/ arg i s = UB) -> (exists i, In i order /\ arg i s = UB) -> eval_in order arg s = UB.
Proof.
  induction order as [|j r IH]; intros H (i & Hi & E); [destruct Hi|]. cbn. destruct (H j (or_introl eq_refl)) as [[b Ej]|Ej]; rewrite Ej; [|reflexivity]. cbn.
  rewrite IH; [reflexivity| intros k Hk; apply H; right; exact Hk|]. destruct Hi as [<-|Hi]; [rewrite E in Ej; discriminate|exists i; auto].
Qed.
Lemma nth_seq_in n k d : (k < n)%nat -> nth k (seq 0 n) d = k. Proof. intros H. rewrite seq_nth by exact H. reflexivity. Qed.
Lemma map_nth_seq (g : A -> B) (t : list A) (h : nat -> B) : (forall i a, nth_error t i = Some a -> h i = g a) -> map h (seq 0 (length t)) = map g t.
Proof.
  intros H. assert (G : forall k t', (forall i a, nth_error t' i = Some a -> h (k + i)%nat = g a) -> map h (seq k (length t')) = map g t').
  { intros k t'. revert k. induction t' as [|a t' IH]; intros k H'; [reflexivity|]. cbn. rewrite <- (H' 0%nat a eq_refl). rewrite Nat.add_0_r. f_equal. apply IH.
    intros i b Hb. rewrite <- (H' (Datatypes.S i) b Hb). f_equal. lia. }
  apply (G 0%nat t H).
Qed.
Lemma getall (t : list A) : flat_map (fun i => match nth_error t i with Some a => [a] | None => [] end) (seq 0 (length t)) = t.
Proof.
  assert (G : forall (p t' : list A), flat_map (fun i => match nth_error (p ++ t') i with Some a => [a] | None => [] end) (seq (length p) (length t')) = t').
  { intros p t'. revert p. induction t' as [|a t' IH]; intros p; [reflexivity|]. cbn. rewrite nth_error_app2, Nat.sub_diag by lia. cbn. f_equal.
    specialize (IH (p ++ [a])). rewrite <- app_assoc in IH. rewrite app_length, Nat.add_1_r in IH. exact IH. }
  exact (G [] t).
Qed.
End F.

(** ** C81 *)
(** apply: the results are those of [op] on each element, in the order of the tuple, whatever the order of evaluation, if [op] changes nothing *)
Theorem C81_apply : forall (S A B : Type) (order : list nat) (op : A -> S -> res (B * S)) (f : A -> B) (t : list A) (s : S),
  Permutation order (seq 0 (length t)) -> (forall a, In a t -> op a s = Ok (f a, s)) -> apply order op t s = Ok (map f t, s).
Proof.
  intros S A B order op f t s P H. unfold apply, apply_impl. rewrite seq_length.
  destruct t as [|a0 t0]; [apply Permutation_nil in P || apply Permutation_sym, Permutation_nil in P; subst; reflexivity|]. set (t := a0 :: t0) in *.
  rewrite (args_ok _ _ _ (fun i => match nth_error t i with Some a => f a | None => f a0 end) s P).
  - f_equal. f_equal. apply map_nth_seq. intros i a E. rewrite E. reflexivity.
  - intros i Hi. rewrite nth_seq_in by exact Hi. destruct (nth_error t i) as [a|] eqn:E; [apply H, (nth_error_In _ _ E)|]. apply nth_error_None in E. lia.
Qed.
Print Assumptions C81_apply.
(** and if one of them is undefined, so is the call *)
Theorem C81_apply_ub : forall (S A B : Type) (order : list nat) (op : A -> S -> res (B * S)) (t : list A) (s : S),
  Permutation order (seq 0 (length t)) -> (forall a, In a t -> (exists b, op a s = Ok (b, s)) \/ op a s = UB) -> (exists a, In a t /\ op a s = UB) -> apply order op t s = UB.
Proof.
  intros S A B order op t s P H (a & Ha & E). unfold apply, apply_impl, args_in. rewrite eval_ub; [reflexivity| |].
  - intros i Hi. apply (Permutation_in _ P) in Hi. apply in_seq in Hi. rewrite nth_seq_in by lia. destruct (nth_error t i) as [b|] eqn:Eb; [apply H, (nth_error_In _ _ Eb)|right; reflexivity].
  - destruct (In_nth_error t a Ha) as [i Ei]. exists i. assert (Hi : (i < length t)%nat) by (apply nth_error_Some; rewrite Ei; discriminate). split.
    + apply (Permutation_in _ (Permutation_sym P)). apply in_seq. lia.
    + rewrite nth_seq_in by exact Hi. rewrite Ei. exact E.
Qed.
Print Assumptions C81_apply_ub.
(** apply_n<N> compiles for tuples of at most N elements; it then gives the results of apply, followed by as many results of op() as are missing *)
Theorem C81_apply_n : forall (S A B : Type) N late (order : list nat) (op : A -> S -> res (B * S)) (op0 : S -> res (B * S)) (f : A -> B) b0 (t : list A) (s : S),
  Permutation order (seq 0 (length t)) -> (forall a, In a t -> op a s = Ok (f a, s)) -> op0 s = Ok (b0, s) ->
  match apply_n N late order op op0 t with
  | Some run => (length t <= N)%nat /\ run s = Ok (map f t ++ repeat b0 (N - length t), s)
  | None => (N < length t)%nat
  end.
Proof.
  intros S A B N late order op op0 f b0 t s P H H0. unfold apply_n. destruct (Nat.leb_spec (length t) N) as [L|L]; [|exact L]. split; [exact L|].
  clear L. induction (N - length t)%nat as [|d IH]; cbn [apply_n_impl repeat].
  - rewrite app_nil_r. apply C81_apply; assumption.
  - assert (R : repeat b0 d ++ [b0] = b0 :: repeat b0 d) by (clear; induction d as [|d IH]; cbn; [reflexivity | rewrite IH; reflexivity]).
    destruct (late (Datatypes.S d)); [rewrite IH; cbn [bind]; rewrite H0|rewrite H0; cbn [bind]; rewrite IH]; cbn [bind]; rewrite <- app_assoc, R; reflexivity.
Qed.
Print Assumptions C81_apply_n.
(** array_tuple_execute: op(ptr + 0, element 0), op(ptr + 1, element 1), ..., one after the other, whatever [op] does *)
Theorem C81_execute : forall (S A : Type) (op : Z -> A -> S -> res (unit * S)) p (t : list A) (s : S), t <> [] ->
  array_tuple_execute op p t s = fold_left (fun r '(i, a) => '(_, s) <- r ;; op (p + Z.of_nat i) a s) (combine (seq 0 (length t)) t) (Ok (tt, s)).
Proof.
  intros S A op p t s N. unfold array_tuple_execute. rewrite getall.
  assert (Z : forall l (r : res (unit * S)), match r with Ok _ => False | _ => True end -> fold_left (fun r '(i, a) => '(_, s) <- r ;; op (p + Z.of_nat i) a s) l r = r).
  { induction l as [|[i a] l IH]; intros r H; [reflexivity|]. cbn. destruct r as [x| |]; [destruct H|exact (IH UB I)|exact (IH Abort I)]. }
  assert (G : forall t k s, t <> [] -> execute_impl op (p + Z.of_nat k) t s = fold_left (fun r '(i, a) => '(_, s) <- r ;; op (p + Z.of_nat i) a s) (combine (seq k (length t)) t) (Ok (tt, s))).
  { clear - Z. induction t as [|a [|a' t] IH]; intros k s N; [congruence| |].
    - cbn. reflexivity.
    - cbn [length seq combine fold_left execute_impl bind]. replace (p + Z.of_nat k + 1)%Z with (p + Z.of_nat (Datatypes.S k))%Z by lia.
      destruct (op (p + Z.of_nat k)%Z a s) as [[[] s']| |]; cbn [bind]; [|symmetry; apply Z; exact I..]. apply (IH (Datatypes.S k) s'). discriminate. }
  rewrite <- (G t 0%nat s N). f_equal. lia.
Qed.
Print Assumptions C81_execute.
(** so with stores, the tuple lands in consecutive elements and nothing else changes *)
Theorem C81_store : forall (A : Type) p (t : list A) (m : arr A), t <> [] -> (forall i, 0 <= i < Z.of_nat (length t) -> m (p + i) <> None) ->
  exists m', array_tuple_execute (fun q a m => m <- st m q a ;; Ok (tt, m)) p t m = Ok (tt, m') /\
    (forall i a, nth_error t i = Some a -> m' (p + Z.of_nat i) = Some a) /\ forall q, ~ (p <= q < p + Z.of_nat (length t)) -> m' q = m q.
Proof.
  intros A p t m N Hm. unfold array_tuple_execute. rewrite getall. revert p m N Hm.
  induction t as [|a [|a' t] IH]; intros p m N Hm; [congruence| |].
  - cbn. unfold st. pose proof (Hm 0 ltac:(cbn; lia)) as H0. rewrite Z.add_0_r in H0. destruct (m p) as [x|]; [|congruence]. cbn. eexists. split; [reflexivity|]. split.
    + intros [|[|i]] b E; try discriminate. injection E as <-. unfold upd. rewrite Z.add_0_r, Z.eqb_refl. reflexivity.
    + intros q Hq. unfold upd. destruct (Z.eqb_spec q p); [lia|reflexivity].
  - cbn [execute_impl]. unfold st at 1. pose proof (Hm 0 ltac:(cbn; lia)) as H0. rewrite Z.add_0_r in H0. destruct (m p) as [x|]; [|congruence]. cbn [bind].
    destruct (IH (p + 1) (upd m p a)) as (m' & E & V & O); [discriminate| |].
    + intros i Hi. unfold upd. destruct (Z.eqb_spec (p + 1 + i) p); [discriminate|]. replace (p + 1 + i) with (p + (i + 1)) by lia. apply Hm. cbn [length] in *. lia.
    + exists m'. split; [exact E|]. split.
      * intros [|i] b Eb; [injection Eb as <-; rewrite O by lia; unfold upd; rewrite Z.add_0_r, Z.eqb_refl; reflexivity|].
        replace (p + Z.of_nat (Datatypes.S i)) with (p + 1 + Z.of_nat i) by lia. apply V. exact Eb.
      * intros q Hq. rewrite O by (cbn [length] in *; lia). unfold upd. destruct (Z.eqb_spec q p); [subst; exfalso; apply Hq; cbn [length]; lia|reflexivity].
Qed.
Print Assumptions C81_store.
(** pointer_sequence: the i-th pointer is i strides from the first, also if the stride, converted to an unsigned size_t, was negative *)
Theorem C81_pointers : forall sz N seed inc, length (pointer_sequence sz N seed inc) = N /\
  forall i, (i < N)%nat -> nth_error (pointer_sequence sz N seed inc) i = Some ((seed + sz * (Z.of_nat i * inc)) mod 2^64).
Proof.
  intros sz N seed inc. unfold pointer_sequence. split; [rewrite map_length, seq_length; reflexivity|]. intros i Hi.
  rewrite nth_error_map. replace (nth_error (seq 0 N) i) with (Some i).
  - cbn [option_map]. f_equal. rewrite Z.mul_mod_idemp_r by lia. rewrite <- Z.add_mod_idemp_r by lia. rewrite Z.mul_mod_idemp_r by lia. apply Z.add_mod_idemp_r. lia.
  - symmetry. rewrite <- (seq_nth (len := N) 0%nat 0%nat Hi) at 2. apply nth_error_nth'. rewrite seq_length. exact Hi.
Qed.
Print Assumptions C81_pointers.

(** ** The loop of the packing routines, in terms of the helpers: pack_loop of MPack.v, two rows or columns at a time, is this loop for every choice of evaluation
    orders in every iteration.  [ord i], [ord' i], [lates i]: the choices when i iterations are left *)
Fixpoint run_body {K : num} (n : nat) (lates : nat -> nat -> bool) (ord ord' : nat -> list nat) (o : packop) (cnj : bool) (alpha : option (scal K)) (inc : Z) (x : arr (quat K))
    (xCol : list Z) (xp : Z) (buf : arr (quat K)) : option (res (Z * arr (quat K))) :=
  match n with
  | O => Some (Ok (xp, buf))
  | Datatypes.S n =>
      match body (lates n) (ord n) (ord' n) o cnj alpha inc x xCol xp buf with
      | Some (Ok (xCol, xp, buf)) => run_body n lates ord ord' o cnj alpha inc x xCol xp buf
      | Some UB => Some UB
      | Some Abort => Some Abort
      | None => None
      end
  end.
Section L.
Context {K : num}.
Local Notation qarr := (arr (quat K)).
Lemma load_ok cnj (alpha : option (scal K)) (x : qarr) p (b : qarr) :
  (v <- vld false 0 x p ;; Ok (preOP cnj alpha v, b)) = match x p with Some q => Ok (preOP cnj alpha (v_of_q q), b) | None => UB end.
Proof. unfold vld, ld. cbn. destruct (x p); reflexivity. Qed.
Lemma map2 (ord : list nat) : Permutation ord (seq 0 2) -> forall inc p1 p2 (b : qarr), apply ord (fun p (b : qarr) => Ok (p + inc, b)) [p1; p2] b = Ok ([p1 + inc; p2 + inc], b).
Proof. intros P inc p1 p2 b. exact (C81_apply _ _ _ ord _ (fun p => p + inc) [p1; p2] b P (fun _ _ => eq_refl)). Qed.
Lemma map1 (ord : list nat) : Permutation ord (seq 0 1) -> forall inc p1 (b : qarr), apply ord (fun p (b : qarr) => Ok (p + inc, b)) [p1] b = Ok ([p1 + inc], b).
Proof. intros P inc p1 b. exact (C81_apply _ _ _ ord _ (fun p => p + inc) [p1] b P (fun _ _ => eq_refl)). Qed.
(** one iteration *)
Definition step (o : packop) cnj (alpha : option (scal K)) inc (x : qarr) (p1 : Z) (p2 : option Z) (pos : Z) (buf : qarr) : res (Z * option Z * Z * qarr) :=
    x1 <- vld false 0 x p1 ;;
    x2 <- match p2 with Some p => vld false 0 x p | None => Ok mm256_zero end ;;
    let '(t1, t2) := packOP o (preOP cnj alpha x1) (preOP cnj alpha x2) in
    buf <- vst false 0 buf pos t1 ;;
    buf <- vst false 0 buf (pos + 1) t2 ;;
    Ok (p1 + inc, option_map (fun p => p + inc) p2, pos + 2, buf).
Definition cols (p1 : Z) (p2 : option Z) : list Z := p1 :: match p2 with Some p => [p] | None => [] end.
Lemma body_step late ord ord' o cnj alpha inc (x : qarr) p1 p2 pos buf : Permutation ord (seq 0 (length (cols p1 p2))) -> Permutation ord' (seq 0 (length (cols p1 p2))) ->
  body late ord ord' o cnj alpha inc x (cols p1 p2) pos buf = Some ('(p1, p2, pos, buf) <- step o cnj alpha inc x p1 p2 pos buf ;; Ok (cols p1 p2, pos, buf)).
Proof.
  intros P P'. unfold body, step. cbv zeta.
  assert (R : forall (t1 t2 : m256 K) (b : qarr), array_tuple_execute (fun p v (b : qarr) => b <- vst false 0 b p v ;; Ok (tt, b)) pos [t1; t2] b =
    (b <- vst false 0 b pos t1 ;; b <- vst false 0 b (pos + 1) t2 ;; Ok (tt, b))).
  { intros t1 t2 b. unfold array_tuple_execute. rewrite getall. cbn [execute_impl]. destruct (vst false 0 b pos t1); reflexivity. }
  destruct p2 as [p2|]; unfold cols in *; cbn [app length] in *.
  - unfold apply_n. cbn [Nat.leb length Nat.sub apply_n_impl]. f_equal. cbn [option_map].
    assert (E : apply ord (fun p (b : qarr) => v <- vld false 0 x p ;; Ok (preOP cnj alpha v, b)) [p1; p2] buf =
      (x1 <- vld false 0 x p1 ;; x2 <- vld false 0 x p2 ;; Ok ([preOP cnj alpha x1; preOP cnj alpha x2], buf))).
    { unfold vld at 2 3, ld. cbn [andb negb]. destruct (x p1) as [q1|] eqn:E1; [destruct (x p2) as [q2|] eqn:E2|]; cbn [bind].
      - rewrite (C81_apply _ _ _ ord _ (fun p => match x p with Some q => preOP cnj alpha (v_of_q q) | None => mm256_zero end) [p1; p2] buf P).
        + cbn [map]. rewrite E1, E2. reflexivity.
        + intros a [<-|[<-|[]]]; rewrite load_ok, ?E1, ?E2; reflexivity.
      - apply C81_apply_ub; [exact P| |].
        + intros a [<-|[<-|[]]]; rewrite load_ok, ?E1, ?E2; [left; eexists; reflexivity | right; reflexivity].
        + exists p2. split; [right; left; reflexivity|]. rewrite load_ok, E2. reflexivity.
      - apply C81_apply_ub; [exact P| |].
        + intros a _. rewrite load_ok. destruct (x a); [left; eexists; reflexivity | right; reflexivity].
        + exists p1. split; [left; reflexivity|]. rewrite load_ok, E1. reflexivity. }
    rewrite E. destruct (vld false 0 x p1) as [v1| |]; cbn [bind]; try reflexivity. destruct (vld false 0 x p2) as [v2| |]; cbn [bind]; try reflexivity.
    destruct (packOP o (preOP cnj alpha v1) (preOP cnj alpha v2)) as [t1 t2]. rewrite R.
    destruct (vst false 0 buf pos t1) as [b1| |]; cbn [bind]; try reflexivity. destruct (vst false 0 b1 (pos + 1) t2) as [b2| |]; cbn [bind]; try reflexivity.
    rewrite map2 by exact P'. reflexivity.
  - unfold apply_n. cbn [Nat.leb length Nat.sub apply_n_impl]. f_equal. cbn [option_map bind].
    assert (E : (if late 1%nat
      then fun s : qarr => '(l, s) <- apply ord (fun p (b : qarr) => v <- vld false 0 x p ;; Ok (preOP cnj alpha v, b)) [p1] s ;; '(b, s) <- Ok (preOP cnj alpha mm256_zero, s) ;; Ok (l ++ [b], s)
      else fun s : qarr => '(b, s) <- Ok (preOP cnj alpha mm256_zero, s) ;; '(l, s) <- apply ord (fun p (b : qarr) => v <- vld false 0 x p ;; Ok (preOP cnj alpha v, b)) [p1] s ;; Ok (l ++ [b], s)) buf =
      (x1 <- vld false 0 x p1 ;; Ok ([preOP cnj alpha x1; preOP cnj alpha mm256_zero], buf))).
    { assert (E : apply ord (fun p (b : qarr) => v <- vld false 0 x p ;; Ok (preOP cnj alpha v, b)) [p1] buf = (x1 <- vld false 0 x p1 ;; Ok ([preOP cnj alpha x1], buf))).
      { unfold vld at 2, ld. cbn [andb negb]. destruct (x p1) as [q1|] eqn:E1; cbn [bind].
        - rewrite (C81_apply _ _ _ ord _ (fun p => match x p with Some q => preOP cnj alpha (v_of_q q) | None => mm256_zero end) [p1] buf P).
          + cbn [map]. rewrite E1. reflexivity.
          + intros a [<-|[]]. rewrite load_ok, E1. reflexivity.
        - apply C81_apply_ub; [exact P| |].
          + intros a [<-|[]]. rewrite load_ok, E1. right; reflexivity.
          + exists p1. split; [left; reflexivity|]. rewrite load_ok, E1. reflexivity. }
      destruct (late 1%nat); cbn [bind]; rewrite E; destruct (vld false 0 x p1); reflexivity. }
    etransitivity; [apply (f_equal (fun r => bind r _)); exact E|].
    destruct (vld false 0 x p1) as [v1| |]; cbn [bind]; try reflexivity.
    destruct (packOP o (preOP cnj alpha v1) (preOP cnj alpha mm256_zero)) as [t1 t2]. rewrite R.
    destruct (vst false 0 buf pos t1) as [b1| |]; cbn [bind]; try reflexivity. destruct (vst false 0 b1 (pos + 1) t2) as [b2| |]; cbn [bind]; try reflexivity.
    rewrite map1 by exact P'. reflexivity.
Qed.
End L.
Theorem C81_pack_loop : forall (K : num) lates ord ord' (o : packop) cnj (alpha : option (scal K)) cnt inc (x : arr (quat K)) p1 p2 pos buf,
  (forall i, Permutation (ord i) (seq 0 (match p2 with Some _ => 2 | None => 1 end))) -> (forall i, Permutation (ord' i) (seq 0 (match p2 with Some _ => 2 | None => 1 end))) ->
  run_body (Z.to_nat cnt) lates ord ord' o cnj alpha inc x (p1 :: match p2 with Some p => [p] | None => [] end) pos buf = Some (pack_loop o cnj alpha cnt inc x p1 p2 pos buf).
Proof.
  intros K lates ord ord' o cnj alpha cnt inc x.
  assert (G : forall n p1 p2 pos buf i,
    (forall i, Permutation (ord i) (seq 0 (match p2 with Some _ => 2 | None => 1 end))) -> (forall i, Permutation (ord' i) (seq 0 (match p2 with Some _ => 2 | None => 1 end))) ->
    run_body n lates ord ord' o cnj alpha inc x (cols p1 p2) pos buf =
    Some ('(_, _, pos, buf) <- floop n i (fun _ '(p1, p2, pos, buf) => step o cnj alpha inc x p1 p2 pos buf) (p1, p2, pos, buf) ;; Ok (pos, buf))).
  { induction n as [|n IH]; intros p1 p2 pos buf i P P'; [reflexivity|].
    cbn [run_body floop]. rewrite body_step by (destruct p2; [apply P | apply P] || (destruct p2; [apply P' | apply P'])).
    destruct (step o cnj alpha inc x p1 p2 pos buf) as [[[[q1 q2] pos'] buf']| |] eqn:E; cbn [bind]; try reflexivity.
    assert (H : match q2 with Some _ => 2 | None => 1 end%nat = match p2 with Some _ => 2 | None => 1 end%nat).
    { unfold step in E. destruct p2; cbn [option_map] in E;
        repeat match type of E with bind ?r _ = _ => destruct r; cbn [bind] in E; try discriminate | context [packOP ?o ?a ?b] => destruct (packOP o a b) end; injection E as _ <- _ _; reflexivity. }
    apply IH; intros k; rewrite H; [apply P | apply P']. }
  intros p1 p2 pos buf P P'. unfold pack_loop, zfor. replace (cnt - 0) with cnt by lia. exact (G _ p1 p2 pos buf 0 P P').
Qed.
Print Assumptions C81_pack_loop.
(** concrete: four pointers with a negative stride that wraps; six calls on a tuple of three, evaluated in a shuffled order; three stores *)
Example C81_concrete :
  pointer_sequence 32 4 1000 (-2) = [1000; 936; 872; 808] /\
  (exists run, apply_n 6 Nat.even [2; 0; 1]%nat (fun a s => Ok (a * a + s, s)) (fun s => Ok (0, s)) [3; 4; 5] = Some run /\ run 100 = Ok ([109; 116; 125; 0; 0; 0], 100)) /\
  apply_n 2 Nat.even [0; 1; 2]%nat (fun a (s : Z) => Ok (a : Z, s)) (fun s => Ok (0, s)) [3; 4; 5] = None /\
  match array_tuple_execute (fun q a m => m <- st m q a ;; Ok (tt, m)) 1 [7; 8; 9] (fun p => if (0 <=? p) && (p <? 5) then Some 0 else None) with
  | Ok (_, m) => map m [-1; 0; 1; 2; 3; 4; 5] = [None; Some 0; Some 7; Some 8; Some 9; Some 0; None] | _ => False end.
Proof. split; [vm_compute; reflexivity|]. split; [eexists; split; [reflexivity | vm_compute; reflexivity]|]. split; vm_compute; reflexivity. Qed.
