(** C65: concurrent calls.  Threads call the Fortran kernels (the texts of the .f files) on one memory of doubles; between any two accesses of a thread
    the others may make any number of theirs. *)
From Coq Require Import ZArith Lia Bool Ascii String List.
From Verif Require Import Num Res Spec SpecPar SpecCalls MPar MCalls FSem FIo FProg ParFacts ParText CallFacts.
Import ListNotations.
Local Open Scope string_scope.
Local Open Scope Z_scope.

(** Calls of SCAL, AXPY, DOTU, DOTC, GEMV, GERU, GERC and GEMM whose results nobody else touches: under every schedule no call ever gets stuck (an access
    outside the memory, an undefined variable), all of them end after a bounded number of accesses, and then every result is the mathematical one
    from the operands as they were at the start, and nothing else has changed.  Operands may be shared. *)
Theorem C65_concurrent_calls : forall (K : num), laws K -> forall (M : arr K) (cs : list (hcall K)),
  (forall c, In c cs -> pre M c) ->
  (forall c z, In c cs -> writes c z -> ~ reads c z) ->
  (forall i j c c' z, nth_error cs i = Some c -> nth_error cs j = Some c' -> i <> j -> writes c z -> ~ reads c' z /\ ~ writes c' z) ->
  exists N, forall l conf, run (map hthread cs, M) l conf ->
    (length l <= N)%nat /\
    (forall i th, nth_error (fst conf) i = Some th -> finished th tt \/ exists conf', step conf i conf') /\
    ((forall th, In th (fst conf) -> finished th tt) ->
      (forall c, In c cs -> post M (snd conf) c) /\
      (forall z, (forall c, In c cs -> ~ writes c z) -> snd conf z = M z)).
Proof. intros K L. exact (calls_interleave L). Qed.
Print Assumptions C65_concurrent_calls.

(** In any arithmetic, IEEE binary64 in particular, and for every Fortran kernel: if each call run alone on the cells it owns ends with the result [mem],
    the calls running together end with these very results. *)
Theorem C65_same_as_alone : forall (K : num) (G : arr K) (cs : list (tcall K * list (actual K) * arr K)),
  (forall t ys mem, In (t, ys, mem) cs ->
     In (t_name t, t_src t, t_out t, t_pos t) kernels /\ Forall2 (part_of G) (t_args t) ys /\ fcall (t_name t) (t_src t) ys (t_out t) = Ok mem) ->
  (forall i i' t ys mem t' ys' mem' n z, nth_error cs i = Some (t, ys, mem) -> nth_error cs i' = Some (t', ys', mem') ->
     uses t ys (t_pos t) z -> uses t' ys' n z -> i = i' /\ n = t_pos t) ->
  exists N, forall l c, run (map (fun k => call_thread (fst (fst k))) cs, G) l c ->
    (length l <= N)%nat /\
    (forall i th, nth_error (fst c) i = Some th -> finished th tt \/ exists c', step c i c') /\
    ((forall th, In th (fst c) -> finished th tt) ->
      (forall t ys mem a q v, In (t, ys, mem) cs -> nth_error (t_args t) (t_pos t) = Some (FPtr a) -> mem q = Some v -> snd c (a + q) = Some v) /\
      (forall z, (forall t ys mem, In (t, ys, mem) cs -> ~ uses t ys (t_pos t) z) -> snd c z = G z)).
Proof. intros K. exact texts_interleave. Qed.
Print Assumptions C65_same_as_alone.

(** ** running a given schedule *)
Definition stepf {A} (c : conf Znum A) (i : nat) : option (conf Znum A) :=
  match nth_error (fst c) i with
  | Some t =>
      match code t with
      | Get x p k => match snd c (base t x + p) with Some v => Some (SpecPar.set_nth (fst c) i (Thread (k v) (base t)), snd c) | None => None end
      | Put x p v k => match snd c (base t x + p) with Some _ => Some (SpecPar.set_nth (fst c) i (Thread k (base t)), upd (snd c) (base t x + p) v) | None => None end
      | _ => None
      end
  | None => None
  end.
Lemma stepf_ok {A} (c : conf Znum A) i c' : stepf c i = Some c' -> step c i c'.
Proof.
  unfold stepf, step. destruct (nth_error (fst c) i) as [t|] eqn:E; [|discriminate]. destruct (code t) as [a| | |x p k|x p v k] eqn:Ec; try discriminate.
  - destruct (snd c (base t x + p)) as [v|] eqn:Ev; [|discriminate]. intros [= <-]. exists t, (k v). cbn [fst snd]. refine (conj eq_refl (conj _ eq_refl)). rewrite Ec. constructor. exact Ev.
  - destruct (snd c (base t x + p)) as [w|] eqn:Ev; [|discriminate]. intros [= <-]. exists t, k. cbn [fst snd]. refine (conj eq_refl (conj _ eq_refl)). rewrite Ec. econstructor. exact Ev.
Qed.
Fixpoint runf {A} (c : conf Znum A) (l : list nat) : option (conf Znum A) := match l with [] => Some c | i :: l => match stepf c i with Some c => runf c l | None => None end end.
Lemma runf_ok {A} (c : conf Znum A) l c' : runf c l = Some c' -> run c l c'.
Proof. revert c. induction l as [|i l IH]; intros c; cbn [runf]; [intros [= <-]; constructor|]. destruct (stepf c i) eqn:E; [|discriminate]. intros H. econstructor; [apply stepf_ok; exact E|apply IH; exact H]. Qed.
Definition isret {A} (t : thread Znum A) : bool := match code t with Ret _ => true | _ => false end.
Definition zat (m : arr Znum) (l : list Z) : list Z := map (fun z => match m z with Some v => v | None => -1000 end) l.
Definition outcome (c : conf Znum unit) (l : list nat) (zs : list Z) : option (list Z) := match runf c l with Some c => if forallb isret (fst c) then Some (zat (snd c) zs) else None | None => None end.
Lemma outcome_ok c l zs v : outcome c l zs = Some v -> exists c', run c l c' /\ (forall th, In th (fst c') -> finished th tt) /\ zat (snd c') zs = v.
Proof.
  unfold outcome. destruct (runf c l) as [c'|] eqn:E; [|discriminate]. destruct (forallb isret (fst c')) eqn:F; [|discriminate]. intros [= <-]. exists c'. refine (conj (runf_ok _ _ _ E) (conj _ eq_refl)).
  intros th Hth. assert (R := proj1 (forallb_forall _ _) F th Hth). unfold isret in R. unfold finished. destruct (code th) as [[]| | | |]; try discriminate. reflexivity.
Qed.
(** y := y + x by two threads: cells 0..3 x, 4..7 y *)
Definition M65 : arr Znum := fun z => if (0 <=? z) && (z <? 8) then Some (z + 1) else None.
Definition race : list (hcall Znum) := [KAxpy "L" 1 (@SR Znum 1) 0 0 1 4 1; KAxpy "L" 1 (@SR Znum 1) 0 0 1 4 1].
(** Without the disjointness the outcome depends on the schedule: one after the other gives y + 2x, in lock step one of the additions is lost *)
Theorem C65_shared_result_depends_on_schedule :
  (forall c, In c race -> pre M65 c) /\
  (exists c, run (map hthread race, M65) (repeat 0%nat 12 ++ repeat 1%nat 12)%list c /\ (forall th, In th (fst c) -> finished th tt) /\ zat (snd c) [4;5;6;7] = [7;10;13;16]) /\
  (exists c, run (map hthread race, M65) (concat (repeat [0;1]%nat 12)) c /\ (forall th, In th (fst c) -> finished th tt) /\ zat (snd c) [4;5;6;7] = [6;8;10;12]).
Proof.
  refine (conj _ (conj _ _)).
  - intros c [<- | [<- | []]]; cbn [pre scal_there2 scal_there]; (refine (conj _ (conj _ (conj _ (conj I (conj _ _))))); [discriminate|discriminate|discriminate|intros k Hk; assert (k = 0) as -> by lia; discriminate|intros k Hk; assert (k = 0) as -> by lia; discriminate]).
  - apply outcome_ok. vm_compute. reflexivity.
  - apply outcome_ok. vm_compute. reflexivity.
Qed.
Print Assumptions C65_shared_result_depends_on_schedule.

(** ** A concrete case: two threads form C1 = alpha A B1 + i C1 and C2 = A B2 with the same A; a third scales a vector between them in memory.
    alpha (quaternion): cells 0..3, A (2 x 1): 4..11, B1 12..15, B2 16..19, C1 (2 x 1) 20..27, C2 (2 x 1, LDC 2) 28..35, x 36..39 *)
Definition M65' : arr Znum := fun z => if (0 <=? z) && (z <? 40) then Some (z + 1) else None.
Definition calls65 : list (hcall Znum) :=
  [KGemm "N" "N" 2 1 1 (SH (Quat (K := Znum) 1 2 3 4)) 0 4 2 12 1 (SC (Cplx (K := Znum) 0 1)) 0 20 2;
   KGemm "N" "T" 2 1 1 (@SR Znum 1) 0 4 2 16 1 (@SR Znum 0) 0 28 2;
   KScal "R" 1 (SC (Cplx (K := Znum) 2 1)) 0 36 1].
Lemma has_all p ld m n : (forall i j, 0 <= i < m -> 0 <= j < n -> 0 <= p + 4 * (i + j * ld) /\ p + 4 * (i + j * ld) + 4 <= 40) -> has_mat M65' p ld m n.
Proof.
  intros H i j Hi Hj. specialize (H i j Hi Hj). assert (D : forall z, 0 <= z < 40 -> M65' z = Some (z + 1)) by (intros z Hz; unfold M65'; rewrite (proj2 (Z.leb_le 0 z)), (proj2 (Z.ltb_lt z 40)) by lia; reflexivity).
  unfold quat_at. rewrite !D by lia. discriminate.
Qed.
Example C65_concrete_hypotheses :
  (forall c, In c calls65 -> pre M65' c) /\
  (forall c z, In c calls65 -> writes c z -> ~ reads c z) /\
  (forall i j c c' z, nth_error calls65 i = Some c -> nth_error calls65 j = Some c' -> i <> j -> writes c z -> ~ reads c' z /\ ~ writes c' z).
Proof.
  assert (V : forall i, 0 <= i < 1 -> i = 0) by (intros; lia).
  assert (R : forall c z, In c calls65 -> (writes c z -> 20 <= z) /\ (reads c z -> 0 <= z < 20)).
  { intros c z [<- | [<- | [<- | []]]]; split; cbn [writes reads scal_cells]; change (rows "N" 2 1) with 2; change (cols "N" 2 1) with 1; change (rows "N" 1 1) with 1; change (cols "N" 1 1) with 1; change (rows "T" 1 1) with 1; change (cols "T" 1 1) with 1; unfold mat_cells, vec_cells, vpos; cbn [Z.ltb Z.compare].
    - intros (i & j & t & A & B & C & ->). lia.
    - intros [A|[A|[(i & j & t & A & B & C & ->)|(i & j & t & A & B & C & ->)]]]; try lia; contradiction.
    - intros (i & j & t & A & B & C & ->). lia.
    - intros [A|[A|[(i & j & t & A & B & C & ->)|(i & j & t & A & B & C & ->)]]]; try lia; contradiction.
    - intros (i & t & A & C & ->). lia.
    - contradiction. }
  refine (conj _ (conj _ _)).
  - intros c [<- | [<- | [<- | []]]]; cbn [pre].
    + change (rows "N" 2 1) with 2; change (cols "N" 2 1) with 1; change (rows "N" 1 1) with 1; change (cols "N" 1 1) with 1.
      repeat match goal with |- _ /\ _ => split end; try discriminate; try lia; try exact I; try reflexivity; apply has_all; intros; lia.
    + change (rows "N" 2 1) with 2; change (cols "N" 2 1) with 1; change (rows "T" 1 1) with 1; change (cols "T" 1 1) with 1.
      repeat match goal with |- _ /\ _ => split end; try discriminate; try lia; try exact I; try reflexivity; apply has_all; intros; lia.
    + repeat match goal with |- _ /\ _ => split end; try discriminate; try exact I. intros i Hi. rewrite (V i Hi). discriminate.
  - intros c z Hc W Rd. destruct (R c z Hc) as [A B]. specialize (A W). specialize (B Rd). lia.
  - intros i j c c' z Ei Ej N W. split.
    + intros Rd. destruct (R c z (nth_error_In _ _ Ei)) as [A _]. destruct (R c' z (nth_error_In _ _ Ej)) as [_ B]. specialize (A W). specialize (B Rd). lia.
    + intros W'. assert (D : forall k c, nth_error calls65 k = Some c -> writes c z -> (k = 0%nat /\ 20 <= z < 28) \/ (k = 1%nat /\ 28 <= z < 36) \/ (k = 2%nat /\ 36 <= z < 40)).
      { clear. intros k c E W. destruct k as [|[|[|k]]]; cbn [calls65 nth_error] in E; try (injection E as <-); cbn [writes] in W; unfold mat_cells, vec_cells, vpos in W; cbn [Z.ltb Z.compare] in W.
        - destruct W as (i & j & t & A & B & C & ->). left. lia.
        - destruct W as (i & j & t & A & B & C & ->). right. left. lia.
        - destruct W as (i & t & A & C & ->). right. right. lia.
        - destruct k; discriminate. }
      destruct (D i c Ei W) as [[-> A]|[[-> A]|[-> A]]], (D j c' Ej W') as [[-> B]|[[-> B]|[-> B]]]; try lia; apply N; reflexivity.
Qed.
(** and the theorem's conclusion for one particular schedule, computed: round robin.  The result of the second call is A B2, that of the third x(2+i) *)
Fixpoint robin (c : conf Znum unit) (fuel : nat) : list nat :=
  match fuel with
  | O => []
  | S f => let i := Nat.modulo f 3 in let j := Nat.modulo (f + 1) 3 in let k := Nat.modulo (f + 2) 3 in
           match stepf c i with
           | Some c' => i :: robin c' f
           | None => match stepf c j with Some c' => j :: robin c' f | None => match stepf c k with Some c' => k :: robin c' f | None => [] end end
           end
  end.
Example C65_concrete_run : exists l c, run (map hthread calls65, M65') l c /\ (forall th, In th (fst c) -> finished th tt) /\
  zat (snd c) [28;29;30;31; 36;37;38;39; 4;5;6;7] = [-316;180;238;224; 36;113;118;41; 5;6;7;8].
Proof. exists (robin (map hthread calls65, M65') 500). apply outcome_ok. vm_compute. reflexivity. Qed.
