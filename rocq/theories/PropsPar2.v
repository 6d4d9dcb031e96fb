(** C66: concurrent calls of the public routines of the default build, the optimised C++ kernels and the Fortran texts together. *)
From Coq Require Import ZArith Lia Bool Ascii String List.
From Verif Require Import Num Res Spec SpecPar SpecCalls SpecCalls2 MPar MCalls MIoOpt MCalls2 FIo ParFacts CallFacts2 CallFacts3 PropsPar F64.
Import ListNotations.
Local Open Scope string_scope.
Local Open Scope Z_scope.

(** Calls whose results nobody else touches: under every schedule no call gets stuck (an access outside the memory), all of them end after a bounded number of
    accesses, and then every result and every returned value is the mathematical one from the operands as they were at the start, and nothing else has
    changed.  Operands may be shared.  The buffers each GEMM call allocates may contain anything. *)
Theorem C66_concurrent_public_calls : forall (K : num), laws K -> forall (M : arr K) (cs : list (bufs K * pcall K)),
  (forall e c, In (e, c) cs -> aligned e /\ ppre M c) ->
  (forall e c z, In (e, c) cs -> pwrites c z -> ~ preads c z) ->
  (forall i j e c e' c' z, nth_error cs i = Some (e, c) -> nth_error cs j = Some (e', c') -> i <> j -> pwrites c z -> ~ preads c' z /\ ~ pwrites c' z) ->
  exists N, forall l conf, run (map (fun p => pthread (fst p) (snd p)) cs, M) l conf ->
    (length l <= N)%nat /\
    (forall i th, nth_error (fst conf) i = Some th -> (exists r, finished th r) \/ exists conf', step conf i conf') /\
    ((forall th, In th (fst conf) -> exists r, finished th r) ->
      (forall i e c, nth_error cs i = Some (e, c) -> exists th r, nth_error (fst conf) i = Some th /\ finished th r /\ ppost M c r (snd conf)) /\
      (forall z, (forall e c, In (e, c) cs -> ~ pwrites c z) -> snd conf z = M z)).
Proof. intros K L. exact (public_interleave L). Qed.
Print Assumptions C66_concurrent_public_calls.

(** In any arithmetic where 0 = 0, IEEE binary64 in particular: the calls running together return and store exactly (to the bit) what each of them returns and stores
    when it is the only thread, whichever schedule. *)
Theorem C66_same_bits : forall (K : num), neqb (@n0 K) n0 = true -> forall (M : arr K) (cs : list (bufs K * pcall K)),
  (forall e c, In (e, c) cs -> aligned e /\ ppre M c) ->
  (forall e c z, In (e, c) cs -> pwrites c z -> ~ preads c z) ->
  (forall i j e c e' c' z, nth_error cs i = Some (e, c) -> nth_error cs j = Some (e', c') -> i <> j -> pwrites c z -> ~ preads c' z /\ ~ pwrites c' z) ->
  exists N, forall l conf, run (map (fun p => pthread (fst p) (snd p)) cs, M) l conf ->
    (length l <= N)%nat /\
    (forall i th, nth_error (fst conf) i = Some th -> (exists r, finished th r) \/ exists conf', step conf i conf') /\
    ((forall th, In th (fst conf) -> exists r, finished th r) ->
      (forall i e c l1 conf1, nth_error cs i = Some (e, c) -> run ([pthread e c], M) l1 conf1 -> (forall th, In th (fst conf1) -> exists r, finished th r) ->
        exists th th1 r, nth_error (fst conf) i = Some th /\ fst conf1 = [th1] /\ finished th r /\ finished th1 r /\ forall z, pwrites c z -> snd conf z = snd conf1 z) /\
      (forall z, (forall e c, In (e, c) cs -> ~ pwrites c z) -> snd conf z = M z)).
Proof. intros K E. exact (same_bits E). Qed.
Print Assumptions C66_same_bits.
(** a case in binary64: y := y + x beside the inner product of x with itself *)
Definition M66f (fused : bool) : arr (F64 fused) := fun z => if (0 <=? z) && (z <? 8) then Some (f_one : F64 fused) else None.
Definition calls66f (fused : bool) : list (bufs (F64 fused) * pcall (F64 fused)) :=
  let e := Bufs 0 0 (fun _ => H1) (fun _ => H1) in [(e, PAxpy "R" 1 (@SR (F64 fused) f_one) 0 1 4 1); (e, PDot true 1 0 1 0 1)].
Example C66_same_bits_hypotheses : forall fused : bool,
  neqb (@n0 (F64 fused)) n0 = true /\
  (forall e c, In (e, c) (calls66f fused) -> aligned e /\ ppre (M66f fused) c) /\
  (forall e c z, In (e, c) (calls66f fused) -> pwrites c z -> ~ preads c z) /\
  (forall i j e c e' c' z, nth_error (calls66f fused) i = Some (e, c) -> nth_error (calls66f fused) j = Some (e', c') -> i <> j -> pwrites c z -> ~ preads c' z /\ ~ pwrites c' z).
Proof.
  intros fused. assert (V : forall p, p = 0 \/ p = 4 -> has_vec (M66f fused) p 1 1).
  { intros p Hp i Hi. assert (i = 0) as -> by lia. unfold quat_at, M66f. destruct Hp as [-> | ->]; discriminate. }
  refine (conj eq_refl (conj _ (conj _ _))).
  - intros e c [[= <- <-] | [[= <- <-] | []]]; (split; [split; reflexivity|]); cbn [ppre].
    + refine (conj _ (conj _ (conj _ (conj _ _)))); try discriminate; try lia; apply V; auto.
    + refine (conj _ (conj _ (conj _ _))); try lia; apply V; auto.
  - intros e c z [[= <- <-] | [[= <- <-] | []]]; cbn [pwrites preads]; unfold vec_cells, vpos; cbn [Z.ltb Z.compare]; [|contradiction].
    intros (i & t & A & B & ->) (i' & t' & A' & B' & E). lia.
  - intros [|[|i]] [|[|j]] e c e' c' z Ei Ej N; cbn [calls66f nth_error] in Ei, Ej; try (destruct i; discriminate); try (destruct j; discriminate); try (exfalso; apply N; reflexivity); injection Ei as <- <-; injection Ej as <- <-; cbn [pwrites preads]; unfold vec_cells, vpos; cbn [Z.ltb Z.compare]; [|contradiction].
    intros (i & t & A & B & ->). split; [|auto]. intros [(i' & t' & A' & B' & E)|(i' & t' & A' & B' & E)]; lia.
Qed.

(** ** A concrete case.  alpha: cells 0..3, A (2 x 1): 4..11, B1 12..15, B2 16..19, C1 (2 x 1) 20..27, C2 (1 x 1) 28..31, x 32..35, y 36..39.
    Four threads: C1 := 2 A B1 + i C1 (optimised kernel), C2 := alpha A1 conj(B2) (Fortran), the conjugated inner product of A with itself, and x <-> y *)
Definition b66 : bufs Znum := Bufs 64 128 (fun z => Quat (K := Znum) z z z z) (fun z => Quat (K := Znum) 7 z 7 7).
Definition calls66 : list (bufs Znum * pcall Znum) :=
  [(b66, PGemm "N" "N" 2 1 1 (@SR Znum 2) 0 4 2 12 1 (SC (Cplx (K := Znum) 0 1)) 0 20 2);
   (b66, PGemm "N" "C" 1 1 1 (SH (Quat (K := Znum) 1 2 3 4)) 0 4 2 16 1 (@SR Znum 0) 0 28 1);
   (b66, PDot true 2 4 1 4 1);
   (b66, PSwap 1 32 1 36 1)].
Example C66_concrete_hypotheses :
  (forall e c, In (e, c) calls66 -> aligned e /\ ppre M65' c) /\
  (forall e c z, In (e, c) calls66 -> pwrites c z -> ~ preads c z) /\
  (forall i j e c e' c' z, nth_error calls66 i = Some (e, c) -> nth_error calls66 j = Some (e', c') -> i <> j -> pwrites c z -> ~ preads c' z /\ ~ pwrites c' z).
Proof.
  assert (V : forall p n, (forall i, 0 <= i < n -> 0 <= p + 4 * i /\ p + 4 * i + 4 <= 40) -> has_vec M65' p n 1).
  { intros p n B i Hi. specialize (B i Hi). assert (D : forall z, 0 <= z < 40 -> M65' z = Some (z + 1)) by (intros z Hz; unfold M65'; rewrite (proj2 (Z.leb_le 0 z)), (proj2 (Z.ltb_lt z 40)) by lia; reflexivity).
    unfold quat_at, vpos. cbn [Z.ltb Z.compare]. rewrite !D by lia. discriminate. }
  assert (R : forall e c z, In (e, c) calls66 -> (pwrites c z -> 20 <= z) /\ (preads c z -> 0 <= z < 20)).
  { intros e c z [[= <- <-] | [[= <- <-] | [[= <- <-] | [[= <- <-] | []]]]]; split; cbn [pwrites preads writes reads scal_cells]; change (rows "N" 2 1) with 2; change (cols "N" 2 1) with 1; change (rows "N" 1 1) with 1; change (cols "N" 1 1) with 1; change (rows "C" 1 1) with 1; change (cols "C" 1 1) with 1; unfold mat_cells, vec_cells, vpos; cbn [Z.ltb Z.compare].
    - intros (i & j & t & A & B & C & ->). lia.
    - intros [A|[A|[(i & j & t & A & B & C & ->)|(i & j & t & A & B & C & ->)]]]; try lia; contradiction.
    - intros (i & j & t & A & B & C & ->). lia.
    - intros [A|[A|[(i & j & t & A & B & C & ->)|(i & j & t & A & B & C & ->)]]]; try lia; contradiction.
    - contradiction.
    - intros [(i & t & A & C & ->)|(i & t & A & C & ->)]; lia.
    - intros [(i & t & A & C & ->)|(i & t & A & C & ->)]; lia.
    - contradiction. }
  refine (conj _ (conj _ _)).
  - intros e c [[= <- <-] | [[= <- <-] | [[= <- <-] | [[= <- <-] | []]]]]; (split; [split; reflexivity|]); cbn [ppre pre]; change (rows "N" 2 1) with 2; change (cols "N" 2 1) with 1; change (rows "N" 1 1) with 1; change (cols "N" 1 1) with 1; change (rows "C" 1 1) with 1; change (cols "C" 1 1) with 1.
    + repeat match goal with |- _ /\ _ => split end; try discriminate; try lia; try exact I; try reflexivity; apply has_all; intros; lia.
    + repeat match goal with |- _ /\ _ => split end; try discriminate; try lia; try exact I; try reflexivity; apply has_all; intros; lia.
    + repeat match goal with |- _ /\ _ => split end; try lia; apply V; intros; lia.
    + refine (conj _ (conj _ (conj _ (conj _ _)))); try lia; try (apply V; intros; lia). unfold vec_cells, vpos. cbn [Z.ltb Z.compare]. intros z (i & t & A & C & ->) (i' & t' & A' & C' & E). lia.
  - intros e c z Hc W Rd. destruct (R e c z Hc) as [A B]. specialize (A W). specialize (B Rd). lia.
  - intros i j e c e' c' z Ei Ej N W. split.
    + intros Rd. destruct (R e c z (nth_error_In _ _ Ei)) as [A _]. destruct (R e' c' z (nth_error_In _ _ Ej)) as [_ B]. specialize (A W). specialize (B Rd). lia.
    + intros W'. assert (D : forall k e c, nth_error calls66 k = Some (e, c) -> pwrites c z -> (k = 0%nat /\ 20 <= z < 28) \/ (k = 1%nat /\ 28 <= z < 32) \/ (k = 3%nat /\ 32 <= z < 40)).
      { clear. intros k e c E W. destruct k as [|[|[|[|k]]]]; cbn [calls66 nth_error] in E; try (injection E as <- <-); cbn [pwrites writes] in W; unfold mat_cells, vec_cells, vpos in W; cbn [Z.ltb Z.compare] in W.
        - destruct W as (i & j & t & A & B & C & ->). left. lia.
        - destruct W as (i & j & t & A & B & C & ->). right. left. lia.
        - contradiction.
        - destruct W as [(i & t & A & C & ->)|(i & t & A & C & ->)]; right; right; lia.
        - destruct k; discriminate. }
      destruct (D i e c Ei W) as [[-> A]|[[-> A]|[-> A]]], (D j e' c' Ej W') as [[-> B]|[[-> B]|[-> B]]]; try lia; apply N; reflexivity.
Qed.
(** and one particular schedule, computed: round robin *)
Fixpoint robin4 (c : conf Znum (option (quat Znum))) (fuel : nat) : list nat :=
  match fuel with
  | O => []
  | S f => let try n k := let i := Nat.modulo (f + n) 4 in match stepf c i with Some c' => i :: robin4 c' f | None => k tt end in
           try 0%nat (fun _ => try 1%nat (fun _ => try 2%nat (fun _ => try 3%nat (fun _ => []))))
  end.
Definition rets (ts : list (thread Znum (option (quat Znum)))) : list (option (quat Znum)) := flat_map (fun t => match code t with Ret r => [r] | _ => [] end) ts.
Lemma rets_len ts : (length (rets ts) <= length ts)%nat.
Proof. induction ts as [|t ts IH]; [cbn; lia|]. unfold rets in *. cbn [flat_map length]. rewrite app_length. destruct (code t); cbn [length]; lia. Qed.
Lemma rets_ok ts : length (rets ts) = length ts -> Forall2 finished ts (rets ts).
Proof.
  induction ts as [|t ts IH]; [constructor|]. assert (Hle := rets_len ts). unfold rets in *. cbn [flat_map length]. rewrite app_length. destruct (code t) eqn:Ec; cbn [length app]; intros E; try lia. constructor; [exact Ec|]. apply IH. lia.
Qed.
Definition ends (c : conf Znum (option (quat Znum))) (l : list nat) (zs : list Z) : option (list (option (quat Znum)) * list Z) :=
  match runf c l with Some c => Some (rets (fst c), zat (snd c) zs) | None => None end.
Lemma ends_ok c l zs rs v : length rs = length (fst c) -> ends c l zs = Some (rs, v) ->
  exists c', run c l c' /\ Forall2 finished (fst c') rs /\ zat (snd c') zs = v.
Proof.
  unfold ends. intros Hl. destruct (runf c l) as [c'|] eqn:E; [|discriminate]. intros [= F <-]. exists c'. refine (conj (runf_ok _ _ _ E) (conj _ eq_refl)).
  assert (Lc : length (fst c') = length rs).
  { rewrite Hl. assert (Rn := runf_ok _ _ _ E). clear - Rn. induction Rn as [|c i c1 l c2 (t & cd & _ & _ & Ef) _ IH]; [reflexivity|]. rewrite IH, Ef. clear. revert i. induction (fst c) as [|x xs IH]; intros [|i]; cbn [SpecPar.set_nth length]; auto. }
  rewrite <- F in Lc |- *. apply rets_ok. symmetry. exact Lc.
Qed.
Example C66_concrete_run : exists l c, run (map (fun p => pthread (fst p) (snd p)) calls66, M65') l c /\
  Forall2 finished (fst c) [None; None; Some (Quat (K := Znum) 620 0 0 0); None] /\
  zat (snd c) [20;21;22;23;24;25;26;27; 28;29;30;31; 32;33;34;35;36;37;38;39; 4;5;6;7] = [-526;301;340;375;-786;529;544;619; 246;1140;1458;1920; 37;38;39;40;33;34;35;36; 5;6;7;8].
Proof. exists (robin4 (map (fun p => pthread (fst p) (snd p)) calls66, M65') 500). apply ends_ok; [reflexivity|]. vm_compute. reflexivity. Qed.
