(** C82: the extern "C" prototypes through which C++ calls the Fortran routines, the SUBROUTINE statements with their declarations, and the calls agree. *)
From Coq Require Import ZArith Bool Ascii String List.
From Verif Require Import SrcL1 FSyntax FParse CSyntax CPre CParse MPar DSrc PSrc MBuild BuildFacts SpecProto MProto.
Import ListNotations.
Local Open Scope string_scope.

Definition mem (f : string) (l : list string) : bool := existsb (String.eqb f) l.
Fixpoint nodup (l : list string) : bool := match l with [] => true | x :: r => negb (mem x r) && nodup r end.
Lemma mem_in f l : mem f l = true <-> In f l.
Proof. unfold mem. rewrite existsb_exists. split; [intros (x & H & E); apply String.eqb_eq in E; subst; exact H | intros H; exists f; split; [exact H | apply String.eqb_refl]]. Qed.
Lemma nodup_ok l : nodup l = true -> NoDup l.
Proof. induction l as [|x r IH]; [constructor|]. cbn. intros H. apply andb_prop in H as [H1 H2]. constructor; [|auto]. intros Hi. apply mem_in in Hi. rewrite Hi in H1. discriminate. Qed.
Definition receivesb (d : dummy) (t : ctype) : bool :=
  match d, t with
  | Scalar Character, TPtr TChar | Scalar Integer4, TPtr CSyntax.TInt | Scalar Real8, TPtr TDouble | Array Real8 _, TPtr TDouble
  | Scalar Complex16, TPtr CSyntax.TCplx | Array Complex16 _, TPtr CSyntax.TCplx
  | Array Real8 (Some 2%nat), TPtr CSyntax.TCplx | Array Complex16 (Some 2%nat), TPtr TQuat | Array Real8 (Some 4%nat), TPtr TQuat => true
  | _, _ => false
  end.
Lemma receivesb_ok d t : receivesb d t = true -> receives d t.
Proof.
  destruct d as [[]|[] [[|[|[|[|[|n]]]]]|]], t as [| | | | | | | | | | | |[]]; intros H; first [discriminate H | constructor].
Qed.
Fixpoint allb (ds : list dummy) (ts : list ctype) : bool := match ds, ts with [], [] => true | d :: ds, t :: ts => receivesb d t && allb ds ts | _, _ => false end.
Lemma allb_ok ds : forall ts, allb ds ts = true -> Forall2 receives ds ts.
Proof. induction ds as [|d ds IH]; intros [|t ts] H; try discriminate; constructor; cbn in H; apply andb_prop in H as [H1 H2]; [apply receivesb_ok | apply IH]; assumption. Qed.
(** the subroutine with this name, in a list of kernels *)
Definition dummies_in (ks : list (string * string * string * nat)) (n : string) : option (list dummy) :=
  match filter (fun k => String.eqb (fst (fst (fst k))) n) ks with [(_, src, _, _)] => dummies n src | _ => None end.
Definition agreesb ks (p : string * list ctype) : bool := match dummies_in ks (symbol (fst p)) with Some ds => allb ds (snd p) | None => false end.
Lemma agrees_ok ks f ts : agreesb ks (f, ts) = true ->
  exists src out k ds, In (symbol f, src, out, k) ks /\ dummies (symbol f) src = Some ds /\ Forall2 receives ds ts.
Proof.
  unfold agreesb, dummies_in. cbn [fst snd]. generalize (symbol f). intros n.
  destruct (filter _ ks) as [|[[[n' src] out] k] [|]] eqn:E; intros H; try discriminate H.
  assert (Hn : In (n', src, out, k) (filter (fun k => String.eqb (fst (fst (fst k))) n) ks)) by (rewrite E; left; reflexivity).
  apply filter_In in Hn as [Hn En]. cbn in En. apply String.eqb_eq in En. subst n'.
  destruct (dummies n src) as [ds|] eqn:Ed; [|discriminate H].
  exists src, out, k, ds. split; [exact Hn|]. split; [exact Ed | apply allb_ok; exact H].
Qed.
Lemma forallb_in {A} (p : A -> bool) l x : forallb p l = true -> In x l -> p x = true.
Proof. intros H. rewrite forallb_forall in H. apply H. Qed.
Lemma covers_ok (ks : list (string * string * string * nat)) (l : list (string * list ctype)) n src out k :
  forallb (fun k => existsb (fun p => String.eqb (symbol (fst p)) (fst (fst (fst k)))) l) ks = true -> In (n, src, out, k) ks -> exists f ts, In (f, ts) l /\ symbol f = n.
Proof.
  intros H Hi. apply (forallb_in _ _ _ H) in Hi. apply existsb_exists in Hi as ([f ts] & Hp & E). cbn [fst] in E. apply String.eqb_eq in E. exists f, ts. split; assumption.
Qed.
(** the prototypes in the headers are exactly the documented ones, each routine is declared once *)
Theorem C82_prototypes : prototypes = Some declared /\ NoDup (map fst declared).
Proof. split; [vm_compute; reflexivity | apply nodup_ok; vm_compute; reflexivity]. Qed.
Print Assumptions C82_prototypes.
(** the routine a prototype names is a SUBROUTINE of the library, with as many dummy arguments, each of which receives what the prototype passes *)
Theorem C82_receives : forall f ts, In (f, ts) declared ->
  exists src out k ds, In (symbol f, src, out, k) kernels /\ dummies (symbol f) src = Some ds /\ Forall2 receives ds ts.
Proof.
  assert (H : forallb (agreesb kernels) declared = true) by (vm_compute; reflexivity).
  intros f ts Hi. exact (agrees_ok kernels f ts (forallb_in _ _ _ H Hi)).
Qed.
Print Assumptions C82_receives.
(** every SUBROUTINE of the library is declared *)
Theorem C82_declared : forall n src out k, In (n, src, out, k) kernels -> exists f ts, In (f, ts) declared /\ symbol f = n.
Proof.
  assert (H : forallb (fun k => existsb (fun p => String.eqb (symbol (fst p)) (fst (fst (fst k)))) declared) kernels = true) by (vm_compute; reflexivity).
  intros n src out k Hi. exact (covers_ok kernels declared n src out k H Hi).
Qed.
Print Assumptions C82_declared.
(** every call in the body of a function of the library passes arguments of exactly the declared types; so with C82_receives what the SUBROUTINE reads is what was passed *)
Definition callb (c : string * list ctype) : bool := existsb (fun p => String.eqb (fst p) (fst c) && types_eqb (snd p) (snd c)) declared.
Lemma ctype_eqb_ok a : forall b, ctype_eqb a b = true -> a = b.
Proof. induction a as [| | | | | | | | | | | |a IH]; intros [] H; try discriminate H; try reflexivity. f_equal. apply IH. exact H. Qed.
Lemma types_eqb_ok a : forall b, types_eqb a b = true -> a = b.
Proof. induction a as [|x a IH]; intros [|y b] H; try discriminate H; [reflexivity|]. cbn in H. apply andb_prop in H as [H1 H2]. f_equal; [apply ctype_eqb_ok | apply IH]; assumption. Qed.
Lemma all_calls : forallb (fun d => match calls_of d with Some cs => forallb callb cs | None => false end) lib_defs = true.
Proof. vm_compute. reflexivity. Qed.
(** the routines that the default build reaches *)
Definition called : list string :=
  ["hgemvdd_"; "hgemvdz_"; "hgemvdh_"; "hgemvzd_"; "hgemvzz_"; "hgemvzh_"; "hgemvhd_"; "hgemvhz_"; "hgemvhh_"; "hgerud_"; "hgeruz_"; "hgeruh_"; "hgercd_"; "hgercz_"; "hgerch_";
   "hgemmdh_"; "hgemmzh_"; "hgemmhd_"; "hgemmhz_"; "hgemmhh_"; "hzexp1_"; "hzexp2_"; "hdexp_"; "hzcon1_"; "hzcon2_"].
Lemma all_called : forallb (fun f => existsb (fun d => match calls_of d with Some cs => existsb (fun c => String.eqb f (fst c)) cs | None => false end) lib_defs) called = true.
Proof. vm_compute. reflexivity. Qed.
Theorem C82_calls : forall fma, exists l, definitions fma = Some l /\
  (forall d, In d l -> exists cs, calls_of d = Some cs /\ forall f ts, In (f, ts) cs -> In (f, ts) declared) /\
  (forall f, In f called -> exists d cs ts, In d l /\ calls_of d = Some cs /\ In (f, ts) cs).
Proof.
  intros fma. exists lib_defs. split; [apply definitions_eq|]. split.
  - intros d Hd. pose proof all_calls as H. rewrite forallb_forall in H. specialize (H _ Hd). destruct (calls_of d) as [cs|]; [|discriminate H].
    exists cs. split; [reflexivity|]. intros f ts Hi. rewrite forallb_forall in H. specialize (H _ Hi). apply existsb_exists in H as ([g us] & Hp & E). cbn in E.
    apply andb_prop in E as [E1 E2]. apply String.eqb_eq in E1. apply types_eqb_ok in E2. subst. exact Hp.
  - intros f Hi. apply (forallb_in _ _ _ all_called) in Hi. apply existsb_exists in Hi as (d & Hd & E).
    destruct (calls_of d) as [cs|] eqn:Ec; [|discriminate E]. apply existsb_exists in E as ([g ts] & Hp & E). cbn [fst] in E. apply String.eqb_eq in E. subst.
    exists d, cs, ts. split; [exact Hd|]. split; [exact Ec | exact Hp].
Qed.
Print Assumptions C82_calls.
(** the level 1 routines are called only with the option ENABLE_GENERIC_FORTRAN, which does not compile: src/hblas/hblas1.cxx.in:103-104 uses a macro that is not defined
    (line 49 defines DOT_FORTRAN_IMPL).  With -DDOTV_FORTRAN_IMPL=DOT_FORTRAN_IMPL the calls would agree too. *)
Definition hblas1_fortran (opts : list (string * string)) : option (list tok) := preprocess opts util_headers (configure ["ENABLE_GENERIC_FORTRAN"] dsrc_hblas1).
Definition uses (x : string) (o : option (list tok)) : bool := match o with Some ts => existsb (fun t => match t with TId y => String.eqb y x | _ => false end) ts | None => false end.
Lemma uses_ok x o : uses x o = true -> exists ts, o = Some ts /\ In (TId x) ts.
Proof.
  destruct o as [ts|]; intros A; [|discriminate A]. exists ts. split; [reflexivity|]. apply existsb_exists in A as ([] & Ht & E); try discriminate E.
  apply String.eqb_eq in E. subst. exact Ht.
Qed.
Definition calls_in (p : list tok -> option (list item)) (o : option (list tok)) : list (string * list ctype) :=
  match o with Some ts => match p ts with Some is => match all_opt (fun i => calls_of (of_item i)) is with Some cs => concat cs | None => [] end | None => [] end | None => [] end.
Lemma calls_in_ok p o names : forallb callb (calls_in p o) = true -> map fst (calls_in p o) = names -> names <> [] ->
  exists ts is cs, o = Some ts /\ p ts = Some is /\ all_opt (fun i => calls_of (of_item i)) is = Some cs /\ (forall f us, In (f, us) (concat cs) -> In (f, us) declared) /\ map fst (concat cs) = names.
Proof.
  unfold calls_in. destruct o as [ts|]; [|intros _ <- H; destruct (H eq_refl)]. destruct (p ts) as [is|] eqn:Ei; [|intros _ <- H; destruct (H eq_refl)].
  destruct (all_opt _ is) as [cs|] eqn:Ec; [|intros _ <- H; destruct (H eq_refl)]. intros B1 B2 _. exists ts, is, cs. split; [reflexivity|]. split; [exact Ei|]. split; [exact Ec|].
  split; [|exact B2]. intros f us Hi. apply (forallb_in _ _ _ B1) in Hi. apply existsb_exists in Hi as ([g vs] & Hp & E). cbn [fst snd] in E.
  apply andb_prop in E as [E1 E2]. apply String.eqb_eq in E1. apply types_eqb_ok in E2. subst. exact Hp.
Qed.
Lemma level1_uses : uses "DOTV_FORTRAN_IMPL" (hblas1_fortran []) = true.
Proof. vm_compute. reflexivity. Qed.
Definition level1_names := ["hscald_"; "hscalc_"; "hscalh_"; "haxpydh_"; "haxpych_"; "haxpyhh_"; "hdotu_"; "hdotc_"].
Definition p_hblas1 (ts : list tok) := p_items pfuel (paste ts).
Lemma level1_calls : forallb callb (calls_in p_hblas1 (hblas1_fortran [("DOTV_FORTRAN_IMPL", "DOT_FORTRAN_IMPL")])) = true.
Proof. vm_compute. reflexivity. Qed.
Lemma level1_called : map fst (calls_in p_hblas1 (hblas1_fortran [("DOTV_FORTRAN_IMPL", "DOT_FORTRAN_IMPL")])) = level1_names.
Proof. vm_compute. reflexivity. Qed.
Theorem C82_level1 :
  (exists ts, hblas1_fortran [] = Some ts /\ In (TId "DOTV_FORTRAN_IMPL") ts) /\
  exists ts is cs, hblas1_fortran [("DOTV_FORTRAN_IMPL", "DOT_FORTRAN_IMPL")] = Some ts /\ p_hblas1 ts = Some is /\
    all_opt (fun i => calls_of (of_item i)) is = Some cs /\ (forall f us, In (f, us) (concat cs) -> In (f, us) declared) /\
    map fst (concat cs) = level1_names.
Proof. split; [exact (uses_ok _ _ level1_uses) | exact (calls_in_ok _ _ _ level1_calls level1_called ltac:(discriminate))]. Qed.
Print Assumptions C82_level1.
(** concrete: 36 routines; a swapped pair of arguments or a real where a quaternion is expected would not be received *)
Example C82_concrete :
  List.length declared = List.length kernels /\ In ("hgemvdh_", [TPtr TChar; TPtr CSyntax.TInt; TPtr CSyntax.TInt; TPtr TDouble; TPtr TQuat; TPtr CSyntax.TInt; TPtr TQuat; TPtr CSyntax.TInt; TPtr TQuat; TPtr TQuat; TPtr CSyntax.TInt]) declared /\
  dummies "HAXPYCH" SrcL1.src_haxpych = Some [Scalar Character; Scalar Integer4; Array Real8 (Some 2%nat); Array Real8 (Some 4%nat); Scalar Integer4; Array Real8 (Some 4%nat); Scalar Integer4] /\
  ~ receives (Scalar Integer4) (TPtr TQuat) /\ ~ receives (Scalar Real8) (TPtr TCplx) /\ ~ receives (Array Real8 (Some 2%nat)) (TPtr TQuat) /\ ~ receives (Array Real8 (Some 4%nat)) (TPtr CSyntax.TInt).
Proof.
  split; [vm_compute; reflexivity|]. split; [vm_compute; repeat (first [left; reflexivity | right])|].
  split; [vm_compute; reflexivity|]. repeat split; intros H; inversion H.
Qed.
