(** C83: which instances of the templates of the public headers a program can call: exactly the supported ones have a definition in the library. *)
From Coq Require Import ZArith Bool Ascii String List Lia.
From Verif Require Import FSyntax FParse CSyntax CPre CParse MPar DSrc PSrc MBuild BuildFacts SpecBuild SpecProto MProto PropsProto MDecl.
Import ListNotations.
Local Open Scope string_scope.

Definition scalarb (t : ctype) : bool := match t with TDouble | CSyntax.TCplx | TQuat => true | _ => false end.
Lemma scalarb_ok t : scalarb t = true <-> scalar t.
Proof. unfold scalar. split; [destruct t; intros H; try discriminate H; tauto | intros [->|[->| ->]]; reflexivity]. Qed.
Fixpoint lists (k : nat) : list (list ctype) := match k with O => [[]] | S k => flat_map (fun l => map (fun t => t :: l) [TDouble; CSyntax.TCplx; TQuat]) (lists k) end.
Lemma lists_ok args : Forall scalar args -> In args (lists (List.length args)).
Proof.
  induction 1 as [|t args Ht _ IH]; [left; reflexivity|]. cbn. apply in_flat_map. exists args. split; [exact IH|].
  destruct Ht as [->|[->| ->]]; cbn; tauto.
Qed.
Lemma lists_scalar k : forall args, In args (lists k) -> Forall scalar args.
Proof.
  induction k as [|k IH]; intros args H; [destruct H as [<-|[]]; constructor|]. cbn in H. apply in_flat_map in H as (l & Hl & H). apply IH in Hl.
  destruct H as [<-|[<-|[<-|[]]]]; constructor; try exact Hl; unfold scalar; tauto.
Qed.
Definition l1 := ["HBLAS_SWAPV"; "HBLAS_COPYV"; "HBLAS_DOTUV"; "HBLAS_DOTCV"; "HBLAS_COMPLEX_EXPAND"; "HBLAS_REAL_EXPAND"; "HBLAS_COMPLEX_CONTRACT"].
Definition supportedb (f : string) (args : list ctype) : bool :=
  match args with
  | [TDouble] => mem f l1
  | [TDouble; a] => mem f ["HBLAS_SCALV"; "HBLAS_SCALM"] && scalarb a
  | [TDouble; TQuat; a] => mem f ["HBLAS_AXPYV"; "HBLAS_AXPYM"] && scalarb a
  | [TDouble; TQuat; TQuat; a] => mem f ["HBLAS_GERU"; "HBLAS_GERC"] && scalarb a
  | [TDouble; TQuat; TQuat; a; b] => mem f ["HBLAS_GEMV"; "HBLAS_GEMM"] && (scalarb a && scalarb b)
  | [TDouble; TDouble; TQuat; TDouble; TDouble] => mem f ["HBLAS_GEMV"; "HBLAS_GEMM"]
  | _ => false
  end.
Lemma supportedb_sound f args : supportedb f args = true -> supported f args.
Proof.
  intros H. destruct args as [|a1 args]; [discriminate H|]. destruct a1; try (destruct args; discriminate H).
  destruct args as [|a2 args]; [constructor; apply mem_in; exact H|].
  destruct args as [|a3 args].
  { assert (H' : mem f ["HBLAS_SCALV"; "HBLAS_SCALM"] && scalarb a2 = true) by (destruct a2; exact H). apply andb_prop in H' as [A B]. apply sup_scal; [apply mem_in; exact A | apply scalarb_ok; exact B]. }
  destruct a2; try (destruct args as [|? [|? [|? ?]]]; discriminate H).
  - (* a real matrix *)
    destruct a3; try (destruct args as [|? [|? [|? ?]]]; discriminate H). destruct args as [|a4 [|a5 [|? ?]]]; try discriminate H; try (destruct a4; discriminate H).
    + destruct a4; try discriminate H. destruct a5; try discriminate H. apply sup_real. apply mem_in. exact H.
    + destruct a4; try discriminate H. destruct a5; discriminate H.
  - destruct args as [|a4 args].
    { assert (H' : mem f ["HBLAS_AXPYV"; "HBLAS_AXPYM"] && scalarb a3 = true) by (destruct a3; exact H). apply andb_prop in H' as [A B]. apply sup_axpy; [apply mem_in; exact A | apply scalarb_ok; exact B]. }
    destruct a3; try (destruct args as [|? [|? ?]]; discriminate H). destruct args as [|a5 [|? ?]]; [| |discriminate H].
    + apply andb_prop in H as [A B]. apply sup_ger; [apply mem_in; exact A | apply scalarb_ok; exact B].
    + apply andb_prop in H as [A B]. apply andb_prop in B as [B C]. apply sup_gem; [apply mem_in; exact A | apply scalarb_ok; exact B | apply scalarb_ok; exact C].
Qed.
Lemma supportedb_complete f args : supported f args -> supportedb f args = true.
Proof.
  intros [g H|g a H S|g a H S|g a H S|g a b H S S'|g H]; apply mem_in in H; try apply scalarb_ok in S; try apply scalarb_ok in S'; cbn [supportedb].
  - exact H.
  - assert (E : mem g ["HBLAS_SCALV"; "HBLAS_SCALM"] && scalarb a = true) by (rewrite H, S; reflexivity). destruct a; exact E.
  - assert (E : mem g ["HBLAS_AXPYV"; "HBLAS_AXPYM"] && scalarb a = true) by (rewrite H, S; reflexivity). destruct a; exact E.
  - rewrite H, S. reflexivity.
  - rewrite H, S, S'. reflexivity.
  - exact H.
Qed.
Definition arity (f : string) : nat :=
  if mem f l1 then 1 else if mem f ["HBLAS_SCALV"; "HBLAS_SCALM"] then 2 else if mem f ["HBLAS_AXPYV"; "HBLAS_AXPYM"] then 3 else if mem f ["HBLAS_GERU"; "HBLAS_GERC"] then 4 else 5.
Lemma supported_arity f args : supported f args -> List.length args = arity f.
Proof. intros [g H|g a H S|g a H S|g a H S|g a b H S S'|g H]; cbn in H; repeat destruct H as [<-|H]; try destruct H; reflexivity. Qed.

Definition the_templates : list tdecl := Eval vm_compute in match templates with Some l => l | None => [] end.
Lemma templates_eq : templates = Some the_templates.
Proof. vm_compute. reflexivity. Qed.
Definition linkedb (t : tdecl) (args : list ctype) : bool := match instance t args with Some ts => match resolve lib_defs (t_name t) ts with Some _ => true | None => false end | None => false end.
Lemma linkedb_ok fma t args : linkedb t args = true <-> linked fma t args.
Proof.
  unfold linkedb, linked. split.
  - destruct (instance t args) as [ts|]; [|discriminate]. destruct (resolve lib_defs (t_name t) ts) as [i|] eqn:E; [|discriminate]. intros _. exists ts, i.
    split; [reflexivity|]. rewrite implementation_eq. exact E.
  - intros (ts & i & E & H). rewrite implementation_eq in H. rewrite E, H. reflexivity.
Qed.
Lemma all_instances : forallb (fun t => Nat.eqb (List.length (t_tparams t)) (arity (t_name t)) &&
    forallb (fun args => Bool.eqb (linkedb t args) (supportedb (t_name t) args)) (lists (List.length (t_tparams t)))) the_templates = true.
Proof. vm_compute. reflexivity. Qed.
Lemma all_public : forallb (fun p => existsb (fun t => String.eqb (t_name t) (fst p) &&
    existsb (fun args => match instance t args with Some ts => types_eqb ts (snd p) | None => false end) (lists (List.length (t_tparams t)))) the_templates) public_signatures = true.
Proof. vm_compute. reflexivity. Qed.

(** the headers declare these function templates, none of them overloaded *)
Theorem C83_templates : exists l, templates = Some l /\ NoDup (map t_name l) /\
  map t_name l = ["HBLAS_SWAPV"; "HBLAS_COPYV"; "HBLAS_SCALV"; "HBLAS_AXPYV"; "HBLAS_DOTUV"; "HBLAS_DOTCV"; "HBLAS_SCALM"; "HBLAS_AXPYM"; "HBLAS_GEMV"; "HBLAS_GERU"; "HBLAS_GERC"; "HBLAS_GEMM";
                  "HBLAS_COMPLEX_EXPAND"; "HBLAS_REAL_EXPAND"; "HBLAS_COMPLEX_CONTRACT"].
Proof. exists the_templates. split; [exact templates_eq|]. split; [apply nodup_ok; vm_compute; reflexivity | reflexivity]. Qed.
Print Assumptions C83_templates.
(** an instance with scalar types as arguments has a definition exactly when it is supported: the others compile and do not link *)
Theorem C83_linked : forall fma l t args, templates = Some l -> In t l -> Forall scalar args -> (linked fma t args <-> supported (t_name t) args).
Proof.
  intros fma l t args El Ht Ha. rewrite templates_eq in El. injection El as <-. apply (forallb_in _ _ _ all_instances) in Ht. apply andb_prop in Ht as [E H].
  apply Nat.eqb_eq in E. rewrite <- (linkedb_ok fma). split.
  - intros HL. assert (EL : List.length args = List.length (t_tparams t)).
    { unfold linkedb, instance in HL. destruct (Nat.eqb_spec (List.length args) (List.length (t_tparams t))) as [X|X]; [exact X | discriminate HL]. }
    apply lists_ok in Ha. rewrite EL in Ha. apply (forallb_in _ _ _ H) in Ha. apply Bool.eqb_prop in Ha. apply supportedb_sound. rewrite <- Ha. exact HL.
  - intros HS. pose proof (supported_arity _ _ HS) as EL. apply lists_ok in Ha. rewrite EL, <- E in Ha. apply (forallb_in _ _ _ H) in Ha. apply Bool.eqb_prop in Ha.
    rewrite Ha. apply supportedb_complete. exact HS.
Qed.
Print Assumptions C83_linked.
(** every public function of the library is an instance of a declared template *)
Theorem C83_declared : forall f ts, In (f, ts) public_signatures -> exists l t args, templates = Some l /\ In t l /\ t_name t = f /\ Forall scalar args /\ instance t args = Some ts.
Proof.
  intros f ts Hi. apply (forallb_in _ _ _ all_public) in Hi. apply existsb_exists in Hi as (t & Ht & E). cbn [fst snd] in E. apply andb_prop in E as [E1 E2]. apply String.eqb_eq in E1.
  apply existsb_exists in E2 as (args & Ha & E2). destruct (instance t args) as [us|] eqn:Ei; [|discriminate E2]. apply types_eqb_ok in E2. subst us.
  exists the_templates, t, args. split; [exact templates_eq|]. split; [exact Ht|]. split; [exact E1|]. split; [exact (lists_scalar _ _ Ha) | exact Ei].
Qed.
Print Assumptions C83_declared.
(** concrete: AXPYV on complex vectors compiles and does not link; GEMV with a real matrix and complex ALPHA neither *)
Example C83_concrete : supported "HBLAS_GEMM" [TDouble; TQuat; TQuat; CSyntax.TCplx; TQuat] /\ ~ supported "HBLAS_AXPYV" [TDouble; CSyntax.TCplx; TDouble] /\
  ~ supported "HBLAS_GEMV" [TDouble; TDouble; TQuat; CSyntax.TCplx; TDouble] /\
  (exists t ts, In t the_templates /\ t_name t = "HBLAS_AXPYV" /\ instance t [TDouble; CSyntax.TCplx; TDouble] = Some ts /\ ts = [TChar; CSyntax.TInt; TDouble; TPtr CSyntax.TCplx; CSyntax.TInt; TPtr TQuat; CSyntax.TInt]).
Proof.
  split; [apply supportedb_sound; reflexivity|]. split; [intros H; apply supportedb_complete in H; discriminate H|]. split; [intros H; apply supportedb_complete in H; discriminate H|].
  exists (nth 3 the_templates (TDecl "" [] [])). eexists. split; [do 3 right; left; reflexivity|]. split; [reflexivity|]. split; vm_compute; reflexivity.
Qed.
