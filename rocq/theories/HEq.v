(** Symbolic execution of the quaternion headers (HSem.v): the parsed unit as a literal, and the tactics used for C71 and C72. *)
From Coq Require Import ZArith Lia Bool Ascii String List.
From Verif Require Import Num Res MQuat MSimd MObj CPre FParse HParse HProg HSem MSrcH.
Import ListNotations.
Local Open Scope string_scope.

Definition get_unit (o : option hunit) : hunit := match o with Some u => u | None => HUnit [] [] end.
Definition unit_avx : hunit := Eval vm_compute in get_unit (haxx_unit true).
Definition unit_plain : hunit := Eval vm_compute in get_unit (haxx_unit false).
Definition unit_of (avx : bool) : hunit := if avx then unit_avx else unit_plain.
Lemma unit_eq avx : haxx_unit avx = Some (unit_of avx).
Proof. destruct avx; vm_compute; reflexivity. Qed.
Lemma upd_ne {A} (m : arr A) i v j : j <> i -> upd m i v j = m j.
Proof. intros H. unfold upd. destruct (Z.eqb_spec j i); [contradiction | reflexivity]. Qed.
Lemma upd_eq {A} (m : arr A) i v : upd m i v i = Some v.
Proof. unfold upd. rewrite Z.eqb_refl. reflexivity. Qed.

Ltac hred := cbv -[car ld st upd nadd nsub nmul ndiv nopp nsqrt neqb n0 n1 Z.add MULDQ_NN]; unfold ld, st.
Ltac hrun := unfold hmethod, hfree, hctor, hcall; rewrite unit_eq; hred.
(* case analysis on every cell that is read or written *)
Ltac hcell := match goal with |- context [match ?x with Some _ => _ | None => _ end] => lazymatch x with context [match _ with _ => _ end] => fail | _ => destruct x end end.
Ltac hlanes := match goal with |- context [MULDQ_NN ?x ?y] => destruct (MULDQ_NN x y) end.
Ltac hcells := try reflexivity; repeat ((hcell || hlanes); cbv beta iota; try reflexivity).
Ltac hcell' := match goal with |- context [match ?x with Some _ => _ | None => _ end] => lazymatch x with context [match _ with _ => _ end] => fail | _ => let E := fresh "E" in destruct x eqn:E end end.
Ltac hupd := repeat (first [rewrite upd_eq | rewrite upd_ne by lia | match goal with E : ?x = _ |- context [?x] => rewrite E end]; cbv beta iota).
Ltac hcells' := try reflexivity; repeat ((hcell' || hlanes); cbv beta iota; hupd; try reflexivity).
Ltac hbuild := lazymatch goal with |- context [haxx_unit ?a] => tryif is_var a then destruct a else idtac | _ => idtac end.
Ltac hcomp := repeat match goal with z : cplx _ |- _ => destruct z | q : quat _ |- _ => destruct q end.
Ltac heq := intros; hcomp; unfold hmethod, hfree, hctor, hcall; hbuild; rewrite unit_eq; hred; hcells.
Ltac heq' := intros; hcomp; unfold hmethod, hfree, hctor, hcall; hbuild; rewrite unit_eq; hred; hcells'.
Ltac huser := intros; unfold hexp, hstmts; hbuild; rewrite unit_eq; hred; hcells.
(** a loaded object, cell by cell *)
Lemma load_cells {K : num} (m : arr K) p a : load_obj m p = Ok a -> m p = Some (qr a) /\ m (p + 1)%Z = Some (qi a) /\ m (p + 2)%Z = Some (qj a) /\ m (p + 3)%Z = Some (qk a).
Proof.
  unfold load_obj, g_real, g_i, g_j, g_k, ld.
  destruct (m p); [|discriminate]. destruct (m (p + 1)%Z); [|discriminate]. destruct (m (p + 2)%Z); [|discriminate]. destruct (m (p + 3)%Z); [|discriminate].
  cbn [bind]. intros E. injection E as <-. repeat split.
Qed.
