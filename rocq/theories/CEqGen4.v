(** SCALM and AXPYM, run from the text and linked with the text of axpy_scal.cxx, have the outcome of the models of MGenM.v. *)
From Coq Require Import ZArith Bool Ascii String List Lia.
From Verif Require Import Num Res MQuat MSimd MOptL1 MForL1 MGenL1 MGenM CSyntax CParse CSem CProg CSimFacts CTac CStep CEqQ CEqL1 CEqL1b CTacG CProgG CObjGen CLinkG.
Import ListNotations. Local Open Scope string_scope. Local Open Scope Z_scope.

Section S.
Context {K : num}.
Variables (fma : bool) (fuel : nat).
Hypothesis U : fma = false -> two_step K.
Lemma scal_of_val (al : scal K) : scal_of (val_of al) = Some al.
Proof. destruct al; reflexivity. Qed.
Lemma scalv_link_eq s n al e inc aa (a : arr (quat K)) : (Z.to_nat n < fuel)%nat ->
  scalv_link fma fuel "HBLAS_SCALV" "" [VChr s; VZ n; val_of al; VP (Ptr (OnQ 0) e 0 TQuat); VZ inc] [(aa, DQ a)]
  = Some (x <- scalv_opt s n al (aa + 32 * e) (shiftp a e) inc ;; Ok [(aa, DQ (shiftp x (- e)))]).
Proof.
  intros Hf. unfold scalv_link. change (String.eqb "HBLAS_SCALV" "HBLAS_SCALV") with true. cbv iota. rewrite scal_of_val.
  assert (Hs : sim (fun r o => o = ([(aa + 32 * e, DQ r)], None)) (scalv_opt s n al (aa + 32 * e) (shiftp a e) inc)
     (ccall (K:=K) (unit_scalv fma (type_of al)) no_ext fuel "HBLAS_SCALV" [VChr s; VZ n; val_of al; ptr 0; VZ inc] [(aa + 32 * e, DQ (shiftp a e))])).
  { destruct al as [k|z|q]; [exact (src_scald fma s n k _ _ inc fuel Hf) | exact (src_scalz fma s n z _ _ inc fuel Hf) | exact (src_scalh fma U s n q _ _ inc fuel Hf)]. }
  destruct (scalv_opt _ _ _ _ _ _) as [x| |]; cbn [sim] in Hs.
  - destruct Hs as (o & -> & ->). reflexivity.
  - rewrite Hs. reflexivity.
  - rewrite Hs. reflexivity.
Qed.
Lemma axpyv_link_eq s n al e e' inc inc' aa (a : arr (quat K)) ba b : (Z.to_nat n < fuel)%nat ->
  axpyv_link fma fuel "HBLAS_AXPYV" "" [VChr s; VZ n; val_of al; VP (Ptr (OnQ 0) e 0 TQuat); VZ inc; VP (Ptr (OnQ 1) e' 0 TQuat); VZ inc'] [(aa, DQ a); (ba, DQ b)]
  = Some (y <- axpyv_opt s n al (aa + 32 * e) (shiftp a e) inc (ba + 32 * e') (shiftp b e') inc' ;; Ok [(aa, DQ a); (ba, DQ (shiftp y (- e')))]).
Proof.
  intros Hf. unfold axpyv_link. change (String.eqb "HBLAS_AXPYV" "HBLAS_AXPYV") with true. cbv iota. rewrite scal_of_val.
  assert (Hs : sim (fun r o => o = ([(aa + 32 * e, DQ (shiftp a e)); (ba + 32 * e', DQ r)], None)) (axpyv_opt s n al (aa + 32 * e) (shiftp a e) inc (ba + 32 * e') (shiftp b e') inc')
     (ccall (K:=K) (unit_axpyv fma (type_of al)) no_ext fuel "HBLAS_AXPYV" [VChr s; VZ n; val_of al; ptr 0; VZ inc; ptr 1; VZ inc']
       [(aa + 32 * e, DQ (shiftp a e)); (ba + 32 * e', DQ (shiftp b e'))])).
  { destruct al as [k|z|q]; [exact (src_axpyd fma U s n k _ _ inc _ _ inc' fuel Hf) | exact (src_axpyz fma s n z _ _ inc _ _ inc' fuel Hf) | exact (src_axpyh fma U s n q _ _ inc _ _ inc' fuel Hf)]. }
  destruct (axpyv_opt _ _ _ _ _ _ _ _ _) as [x| |]; cbn [sim] in Hs.
  - destruct Hs as (o & -> & ->). reflexivity.
  - rewrite Hs. reflexivity.
  - rewrite Hs. reflexivity.
Qed.
Ltac gext := lazymatch goal with |- sim _ _ (mb (exec ?rv ?rp ?rr ?ext ?fuel (SExt ?f ?ta ?l) ?s) ?k) =>
   let x := constr:(exec rv rp rr ext fuel (SExt f ta l) s) in let y := gcbn x in change x with y end; rewrite mb_mb.

Lemma gsrc_scalm side ta m n alpha aa a lda inca :
  (Z.to_nat m < fuel)%nat -> (Z.to_nat n < fuel)%nat ->
  sim (fun r o => o = ([(aa, DQ r)], None))
    (scalm_avx side ta m n alpha aa a lda inca)
    (ccall (K:=K) (unit_scalm_g (ty alpha)) (scalv_link fma fuel) fuel "HBLAS_SCALM" [VChr side; VChr ta; VZ m; VZ n; val_of alpha; ptr 0; VZ lda; VZ inca] [(aa, DQ a)]).
Proof.
  intros Hm Hn. gstart (unit_scalm_g (ty alpha)) (g_scalm (ty alpha)) (unit_scalm_g_eq (ty alpha)).
  cbv beta delta [g_scalm]. gopen. gsteps. unfold scalm_avx, scalm.
  destruct ((n <=? 0) || (m <=? 0) || (inca <=? 0)); gsteps; [apply sim_ok; reflexivity|].
  gassert. gsteps.
  lazymatch goal with |- context [exec _ _ _ _ _ _ (?en, _)] =>
    gfor (fun (j : Z) '(a, e) (s : st K) => s = (puts en [(8%nat, Some (VZ j)); (9%nat, Some (VP (Ptr (OnQ 0) e 0 TQuat)))], [(aa, DQ a)])) end;
  [ intros ? [? ?] ? ->; gcond | | reflexivity | lia
  | intros [a1 e] [s fl] [E (i & ? & Es)]; cbn in E, Es; subst fl s; gsteps; apply sim_ok; reflexivity].
  intros j [a1 e] s Hj ->. gbody. gsteps. gext. rewrite scalv_link_eq by exact Hm.
  destruct (scalv_opt _ _ _ _ _ _) as [x| |]; cbn [bind]; [| reflexivity | reflexivity]. gsteps. gok. reflexivity.
Qed.
Lemma gsrc_axpym side ta m n alpha aa a lda inca ba b ldb incb :
  (Z.to_nat m < fuel)%nat -> (Z.to_nat n < fuel)%nat ->
  sim (fun r o => o = ([(aa, DQ a); (ba, DQ r)], None))
    (axpym_avx side ta m n alpha aa a lda inca ba b ldb incb)
    (ccall (K:=K) (unit_axpym_g (ty alpha)) (axpyv_link fma fuel) fuel "HBLAS_AXPYM"
      [VChr side; VChr ta; VZ m; VZ n; val_of alpha; ptr 0; VZ lda; VZ inca; ptr 1; VZ ldb; VZ incb] [(aa, DQ a); (ba, DQ b)]).
Proof.
  intros Hm Hn. gstart (unit_axpym_g (ty alpha)) (g_axpym (ty alpha)) (unit_axpym_g_eq (ty alpha)).
  cbv beta delta [g_axpym]. gopen. gsteps. unfold axpym_avx, axpym.
  destruct ((n <=? 0) || (m <=? 0)); gsteps; [apply sim_ok; reflexivity|].
  destruct (s_eqb alpha n0); gsteps; [apply sim_ok; reflexivity|].
  gassert. gsteps.
  lazymatch goal with |- context [exec _ _ _ _ _ _ (?en, _)] =>
    gfor (fun (j : Z) '(b, e, e') (s : st K) => s = (puts en [(11%nat, Some (VZ j)); (12%nat, Some (VP (Ptr (OnQ 0) e 0 TQuat))); (13%nat, Some (VP (Ptr (OnQ 1) e' 0 TQuat)))], [(aa, DQ a); (ba, DQ b)])) end;
  [ intros ? [[? ?] ?] ? ->; gcond | | reflexivity | lia
  | intros [[b1 e] e'] [s fl] [E (i & ? & Es)]; cbn in E, Es; subst fl s; gsteps; apply sim_ok; reflexivity].
  intros j [[b1 e] e'] s Hj ->. gbody. gsteps. gext. rewrite axpyv_link_eq by exact Hm.
  destruct (axpyv_opt _ _ _ _ _ _ _ _ _) as [x| |]; cbn [bind]; [| reflexivity | reflexivity]. gsteps. gok. reflexivity.
Qed.
End S.
