(** The level-1 Fortran sources compute what the model functions of MForL1.v compute. *)
From Coq Require Import ZArith Lia Bool Ascii String List.
From Verif Require Import Num Res ResFacts MForL1 MForL2 MForL3 FSyntax FParse FSem FProg FSimFacts FTac SrcL1.
Import ListNotations.
Local Open Scope string_scope.
Local Open Scope Z_scope.
Notation getp n s := (match program n s with Some p => p | None => MkProg [] [] [] None [] end).
Definition prog_hscald := Eval vm_compute in getp "HSCALD" src_hscald.
Definition prog_hscalc := Eval vm_compute in getp "HSCALC" src_hscalc.
Definition prog_hscalh := Eval vm_compute in getp "HSCALH" src_hscalh.
Definition prog_haxpydh := Eval vm_compute in getp "HAXPYDH" src_haxpydh.
Definition prog_haxpych := Eval vm_compute in getp "HAXPYCH" src_haxpych.
Definition prog_haxpyhh := Eval vm_compute in getp "HAXPYHH" src_haxpyhh.
Definition prog_hdotu := Eval vm_compute in getp "HDOTU" src_hdotu.
Definition prog_hdotc := Eval vm_compute in getp "HDOTC" src_hdotc.
 
Section F.
Context {K : num}.
Hypothesis e00 : neqb (@n0 K) n0 = true.
Local Notation qarr := (arr (quat K)).
Lemma src_hscalc_ok side n z (x : qarr) incx :
  simr (fun x' mm => forall z, mm z = cells x' z) (fcall "HSCALC" src_hscalc [AV (VC side); AV (VI n); pass (SC z); AM (cells x); AV (VI incx)] "X")
    (scalv_for side n (SC z) x incx).
Proof.
  fstart prog_hscalc 0%nat (fun x : qarr => x).
  generalize (cells x) (rep_cells x). intros mx Rx. unfold scalv_for.
  fif. destruct (n <=? 0) eqn:En; fbr; [fret|].
  fif. rewrite e00. fcbn. change (neqb (re z) n0 && neqb (im z) n0) with (fzero (SC z)).
  destruct (fzero (SC z)); fbr; [fret|].
  fasg.
  fif. destruct (incx =? 1) eqn:Ei; fbr.
  - fif. destruct (lsame "R" side) eqn:Es; cbn [negb]; fbr; floope [5%nat] (fun _ : qarr => @nil (nat * val K)) 0%nat (fun x : qarr => x);
      [fbody|fdone|fbody|fdone].
  - fasg. fif. fks. fold (kstart n incx).
    fif. destruct (lsame "R" side) eqn:Es; cbn [negb]; fbr; floop [5%nat] (fun t : qarr * Z => [(6%nat, VI (snd t) : val K)]) 0%nat (@fst qarr Z);
    [intros i [? ?]; fbody|intros [? ?]; fdone|intros i [? ?]; fbody|intros [? ?]; fdone].
Qed.
Lemma src_hscald_ok side n a (x : qarr) incx :
  simr (fun x' mm => forall z, mm z = cells x' z) (fcall "HSCALD" src_hscald [AV (VC side); AV (VI n); pass (SR a); AM (cells x); AV (VI incx)] "X")
    (scalv_for side n (SR a) x incx).
Proof.
  fstart prog_hscald 0%nat (fun x : qarr => x).
  generalize (cells x) (rep_cells x). intros mx Rx. unfold scalv_for.
  fif. destruct (n <=? 0) eqn:En; fbr; [fret|].
  fif. change (neqb a n0) with (fzero (SR a)).
  destruct (fzero (SR a)); fbr; [fret|].
  fif. destruct (incx =? 1) eqn:Ei; fbr.
  - floope [4%nat] (fun _ : qarr => @nil (nat * val K)) 0%nat (fun x : qarr => x); [fbody|fdone].
  - fasg. fif. fks. fold (kstart n incx).
    floop [4%nat] (fun t : qarr * Z => [(5%nat, VI (snd t) : val K)]) 0%nat (@fst qarr Z); [intros i [? ?]; fbody|intros [? ?]; fdone].
Qed.
Lemma src_hscalh_ok side n h (x : qarr) incx :
  simr (fun x' mm => forall z, mm z = cells x' z) (fcall "HSCALH" src_hscalh [AV (VC side); AV (VI n); pass (SH h); AM (cells x); AV (VI incx)] "X")
    (scalv_for side n (SH h) x incx).
Proof.
  fstart prog_hscalh 1%nat (fun x : qarr => x).
  generalize (cells x) (rep_cells x) (cells (one h)) (rep_cells (one h)). intros mx Rx ma Ra. unfold scalv_for.
  fif. destruct (n <=? 0) eqn:En; fbr; [fret|].
  fif. change (neqb _ _ && neqb _ _ && neqb _ _ && neqb _ _) with (fzero (SH h)).
  destruct (fzero (SH h)); fbr; [fret|].
  fasg.
  fif. destruct (incx =? 1) eqn:Ei; fbr.
  - fif. destruct (lsame "R" side) eqn:Es; cbn [negb]; fbr; floope [4;5;6;7]%nat (fun _ : qarr => @nil (nat * val K)) 1%nat (fun x : qarr => x);
      [fbody|fdone|fbody|fdone].
  - fasg. fif. fks. fold (kstart n incx).
    fif. destruct (lsame "R" side) eqn:Es; cbn [negb]; fbr; floop [4;5;6;7]%nat (fun t : qarr * Z => [(8%nat, VI (snd t) : val K)]) 1%nat (@fst qarr Z);
    [intros i [? ?]; fbody|intros [? ?]; fdone|intros i [? ?]; fbody|intros [? ?]; fdone].
Qed.
Local Notation ap s := (fun t : qarr * Z * Z => [(s, VI (snd (fst t)) : val K); (S s, VI (snd t))]).
Lemma src_haxpydh_ok side n a (x : qarr) incx y incy :
  simr (fun x' mm => forall z, mm z = cells x' z) (fcall "HAXPYDH" src_haxpydh [AV (VC side); AV (VI n); pass (SR a); AM (cells x); AV (VI incx); AM (cells y); AV (VI incy)] "Y")
    (axpyv_for side n (SR a) x incx y incy).
Proof.
  fstart prog_haxpydh 1%nat (fun x : qarr => x).
  generalize (cells x) (rep_cells x) (cells y) (rep_cells y). intros mx Rx my Ry. unfold axpyv_for.
  fif. destruct (n <=? 0) eqn:En; fbr; [fret|].
  fif. change (neqb a n0) with (fzero (SR a)).
  destruct (fzero (SR a)); fbr; [fret|].
  fif. destruct ((incx =? 1) && (incy =? 1)) eqn:Ei; fbr.
  - floope [5%nat] (fun _ : qarr => @nil (nat * val K)) 1%nat (fun x : qarr => x); [fbody|fdone].
  - fasg. fasg. fif. fks. fif. fks. fold (kstart n incx) (kstart n incy).
    floop [5%nat] (ap 6%nat) 1%nat (fun t : qarr * Z * Z => fst (fst t)); [intros i [[? ?] ?]; fbody|intros [[? ?] ?]; fdone].
Qed.
Lemma src_haxpych_ok side n z (x : qarr) incx y incy :
  simr (fun x' mm => forall z, mm z = cells x' z) (fcall "HAXPYCH" src_haxpych [AV (VC side); AV (VI n); pass2 (SC z); AM (cells x); AV (VI incx); AM (cells y); AV (VI incy)] "Y")
    (axpyv_for side n (SC z) x incx y incy).
Proof.
  fstart prog_haxpych 2%nat (fun x : qarr => x).
  set (ma := ccells _). assert (Ga : aget TReal ma (off [] [1]) = Ok (VR (re z))) by reflexivity. assert (Gb : aget TReal ma (off [] [2]) = Ok (VR (im z))) by reflexivity. clearbody ma.
  generalize (cells x) (rep_cells x) (cells y) (rep_cells y). intros mx Rx my Ry. unfold axpyv_for.
  fif. destruct (n <=? 0) eqn:En; fbr; [fret|].
  fif. change (neqb (re z) n0 && neqb (im z) n0) with (fzero (SC z)).
  destruct (fzero (SC z)); fbr; [fret|].
  fasg.
  fif. destruct ((incx =? 1) && (incy =? 1)) eqn:Ei; fbr.
  - fif. destruct (lsame "R" side) eqn:Es; cbn [negb]; fbr; floope [5]%nat (fun _ : qarr => @nil (nat * val K)) 2%nat (fun x : qarr => x);
      [fbody|fdone|fbody|fdone].
  - fasg. fasg. fif. fks. fif. fks. fold (kstart n incx) (kstart n incy).
    fif. destruct (lsame "R" side) eqn:Es; cbn [negb]; fbr; floop [5%nat] (ap 6%nat) 2%nat (fun t : qarr * Z * Z => fst (fst t));
    [intros i [[? ?] ?]; fbody|intros [[? ?] ?]; fdone|intros i [[? ?] ?]; fbody|intros [[? ?] ?]; fdone].
Qed.
Lemma src_haxpyhh_ok side n h (x : qarr) incx y incy :
  simr (fun x' mm => forall z, mm z = cells x' z) (fcall "HAXPYHH" src_haxpyhh [AV (VC side); AV (VI n); pass (SH h); AM (cells x); AV (VI incx); AM (cells y); AV (VI incy)] "Y")
    (axpyv_for side n (SH h) x incx y incy).
Proof.
  fstart prog_haxpyhh 2%nat (fun x : qarr => x).
  generalize (cells x) (rep_cells x) (cells y) (rep_cells y) (cells (one h)) (rep_cells (one h)). intros mx Rx my Ry ma Ra. unfold axpyv_for.
  fif. destruct (n <=? 0) eqn:En; fbr; [fret|].
  fif. change (neqb _ _ && neqb _ _ && neqb _ _ && neqb _ _) with (fzero (SH h)).
  destruct (fzero (SH h)); fbr; [fret|].
  fasg.
  fif. destruct ((incx =? 1) && (incy =? 1)) eqn:Ei; fbr.
  - fif. destruct (lsame "R" side) eqn:Es; cbn [negb]; fbr; floope [5]%nat (fun _ : qarr => @nil (nat * val K)) 2%nat (fun x : qarr => x);
      [fbody|fdone|fbody|fdone].
  - fasg. fasg. fif. fks. fif. fks. fold (kstart n incx) (kstart n incy).
    fif. destruct (lsame "R" side) eqn:Es; cbn [negb]; fbr; floop [5%nat] (ap 6%nat) 2%nat (fun t : qarr * Z * Z => fst (fst t));
    [intros i [[? ?] ?]; fbody|intros [[? ?] ?]; fdone|intros i [[? ?] ?]; fbody|intros [[? ?] ?]; fdone].
Qed.
Lemma src_hdot_ok (cnj : bool) n r0 (x : qarr) incx y incy :
  simr (fun r mm => forall z, mm z = cells (one r) z)
    (if cnj then fcall "HDOTC" src_hdotc [AM (cells (one r0)); AV (VI n); AM (cells x); AV (VI incx); AM (cells y); AV (VI incy)] "R"
     else fcall "HDOTU" src_hdotu [AM (cells (one r0)); AV (VI n); AM (cells x); AV (VI incx); AM (cells y); AV (VI incy)] "R")
    (dot_for cnj n x incx y incy).
Proof.
  destruct cnj; [fstart prog_hdotc 0%nat (@one K)|fstart prog_hdotu 0%nat (@one K)];
  (generalize (cells x) (rep_cells x) (cells y) (rep_cells y) (cells (one r0)) (rep_cells (one r0)); intros mx Rx my Ry ma Ra; unfold dot_for;
  fasg; fasg; fasg; fasg;
  (fif; destruct (n <=? 0) eqn:En; fbr; [fret|]);
  fif; destruct ((incx =? 1) && (incy =? 1)) eqn:Ei; fbr;
  [ floope [3]%nat (fun _ : quat K => @nil (nat * val K)) 0%nat (@one K); [fbody|fdone]
  | fasg; fasg; fif; fks; fif; fks; fold (kstart n incx) (kstart n incy);
    floop [3%nat] (fun t : quat K * Z * Z => [(4%nat, VI (snd (fst t)) : val K); (5%nat, VI (snd t))]) 0%nat (fun t : quat K * Z * Z => one (fst (fst t)));
    [intros i [[? ?] ?]; fbody|intros [[? ?] ?]; fdone] ]).
Qed.
End F.
