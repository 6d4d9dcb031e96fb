(** The level-2 Fortran sources compute what the model functions of MForL2.v compute: GERU and GERC. *)
From Coq Require Import ZArith Lia Bool Ascii String List.
From Verif Require Import Num Res ResFacts MForL1 MForL2 MForL3 FSyntax FParse FSem FProg FSimFacts FTac SrcL2.
Import ListNotations.
Local Open Scope string_scope.
Local Open Scope Z_scope.
Notation getp n s := (match program n s with Some p => p | None => MkProg [] [] [] None [] end).
Definition prog_hgerud := Eval vm_compute in getp "HGERUD" src_hgerud.
Definition prog_hgeruz := Eval vm_compute in getp "HGERUZ" src_hgeruz.
Definition prog_hgeruh := Eval vm_compute in getp "HGERUH" src_hgeruh.
Definition prog_hgercd := Eval vm_compute in getp "HGERCD" src_hgercd.
Definition prog_hgercz := Eval vm_compute in getp "HGERCZ" src_hgercz.
Definition prog_hgerch := Eval vm_compute in getp "HGERCH" src_hgerch.
Section F.
Context {K : num}.
Hypothesis e00 : neqb (@n0 K) n0 = true.
Local Notation qarr := (arr (quat K)).
Ltac ger1 P := let k := eval vm_compute in (sl1 P "JY") in let w := eval vm_compute in (ar P "A") in
  let ws := eval vm_compute in (sl P ["J"; "I"; "HTMPS"; "HTMPJ"; "HTMP1S"; "HTMP1J"; "HTMP2S"; "HTMP2J"; "HTMP3S"; "HTMP3J"; "HTMP4S"; "HTMP4J"]) in
  let wi := eval vm_compute in (sl P ["I"]) in
  floop ws (fun t : qarr * Z => [(k, VI (snd t) : val K)]) w (@fst qarr Z);
  [ intros j [a' jy] s' Hj I1; fexpl s' I1; cbn [fst snd] in *; fif; [|fmod];
    match goal with E : _ = Some ?q |- context [app (if ?b then _ else _) _] => change b with (hnz q); unfold ld at 1; rewrite E; cbn [bind]; destruct (hnz q) end; cbn [bind app];
    [ repeat fasg; unfold norm; floop wi (fun _ : qarr => @nil (nat * val K)) w (fun x : qarr => x); [unfold hger_step; fbody|intros ? s2 I2; fexpl s2 I2; fasg; fkeep]
    | fasg; fkeep ]
  | intros [? ?]; fdone ].
Ltac ger2 P := let k := eval vm_compute in (sl1 P "JY") in let kx := eval vm_compute in (sl1 P "IX") in let w := eval vm_compute in (ar P "A") in
  let ws := eval vm_compute in (sl P ["J"; "I"; "IX"; "HTMPI"; "HTMPJ"; "HTMP1S"; "HTMP1J"; "HTMP2S"; "HTMP2J"; "HTMP3S"; "HTMP3J"; "HTMP4S"; "HTMP4J"]) in
  let wi := eval vm_compute in (sl P ["I"]) in
  floop ws (fun t : qarr * Z => [(k, VI (snd t) : val K)]) w (@fst qarr Z);
  [ intros j [a' jy] s' Hj I1; fexpl s' I1; cbn [fst snd] in *; fif; [|fmod];
    match goal with E : _ = Some ?q |- context [app (if ?b then _ else _) _] => change b with (hnz q); unfold ld at 1; rewrite E; cbn [bind]; destruct (hnz q) end; cbn [bind app]; rewrite ?bind_assoc;
    [ repeat fasg; unfold norm; floop wi (fun t : qarr * Z => [(kx, VI (snd t) : val K)]) w (@fst qarr Z);
      [intros i [? ?]; unfold hger_step_strided, hger_step; cbn [bind]; fbody|intros [? ?] s2 I2; fexpl s2 I2; cbn [fst snd] in *; fasg; fkeep]
    | fasg; fkeep ]
  | intros [? ?]; fdone ].

Ltac ger P w alpha m n incx incy :=
  fstart P w (fun x : qarr => x);
  repeat match goal with |- context [cells ?x] => generalize (cells x) (rep_cells x); intros ? ? end; unfold hger;
  fasg; fasg; fflag e00;
  (fif; match goal with |- context [if ?b then [RRet] else _] => change b with ((m =? 0) || (n =? 0) || fzero alpha) end;
   destruct ((m =? 0) || (n =? 0) || fzero alpha) eqn:En; fbr; [fret|]);
  fif1; fold (MForL2.fstart n incy);
  fif; destruct (incx =? 1) eqn:Ei; fbr; [ger1 P|fif1; fold (MForL2.fstart m incx); ger2 P].

Lemma src_hgerud_ok m n al (x : qarr) incx y incy a lda :
  simr (fun x' mm => forall z, mm z = cells x' z)
   (fcall "HGERUD" src_hgerud [AV (VI m); AV (VI n); pass (SR al); AM (cells x); AV (VI incx); AM (cells y); AV (VI incy); AM (cells a); AV (VI lda)] "A")
    (hger false m n (SR al) x incx y incy a lda).
Proof. ger prog_hgerud 2%nat (SR al) m n incx incy. Qed.
Lemma src_hgeruz_ok m n al (x : qarr) incx y incy a lda :
  simr (fun x' mm => forall z, mm z = cells x' z)
   (fcall "HGERUZ" src_hgeruz [AV (VI m); AV (VI n); pass (SC al); AM (cells x); AV (VI incx); AM (cells y); AV (VI incy); AM (cells a); AV (VI lda)] "A")
    (hger false m n (SC al) x incx y incy a lda).
Proof. ger prog_hgeruz 2%nat (SC al) m n incx incy. Qed.
Lemma src_hgeruh_ok m n al (x : qarr) incx y incy a lda :
  simr (fun x' mm => forall z, mm z = cells x' z)
   (fcall "HGERUH" src_hgeruh [AV (VI m); AV (VI n); pass (SH al); AM (cells x); AV (VI incx); AM (cells y); AV (VI incy); AM (cells a); AV (VI lda)] "A")
    (hger false m n (SH al) x incx y incy a lda).
Proof. ger prog_hgeruh 3%nat (SH al) m n incx incy. Qed.
Lemma src_hgercd_ok m n al (x : qarr) incx y incy a lda :
  simr (fun x' mm => forall z, mm z = cells x' z)
   (fcall "HGERCD" src_hgercd [AV (VI m); AV (VI n); pass (SR al); AM (cells x); AV (VI incx); AM (cells y); AV (VI incy); AM (cells a); AV (VI lda)] "A")
    (hger true m n (SR al) x incx y incy a lda).
Proof. ger prog_hgercd 2%nat (SR al) m n incx incy. Qed.
Lemma src_hgercz_ok m n al (x : qarr) incx y incy a lda :
  simr (fun x' mm => forall z, mm z = cells x' z)
   (fcall "HGERCZ" src_hgercz [AV (VI m); AV (VI n); pass (SC al); AM (cells x); AV (VI incx); AM (cells y); AV (VI incy); AM (cells a); AV (VI lda)] "A")
    (hger true m n (SC al) x incx y incy a lda).
Proof. ger prog_hgercz 2%nat (SC al) m n incx incy. Qed.
Lemma src_hgerch_ok m n al (x : qarr) incx y incy a lda :
  simr (fun x' mm => forall z, mm z = cells x' z)
   (fcall "HGERCH" src_hgerch [AV (VI m); AV (VI n); pass (SH al); AM (cells x); AV (VI incx); AM (cells y); AV (VI incy); AM (cells a); AV (VI lda)] "A")
    (hger true m n (SH al) x incx y incy a lda).
Proof. ger prog_hgerch 3%nat (SH al) m n incx incy. Qed.
End F.
