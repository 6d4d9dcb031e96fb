(** The level-2 Fortran sources compute what the model functions of MForL2.v compute: hgemvdd.f, hgemvdz.f, hgemvdh.f. *)
From Coq Require Import ZArith Lia Bool Ascii String List.
From Verif Require Import Num Res ResFacts MForL1 MForL2 MForL3 FSyntax FParse FSem FProg FSimFacts FTac FTacV SrcL2.
Import ListNotations.
Local Open Scope string_scope.
Local Open Scope Z_scope.
Definition prog_hgemvdd := Eval vm_compute in getp "HGEMVDD" src_hgemvdd.
Definition prog_hgemvdz := Eval vm_compute in getp "HGEMVDZ" src_hgemvdz.
Definition prog_hgemvdh := Eval vm_compute in getp "HGEMVDH" src_hgemvdh.
Section F.
Context {K : num}.
Hypothesis e00 : neqb (@n0 K) n0 = true.
Local Notation qarr := (arr (quat K)).
Lemma src_hgemvdd_ok trans m n al (a : qarr) lda (x : qarr) incx be (y : qarr) incy :
  simr (fun x' mm => forall z, mm z = cells x' z)
   (fcall "HGEMVDD" src_hgemvdd [AV (VC trans); AV (VI m); AV (VI n); pass (SR al); AM (cells a); AV (VI lda); AM (cells x); AV (VI incx); pass (SR be); AM (cells y); AV (VI incy)] "Y")
    (hgemv trans m n (SR al) a lda x incx (SR be) y incy).
Proof. gemv prog_hgemvdd (SR al) (SR be) e00. Qed.
Lemma src_hgemvdz_ok trans m n al (a : qarr) lda (x : qarr) incx be (y : qarr) incy :
  simr (fun x' mm => forall z, mm z = cells x' z)
   (fcall "HGEMVDZ" src_hgemvdz [AV (VC trans); AV (VI m); AV (VI n); pass (SR al); AM (cells a); AV (VI lda); AM (cells x); AV (VI incx); pass (SC be); AM (cells y); AV (VI incy)] "Y")
    (hgemv trans m n (SR al) a lda x incx (SC be) y incy).
Proof. gemv prog_hgemvdz (SR al) (SC be) e00. Qed.
Lemma src_hgemvdh_ok trans m n al (a : qarr) lda (x : qarr) incx be (y : qarr) incy :
  simr (fun x' mm => forall z, mm z = cells x' z)
   (fcall "HGEMVDH" src_hgemvdh [AV (VC trans); AV (VI m); AV (VI n); pass (SR al); AM (cells a); AV (VI lda); AM (cells x); AV (VI incx); pass (SH be); AM (cells y); AV (VI incy)] "Y")
    (hgemv trans m n (SR al) a lda x incx (SH be) y incy).
Proof. gemv prog_hgemvdh (SR al) (SH be) e00. Qed.
End F.
