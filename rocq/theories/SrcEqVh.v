(** The level-2 Fortran sources compute what the model functions of MForL2.v compute: hgemvhd.f, hgemvhz.f, hgemvhh.f. *)
From Coq Require Import ZArith Lia Bool Ascii String List.
From Verif Require Import Num Res ResFacts MForL1 MForL2 MForL3 FSyntax FParse FSem FProg FSimFacts FTac FTacV SrcL2.
Import ListNotations.
Local Open Scope string_scope.
Local Open Scope Z_scope.
Definition prog_hgemvhd := Eval vm_compute in getp "HGEMVHD" src_hgemvhd.
Definition prog_hgemvhz := Eval vm_compute in getp "HGEMVHZ" src_hgemvhz.
Definition prog_hgemvhh := Eval vm_compute in getp "HGEMVHH" src_hgemvhh.
Section F.
Context {K : num}.
Hypothesis e00 : neqb (@n0 K) n0 = true.
Local Notation qarr := (arr (quat K)).
Lemma src_hgemvhd_ok trans m n al (a : qarr) lda (x : qarr) incx be (y : qarr) incy :
  simr (fun x' mm => forall z, mm z = cells x' z)
   (fcall "HGEMVHD" src_hgemvhd [AV (VC trans); AV (VI m); AV (VI n); pass (SH al); AM (cells a); AV (VI lda); AM (cells x); AV (VI incx); pass (SR be); AM (cells y); AV (VI incy)] "Y")
    (hgemv trans m n (SH al) a lda x incx (SR be) y incy).
Proof. gemv prog_hgemvhd (SH al) (SR be) e00. Qed.
Lemma src_hgemvhz_ok trans m n al (a : qarr) lda (x : qarr) incx be (y : qarr) incy :
  simr (fun x' mm => forall z, mm z = cells x' z)
   (fcall "HGEMVHZ" src_hgemvhz [AV (VC trans); AV (VI m); AV (VI n); pass (SH al); AM (cells a); AV (VI lda); AM (cells x); AV (VI incx); pass (SC be); AM (cells y); AV (VI incy)] "Y")
    (hgemv trans m n (SH al) a lda x incx (SC be) y incy).
Proof. gemv prog_hgemvhz (SH al) (SC be) e00. Qed.
Lemma src_hgemvhh_ok trans m n al (a : qarr) lda (x : qarr) incx be (y : qarr) incy :
  simr (fun x' mm => forall z, mm z = cells x' z)
   (fcall "HGEMVHH" src_hgemvhh [AV (VC trans); AV (VI m); AV (VI n); pass (SH al); AM (cells a); AV (VI lda); AM (cells x); AV (VI incx); pass (SH be); AM (cells y); AV (VI incy)] "Y")
    (hgemv trans m n (SH al) a lda x incx (SH be) y incy).
Proof. gemv prog_hgemvhh (SH al) (SH be) e00. Qed.
End F.
