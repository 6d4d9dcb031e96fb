(** The level-2 Fortran sources compute what the model functions of MForL2.v compute: hgemvzd.f, hgemvzz.f, hgemvzh.f. *)
From Coq Require Import ZArith Lia Bool Ascii String List.
From Verif Require Import Num Res ResFacts MForL1 MForL2 MForL3 FSyntax FParse FSem FProg FSimFacts FTac FTacV SrcL2.
Import ListNotations.
Local Open Scope string_scope.
Local Open Scope Z_scope.
Definition prog_hgemvzd := Eval vm_compute in getp "HGEMVZD" src_hgemvzd.
Definition prog_hgemvzz := Eval vm_compute in getp "HGEMVZZ" src_hgemvzz.
Definition prog_hgemvzh := Eval vm_compute in getp "HGEMVZH" src_hgemvzh.
Section F.
Context {K : num}.
Hypothesis e00 : neqb (@n0 K) n0 = true.
Local Notation qarr := (arr (quat K)).
Lemma src_hgemvzd_ok trans m n al (a : qarr) lda (x : qarr) incx be (y : qarr) incy :
  simr (fun x' mm => forall z, mm z = cells x' z)
   (fcall "HGEMVZD" src_hgemvzd [AV (VC trans); AV (VI m); AV (VI n); pass (SC al); AM (cells a); AV (VI lda); AM (cells x); AV (VI incx); pass (SR be); AM (cells y); AV (VI incy)] "Y")
    (hgemv trans m n (SC al) a lda x incx (SR be) y incy).
Proof. gemv prog_hgemvzd (SC al) (SR be) e00. Qed.
Lemma src_hgemvzz_ok trans m n al (a : qarr) lda (x : qarr) incx be (y : qarr) incy :
  simr (fun x' mm => forall z, mm z = cells x' z)
   (fcall "HGEMVZZ" src_hgemvzz [AV (VC trans); AV (VI m); AV (VI n); pass (SC al); AM (cells a); AV (VI lda); AM (cells x); AV (VI incx); pass (SC be); AM (cells y); AV (VI incy)] "Y")
    (hgemv trans m n (SC al) a lda x incx (SC be) y incy).
Proof. gemv prog_hgemvzz (SC al) (SC be) e00. Qed.
Lemma src_hgemvzh_ok trans m n al (a : qarr) lda (x : qarr) incx be (y : qarr) incy :
  simr (fun x' mm => forall z, mm z = cells x' z)
   (fcall "HGEMVZH" src_hgemvzh [AV (VC trans); AV (VI m); AV (VI n); pass (SC al); AM (cells a); AV (VI lda); AM (cells x); AV (VI incx); pass (SH be); AM (cells y); AV (VI incy)] "Y")
    (hgemv trans m n (SC al) a lda x incx (SH be) y incy).
Proof. gemv prog_hgemvzh (SC al) (SH be) e00. Qed.
End F.
