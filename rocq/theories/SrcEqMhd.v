(** The level-3 Fortran source hgemmhd.f computes what the model function hgemm of MForL3.v computes. *)
From Coq Require Import ZArith Lia Bool Ascii String List.
From Verif Require Import Num Res ResFacts MForL1 MForL2 MForL3 FSyntax FParse FSem FProg FSimFacts FTac FTacM SrcL3.
Import ListNotations.
Local Open Scope string_scope.
Local Open Scope Z_scope.
Definition prog_hgemmhd := Eval vm_compute in getp "HGEMMHD" src_hgemmhd.
Section F.
Context {K : num}.
Hypothesis e00 : neqb (@n0 K) n0 = true.
Local Notation qarr := (arr (quat K)).
Lemma src_hgemmhd_ok ta tb m n k al (a : qarr) lda (b : qarr) ldb be (c : qarr) ldc : 0 <= m ->
  simr (fun x' mm => forall z, mm z = cells x' z)
   (fcall "HGEMMHD" src_hgemmhd [AV (VC ta); AV (VC tb); AV (VI m); AV (VI n); AV (VI k); pass (SH al); AM (cells a); AV (VI lda); AM (cells b); AV (VI ldb);
      pass (SR be); AM (cells c); AV (VI ldc)] "C")
    (hgemm ta tb m n k (SH al) a lda b ldb (SR be) c ldc).
Proof. intros Hm. gemm prog_hgemmhd (SH al) (SR be) e00 Hm. Qed.
End F.
