(** The level-3 Fortran source hgemmzz.f computes what the model function hgemm of MForL3.v computes. *)
From Coq Require Import ZArith Lia Bool Ascii String List.
From Verif Require Import Num Res ResFacts MForL1 MForL2 MForL3 FSyntax FParse FSem FProg FSimFacts FTac FTacM SrcL3.
Import ListNotations.
Local Open Scope string_scope.
Local Open Scope Z_scope.
Definition prog_hgemmzz := Eval vm_compute in getp "HGEMMZZ" src_hgemmzz.
Section F.
Context {K : num}.
Hypothesis e00 : neqb (@n0 K) n0 = true.
Local Notation qarr := (arr (quat K)).
Lemma src_hgemmzz_ok ta tb m n k al (a : qarr) lda (b : qarr) ldb be (c : qarr) ldc : 0 <= m ->
  simr (fun x' mm => forall z, mm z = cells x' z)
   (fcall "HGEMMZZ" src_hgemmzz [AV (VC ta); AV (VC tb); AV (VI m); AV (VI n); AV (VI k); pass (SC al); AM (cells a); AV (VI lda); AM (cells b); AV (VI ldb);
      pass (SC be); AM (cells c); AV (VI ldc)] "C")
    (hgemm ta tb m n k (SC al) a lda b ldb (SC be) c ldc).
Proof. intros Hm. gemm prog_hgemmzz (SC al) (SC be) e00 Hm. Qed.
End F.
