(** The functions forwarded to Fortran: each call reaches the text of MSrc.v. *)
From Coq Require Import ZArith Bool Ascii String List.
From Verif Require Import Num Res FSyntax FParse FSem FProg SrcL2 SrcL3 SrcUtil CSyntax CPre CParse MSrc MPar MBuild MPublic BuildFacts.
Import ListNotations.
Local Open Scope string_scope.
Local Open Scope Z_scope.

Section K.
Context {K : num}.
Ltac fwd := eapply fortran_call1; [reflexivity | vm_compute; reflexivity | reflexivity | vm_compute; reflexivity | vm_compute; reflexivity | reflexivity].
Lemma f_gemv fma (trans : ascii) (m n : Z) (al : scal K) (a : arr (quat K)) lda x incx (be : scal K) y incy :
  pub_gemv fma trans m n al a lda x incx be y incy = Some (gemv_text trans m n al a lda x incx be y incy).
Proof. unfold pub_gemv, gemv_text. destruct al, be; fwd. Qed.
Lemma f_geru fma m n (al : scal K) (x : arr (quat K)) incx y incy a lda : pub_geru fma m n al x incx y incy a lda = Some (geru_text m n al x incx y incy a lda).
Proof. unfold pub_geru, geru_text. destruct al; fwd. Qed.
Lemma f_gerc fma m n (al : scal K) (x : arr (quat K)) incx y incy a lda : pub_gerc fma m n al x incx y incy a lda = Some (gerc_text m n al x incx y incy a lda).
Proof. unfold pub_gerc, gerc_text. destruct al; fwd. Qed.
Lemma f_gemm fma ta tb m n k (al : scal K) (a : arr (quat K)) lda b ldb be c ldc : (exists q, al = SH q) \/ (exists q, be = SH q) ->
  pub_gemm_f fma ta tb m n k al a lda b ldb be c ldc = Some (gemm_text ta tb m n k al a lda b ldb be c ldc).
Proof. unfold pub_gemm_f, gemm_text. intros [[q ->]|[q ->]]; [destruct be | destruct al]; fwd. Qed.
Lemma f_real_expand fma m n (a : arr (quat K)) lda b ldb : pub_real_expand fma m n a lda b ldb = Some (hdexp_text m n a lda b ldb).
Proof. unfold pub_real_expand, hdexp_text. fwd. Qed.
(** if( ORDER == 'F' ) ... else ..., after the assertion *)
Lemma fortran_call2 fma f (xs : list (uarg K)) ts ps x c d g1 g2 q1 q2 es1 es2 n1 n2 src1 src2 out1 out2 ks1 ks2 ys1 ys2 :
  map utype xs = ts -> resolve lib_defs f ts = Some (Body ps (NSeq (NAssert (NBin BLor (NBin BEq (NVar x) (NChr c)) (NBin BEq (NVar x) (NChr d))))
    (NSeq (NIf (NBin BEq (NVar x) (NChr c)) (NBlock (NExpr (NCall g1 q1 es1))) (NBlock (NExpr (NCall g2 q2 es2)))) NSkip))) ->
  Nat.eqb (List.length ps) (List.length xs) = true ->
  option_map fst (find (fun k => String.eqb (fst (fst (fst k))) (symbol g1)) kernels) = Some (n1, src1, out1) ->
  option_map formals (program n1 src1) = Some ks1 -> link_args (combine ps xs) ks1 es1 = Some ys1 ->
  option_map fst (find (fun k => String.eqb (fst (fst (fst k))) (symbol g2)) kernels) = Some (n2, src2, out2) ->
  option_map formals (program n2 src2) = Some ks2 -> link_args (combine ps xs) ks2 es2 = Some ys2 ->
  forall o, assoc (combine ps xs) x = Some (UChr o) ->
  fortran_call fma f xs = Some (if Ascii.eqb o c then fcall n1 src1 ys1 out1 else if Ascii.eqb o d then fcall n2 src2 ys2 out2 else Abort).
Proof.
  intros Et E Hl A1 A2 A3 B1 B2 B3 o Ho. rewrite (fortran_call_eq fma f xs ts ps _ Et E Hl). cbn [forward chr_test]. rewrite Ho.
  rewrite (fortran_eq _ _ _ _ _ _ _ _ A1 A2 A3), (fortran_eq _ _ _ _ _ _ _ _ B1 B2 B3).
  destruct (Ascii.eqb o c); [destruct (fcall n1 src1 ys1 out1); reflexivity|]. destruct (Ascii.eqb o d); [destruct (fcall n2 src2 ys2 out2); reflexivity | reflexivity].
Qed.
Ltac fwd2 := eapply fortran_call2; [reflexivity | vm_compute; reflexivity | reflexivity | vm_compute; reflexivity | vm_compute; reflexivity | reflexivity
  | vm_compute; reflexivity | vm_compute; reflexivity | reflexivity | reflexivity].
Lemma f_complex_expand fma o m n (a : arr (quat K)) lda b ldb : pub_complex_expand fma o m n a lda b ldb =
  Some (if Ascii.eqb o "F" then hzexp_text true m n a lda b ldb else if Ascii.eqb o "S" then hzexp_text false m n a lda b ldb else Abort).
Proof. unfold pub_complex_expand, hzexp_text. fwd2. Qed.
Lemma f_complex_contract fma o u m n (a : arr (quat K)) lda b ldb : pub_complex_contract fma o u m n a lda b ldb =
  Some (if Ascii.eqb o "F" then hzcon_text true u m n a lda b ldb else if Ascii.eqb o "S" then hzcon_text false u m n a lda b ldb else Abort).
Proof. unfold pub_complex_contract, hzcon_text. fwd2. Qed.
End K.
