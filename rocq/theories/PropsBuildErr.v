(** C75, C76: IEEE binary64 results of calls of the public functions, resolved and run through the texts of the build as in C73 and C74.  A C++ text compiled
    with FMA ([fma] = true) runs with fused multiply-adds, without FMA with separate roundings; for the Fortran texts [fused] does not matter (they contain no FMA). *)
From Coq Require Import ZArith Reals Lra Lia Bool Ascii String List.
From Flocq Require Import Core.Raux Core.Zaux Core.Defs IEEE754.BinarySingleNaN.
From Verif Require Import Num NumR Res ResFacts Spec SpecFacts MQuat MSimd MOptL1 MOptGemm MForL2 MForL3 MGenL2 MDispatch F64 SpecErr SpecErrF SpecErrR SpecInt SpecIntF
  PropsErr PropsIntData PropsErrF PropsIntF PropsErrR MSrc FSem FProg PropsSrc CSyntax CSem CProg MSrcC MSrcG PropsSrcC PropsSrcG MBuild MPublic BuildFacts2 PropsBuild.
Import ListNotations.
Local Open Scope string_scope.
Local Open Scope Z_scope.

(** ** what the reference kernel guarantees, the public call guarantees *)
Section T.
Context {K : num} (fma : bool) (fuel : nat).
Local Notation qarr := (arr (quat K)).
Lemma t_scal (P : qarr -> Prop) side n al xa (x : qarr) incx : right_fma fma K -> (Z.to_nat n < fuel)%nat -> returns (scalv_opt side n al xa x incx) P ->
  returns_c (pub_scalv fma fuel side n al xa x incx) (fun l v => v = None /\ exists x', l = [x'] /\ P x').
Proof.
  intros U F R. rewrite c_scal. refine (c_ret _ _ _ _ _ (C67_scal K fma fuel U side n al xa x incx F) R _). intros x' H. split; [reflexivity|]. exists x'. auto.
Qed.
Lemma t_axpy (P : qarr -> Prop) side n al xa (x : qarr) incx ya y incy : right_fma fma K -> (Z.to_nat n < fuel)%nat -> returns (axpyv_opt side n al xa x incx ya y incy) P ->
  returns_c (pub_axpyv fma fuel side n al xa x incx ya y incy) (fun l v => v = None /\ exists y', l = [x; y'] /\ P y').
Proof.
  intros U F R. rewrite c_axpy. refine (c_ret _ _ _ _ _ (C67_axpy K fma fuel U side n al xa x incx ya y incy F) R _). intros x' H. split; [reflexivity|]. exists x'. auto.
Qed.
Lemma t_dot (P : quat K -> Prop) (cnj : bool) n xa (x : qarr) incx ya y incy : right_fma fma K -> (Z.to_nat n + 4 < fuel)%nat -> returns (dot_opt cnj n xa x incx ya y incy) P ->
  returns_c ((if cnj then pub_dotcv else pub_dotuv) fma fuel n xa x incx ya y incy) (fun l v => exists r, l = [x; y] /\ v = Some (VQ r) /\ P r).
Proof.
  intros U F R. destruct (C67_dot K fma fuel U n xa x incx ya y incy F) as [E1 E2]. destruct cnj.
  - refine (c_ret _ _ _ _ _ (eq_trans (c_dotc fma fuel n xa x incx ya y incy) E2) R _). intros r H. exists r. cbn. auto.
  - refine (c_ret _ _ _ _ _ (eq_trans (c_dotu fma fuel n xa x incx ya y incy) E1) R _). intros r H. exists r. cbn. auto.
Qed.
Lemma t_gemm (P : qarr -> Prop) aa ba ga gb ta tb m n k al a_ad (a : qarr) lda b_ad b ldb be c_ad c ldc : right_fma fma K ->
  (forall q, al <> SH q) -> (forall q, be <> SH q) -> (Z.to_nat m < fuel)%nat -> (Z.to_nat n < fuel)%nat -> (Z.to_nat k < fuel)%nat ->
  returns (gemm_opt 64 512 64 aa ba ga gb ta tb m n k al a lda b ldb be c_ad c ldc) P ->
  returns_c (pub_gemm fma fuel aa ba ga gb ta tb m n k al a_ad a lda b_ad b ldb be c_ad c ldc) (fun l v => v = None /\ exists c' bPack aPack, l = [a; b; c'; bPack; aPack] /\ P c').
Proof.
  intros U Ha Hb Fm Fn Fk R. rewrite c_gemm by assumption. pose proof (C67_gemm K fma fuel U aa ba ga gb ta tb m n k al a_ad a lda b_ad b ldb be c_ad c ldc Ha Hb Fm Fn Fk) as E.
  unfold gemm_opt_default in E. destruct (gemm_opt 64 512 64 aa ba ga gb ta tb m n k al a lda b ldb be c_ad c ldc) as [c'| |]; try contradiction.
  destruct E as (bp & ap & E). exists [a; b; c'; bp; ap], None. split; [exact E|]. split; [reflexivity|]. exists c', bp, ap. split; [reflexivity | exact R].
Qed.
Lemma t_gemv_r (P : qarr -> Prop) trans m n (al : K) aa a lda xa (x : qarr) incx be ya y incy : (Z.to_nat m < fuel)%nat -> (Z.to_nat n < fuel)%nat ->
  returns (gemv_real q_mul_avx trans m n al a lda x incx be y incy) P ->
  returns_mem (pub_gemv_real fma fuel trans m n al aa a lda xa x incx be ya y incy) (fun mem => exists y', mem = [(aa, DK a); (xa, DQ x); (ya, DQ y')] /\ P y').
Proof.
  intros Fm Fn R. rewrite t_gemv. pose proof (C69_gemv_real K fuel q_mul_avx trans m n al aa a lda xa x incx be ya y incy Fm Fn) as E.
  destruct (gemv_real q_mul_avx trans m n al a lda x incx be y incy) as [y'| |]; try contradiction. eexists. split; [exact E|]. exists y'. split; [reflexivity | exact R].
Qed.
Lemma t_gemm_r (P : qarr -> Prop) ta tb m n k (al : K) aa a lda ba (b : qarr) ldb be c_ad c ldc : (Z.to_nat m < fuel)%nat -> (Z.to_nat n < fuel)%nat -> (Z.to_nat k < fuel)%nat ->
  returns (gemm_real q_mul_avx ta tb m n k al a lda b ldb be c ldc) P ->
  returns_mem (pub_gemm_real fma fuel ta tb m n k al aa a lda ba b ldb be c_ad c ldc) (fun mem => exists c', mem = [(aa, DK a); (ba, DQ b); (c_ad, DQ c')] /\ P c').
Proof.
  intros Fm Fn Fk R. rewrite PropsBuild.t_gemm. pose proof (C69_gemm_real K fuel q_mul_avx ta tb m n k al aa a lda ba b ldb be c_ad c ldc Fm Fn Fk) as E.
  destruct (gemm_real q_mul_avx ta tb m n k al a lda b ldb be c ldc) as [c'| |]; try contradiction. eexists. split; [exact E|]. exists c'. split; [reflexivity | exact R].
Qed.
Hypothesis e00 : neqb (@n0 K) n0 = true.
Lemma t_gemv_f (P : qarr -> Prop) trans m n al (a : qarr) lda x incx be y incy : returns (hgemv trans m n al a lda x incx be y incy) P ->
  returns_f (pub_gemv fma trans m n al a lda x incx be y incy) (fun mem => exists y', quats mem y' /\ P y').
Proof. intros R. exact (ret_e _ _ _ (f_gemv fma trans m n al a lda x incx be y incy) (so_ret _ _ _ _ (C62_gemv_text K e00 trans m n al a lda x incx be y incy) R)). Qed.
Lemma t_ger_f (P : qarr -> Prop) (cnj : bool) m n al (x : qarr) incx y incy a lda : returns (hger cnj m n al x incx y incy a lda) P ->
  returns_f ((if cnj then pub_gerc else pub_geru) fma m n al x incx y incy a lda) (fun mem => exists a', quats mem a' /\ P a').
Proof.
  intros R. destruct (C62_ger_text K e00 m n al x incx y incy a lda) as [U V]. destruct cnj.
  - exact (ret_e _ _ _ (f_gerc fma m n al x incx y incy a lda) (so_ret _ _ _ _ V R)).
  - exact (ret_e _ _ _ (f_geru fma m n al x incx y incy a lda) (so_ret _ _ _ _ U R)).
Qed.
Lemma t_gemm_f (P : qarr -> Prop) ta tb m n k al (a : qarr) lda b ldb be c ldc : (exists q, al = SH q) \/ (exists q, be = SH q) -> 0 <= m ->
  returns (hgemm ta tb m n k al a lda b ldb be c ldc) P -> returns_f (pub_gemm_f fma ta tb m n k al a lda b ldb be c ldc) (fun mem => exists c', quats mem c' /\ P c').
Proof. intros Q Hm R. exact (ret_e _ _ _ (f_gemm fma ta tb m n k al a lda b ldb be c ldc Q) (so_ret _ _ _ _ (C62_gemm_text K e00 ta tb m n k al a lda b ldb be c ldc Hm) R)). Qed.
End T.
Lemma z00 fused : neqb (@n0 (F64 fused)) n0 = true. Proof. reflexivity. Qed.

Theorem C75_scalv : forall fma fuel s c n (alpha : scal (F64 fma)) xa (x : arr (quat (F64 fma))) inc v, (Z.to_nat n < fuel)%nat ->
  side_char c = Some s -> 0 < inc -> holds_vec x n inc v ->
  returns_c (pub_scalv fma fuel c n alpha xa x inc) (fun l v0 => v0 = None /\ exists x', l = [x'] /\ (same_but_vec x x' n inc /\
    forall i, 0 <= i < n -> exists q, x' (vpos n inc i) = Some q /\
      let m := Qmaj (Qabs (emb (SR_of alpha))) (Qabs (QR (v i))) in
      close 4 7 q (Hside s (emb (SR_of alpha)) (QR (v i))) m /\
      ((forall h, alpha <> SH h) -> close 2 3 q (Hside s (emb (SR_of alpha)) (QR (v i))) m) /\
      (sfin alpha -> fin (v i) -> below 4 7 m -> fin q))).
Proof. intros *; intros. apply t_scal; [apply C67_binary64 | assumption | eapply C43_scalv_err; eassumption]. Qed.

Theorem C75_axpyv : forall fma fuel s c n (alpha : scal (F64 fma)) xa (x : arr (quat (F64 fma))) incx ya y incy v w, (Z.to_nat n < fuel)%nat ->
  side_char c = Some s -> 0 < incx -> 0 < incy ->
  holds_vec x n incx v -> holds_vec y n incy w ->
  returns_c (pub_axpyv fma fuel c n alpha xa x incx ya y incy) (fun l v0 => v0 = None /\ exists y', l = [x; y'] /\ (same_but_vec y y' n incy /\
    forall i, 0 <= i < n -> exists q, y' (vpos n incy i) = Some q /\
      let m := Hadd (K := Rnum) (Qabs (QR (w i))) (Qmaj (Qabs (emb (SR_of alpha))) (Qabs (QR (v i)))) in
      close 5 8 q (Hadd (K := Rnum) (QR (w i)) (Hside s (emb (SR_of alpha)) (QR (v i)))) m /\
      (sfin alpha -> fin (v i) -> fin (w i) -> below 5 8 m -> fin q))).
Proof. intros *; intros. apply t_axpy; [apply C67_binary64 | assumption | eapply C43_axpyv_err; eassumption]. Qed.

Theorem C75_dot : forall fma fuel (cnj : bool) n xa (x : arr (quat (F64 fma))) incx ya y incy v w, (Z.to_nat n + 4 < fuel)%nat ->
  0 <= n -> 0 < incx -> 0 < incy -> holds_vec x n incx v -> holds_vec y n incy w ->
  returns_c ((if cnj then pub_dotcv (K := F64 fma) else pub_dotuv) fma fuel n xa x incx ya y incy) (fun l v0 => exists r, l = [x; y] /\ v0 = Some (VQ r) /\ (let d := Z.to_nat (n + 4) in let E := (8 * IZR n + 3)%R in
    let m := dot_mag n (fun i => QR (v i)) (fun i => QR (w i)) in
    close d E r (Hsum (K := Rnum) n (fun i => Hmul (K := Rnum) (if cnj then Hconj (K := Rnum) (QR (v i)) else QR (v i)) (QR (w i)))) m /\
    ((forall i, 0 <= i < n -> fin (v i) /\ fin (w i)) -> below d E m -> fin r))).
Proof. intros *; intros. apply t_dot; [apply C67_binary64 | assumption | eapply C43_dot_err; eassumption]. Qed.

Theorem C75_gemm : forall fma fuel aa ba ga gb ca cb oa ob m n k (alpha beta : scal (F64 fma)) (a : arr (quat (F64 fma))) lda (b : arr (quat (F64 fma))) ldb a_ad b_ad cadr (c : arr (quat (F64 fma))) ldc A B w, (Z.to_nat m < fuel)%nat -> (Z.to_nat n < fuel)%nat -> (Z.to_nat k < fuel)%nat ->
  (forall h, alpha <> SH h) -> (forall h, beta <> SH h) ->
  aa mod 32 = 0 -> ba mod 32 = 0 ->
  trans_char_r ca = Some oa -> trans_char_r cb = Some ob -> 0 <= m -> 0 <= n -> 0 <= k -> m <= ldc ->
  holds_mat a lda (op_rows oa m k) (op_cols oa m k) A -> holds_mat b ldb (op_rows ob k n) (op_cols ob k n) B ->
  holds_mat c ldc m n w ->
  returns_c (pub_gemm fma fuel aa ba ga gb ca cb m n k alpha a_ad a lda b_ad b ldb beta cadr c ldc) (fun l v0 => v0 = None /\ exists c' bPack aPack, l = [a; b; c'; bPack; aPack] /\ (same_but_mat c c' ldc m n /\
    forall i j, 0 <= i < m -> 0 <= j < n -> exists q, c' (i + j * ldc) = Some q /\
      let RA := fun i j => QR (A i j) in let RB := fun i j => QR (B i j) in let RC := fun i j => QR (w i j) in
      let ra := emb (SR_of alpha) in let rb := emb (SR_of beta) in
      let d := Z.to_nat (4 * k + 3) in let E := gemm_units ob k RB j in let mg := gemm_mag oa ob k ra RA RB rb RC i j in
      close d E q (gemm_elt (K := Rnum) oa ob k ra RA RB rb RC i j) mg /\
      (sfin alpha -> sfin beta -> fin (w i j) ->
       (forall l, 0 <= l < k -> fin (opm oa A i l) /\ fin (opm ob B l j) /\ below 2 3 (Qmaj (Qabs ra) (Qabs (opm (K := Rnum) oa RA i l)))) ->
       below d E mg -> fin q))).
Proof. intros *; intros. apply t_gemm; [apply C67_binary64 | assumption.. |]. eapply C43_gemm_err; try eassumption; reflexivity. Qed.

Theorem C75_gemm_fortran : forall fma fused ca cb oa ob m n k (alpha beta : scal (F64 fused)) (a : arr (quat (F64 fused))) lda (b : arr (quat (F64 fused))) ldb (c : arr (quat (F64 fused))) ldc A B w, (exists q, alpha = SH q) \/ (exists q, beta = SH q) -> 
  trans_char ca = Some oa -> trans_char cb = Some ob -> 0 <= m -> 0 <= n -> 0 <= k -> m <= ldc ->
  holds_mat a lda (op_rows oa m k) (op_cols oa m k) A -> holds_mat b ldb (op_rows ob k n) (op_cols ob k n) B -> holds_mat c ldc m n w ->
  returns_f (pub_gemm_f fma ca cb m n k alpha a lda b ldb beta c ldc) (fun mem => exists c', quats mem c' /\ (same_but_mat c c' ldc m n /\
    forall i j, 0 <= i < m -> 0 <= j < n -> exists q, c' (i + j * ldc) = Some q /\
      let RA := fun i j => QR (A i j) in let RB := fun i j => QR (B i j) in let RC := fun i j => QR (w i j) in
      let ra := emb (SR_of alpha) in let rb := emb (SR_of beta) in
      let d := Z.to_nat (4 * k + 7) in let E := row_units k ra (fun l => opm (K := Rnum) oa RA i l) in let mg := gemm_mag oa ob k ra RA RB rb RC i j in
      close d E q (gemm_elt (K := Rnum) oa ob k ra RA RB rb RC i j) mg /\
      (sfin alpha -> sfin beta -> fin (w i j) -> row_room k ra (fun l => opm oa A i l) (fun l => opm ob B l j) -> below d E mg -> fin q))).
Proof. intros *; intros. apply t_gemm_f; [apply z00 | assumption | assumption | eapply C54_hgemm_err; eassumption]. Qed.

Theorem C75_gemv_partial : forall fma fused c o m n (alpha beta : scal (F64 fused)) (a : arr (quat (F64 fused))) lda (x : arr (quat (F64 fused))) incx (y : arr (quat (F64 fused))) incy A v w,
  trans_char c = Some o -> 0 < m -> 0 < n -> incx <> 0 -> incy <> 0 ->
  (m = n \/ c = "C"%char \/ exists r s, alpha = SR r /\ beta = SR s) ->
  (incy = 1 \/ ~ (exists r q, alpha = SR r /\ beta = SH q) /\ ~ (c = "N"%char /\ exists q, alpha = SH q)) ->
  holds_mat a lda m n A -> holds_vec x (op_cols o m n) incx v -> holds_vec y (op_rows o m n) incy w ->
  returns_f (pub_gemv fma c m n alpha a lda x incx beta y incy) (fun mem => exists y', quats mem y' /\ (same_but_vec y y' (op_rows o m n) incy /\
    forall i, 0 <= i < op_rows o m n -> exists q, y' (vpos (op_rows o m n) incy i) = Some q /\
      let k := op_cols o m n in let RA := fun i j => QR (A i j) in let Rx := fun j => QR (v j) in let Ry := fun i => QR (w i) in
      let ra := emb (SR_of alpha) in let rb := emb (SR_of beta) in
      let d := Z.to_nat (4 * k + 7) in let E := row_units k ra (fun l => opm (K := Rnum) o RA i l) in let mg := gemv_mag o k ra RA Rx rb Ry i in
      close d E q (gemv_elt (K := Rnum) o k ra RA Rx rb Ry i) mg /\
      (sfin alpha -> sfin beta -> fin (w i) -> row_room k ra (fun l => opm o A i l) v -> below d E mg -> fin q))).
Proof. intros *; intros. apply t_gemv_f; [apply z00 | eapply C54_hgemv_err_partial; eassumption]. Qed.

Theorem C75_ger_partial : forall fma fused (cnj : bool) m n (alpha : scal (F64 fused)) (x : arr (quat (F64 fused))) incx (y : arr (quat (F64 fused))) incy (a : arr (quat (F64 fused))) lda v w A,
  0 <= m -> 0 <= n -> incx <> 0 -> incy <> 0 -> m <= lda -> (incx = 1 \/ forall r, alpha <> SR r) ->
  holds_vec x m incx v -> holds_vec y n incy w -> holds_mat a lda m n A ->
  returns_f ((if cnj then pub_gerc (K := F64 fused) else pub_geru) fma m n alpha x incx y incy a lda) (fun mem => exists a', quats mem a' /\ (same_but_mat a a' lda m n /\
    forall i j, 0 <= i < m -> 0 <= j < n -> exists q, a' (i + j * lda) = Some q /\
      let RA := fun i j => QR (A i j) in let Rx := fun i => QR (v i) in let Ry := fun j => QR (w j) in
      let ra := emb (SR_of alpha) in let E := (6 * Q1 (Rx i) + 16)%R in let mg := ger_mag ra Rx Ry RA i j in
      close 8 E q ((if cnj then gerc_elt else geru_elt) ra Rx Ry RA i j) mg /\
      (sfin alpha -> fin (v i) -> fin (w j) -> fin (A i j) -> below 2 3 (Qmaj (Qabs ra) (Qabs (Ry j))) -> below 8 E mg -> fin q))).
Proof. intros *; intros. apply t_ger_f; [apply z00 | eapply C54_hger_err_partial; eassumption]. Qed.

Theorem C75_gemm_real : forall fma fuel aa ba c_ad ca cb oa ob m n k (alpha beta : F64 fma) (a : arr (F64 fma)) lda (b : arr (quat (F64 fma))) ldb (c : arr (quat (F64 fma))) ldc A B w, (Z.to_nat m < fuel)%nat -> (Z.to_nat n < fuel)%nat -> (Z.to_nat k < fuel)%nat ->
  trans_char ca = Some oa -> trans_char cb = Some ob -> 0 <= m -> 0 <= n -> 0 <= k -> m <= ldc ->
  holds_mat a lda (op_rows oa m k) (op_cols oa m k) A -> holds_mat b ldb (op_rows ob k n) (op_cols ob k n) B -> holds_mat c ldc m n w ->
  returns_mem (pub_gemm_real fma fuel ca cb m n k alpha aa a lda ba b ldb beta c_ad c ldc) (fun mem => exists c', mem = [(aa, DK a); (ba, DQ b); (c_ad, DQ c')] /\ (same_but_mat c c' ldc m n /\
    forall i j, 0 <= i < m -> 0 <= j < n -> exists q, c' (i + j * ldc) = Some q /\
      let RB := fun i j => QR (B i j) in let RC := fun i j => QR (w i j) in
      let ra := Hre (K := Rnum) (B2R (alpha : f64)) in let rb := Hre (K := Rnum) (B2R (beta : f64)) in
      let d := Z.to_nat (k + 3) in let E := real_units k (B2R (alpha : f64)) (fun l => Q1 (opm (K := Rnum) ob RB l j)) in let mg := gemm_mag oa ob k ra (Rmat A) RB rb RC i j in
      close d E q (gemm_elt (K := Rnum) oa ob k ra (Rmat A) RB rb RC i j) mg /\
      (is_finite (alpha : f64) = true -> is_finite (beta : f64) = true -> fin (w i j) ->
       real_room k (B2R (alpha : f64)) (fun l => ropm oa A i l) (fun l => opm ob B l j) -> below d E mg -> fin q))).
Proof. intros *; intros. apply t_gemm_r; [assumption.. |]. eapply C58_gemm_real_err; eassumption. Qed.

Theorem C75_gemv_real : forall fma fuel aa xa ya c o m n (alpha beta : F64 fma) (a : arr (F64 fma)) lda (x : arr (quat (F64 fma))) incx (y : arr (quat (F64 fma))) incy A v w, (Z.to_nat m < fuel)%nat -> (Z.to_nat n < fuel)%nat ->
  trans_char c = Some o -> 0 < m -> 0 < n -> 0 < incx -> 0 < incy ->
  holds_mat a lda m n A -> holds_vec x (op_cols o m n) incx v -> holds_vec y (op_rows o m n) incy w ->
  returns_mem (pub_gemv_real fma fuel c m n alpha aa a lda xa x incx beta ya y incy) (fun mem => exists y', mem = [(aa, DK a); (xa, DQ x); (ya, DQ y')] /\ (same_but_vec y y' (op_rows o m n) incy /\
    forall i, 0 <= i < op_rows o m n -> exists q, y' (vpos (op_rows o m n) incy i) = Some q /\
      let k := op_cols o m n in let Rx := fun j => QR (v j) in let Ry := fun i => QR (w i) in
      let ra := Hre (K := Rnum) (B2R (alpha : f64)) in let rb := Hre (K := Rnum) (B2R (beta : f64)) in
      let d := Z.to_nat (k + 3) in let E := real_units k (B2R (alpha : f64)) (fun l => Rabs (B2R (ropm o A i l : f64))) in let mg := gemv_mag o k ra (Rmat A) Rx rb Ry i in
      close d E q (gemv_elt (K := Rnum) o k ra (Rmat A) Rx rb Ry i) mg /\
      (is_finite (alpha : f64) = true -> is_finite (beta : f64) = true -> fin (w i) ->
       real_room k (B2R (alpha : f64)) (fun l => ropm o A i l) v -> below d E mg -> fin q))).
Proof. intros *; intros. apply t_gemv_r; [assumption.. |]. eapply C58_gemv_real_err; eassumption. Qed.

(** ** C76.  Integer data in range: the public calls are exact *)

Theorem C76_scalv : forall fma fuel s c n (alpha : scal (F64 fma)) al xa (x : arr (quat (F64 fma))) inc v zv, (Z.to_nat n < fuel)%nat ->
  side_char c = Some s -> 0 < inc -> holds_vec x n inc v ->
  sisZ alpha al -> (forall i, 0 <= i < n -> qisZ (v i) (zv i) /\ Z1 (emb al) * Z1 (zv i) <= exact_max) ->
  returns_c (pub_scalv fma fuel c n alpha xa x inc) (fun l v0 => v0 = None /\ exists x', l = [x'] /\ (same_but_vec x x' n inc /\
    forall i, 0 <= i < n -> exists q, x' (vpos n inc i) = Some q /\ qisZ q (Hside s (emb al) (zv i)))).
Proof. intros *; intros. apply t_scal; [apply C67_binary64 | assumption | eapply C48_scalv_int; eassumption]. Qed.

Theorem C76_axpyv : forall fma fuel s c n (alpha : scal (F64 fma)) al xa (x : arr (quat (F64 fma))) incx ya y incy v w zv zw, (Z.to_nat n < fuel)%nat ->
  side_char c = Some s -> 0 < incx -> 0 < incy -> holds_vec x n incx v -> holds_vec y n incy w ->
  sisZ alpha al -> (forall i, 0 <= i < n -> qisZ (v i) (zv i) /\ qisZ (w i) (zw i) /\ Z1 (zw i) + Z1 (emb al) * Z1 (zv i) <= exact_max) ->
  returns_c (pub_axpyv fma fuel c n alpha xa x incx ya y incy) (fun l v0 => v0 = None /\ exists y', l = [x; y'] /\ (same_but_vec y y' n incy /\
    forall i, 0 <= i < n -> exists q, y' (vpos n incy i) = Some q /\ qisZ q (Hadd (zw i) (Hside s (emb al) (zv i))))).
Proof. intros *; intros. apply t_axpy; [apply C67_binary64 | assumption | eapply C48_axpyv_int; eassumption]. Qed.

Theorem C76_dot : forall fma fuel (cnj : bool) n xa (x : arr (quat (F64 fma))) incx ya y incy (v w : Z -> quat (F64 fma)) zv zw, (Z.to_nat n + 4 < fuel)%nat ->
  0 <= n -> 0 < incx -> 0 < incy -> holds_vec x n incx v -> holds_vec y n incy w ->
  (forall i, 0 <= i < n -> qisZ (v i) (zv i) /\ qisZ (w i) (zw i)) -> Zsum n (fun i => Z1 (zv i) * Z1 (zw i)) <= exact_max ->
  returns_c ((if cnj then pub_dotcv (K := F64 fma) else pub_dotuv) fma fuel n xa x incx ya y incy) (fun l v0 => exists r, l = [x; y] /\ v0 = Some (VQ r) /\ (qisZ r (Hsum n (fun i => Hmul (if cnj then Hconj (zv i) else zv i) (zw i))))).
Proof. intros *; intros. apply t_dot; [apply C67_binary64 | assumption | eapply C48_dot_int; eassumption]. Qed.

Theorem C76_gemm : forall fma fuel aa ba (ga gb : Z -> quat (F64 fma)) a_ad b_ad c_ad ca cb oa ob m n k alpha al (a : arr (quat (F64 fma))) lda (b : arr (quat (F64 fma))) ldb beta be (c : arr (quat (F64 fma))) ldc A B w ZA ZB zw, (forall q, alpha <> SH q) -> (forall q, beta <> SH q) -> aa mod 32 = 0 -> ba mod 32 = 0 ->  (Z.to_nat m < fuel)%nat -> (Z.to_nat n < fuel)%nat -> (Z.to_nat k < fuel)%nat ->
  trans_char ca = Some oa -> trans_char cb = Some ob -> 0 <= m -> 0 <= n -> 0 <= k -> m <= ldc ->
  holds_mat a lda (op_rows oa m k) (op_cols oa m k) A -> holds_mat b ldb (op_rows ob k n) (op_cols ob k n) B -> holds_mat c ldc m n w ->
  sisZ alpha al -> sisZ beta be ->
  (forall i j, 0 <= i < op_rows oa m k -> 0 <= j < op_cols oa m k -> qisZ (A i j) (ZA i j)) ->
  (forall i j, 0 <= i < op_rows ob k n -> 0 <= j < op_cols ob k n -> qisZ (B i j) (ZB i j)) ->
  (forall i j, 0 <= i < m -> 0 <= j < n -> qisZ (w i j) (zw i j)) ->
  (forall i j, 0 <= i < m -> 0 <= j < n -> gemm_small oa ob k al ZA ZB be zw i j) ->
  returns_c (pub_gemm fma fuel aa ba ga gb ca cb m n k alpha a_ad a lda b_ad b ldb beta c_ad c ldc) (fun l v0 => v0 = None /\ exists c' bPack aPack, l = [a; b; c'; bPack; aPack] /\ (same_but_mat c c' ldc m n /\
    forall i j, 0 <= i < m -> 0 <= j < n -> exists q, c' (i + j * ldc) = Some q /\ qisZ q (gemm_elt oa ob k (emb al) ZA ZB (emb be) zw i j))).
Proof. intros fma fuel aa ba ga gb a_ad b_ad c_ad ca cb oa ob m n k alpha al a lda b ldb beta be c ldc A B w ZA ZB zw Ha Hb Ea Eb Fm Fn Fk A1 A2 A3 A4 A5 A6 A7 A8 A9 B1 B2 B3 B4 B5 B6.
  apply t_gemm; [apply C67_binary64 | assumption.. |].
  pose proof (C48_gemm_int fma (GEnv aa ba ga gb c_ad) ca cb oa ob m n k alpha al a lda b ldb beta be c ldc A B w ZA ZB zw (conj Ea Eb) A1 A2 A3 A4 A5 A6 A7 A8 A9 B1 B2 B3 B4 B5 B6) as R.
  destruct alpha as [?|?|q]; [| |destruct (Ha q eq_refl)]; (destruct beta as [?|?|q']; [| |destruct (Hb q' eq_refl)]); exact R. Qed.

Theorem C76_gemm_fortran : forall fma fused ca cb oa ob m n k alpha al (a : arr (quat (F64 fused))) lda (b : arr (quat (F64 fused))) ldb beta be (c : arr (quat (F64 fused))) ldc A B w ZA ZB zw, (exists q, alpha = SH q) \/ (exists q, beta = SH q) -> 
  trans_char ca = Some oa -> trans_char cb = Some ob -> 0 <= m -> 0 <= n -> 0 <= k -> m <= ldc ->
  holds_mat a lda (op_rows oa m k) (op_cols oa m k) A -> holds_mat b ldb (op_rows ob k n) (op_cols ob k n) B -> holds_mat c ldc m n w ->
  sisZ alpha al -> sisZ beta be ->
  (forall i j, 0 <= i < op_rows oa m k -> 0 <= j < op_cols oa m k -> qisZ (A i j) (ZA i j)) ->
  (forall i j, 0 <= i < op_rows ob k n -> 0 <= j < op_cols ob k n -> qisZ (B i j) (ZB i j)) ->
  (forall i j, 0 <= i < m -> 0 <= j < n -> qisZ (w i j) (zw i j)) ->
  (forall i j, 0 <= i < m -> 0 <= j < n -> gemm_small oa ob k al ZA ZB be zw i j) ->
  returns_f (pub_gemm_f fma ca cb m n k alpha a lda b ldb beta c ldc) (fun mem => exists c', quats mem c' /\ (same_but_mat c c' ldc m n /\
    forall i j, 0 <= i < m -> 0 <= j < n -> exists q, c' (i + j * ldc) = Some q /\ qisZ q (gemm_elt oa ob k (emb al) ZA ZB (emb be) zw i j))).
Proof. intros fma fused ca cb oa ob m n k alpha al a lda b ldb beta be c ldc A B w ZA ZB zw Q A1 A2 A3 A4 A5 A6 A7 A8 A9 B1 B2 B3 B4 B5 B6.
  apply t_gemm_f; [apply z00 | exact Q | exact A3 |].
  pose proof (C48_gemm_int fused (GEnv 0 0 (fun _ => H0 (K := F64 fused)) (fun _ => H0 (K := F64 fused)) 0) ca cb oa ob m n k alpha al a lda b ldb beta be c ldc A B w ZA ZB zw (conj eq_refl eq_refl) A1 A2 A3 A4 A5 A6 A7 A8 A9 B1 B2 B3 B4 B5 B6) as R.
  destruct Q as [[q ->]|[q ->]]; [exact R | destruct alpha; exact R]. Qed.

Theorem C76_gemv_partial : forall fma fused c o m n (alpha beta : scal (F64 fused)) al be (a : arr (quat (F64 fused))) lda (x : arr (quat (F64 fused))) incx (y : arr (quat (F64 fused))) incy A v w ZA zv zw,
  trans_char c = Some o -> 0 < m -> 0 < n -> incx <> 0 -> incy <> 0 ->
  (m = n \/ c = "C"%char \/ exists r s, alpha = SR r /\ beta = SR s) ->
  (incy = 1 \/ ~ (exists r q, alpha = SR r /\ beta = SH q) /\ ~ (c = "N"%char /\ exists q, alpha = SH q)) ->
  holds_mat a lda m n A -> holds_vec x (op_cols o m n) incx v -> holds_vec y (op_rows o m n) incy w ->
  sisZ alpha al -> sisZ beta be ->
  (forall i j, 0 <= i < m -> 0 <= j < n -> qisZ (A i j) (ZA i j)) -> (forall j, 0 <= j < op_cols o m n -> qisZ (v j) (zv j)) ->
  (forall i, 0 <= i < op_rows o m n -> qisZ (w i) (zw i) /\ gemv_small o (op_cols o m n) al ZA zv be zw i) ->
  returns_f (pub_gemv fma c m n alpha a lda x incx beta y incy) (fun mem => exists y', quats mem y' /\ (same_but_vec y y' (op_rows o m n) incy /\
    forall i, 0 <= i < op_rows o m n -> exists q, y' (vpos (op_rows o m n) incy i) = Some q /\ qisZ q (gemv_elt o (op_cols o m n) (emb al) ZA zv (emb be) zw i))).
Proof. intros *; intros. apply t_gemv_f; [apply z00 | eapply C55_hgemv_int_partial; eassumption]. Qed.

Theorem C76_ger_partial : forall fma fused (cnj : bool) m n (alpha : scal (F64 fused)) al (x : arr (quat (F64 fused))) incx (y : arr (quat (F64 fused))) incy (a : arr (quat (F64 fused))) lda v w A zv zw ZA,
  0 <= m -> 0 <= n -> incx <> 0 -> incy <> 0 -> m <= lda -> (incx = 1 \/ forall r, alpha <> SR r) ->
  holds_vec x m incx v -> holds_vec y n incy w -> holds_mat a lda m n A ->
  sisZ alpha al -> (forall i, 0 <= i < m -> qisZ (v i) (zv i)) -> (forall j, 0 <= j < n -> qisZ (w j) (zw j)) ->
  (forall i j, 0 <= i < m -> 0 <= j < n -> qisZ (A i j) (ZA i j) /\ ger_small al zv zw ZA i j) ->
  returns_f ((if cnj then pub_gerc (K := F64 fused) else pub_geru) fma m n alpha x incx y incy a lda) (fun mem => exists a', quats mem a' /\ (same_but_mat a a' lda m n /\
    forall i j, 0 <= i < m -> 0 <= j < n -> exists q, a' (i + j * lda) = Some q /\ qisZ q ((if cnj then gerc_elt else geru_elt) (emb al) zv zw ZA i j))).
Proof. intros *; intros. apply t_ger_f; [apply z00 | eapply C55_hger_int_partial; eassumption]. Qed.

Theorem C76_gemm_real : forall fma fuel aa ba c_ad ca cb oa ob m n k (alpha beta : F64 fma) al be (a : arr (F64 fma)) lda (b : arr (quat (F64 fma))) ldb (c : arr (quat (F64 fma))) ldc A B w ZA ZB zw, (Z.to_nat m < fuel)%nat -> (Z.to_nat n < fuel)%nat -> (Z.to_nat k < fuel)%nat ->
  trans_char ca = Some oa -> trans_char cb = Some ob -> 0 <= m -> 0 <= n -> 0 <= k -> m <= ldc ->
  holds_mat a lda (op_rows oa m k) (op_cols oa m k) A -> holds_mat b ldb (op_rows ob k n) (op_cols ob k n) B -> holds_mat c ldc m n w ->
  isZ (alpha : f64) al -> isZ (beta : f64) be ->
  (forall i j, 0 <= i < op_rows oa m k -> 0 <= j < op_cols oa m k -> isZ (A i j : f64) (ZA i j)) ->
  (forall i j, 0 <= i < op_rows ob k n -> 0 <= j < op_cols ob k n -> qisZ (B i j) (ZB i j)) ->
  (forall i j, 0 <= i < m -> 0 <= j < n -> qisZ (w i j) (zw i j) /\
     gemm_small oa ob k (@SR Znum al) (fun i j => Hre (K := Znum) (ZA i j)) ZB (@SR Znum be) zw i j) ->
  returns_mem (pub_gemm_real fma fuel ca cb m n k alpha aa a lda ba b ldb beta c_ad c ldc) (fun mem => exists c', mem = [(aa, DK a); (ba, DQ b); (c_ad, DQ c')] /\ (same_but_mat c c' ldc m n /\
    forall i j, 0 <= i < m -> 0 <= j < n -> exists q, c' (i + j * ldc) = Some q /\
      qisZ q (gemm_elt oa ob k (Hre (K := Znum) al) (fun i j => Hre (K := Znum) (ZA i j)) ZB (Hre (K := Znum) be) zw i j))).
Proof. intros *; intros. apply t_gemm_r; [assumption.. |]. eapply C59_gemm_real_int; eassumption. Qed.

Theorem C76_gemv_real : forall fma fuel aa xa ya c o m n (alpha beta : F64 fma) al be (a : arr (F64 fma)) lda (x : arr (quat (F64 fma))) incx (y : arr (quat (F64 fma))) incy A v w ZA zx zw, (Z.to_nat m < fuel)%nat -> (Z.to_nat n < fuel)%nat ->
  trans_char c = Some o -> 0 < m -> 0 < n -> 0 < incx -> 0 < incy ->
  holds_mat a lda m n A -> holds_vec x (op_cols o m n) incx v -> holds_vec y (op_rows o m n) incy w ->
  isZ (alpha : f64) al -> isZ (beta : f64) be ->
  (forall i j, 0 <= i < m -> 0 <= j < n -> isZ (A i j : f64) (ZA i j) /\ Z.abs al * Z.abs (ZA i j) <= exact_max) ->
  (forall j, 0 <= j < op_cols o m n -> qisZ (v j) (zx j)) ->
  (forall i, 0 <= i < op_rows o m n -> qisZ (w i) (zw i) /\
     gemv_small o (op_cols o m n) (@SR Znum al) (fun i j => Hre (K := Znum) (ZA i j)) zx (@SR Znum be) zw i) ->
  returns_mem (pub_gemv_real fma fuel c m n alpha aa a lda xa x incx beta ya y incy) (fun mem => exists y', mem = [(aa, DK a); (xa, DQ x); (ya, DQ y')] /\ (same_but_vec y y' (op_rows o m n) incy /\
    forall i, 0 <= i < op_rows o m n -> exists q, y' (vpos (op_rows o m n) incy i) = Some q /\
      qisZ q (gemv_elt o (op_cols o m n) (Hre (K := Znum) al) (fun i j => Hre (K := Znum) (ZA i j)) zx (Hre (K := Znum) be) zw i))).
Proof. intros *; intros. apply t_gemv_r; [assumption.. |]. eapply C59_gemv_real_int; eassumption. Qed.

(** the hypotheses are met: the same data as in C43_concrete and C48_concrete, through the texts of the build *)
Example C75_concrete : forall fma, returns_c (pub_dotuv fma 8 3 0 (fun _ => Some (@ones fma)) 1 0 (fun _ => Some ones) 1)
  (fun l v => exists r, l = [(fun _ => Some ones); (fun _ => Some ones)] /\ v = Some (VQ r) /\ fin r /\ (Rabs (B2R (qr r) - -6) <= err_bound 7 12 27)%R).
Proof.
  intros fma. apply (t_dot fma 8 (fun r => fin r /\ (Rabs (B2R (qr r) - -6) <= err_bound 7 12 27)%R) false); [apply C67_binary64 | cbn; lia |].
  destruct (C43_concrete fma) as (r & E & F & B). unfold dotuv_opt in E. rewrite E. exact (conj F B).
Qed.
Example C76_concrete : forall fma fused, let K := F64 fused in let o1 := @Quat K f_one f_one f_one f_one in
  returns_f (pub_gemm_f fma "N" "N" 1 1 1 (SC (@Cplx K f_zero f_one)) (arr_list [o1]) 1 (arr_list [o1]) 1
    (SH (@Quat K f_zero f_zero f_zero f_one)) (arr_list [@Quat K f_one f_zero f_zero f_zero]) 1)
  (fun mem => exists c', quats mem c' /\ exists q, c' 0 = Some q /\ qisZ q (@Quat Znum (-2) (-2) (-2) 3)).
Proof.
  intros fma fused K o1.
  apply (t_gemm_f fma (z00 fused) (fun c' : arr (quat (F64 fused)) => exists q, c' 0 = Some q /\ qisZ q (@Quat Znum (-2) (-2) (-2) 3))); [right; eexists; reflexivity | lia | exact (C48_concrete fused)].
Qed.
