(** C80: the public GEMM with real or complex ALPHA and BETA, run wholly from texts (as in C78), in arithmetics that obey no law, IEEE binary64 above all: each entry
    of C depends on its own row and column only, the answer does not depend on addresses or on what the two buffers held, and the rounding error is bounded. *)
From Coq Require Import ZArith Reals Lra Lia Bool Ascii String List.
From Flocq Require Import Core.Raux Core.Zaux Core.Defs IEEE754.BinarySingleNaN.
From Verif Require Import Num NumR Res ResFacts Spec SpecFacts SpecBlock MQuat MSimd MOptL1 MOptGemm MForL2 MForL3 MGenL2 MDispatch F64 SpecErr SpecErrF SpecErrR SpecInt SpecIntF
  PropsErr PropsIntData PropsBlock MSrc CSyntax CSem CProg MSrcC PropsSrcC MBuild MPublic CLinkT CEqGT PropsSrcT.
Import ListNotations.
Local Open Scope string_scope.
Local Open Scope Z_scope.

Section T.
Context {K : num} (fma : bool) (fuel : nat).
Local Notation qarr := (arr (quat K)).
Lemma t_gemm (P : qarr -> Prop) aa ba ga gb ta tb m n k al a_ad (a : qarr) lda b_ad b ldb be c_ad c ldc : right_fma fma K ->
  (forall q, al <> SH q) -> (forall q, be <> SH q) -> (Z.to_nat m < fuel)%nat -> (Z.to_nat n < fuel)%nat -> (Z.to_nat k < fuel)%nat ->
  returns (gemm_opt 64 512 64 aa ba ga gb ta tb m n k al a lda b ldb be c_ad c ldc) P ->
  returns_c (pub_gemm_t fma fuel aa ba ga gb ta tb m n k al a_ad a lda b_ad b ldb be c_ad c ldc) (fun l v => v = None /\ exists c' bPack aPack, l = [a; b; c'; bPack; aPack] /\ P c').
Proof.
  intros U Ha Hb Fm Fn Fk R. pose proof (C78_gemm_text K fma fuel U aa ba ga gb ta tb m n k al a_ad a lda b_ad b ldb be c_ad c ldc Ha Hb Fm Fn Fk) as E.
  unfold gemm_opt_default in E. destruct (gemm_opt 64 512 64 aa ba ga gb ta tb m n k al a lda b ldb be c_ad c ldc) as [c'| |]; try contradiction.
  destruct E as (bp & ap & E). exists [a; b; c'; bp; ap], None. split; [exact E|]. split; [reflexivity|]. exists c', bp, ap. split; [reflexivity | exact R].
Qed.
End T.

(** ** C80 *)
(** locality.  Two calls, of any two shapes (same inner dimension, option characters and scalars), anywhere in memory, agree in C(i,j) and C'(i',j') as soon as row i of
    op(A), column j of op(B) and the old entry agree.  [stored o A i l] is the stored element op(A)(i,l) is read from *)
Theorem C80_gemm_local : forall (K : num) fma fuel fuel', right_fma fma K ->
  forall aa ba ga gb aa' ba' ga' gb' ca cb oa ob k alpha beta
    m n a_ad (a : arr (quat K)) lda b_ad (b : arr (quat K)) ldb c_ad (c : arr (quat K)) ldc A B w
    m' n' a_ad' (a' : arr (quat K)) lda' b_ad' (b' : arr (quat K)) ldb' c_ad' (c' : arr (quat K)) ldc' A' B' w' i j i' j',
  (forall q, alpha <> SH q) -> (forall q, beta <> SH q) ->
  (Z.to_nat m < fuel)%nat -> (Z.to_nat n < fuel)%nat -> (Z.to_nat k < fuel)%nat -> (Z.to_nat m' < fuel')%nat -> (Z.to_nat n' < fuel')%nat -> (Z.to_nat k < fuel')%nat ->
  aa mod 32 = 0 -> ba mod 32 = 0 -> aa' mod 32 = 0 -> ba' mod 32 = 0 ->
  trans_char ca = Some oa -> trans_char cb = Some ob -> 0 <= k -> m <= ldc -> m' <= ldc' ->
  holds_mat a lda (op_rows oa m k) (op_cols oa m k) A -> holds_mat b ldb (op_rows ob k n) (op_cols ob k n) B -> holds_mat c ldc m n w ->
  holds_mat a' lda' (op_rows oa m' k) (op_cols oa m' k) A' -> holds_mat b' ldb' (op_rows ob k n') (op_cols ob k n') B' -> holds_mat c' ldc' m' n' w' ->
  0 <= i < m -> 0 <= j < n -> 0 <= i' < m' -> 0 <= j' < n' ->
  (forall l, 0 <= l < k -> stored oa A i l = stored oa A' i' l) ->
  (forall l, 0 <= l < k -> stored ob B l j = stored ob B' l j') -> w i j = w' i' j' ->
  exists r bPack aPack r' bPack' aPack',
    pub_gemm_t fma fuel aa ba ga gb ca cb m n k alpha a_ad a lda b_ad b ldb beta c_ad c ldc = Some (Ok ([a; b; r; bPack; aPack], None)) /\
    pub_gemm_t fma fuel' aa' ba' ga' gb' ca cb m' n' k alpha a_ad' a' lda' b_ad' b' ldb' beta c_ad' c' ldc' = Some (Ok ([a'; b'; r'; bPack'; aPack'], None)) /\
    exists q, r (i + j * ldc) = Some q /\ r' (i' + j' * ldc') = Some q.
Proof.
  intros K fma fuel fuel' U aa ba ga gb aa' ba' ga' gb' ca cb oa ob k al be m n a_ad a lda b_ad b ldb c_ad c ldc A B w m' n' a_ad' a' lda' b_ad' b' ldb' c_ad' c' ldc' A' B' w'
    i j i' j' Qa Qb F1 F2 F3 F4 F5 F6 E1 E2 E3 E4 Ca Cb Hk Hl Hl' HA HB HC HA' HB' HC' Hi Hj Hi' Hj' RA RB RC.
  pose proof (C46_gemm_local K (GEnv aa ba ga gb c_ad) (GEnv aa' ba' ga' gb' c_ad') ca cb oa ob k al be m n a lda b ldb c ldc A B w m' n' a' lda' b' ldb' c' ldc' A' B' w' i j i' j'
    (conj E1 E2) (conj E3 E4) Ca Cb Hk Hl Hl' HA HB HC HA' HB' HC' Hi Hj Hi' Hj' RA RB RC) as P.
  pose proof (C78_gemm_text K fma fuel U aa ba ga gb ca cb m n k al a_ad a lda b_ad b ldb be c_ad c ldc Qa Qb F1 F2 F3) as T.
  pose proof (C78_gemm_text K fma fuel' U aa' ba' ga' gb' ca cb m' n' k al a_ad' a' lda' b_ad' b' ldb' be c_ad' c' ldc' Qa Qb F4 F5 F6) as T'.
  assert (D : returns (gemm_opt_default aa ba ga gb ca cb m n k al a lda b ldb be c_ad c ldc) (fun r =>
     returns (gemm_opt_default aa' ba' ga' gb' ca cb m' n' k al a' lda' b' ldb' be c_ad' c' ldc') (fun r' => exists q, r (i + j * ldc) = Some q /\ r' (i' + j' * ldc') = Some q))).
  { destruct al as [?|?|q]; [| |destruct (Qa q eq_refl)]; (destruct be as [?|?|q']; [| |destruct (Qb q' eq_refl)]); exact P. }
  destruct (gemm_opt_default aa ba ga gb ca cb m n k al a lda b ldb be c_ad c ldc) as [r| |]; try contradiction.
  cbn [returns] in D. destruct (gemm_opt_default aa' ba' ga' gb' ca cb m' n' k al a' lda' b' ldb' be c_ad' c' ldc') as [r'| |]; try contradiction.
  destruct T as (bp & ap & T), T' as (bp' & ap' & T'). exists r, bp, ap, r', bp', ap'. split; [exact T|]. split; [exact T'|exact D].
Qed.
Print Assumptions C80_gemm_local.
(** the same call twice: other addresses, other garbage in the buffers; the same C, everywhere *)
Theorem C80_gemm_same : forall (K : num) fma fuel fuel', right_fma fma K ->
  forall aa ba ga gb aa' ba' ga' gb' ca cb oa ob k alpha beta m n a_ad (a : arr (quat K)) lda b_ad (b : arr (quat K)) ldb c_ad (c : arr (quat K)) ldc A B w a_ad' b_ad' c_ad',
  (forall q, alpha <> SH q) -> (forall q, beta <> SH q) ->
  (Z.to_nat m < fuel)%nat -> (Z.to_nat n < fuel)%nat -> (Z.to_nat k < fuel)%nat -> (Z.to_nat m < fuel')%nat -> (Z.to_nat n < fuel')%nat -> (Z.to_nat k < fuel')%nat ->
  aa mod 32 = 0 -> ba mod 32 = 0 -> aa' mod 32 = 0 -> ba' mod 32 = 0 ->
  trans_char_r ca = Some oa -> trans_char_r cb = Some ob -> 0 <= m -> 0 <= n -> 0 <= k -> m <= ldc ->
  holds_mat a lda (op_rows oa m k) (op_cols oa m k) A -> holds_mat b ldb (op_rows ob k n) (op_cols ob k n) B -> holds_mat c ldc m n w ->
  exists r bPack aPack r' bPack' aPack',
    pub_gemm_t fma fuel aa ba ga gb ca cb m n k alpha a_ad a lda b_ad b ldb beta c_ad c ldc = Some (Ok ([a; b; r; bPack; aPack], None)) /\
    pub_gemm_t fma fuel' aa' ba' ga' gb' ca cb m n k alpha a_ad' a lda b_ad' b ldb beta c_ad' c ldc = Some (Ok ([a; b; r'; bPack'; aPack'], None)) /\
    forall p, r p = r' p.
Proof.
  intros K fma fuel fuel' U aa ba ga gb aa' ba' ga' gb' ca cb oa ob k al be m n a_ad a lda b_ad b ldb c_ad c ldc A B w a_ad' b_ad' c_ad'
    Qa Qb F1 F2 F3 F4 F5 F6 E1 E2 E3 E4 Ca Cb Hm Hn Hk Hl HA HB HC.
  pose proof (PropsL3.C30_gemm_blocking_independent K 64 512 64 aa ba ga gb c_ad 64 512 64 aa' ba' ga' gb' c_ad' ca cb oa ob m n k al a lda b ldb be c ldc A B w
    eq_refl eq_refl eq_refl eq_refl eq_refl E1 E2 eq_refl eq_refl eq_refl eq_refl eq_refl E3 E4 Ca Cb Hm Hn Hk Hl HA HB HC) as D.
  pose proof (C78_gemm_text K fma fuel U aa ba ga gb ca cb m n k al a_ad a lda b_ad b ldb be c_ad c ldc Qa Qb F1 F2 F3) as T.
  pose proof (C78_gemm_text K fma fuel' U aa' ba' ga' gb' ca cb m n k al a_ad' a lda b_ad' b ldb be c_ad' c ldc Qa Qb F4 F5 F6) as T'.
  unfold gemm_opt_default in T, T'.
  destruct (gemm_opt 64 512 64 aa ba ga gb ca cb m n k al a lda b ldb be c_ad c ldc) as [r| |]; try contradiction.
  cbn [returns] in D. destruct (gemm_opt 64 512 64 aa' ba' ga' gb' ca cb m n k al a lda b ldb be c_ad' c ldc) as [r'| |]; try contradiction.
  destruct T as (bp & ap & T), T' as (bp' & ap' & T'). exists r, bp, ap, r', bp', ap'. split; [exact T|]. split; [exact T'|exact D].
Qed.
Print Assumptions C80_gemm_same.
(** binary64: rounding error and absence of spurious overflow, as in C43 and C75 *)
Theorem C80_gemm_err : forall fma fuel aa ba ga gb ca cb oa ob m n k (alpha beta : scal (F64 fma)) (a : arr (quat (F64 fma))) lda (b : arr (quat (F64 fma))) ldb a_ad b_ad cadr (c : arr (quat (F64 fma))) ldc A B w, (Z.to_nat m < fuel)%nat -> (Z.to_nat n < fuel)%nat -> (Z.to_nat k < fuel)%nat ->
  (forall h, alpha <> SH h) -> (forall h, beta <> SH h) ->
  aa mod 32 = 0 -> ba mod 32 = 0 ->
  trans_char_r ca = Some oa -> trans_char_r cb = Some ob -> 0 <= m -> 0 <= n -> 0 <= k -> m <= ldc ->
  holds_mat a lda (op_rows oa m k) (op_cols oa m k) A -> holds_mat b ldb (op_rows ob k n) (op_cols ob k n) B ->
  holds_mat c ldc m n w ->
  returns_c (pub_gemm_t fma fuel aa ba ga gb ca cb m n k alpha a_ad a lda b_ad b ldb beta cadr c ldc) (fun l v0 => v0 = None /\ exists c' bPack aPack, l = [a; b; c'; bPack; aPack] /\ (same_but_mat c c' ldc m n /\
    forall i j, 0 <= i < m -> 0 <= j < n -> exists q, c' (i + j * ldc) = Some q /\
      let RA := fun i j => QR (A i j) in let RB := fun i j => QR (B i j) in let RC := fun i j => QR (w i j) in
      let ra := emb (SR_of alpha) in let rb := emb (SR_of beta) in
      let d := Z.to_nat (4 * k + 3) in let E := gemm_units ob k RB j in let mg := gemm_mag oa ob k ra RA RB rb RC i j in
      close d E q (gemm_elt (K := Rnum) oa ob k ra RA RB rb RC i j) mg /\
      (sfin alpha -> sfin beta -> fin (w i j) ->
       (forall l, 0 <= l < k -> fin (opm oa A i l) /\ fin (opm ob B l j) /\ below 2 3 (Qmaj (Qabs ra) (Qabs (opm (K := Rnum) oa RA i l)))) ->
       below d E mg -> fin q))).
Proof. intros *; intros. apply t_gemm; [apply C67_binary64 | assumption.. |]. eapply C43_gemm_err; try eassumption; reflexivity. Qed.
Print Assumptions C80_gemm_err.
(** binary64: exact on integers that stay small, as in C48 and C76 *)
Theorem C80_gemm_int : forall fma fuel aa ba (ga gb : Z -> quat (F64 fma)) a_ad b_ad c_ad ca cb oa ob m n k alpha al (a : arr (quat (F64 fma))) lda (b : arr (quat (F64 fma))) ldb beta be (c : arr (quat (F64 fma))) ldc A B w ZA ZB zw, (forall q, alpha <> SH q) -> (forall q, beta <> SH q) -> aa mod 32 = 0 -> ba mod 32 = 0 ->  (Z.to_nat m < fuel)%nat -> (Z.to_nat n < fuel)%nat -> (Z.to_nat k < fuel)%nat ->
  trans_char ca = Some oa -> trans_char cb = Some ob -> 0 <= m -> 0 <= n -> 0 <= k -> m <= ldc ->
  holds_mat a lda (op_rows oa m k) (op_cols oa m k) A -> holds_mat b ldb (op_rows ob k n) (op_cols ob k n) B -> holds_mat c ldc m n w ->
  sisZ alpha al -> sisZ beta be ->
  (forall i j, 0 <= i < op_rows oa m k -> 0 <= j < op_cols oa m k -> qisZ (A i j) (ZA i j)) ->
  (forall i j, 0 <= i < op_rows ob k n -> 0 <= j < op_cols ob k n -> qisZ (B i j) (ZB i j)) ->
  (forall i j, 0 <= i < m -> 0 <= j < n -> qisZ (w i j) (zw i j)) ->
  (forall i j, 0 <= i < m -> 0 <= j < n -> gemm_small oa ob k al ZA ZB be zw i j) ->
  returns_c (pub_gemm_t fma fuel aa ba ga gb ca cb m n k alpha a_ad a lda b_ad b ldb beta c_ad c ldc) (fun l v0 => v0 = None /\ exists c' bPack aPack, l = [a; b; c'; bPack; aPack] /\ (same_but_mat c c' ldc m n /\
    forall i j, 0 <= i < m -> 0 <= j < n -> exists q, c' (i + j * ldc) = Some q /\ qisZ q (gemm_elt oa ob k (emb al) ZA ZB (emb be) zw i j))).
Proof. intros fma fuel aa ba ga gb a_ad b_ad c_ad ca cb oa ob m n k alpha al a lda b ldb beta be c ldc A B w ZA ZB zw Ha Hb Ea Eb Fm Fn Fk A1 A2 A3 A4 A5 A6 A7 A8 A9 B1 B2 B3 B4 B5 B6.
  apply t_gemm; [apply C67_binary64 | assumption.. |].
  pose proof (C48_gemm_int fma (GEnv aa ba ga gb c_ad) ca cb oa ob m n k alpha al a lda b ldb beta be c ldc A B w ZA ZB zw (conj Ea Eb) A1 A2 A3 A4 A5 A6 A7 A8 A9 B1 B2 B3 B4 B5 B6) as R.
  destruct alpha as [?|?|q]; [| |destruct (Ha q eq_refl)]; (destruct beta as [?|?|q']; [| |destruct (Hb q' eq_refl)]); exact R. Qed.
Print Assumptions C80_gemm_int.
(** concrete: the 2 x 1 product with a NaN in row 1 of A has in row 0 what the 1 x 1 product has, whatever the buffers held *)
Example C80_concrete : forall fused, let K := F64 fused in
  let q1 : quat K := @Quat (F64 fused) f_one f_zero f_zero f_zero in let qn : quat K := @Quat (F64 fused) f_nan f_nan f_nan f_nan in
  exists r bPack aPack r' bPack' aPack',
    pub_gemm_t fused 3 32 64 (fun _ => qn) (fun _ => qn) "N" "N" 2 1 1 (SR (f_one : K)) 0 (arr_list [q1; qn]) 2 160 (arr_list [q1]) 1 (SR (f_one : K)) 320 (arr_list [q1; q1]) 2
      = Some (Ok ([arr_list [q1; qn]; arr_list [q1]; r; bPack; aPack], None)) /\
    pub_gemm_t fused 2 96 0 (fun _ => q1) (fun _ => qn) "N" "N" 1 1 1 (SR (f_one : K)) 8 (arr_list [q1]) 1 168 (arr_list [q1]) 1 (SR (f_one : K)) 328 (arr_list [q1]) 1
      = Some (Ok ([arr_list [q1]; arr_list [q1]; r'; bPack'; aPack'], None)) /\
    exists q, r (0 + 0 * 2) = Some q /\ r' (0 + 0 * 1) = Some q.
Proof.
  intros fused K q1 qn.
  apply (C80_gemm_local (F64 fused) fused 3 2 (C67_binary64 fused)) with (oa := OpN) (ob := OpN) (A := fun i _ => if i =? 0 then q1 else qn) (B := fun _ _ => q1) (w := fun _ _ => q1)
    (A' := fun _ _ => q1) (B' := fun _ _ => q1) (w' := fun _ _ => q1); try lia; try reflexivity; try discriminate.
  all: try (cbn; lia).
  all: cbn [op_rows op_cols]; intros i j Hi Hj; assert (j = 0) as -> by lia; try (assert (i = 0 \/ i = 1) as [-> | ->] by lia; reflexivity);
    assert (i = 0) as -> by lia; reflexivity.
Qed.
