(** C77, C78: the text of the packing headers (include/hblas/pack/pack.hpp, packops.hpp, include/util/types.hpp), and GEMM run wholly from texts.  The
    statements speak about running the text of NPACK and TPACK (MSrcT.v: preprocess and parse the headers, instantiate the templates, run the function), not
    about the hand-written model of MPack.v. *)
From Coq Require Import ZArith Lia Bool Ascii String List.
From Verif Require Import Num Res ResFacts Spec SpecFacts MQuat MSimd MGenM MPack MOptGemm F64 PropsL1 PropsL3 PropsGemm TSyntax TSem MSrcT CSyntax CSem CProg CSimFacts CLinkG CLink MSrcC PropsSrcC
  MBuild MPublic BuildFacts CLinkT CEqGT.
From Verif Require TEq2 TEq7 TEq8 TEq10 TEq11.
Import ListNotations.
Local Open Scope string_scope.
Local Open Scope Z_scope.

(** ** C77.  Packing.  The template arguments as include/hblas/config/hblas3/gemm.hpp:52-82 writes them, with the macros replaced: two rows or columns at a time, of quaternions; PackOps_T1 for the A side, PackOps_T2 for
    the B side; Conj... to conjugate. *)
Definition pack_args (o : packop) (cnj : bool) : string :=
  "2,quaternion<double>," ++ (if cnj then "Conj" else "Generic") ++ "PackOps_" ++ (match o with T1 => "T1" | T2 => "T2" end) ++ "<>".
Lemma pack_args_eq o cnj : pack_args o cnj = TEq2.ops_text o cnj.
Proof. destruct o, cnj; reflexivity. Qed.
(** what a call leaves: both blocks keep their addresses, the source its contents, nothing is returned *)
Definition packs_to {K : num} (a0 : Z) (src : arr (quat K)) (a1 : Z) (r : res (arr (quat K))) : option (res (list (Z * data K) * @pval K)) :=
  match r with Ok b => Some (Ok ([(a0, DQ src); (a1, DQ b)], PVoid)) | UB => Some UB | Abort => Some Abort end.
(** every call ends as the call of the model, in every arithmetic, on every machine: same buffer, same undefined calls, same failed assertions.  [fuel] bounds the
    iterations of each loop; any bound larger than the dimensions will do *)
Theorem C77_tpack : forall (K : num) fma fuel (o : packop) cnj (alpha : option (scal K)) m n e ldx a0 (x : arr (quat K)) a1 buf,
  (Z.to_nat m < fuel)%nat -> (Z.to_nat n < fuel)%nat ->
  tpack_src fma fuel "TPACK" (pack_args o cnj) m n e ldx alpha a0 x a1 buf = packs_to a0 x a1 (tpack o cnj alpha m n x e ldx buf).
Proof.
  intros K fma fuel o cnj al m n e ldx a0 x a1 buf Hm Hn. rewrite pack_args_eq. refine (TEq11.tpack_src_ok true fma fuel o cnj al m n e ldx a0 x a1 buf Hm _).
  refine (Nat.le_trans _ _ _ _ (Nat.lt_le_incl _ _ Hn)). apply quot2_le.
Qed.
Print Assumptions C77_tpack.
Theorem C77_npack : forall (K : num) fma fuel (o : packop) cnj (alpha : option (scal K)) m n e ldx a0 (x : arr (quat K)) a1 buf,
  (Z.to_nat m < fuel)%nat -> (Z.to_nat n < fuel)%nat ->
  tpack_src fma fuel "NPACK" (pack_args o cnj) m n e ldx alpha a0 x a1 buf = packs_to a0 x a1 (npack o cnj alpha m n x e ldx buf).
Proof.
  intros K fma fuel o cnj al m n e ldx a0 x a1 buf Hm Hn. rewrite pack_args_eq. refine (TEq11.tpack_src_ok false fma fuel o cnj al m n e ldx a0 x a1 buf Hn _).
  refine (Nat.le_trans _ _ _ _ (Nat.lt_le_incl _ _ Hm)). apply quot2_le.
Qed.
Print Assumptions C77_npack.
(** in exact arithmetic the text leaves the panels of Spec.v: TPACK packs pairs of columns, NPACK pairs of rows, a missing last one reads as zero, each element is
    conjugated if asked and multiplied from the left by ALPHA if given; the rest of the buffer and the source are unchanged *)
Theorem C77_tpack_layout : forall (K : num), laws K ->
  forall fma fuel (o : packop) cnj alpha m n (x : arr (quat K)) x0 ldx a0 a1 (buf : arr (quat K)) F, 0 <= m -> 0 <= n -> (Z.to_nat m < fuel)%nat -> (Z.to_nat n < fuel)%nat ->
  (forall i j, 0 <= i < m -> 0 <= j < n -> x (x0 + i + j * ldx) = Some (F i j)) ->
  (forall p, 0 <= p < 2 * ((n + 1) / 2) * m -> buf p <> None) ->
  exists buf', tpack_src fma fuel "TPACK" (pack_args o cnj) m n x0 ldx alpha a0 x a1 buf = Some (Ok ([(a0, DQ x); (a1, DQ buf')], PVoid)) /\
    packed (match o with T1 => pairA | T2 => pairB end) n m (fun r l => packed_elt cnj alpha (F l r)) buf' /\
    forall p, ~ (0 <= p < 2 * ((n + 1) / 2) * m) -> buf' p = buf p.
Proof.
  intros K L fma fuel o cnj al m n x x0 ldx a0 a1 buf F Hm Hn Fm Fn Hx Hb. rewrite C77_tpack by assumption.
  pose proof (C31_tpack K L o cnj al m n x x0 ldx buf F Hm Hn Hx Hb) as C. destruct (tpack o cnj al m n x x0 ldx buf) as [b| |]; try contradiction. exists b. exact (conj eq_refl C).
Qed.
Print Assumptions C77_tpack_layout.
Theorem C77_npack_layout : forall (K : num), laws K ->
  forall fma fuel (o : packop) cnj alpha m n (x : arr (quat K)) x0 ldx a0 a1 (buf : arr (quat K)) F, 0 <= m -> 0 <= n -> (Z.to_nat m < fuel)%nat -> (Z.to_nat n < fuel)%nat ->
  (forall i j, 0 <= i < m -> 0 <= j < n -> x (x0 + i + j * ldx) = Some (F i j)) ->
  (forall p, 0 <= p < 2 * ((m + 1) / 2) * n -> buf p <> None) ->
  exists buf', tpack_src fma fuel "NPACK" (pack_args o cnj) m n x0 ldx alpha a0 x a1 buf = Some (Ok ([(a0, DQ x); (a1, DQ buf')], PVoid)) /\
    packed (match o with T1 => pairA | T2 => pairB end) m n (fun r l => packed_elt cnj alpha (F r l)) buf' /\
    forall p, ~ (0 <= p < 2 * ((m + 1) / 2) * n) -> buf' p = buf p.
Proof.
  intros K L fma fuel o cnj al m n x x0 ldx a0 a1 buf F Hm Hn Fm Fn Hx Hb. rewrite C77_npack by assumption.
  pose proof (C31_npack K L o cnj al m n x x0 ldx buf F Hm Hn Hx Hb) as C. destruct (npack o cnj al m n x x0 ldx buf) as [b| |]; try contradiction. exists b. exact (conj eq_refl C).
Qed.
Print Assumptions C77_npack_layout.
(** concrete: the text packs a conjugated 3 by 2 block, two rows at a time, with a quaternion ALPHA; a negative count fails the assertion *)
Definition show_t (o : option (res (list (Z * data Znum) * @pval Znum))) (l : list Z) : list (option (quat Znum)) :=
  match o with Some (Ok ([_; (_, DQ b)], _)) => map b l | _ => [] end.
Example C77_concrete : show_t (tpack_src true 4 "NPACK" "2,quaternion<double>,ConjPackOps_T1<>" 3 2 1 4 (Some (SH (zq 0 0 1 0))) 0 (vZ [9;1;2;3;9;4;5;6;9]) 64 (vZ (repeat 0 9))) [0;1;2;3;4;5;6;7;8] =
  [Some (zq 0 1 0 2); Some (zq 1 0 2 0); Some (zq 0 4 0 5); Some (zq 4 0 5 0); Some (zq 0 3 0 0); Some (zq 3 0 0 0); Some (zq 0 6 0 0); Some (zq 6 0 0 0); Some (zq 0 0 0 0)].
Proof. vm_compute. reflexivity. Qed.
Example C77_concrete_abort : tpack_src (K := Znum) true 4 "TPACK" "2,quaternion<double>,GenericPackOps_T2<>" 2 (-1) 0 2 None 0 (vZ [1]) 64 (vZ [1]) = Some Abort.
Proof. vm_compute. reflexivity. Qed.

(** ** C78.  The public GEMM with real or complex ALPHA and BETA, found through the build texts and run wholly from texts: gemm.cxx, kern.cxx, hblas_scalm_impl.hpp,
    axpy_scal.cxx and now pack.hpp, packops.hpp and types.hpp *)
Theorem C78_gemm_text : forall (K : num) fma fuel, right_fma fma K ->
  forall aa ba ga gb ta tb m n k alpha a_ad (a : arr (quat K)) lda b_ad b ldb beta c_ad c ldc,
  (forall q, alpha <> SH q) -> (forall q, beta <> SH q) -> (Z.to_nat m < fuel)%nat -> (Z.to_nat n < fuel)%nat -> (Z.to_nat k < fuel)%nat ->
  match gemm_opt_default aa ba ga gb ta tb m n k alpha a lda b ldb beta c_ad c ldc with
  | Ok c' => exists bPack aPack, pub_gemm_t fma fuel aa ba ga gb ta tb m n k alpha a_ad a lda b_ad b ldb beta c_ad c ldc = Some (Ok ([a; b; c'; bPack; aPack], None))
  | UB => pub_gemm_t fma fuel aa ba ga gb ta tb m n k alpha a_ad a lda b_ad b ldb beta c_ad c ldc = Some UB
  | Abort => pub_gemm_t fma fuel aa ba ga gb ta tb m n k alpha a_ad a lda b_ad b ldb beta c_ad c ldc = Some Abort
  end.
Proof.
  intros K fma fuel U aa ba ga gb ta tb m n k al a_ad a lda b_ad b ldb be c_ad c ldc Ha Hb Hm Hn Hk. unfold pub_gemm_t, cpp_call. rewrite u_gemm by assumption.
  assert (S : sim (fun r o => exists bp ap, o = ([(a_ad, DQ a); (b_ad, DQ b); (c_ad, DQ r); (ba, DQ bp); (aa, DQ ap)], None))
    (gemm_opt_default aa ba ga gb ta tb m n k al a lda b ldb be c_ad c ldc)
    (ccall (unit_gemm fma (type_of al) (type_of be)) (gemm_link_t fma fuel aa ba ga gb) fuel "HBLAS_GEMM"
    [VChr ta; VChr tb; VZ m; VZ n; VZ k; val_of al; ptr 0; VZ lda; ptr 1; VZ ldb; val_of be; ptr 2; VZ ldc] [(a_ad, DQ a); (b_ad, DQ b); (c_ad, DQ c)])).
  { destruct al as [al|al|q]; [| | destruct (Ha q eq_refl)]; (destruct be as [be|be|q]; [| | destruct (Hb q eq_refl)]).
    - exact (tsrc_gemmdd fma U fuel aa ba ga gb ta tb m n k al be a_ad b_ad a b lda ldb c_ad c ldc Hm Hn Hk).
    - exact (tsrc_gemmdz fma U fuel aa ba ga gb ta tb m n k al be a_ad b_ad a b lda ldb c_ad c ldc Hm Hn Hk).
    - exact (tsrc_gemmzd fma U fuel aa ba ga gb ta tb m n k al be a_ad b_ad a b lda ldb c_ad c ldc Hm Hn Hk).
    - exact (tsrc_gemmzz fma U fuel aa ba ga gb ta tb m n k al be a_ad b_ad a b lda ldb c_ad c ldc Hm Hn Hk). }
  destruct (gemm_opt_default aa ba ga gb ta tb m n k al a lda b ldb be c_ad c ldc) as [c'| |]; cbn [sim] in S.
  - destruct S as (o & E & bp & ap & ->). exists bp, ap. rewrite E. reflexivity.
  - rewrite S. reflexivity.
  - rewrite S. reflexivity.
Qed.
Print Assumptions C78_gemm_text.
(** exact arithmetic: C becomes ALPHA * op(A) * op(B) + BETA * C and nothing else changes (the two buffers are freed) *)
Theorem C78_gemm : forall (K : num), laws K ->
  forall fma fuel aa ba ga gb ca cb oa ob m n k alpha a_ad (a : arr (quat K)) lda b_ad (b : arr (quat K)) ldb beta c_ad (c : arr (quat K)) ldc A B w,
  (forall q, alpha <> SH q) -> (forall q, beta <> SH q) -> (Z.to_nat m < fuel)%nat -> (Z.to_nat n < fuel)%nat -> (Z.to_nat k < fuel)%nat ->
  aa mod 32 = 0 -> ba mod 32 = 0 ->
  trans_char_r ca = Some oa -> trans_char_r cb = Some ob -> 0 <= m -> 0 <= n -> 0 <= k -> m <= ldc ->
  holds_mat a lda (op_rows oa m k) (op_cols oa m k) A -> holds_mat b ldb (op_rows ob k n) (op_cols ob k n) B -> holds_mat c ldc m n w ->
  returns_c (pub_gemm_t fma fuel aa ba ga gb ca cb m n k alpha a_ad a lda b_ad b ldb beta c_ad c ldc) (fun l v' => v' = None /\ exists c' bPack aPack, l = [a; b; c'; bPack; aPack] /\
    holds_mat c' ldc m n (gemm_elt oa ob k (emb alpha) A B (emb beta) w) /\ same_but_mat c c' ldc m n).
Proof.
  intros K L fma fuel aa ba ga gb ca cb oa ob m n k al a_ad a lda b_ad b ldb be c_ad c ldc A B w Ha Hb Fm Fn Fk H1 H2 H3 H4 H5 H6 H7 H8 HA HB HC.
  pose proof (C78_gemm_text K fma fuel (fun _ => laws_two K L) aa ba ga gb ca cb m n k al a_ad a lda b_ad b ldb be c_ad c ldc Ha Hb Fm Fn Fk) as E.
  pose proof (C29_gemm_opt_default K L aa ba ga gb ca cb oa ob m n k al a lda b ldb be c_ad c ldc A B w H1 H2 H3 H4 H5 H6 H7 H8 HA HB HC) as C.
  destruct (gemm_opt_default aa ba ga gb ca cb m n k al a lda b ldb be c_ad c ldc) as [c'| |]; try contradiction.
  destruct E as (bp & ap & E). exists [a; b; c'; bp; ap], None. split; [exact E|]. split; [reflexivity|]. exists c', bp, ap. split; [reflexivity | exact C].
Qed.
Print Assumptions C78_gemm.
(** every arithmetic, IEEE binary64 included: nothing but the m by n entries of C changes *)
Theorem C78_gemm_frame : forall (K : num) fma fuel, right_fma fma K ->
  forall aa ba ga gb ca cb oa ob m n k alpha a_ad (a : arr (quat K)) lda b_ad (b : arr (quat K)) ldb beta c_ad (c : arr (quat K)) ldc A B w,
  (forall q, alpha <> SH q) -> (forall q, beta <> SH q) -> (Z.to_nat m < fuel)%nat -> (Z.to_nat n < fuel)%nat -> (Z.to_nat k < fuel)%nat ->
  aa mod 32 = 0 -> ba mod 32 = 0 ->
  trans_char_r ca = Some oa -> trans_char_r cb = Some ob -> 0 <= m -> 0 <= n -> 0 <= k -> m <= ldc ->
  holds_mat a lda (op_rows oa m k) (op_cols oa m k) A -> holds_mat b ldb (op_rows ob k n) (op_cols ob k n) B -> holds_mat c ldc m n w ->
  returns_c (pub_gemm_t fma fuel aa ba ga gb ca cb m n k alpha a_ad a lda b_ad b ldb beta c_ad c ldc) (fun l v' => v' = None /\ exists c' bPack aPack, l = [a; b; c'; bPack; aPack] /\
    same_but_mat c c' ldc m n /\ exists w', holds_mat c' ldc m n w').
Proof.
  intros K fma fuel U aa ba ga gb ca cb oa ob m n k al a_ad a lda b_ad b ldb be c_ad c ldc A B w Ha Hb Fm Fn Fk H1 H2 H3 H4 H5 H6 H7 H8 HA HB HC.
  pose proof (C78_gemm_text K fma fuel U aa ba ga gb ca cb m n k al a_ad a lda b_ad b ldb be c_ad c ldc Ha Hb Fm Fn Fk) as E.
  pose proof (C32_gemm_opt K 64 512 64 aa ba ga gb ca cb oa ob m n k al a lda b ldb be c_ad c ldc A B w eq_refl eq_refl eq_refl eq_refl eq_refl H1 H2 H3 H4 H5 H6 H7 H8 HA HB HC) as C.
  unfold gemm_opt_default in E.
  destruct (gemm_opt 64 512 64 aa ba ga gb ca cb m n k al a lda b ldb be c_ad c ldc) as [c'| |]; try contradiction.
  destruct E as (bp & ap & E). exists [a; b; c'; bp; ap], None. split; [exact E|]. split; [reflexivity|]. exists c', bp, ap. split; [reflexivity | exact C].
Qed.
Print Assumptions C78_gemm_frame.
Example C78_concrete : show_c (pub_gemm_t true 4 0 64 (fun _ => zq 9 9 9 9) (fun _ => zq 8 8 8 8) "C" "N" 1 2 3 (SC (Cplx (K:=Znum) 0 1)) 8 (vZ [1;2;3]) 3 8 (vZ [1;0;2;0;3;0]) 3 (SR (2 : Znum)) 0 (vZ [7;1;1]) 2) 2 [0;1;2] =
  [Some (zq 14 14 0 (-14)); Some (zq 1 0 0 (-1)); Some (zq 2 12 0 (-2))].
Proof. vm_compute. reflexivity. Qed.
