(** The functions of qop.hpp, run from the text, are those of MSimd.v. *)
From Coq Require Import ZArith Bool Ascii String List Lia.
From Verif Require Import Num Res MQuat MSimd MOptL1 MOptGemm CSyntax CParse CSrc CSem CProg CSimFacts CTac CObj.
Import ListNotations. Local Open Scope string_scope. Local Open Scope Z_scope.

(** the machine's arithmetic when the compiler emulates FMA with two instructions (intrin_alias.hpp:74-79) *)
Definition two_step (K : num) : Prop :=
  forall a b c : K, nfma a b c = nadd (nmul a b) c /\ nfms a b c = nsub (nmul a b) c /\ nfnma a b c = nsub c (nmul a b).

Section Q.
Context {K : num}.
Variable fma : bool.
Hypothesis U : fma = false -> two_step K.
Lemma fma_two a b c : fma = false -> mm256_add (K:=K) (mm256_mul a b) c = FMA_256D a b c.
Proof. intros E. unfold mm256_add, mm256_mul, FMA_256D; cbn [l0 l1 l2 l3]. destruct (U E (l0 a) (l0 b) (l0 c)) as (-> & _), (U E (l1 a) (l1 b) (l1 c)) as (-> & _), (U E (l2 a) (l2 b) (l2 c)) as (-> & _), (U E (l3 a) (l3 b) (l3 c)) as (-> & _). reflexivity. Qed.
Lemma fms_two a b c : fma = false -> V4 (K:=K) (nsub (l0 (mm256_mul a b)) (l0 c)) (nsub (l1 (mm256_mul a b)) (l1 c)) (nsub (l2 (mm256_mul a b)) (l2 c)) (nsub (l3 (mm256_mul a b)) (l3 c)) = FMS_256D a b c.
Proof. intros E. unfold mm256_mul, FMS_256D; cbn [l0 l1 l2 l3]. destruct (U E (l0 a) (l0 b) (l0 c)) as (_ & -> & _), (U E (l1 a) (l1 b) (l1 c)) as (_ & -> & _), (U E (l2 a) (l2 b) (l2 c)) as (_ & -> & _), (U E (l3 a) (l3 b) (l3 c)) as (_ & -> & _). reflexivity. Qed.
Lemma fnma_two a b c : fma = false -> V4 (K:=K) (nsub (l0 c) (l0 (mm256_mul a b))) (nsub (l1 c) (l1 (mm256_mul a b))) (nsub (l2 c) (l2 (mm256_mul a b))) (nsub (l3 c) (l3 (mm256_mul a b))) = FNMA_256D a b c.
Proof. intros E. unfold mm256_mul, FNMA_256D; cbn [l0 l1 l2 l3]. destruct (U E (l0 a) (l0 b) (l0 c)) as (_ & _ & ->), (U E (l1 a) (l1 b) (l1 c)) as (_ & _ & ->), (U E (l2 a) (l2 b) (l2 c)) as (_ & _ & ->), (U E (l3 a) (l3 b) (l3 c)) as (_ & _ & ->). reflexivity. Qed.

Variable rest : list func.
Variable ext : string -> string -> list (val K) -> mem K -> M (mem K).
Variable fuel : nat.
Let fs := app (qop fma) rest.
Lemma nth_qop i f : nth_error (qop fma) i = Some f -> nth_error fs i = Some f.
Proof. unfold fs. intros E. rewrite nth_error_app1; [exact E|]. apply nth_error_Some. congruence. Qed.
Definition vs12 (x y r : m4 K) : list (val K) :=
  [VM (w1 x); VM (w2 x); VM (w3 x); VM (w4 x); VM (w1 y); VM (w2 y); VM (w3 y); VM (w4 y); VM (w1 r); VM (w2 r); VM (w3 r); VM (w4 r)].
(** replace two-instruction FMA by its specification *)
Ltac two F1 F2 F3 := rewrite ?(fun a b c => F1 a b c eq_refl), ?(fun a b c => F2 a b c eq_refl), ?(fun a b c => F3 a b c eq_refl).
Ltac leafq i d :=
  unfold callv, callp; rewrite (run_S fs ext fuel d i _ _ (nth i (qop fma) none_)) by (apply nth_qop; destruct fma; reflexivity);
  generalize (callv (K:=K) fs ext fuel d), (callp (K:=K) fs ext fuel d), (refs_of fs); intros rv rp rr;
  try unfold vs12; pose proof fma_two as F1; pose proof fms_two as F2; pose proof fnma_two as F3;
  destruct fma; cbn [qop qop_t qop_f nth]; cinit; csteps; unfold mret; [| two F1 F2 F3]; reflexivity.
Lemma q_nn d x y (m : mem K) : callv fs ext fuel (S d) 0 [VM x; VM y] m = mret (VM (MULDQ_NN x y)).
Proof. leafq 0%nat d. Qed.
Lemma q_scal d x y r (m : mem K) : callp fs ext fuel (S d) 2 (vs12 x y r) m = mret (map Some (vs12 x y (INC_MULD4Q_SCALAR x y r)), m).
Proof. leafq 2%nat d. Qed.
Lemma q_vnn d x y r (m : mem K) : callp fs ext fuel (S d) 4 (vs12 x y r) m = mret (map Some (vs12 x y (VEC_MULD4Q_NN x y r)), m).
Proof. leafq 4%nat d. Qed.
Lemma q_vcn d x y r (m : mem K) : callp fs ext fuel (S d) 5 (vs12 x y r) m = mret (map Some (vs12 x y (VEC_MULD4Q_CN x y r)), m).
Proof. leafq 5%nat d. Qed.
Lemma q_cn d x y (m : mem K) : callv fs ext fuel (S (S d)) 1 [VM x; VM y] m = mret (VM (MULDQ_CN x y)).
Proof.
  unfold callv at 1. rewrite (run_S fs ext fuel (S d) 1 _ _ (nth 1 (qop fma) none_)) by (apply nth_qop; destruct fma; reflexivity).
  pose proof (q_nn d (QCONJ_256D x) y) as Q. revert Q.
  generalize (callv (K:=K) fs ext fuel (S d)), (callp (K:=K) fs ext fuel (S d)), (refs_of fs); intros rv rp rr Q.
  destruct fma eqn:Efm; cbn [qop qop_t qop_f nth]; cinit; csteps; unfold QCONJ_256D in Q; rewrite Q; csteps; reflexivity.
Qed.
Lemma refs_qop i : (i < 10)%nat -> refs_of fs i = map snd (f_params (nth i (qop fma) none_)).
Proof.
  intros Hi. unfold refs_of. rewrite (nth_qop i (nth i (qop fma) none_)); [reflexivity|]. apply nth_error_nth'. destruct fma; exact Hi.
Qed.
Lemma q_inn d x y r (m : mem K) : callp fs ext fuel (S (S d)) 8 (vs12 x y r) m = mret (map Some (vs12 x y (INC_MULD4Q_NN x y r)), m).
Proof.
  unfold callp at 1. rewrite (run_S fs ext fuel (S d) 8 _ _ (nth 8 (qop fma) none_)) by (apply nth_qop; destruct fma; reflexivity).
  pose proof (q_scal d x y r m) as Q1. pose proof (q_vnn d x y (INC_MULD4Q_SCALAR x y r) m) as Q2.
  pose proof (refs_qop 2 ltac:(lia)) as R2. pose proof (refs_qop 4 ltac:(lia)) as R4. revert Q1 Q2 R2 R4.
  generalize (callv (K:=K) fs ext fuel (S d)), (callp (K:=K) fs ext fuel (S d)), (refs_of fs); intros rv rp rr Q1 Q2 R2 R4.
  unfold vs12 in Q1, Q2. cbn [map] in Q1, Q2.
  destruct fma eqn:Efm; cbn [qop qop_t qop_f nth map snd f_params] in R2, R4 |- *; unfold vs12; cinit; csteps; rewrite Q1; csteps; rewrite R2; csteps; rewrite Q2; csteps; rewrite R4; csteps; reflexivity.
Qed.
Lemma q_icn d x y r (m : mem K) : callp fs ext fuel (S (S d)) 9 (vs12 x y r) m = mret (map Some (vs12 x y (INC_MULD4Q_CN x y r)), m).
Proof.
  unfold callp at 1. rewrite (run_S fs ext fuel (S d) 9 _ _ (nth 9 (qop fma) none_)) by (apply nth_qop; destruct fma; reflexivity).
  pose proof (q_scal d x y r m) as Q1. pose proof (q_vcn d x y (INC_MULD4Q_SCALAR x y r) m) as Q2.
  pose proof (refs_qop 2 ltac:(lia)) as R2. pose proof (refs_qop 5 ltac:(lia)) as R4. revert Q1 Q2 R2 R4.
  generalize (callv (K:=K) fs ext fuel (S d)), (callp (K:=K) fs ext fuel (S d)), (refs_of fs); intros rv rp rr Q1 Q2 R2 R4.
  unfold vs12 in Q1, Q2. cbn [map] in Q1, Q2.
  destruct fma eqn:Efm; cbn [qop qop_t qop_f nth map snd f_params] in R2, R4 |- *; unfold vs12; cinit; csteps; rewrite Q1; csteps; rewrite R2; csteps; rewrite Q2; csteps; rewrite R4; csteps; reflexivity.
Qed.
End Q.
