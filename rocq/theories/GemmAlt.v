(** The alternative placement of ALPHA in the optimised GEMM, and the register-by-scalar products. *)
From Coq Require Import ZArith Lia Ring Bool Ascii List.
From Verif Require Import Num Res ResFacts Spec SpecFacts MQuat MSimd SimdFacts MOptL1 VecFacts LoopFacts L1Facts L1Facts2 L1Facts3
  MGenM MPack PackFacts MOptGemm OptGemmFacts OptGemmTop.
Import ListNotations.
Local Open Scope Z_scope.

Section L.
Context {K : num} (L : laws K).
Add Ring Kr : (l_ring K L).
Lemma avx_mul_ok (s : scal K) (x : m256 K) : q_of_v (avx_mul (Some s) x) = Hmul (emb s) (q_of_v x).
Proof. rewrite (avx_mul_H L). reflexivity. Qed.
Lemma avx_mul_r_ok (s : scal K) (x : m256 K) : q_of_v (avx_mul_r x (Some s)) = Hmul (q_of_v x) (emb s).
Proof.
  destruct s as [a|z|q]; cbn [avx_mul_r emb].
  - destruct x. cbn. unfold q_of_v; hunf. cbn. f_equal; ring.
  - destruct x, z. cbn. unfold q_of_v; hunf. cbn. f_equal; ring.
  - rewrite (MULDQ_NN_H L), q_of_v_of_q. reflexivity.
Qed.

(** value with ALPHA in either place, both or none *)
Definition oemb (s : option (scal K)) : quat K := match s with Some s => emb s | None => H1 end.
Lemma pre_oemb cnj al (q : quat K) : pre cnj al q = Hmul (oemb al) (if cnj then Hconj q else q).
Proof. destruct al; cbn [oemb]; [apply (pre_some L)|rewrite pre_none, (Hmul_1_l L); reflexivity]. Qed.
Lemma gemm_val_at_H oa ob k alA alB beta A B w i j :
  gemm_val_at (K:=K) oa ob k alA alB beta A B w i j =
  Hadd (Hsum k (fun l => Hmul (Hmul (oemb alA) (opm oa A i l)) (Hmul (oemb alB) (opm ob B l j)))) (Hmul (emb beta) (w i j)).
Proof.
  unfold gemm_val_at, pprod. rewrite (facc_H L), (Hadd_comm L). f_equal.
  - apply Hsum_ext. intros l _. rewrite !pre_oemb, <- !opm_raw. reflexivity.
  - unfold scalq. rewrite (scal_step_H L). reflexivity.
Qed.
Lemma Hre_comm (a : K) (q : quat K) : Hmul (Hre a) q = Hmul q (Hre a).
Proof. destruct q. hunf. cbn. f_equal; ring. Qed.
End L.

Section T.
Context (K : num) (L : laws K).
Context (mc nc kc aa ba : Z) (ga gb : Z -> quat K) (ca cb : ascii) (oa ob : mop) (m n k : Z) (alpha beta : scal K) (a : arr (quat K)) (lda : Z) (b : arr (quat K)) (ldb : Z)
  (cadr : Z) (c : arr (quat K)) (ldc : Z) (A B w : Z -> Z -> quat K).
Hypothesis (Hmc : 0 < mc) (Emc : Z.even mc = true) (Hnc : 0 < nc) (Enc : Z.even nc = true) (Hkc : 0 < kc) (Haa : aa mod 32 = 0) (Hba : ba mod 32 = 0)
  (Hca : trans_char_r ca = Some oa) (Hcb : trans_char_r cb = Some ob) (Hm : 0 <= m) (Hn : 0 <= n) (Hk : 0 <= k) (Hld : m <= ldc)
  (HA : holds_mat a lda (op_rows oa m k) (op_cols oa m k) A) (HB : holds_mat b ldb (op_rows ob k n) (op_cols ob k n) B) (HC : holds_mat c ldc m n w).
Lemma gemm_at_ok alA alB :
  returns (gemm_opt_at mc nc kc aa ba ga gb ca cb m n k alA alB a lda b ldb beta cadr c ldc) (fun c' =>
    holds_mat c' ldc m n (fun i j => Hadd (Hsum k (fun l => Hmul (Hmul (oemb alA) (opm oa A i l)) (Hmul (oemb alB) (opm ob B l j))))
       (Hmul (emb beta) (w i j))) /\ same_but_mat c c' ldc m n).
Proof.
  eapply returns_mono; [apply (gemm_opt_at_raw mc nc kc aa ba ga gb ca cb oa ob) with (A := A) (B := B) (w := w); auto using buf_fits, dec_char|].
  intros c' [Hh S]. split; auto. intros i j Hi Hj. rewrite Hh by auto. rewrite (gemm_val_at_H L). reflexivity.
Qed.
Lemma gemm_fb_val :
  returns (gemm_opt_fb mc nc kc aa ba ga gb ca cb m n k alpha a lda b ldb beta cadr c ldc) (fun c' =>
    holds_mat c' ldc m n (fun i j => Hadd (Hsum k (fun l => Hmul (opm oa A i l) (Hmul (emb alpha) (opm ob B l j)))) (Hmul (emb beta) (w i j))) /\
    same_but_mat c c' ldc m n).
Proof.
  eapply returns_mono; [apply (gemm_at_ok None (Some alpha))|]. cbv beta. intros c' [Hh S]. split; auto. intros i j Hi Hj.
  rewrite Hh by auto. do 2 f_equal. apply Hsum_ext. intros l _. cbn [oemb]. rewrite (Hmul_1_l L). reflexivity.
Qed.
Lemma gemm_none_val :
  returns (gemm_opt_at mc nc kc aa ba ga gb ca cb m n k None None a lda b ldb beta cadr c ldc) (fun c' =>
    holds_mat c' ldc m n (fun i j => Hadd (Hsum k (fun l => Hmul (opm oa A i l) (opm ob B l j))) (Hmul (emb beta) (w i j))) /\
    same_but_mat c c' ldc m n).
Proof.
  eapply returns_mono; [apply (gemm_at_ok None None)|]. cbv beta. intros c' [Hh S]. split; auto. intros i j Hi Hj.
  rewrite Hh by auto. do 2 f_equal. apply Hsum_ext. intros l _. cbn [oemb]. rewrite !(Hmul_1_l L). reflexivity.
Qed.
End T.
Lemma gemm_fb_real (K : num) (L : laws K) mc nc kc aa ba (ga gb : Z -> quat K) ca cb oa ob m n k (al : K) (beta : scal K) (a : arr (quat K)) lda (b : arr (quat K)) ldb
  cadr (c : arr (quat K)) ldc A B w :
  0 < mc -> Z.even mc = true -> 0 < nc -> Z.even nc = true -> 0 < kc -> aa mod 32 = 0 -> ba mod 32 = 0 ->
  trans_char_r ca = Some oa -> trans_char_r cb = Some ob -> 0 <= m -> 0 <= n -> 0 <= k -> m <= ldc ->
  holds_mat a lda (op_rows oa m k) (op_cols oa m k) A -> holds_mat b ldb (op_rows ob k n) (op_cols ob k n) B -> holds_mat c ldc m n w ->
  returns (gemm_opt_fb mc nc kc aa ba ga gb ca cb m n k (SR al) a lda b ldb beta cadr c ldc) (fun c' =>
    holds_mat c' ldc m n (gemm_elt oa ob k (Hre al) A B (emb beta) w) /\ same_but_mat c c' ldc m n).
Proof.
  intros. eapply returns_mono; [eapply (gemm_fb_val K L) with (A := A) (B := B) (w := w); eauto|]. cbv beta. intros c' [Hh S]. split; auto. intros i j Hi Hj.
  rewrite Hh by auto. unfold gemm_elt. do 2 f_equal. rewrite (Hmul_sum_l L). apply Hsum_ext. intros l _. cbn [emb].
  rewrite (Hmul_assoc L), <- (Hre_comm L), <- (Hmul_assoc L). reflexivity.
Qed.
Lemma gemm_fb_wrong : exists aa ba ga gb cadr (al : cplx Znum) (a b c : arr (quat Znum)) A B w,
  aa mod 32 = 0 /\ ba mod 32 = 0 /\ holds_mat a 1 1 1 A /\ holds_mat b 1 1 1 B /\ holds_mat c 1 1 1 w /\
  returns (gemm_opt_fb 64 512 64 aa ba ga gb "N" "N" 1 1 1 (SC al) a 1 b 1 (SR (1 : Znum)) cadr c 1) (fun c' =>
    ~ holds_mat c' 1 1 1 (gemm_elt OpN OpN 1 (Hc al) A B H1 w)).
Proof.
  set (zero := zq 0 0 0 0).
  exists 32, 64, (fun _ => zero), (fun _ => zero), 0, (zc 0 1), (fun _ => Some (zq 0 0 1 0)), (fun _ => Some (zq 1 0 0 0)), (fun _ => Some zero),
    (fun _ _ => zq 0 0 1 0), (fun _ _ => zq 1 0 0 0), (fun _ _ => zero).
  do 5 (split; [first [reflexivity | intros i j _ _; reflexivity]|]).
  eapply returns_mono.
  - apply (gemm_fb_val Znum Zlaws) with (oa := OpN) (ob := OpN) (A := fun _ _ => zq 0 0 1 0) (B := fun _ _ => zq 1 0 0 0) (w := fun _ _ => zero);
      first [reflexivity | lia | intros i j _ _; reflexivity].
  - cbv beta. intros c' [Hh _] E. specialize (Hh 0 0 ltac:(lia) ltac:(lia)). specialize (E 0 0 ltac:(lia) ltac:(lia)). rewrite Hh in E. vm_compute in E. discriminate.
Qed.
Lemma gemm_none_wrong : exists aa ba ga gb cadr (al : Znum) (a b c : arr (quat Znum)) A B w,
  aa mod 32 = 0 /\ ba mod 32 = 0 /\ holds_mat a 1 1 1 A /\ holds_mat b 1 1 1 B /\ holds_mat c 1 1 1 w /\
  returns (gemm_opt_at 64 512 64 aa ba ga gb "N" "N" 1 1 1 None None a 1 b 1 (SR (1 : Znum)) cadr c 1) (fun c' =>
    ~ holds_mat c' 1 1 1 (gemm_elt OpN OpN 1 (Hre al) A B H1 w)).
Proof.
  set (zero := zq 0 0 0 0).
  exists 32, 64, (fun _ => zero), (fun _ => zero), 0, (2 : Znum), (fun _ => Some (zq 0 0 1 0)), (fun _ => Some (zq 1 0 0 0)), (fun _ => Some zero),
    (fun _ _ => zq 0 0 1 0), (fun _ _ => zq 1 0 0 0), (fun _ _ => zero).
  do 5 (split; [first [reflexivity | intros i j _ _; reflexivity]|]).
  eapply returns_mono.
  - apply (gemm_none_val Znum Zlaws) with (oa := OpN) (ob := OpN) (A := fun _ _ => zq 0 0 1 0) (B := fun _ _ => zq 1 0 0 0) (w := fun _ _ => zero);
      first [reflexivity | lia | intros i j _ _; reflexivity].
  - cbv beta. intros c' [Hh _] E. specialize (Hh 0 0 ltac:(lia) ltac:(lia)). specialize (E 0 0 ltac:(lia) ltac:(lia)). rewrite Hh in E. vm_compute in E. discriminate.
Qed.
