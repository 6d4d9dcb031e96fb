(** SIMD products compute quaternion products. *)
From Coq Require Import ZArith Lia Ring Bool.
From Verif Require Import Num Res ResFacts Spec SpecFacts MQuat QuatFacts MSimd.
Local Open Scope Z_scope.

Lemma q_of_v_of_q {K : num} (q : quat K) : q_of_v (v_of_q q) = q. Proof. destruct q; reflexivity. Qed.
Lemma v_of_q_of_v {K : num} (v : m256 K) : v_of_q (q_of_v v) = v. Proof. destruct v; reflexivity. Qed.

Lemma transpose_soa {K : num} (m : m4 K) t : 0 <= t < 4 -> soa (TRANSPOSE_4x4 m) t = aos m t.
Proof.
  intros Ht. destruct m as [[] [] [] []].
  assert (t = 0 \/ t = 1 \/ t = 2 \/ t = 3) as [->|[->|[->| ->]]] by lia; reflexivity.
Qed.
Lemma transpose_aos {K : num} (m : m4 K) t : 0 <= t < 4 -> aos (TRANSPOSE_4x4 m) t = soa m t.
Proof.
  intros Ht. destruct m as [[] [] [] []].
  assert (t = 0 \/ t = 1 \/ t = 2 \/ t = 3) as [->|[->|[->| ->]]] by lia; reflexivity.
Qed.
Lemma transpose_invol {K : num} (m : m4 K) : TRANSPOSE_4x4 (TRANSPOSE_4x4 m) = m.
Proof. destruct m as [[] [] [] []]; reflexivity. Qed.

Section F.
Context {K : num} (L : laws K).
Add Ring Kr : (l_ring K L).
Ltac fma := rewrite ?(l_fma K L), ?(l_fms K L), ?(l_fnma K L).

Lemma MULDQ_NN_H (x y : m256 K) : q_of_v (MULDQ_NN x y) = Hmul (q_of_v x) (q_of_v y).
Proof.
  destruct x as [a b c d], y as [e f g h]. cbn. unfold q_of_v; hunf. cbn. fma. f_equal; ring.
Qed.
Lemma MULDQ_CN_H (x y : m256 K) : q_of_v (MULDQ_CN x y) = Hmul (Hconj (q_of_v x)) (q_of_v y).
Proof. unfold MULDQ_CN. rewrite MULDQ_NN_H. destruct x; reflexivity. Qed.
Lemma QCONJ_H (x : m256 K) : q_of_v (QCONJ_256D x) = Hconj (q_of_v x).
Proof. destruct x; reflexivity. Qed.
Lemma q_mul_avx_H (x y : quat K) : q_mul_avx x y = Hmul x y.
Proof. unfold q_mul_avx. rewrite MULDQ_NN_H, !q_of_v_of_q. reflexivity. Qed.

Lemma INC_MULD4Q_NN_H (x y r : m4 K) t : 0 <= t < 4 ->
  soa (INC_MULD4Q_NN x y r) t = Hadd (soa r t) (Hmul (soa x t) (soa y t)).
Proof.
  intros Ht. destruct x as [[] [] [] []], y as [[] [] [] []], r as [[] [] [] []].
  assert (t = 0 \/ t = 1 \/ t = 2 \/ t = 3) as [->|[->|[->| ->]]] by lia;
    unfold soa, lane; cbn; hunf; fma; f_equal; ring.
Qed.
Lemma INC_MULD4Q_CN_H (x y r : m4 K) t : 0 <= t < 4 ->
  soa (INC_MULD4Q_CN x y r) t = Hadd (soa r t) (Hmul (Hconj (soa x t)) (soa y t)).
Proof.
  intros Ht. destruct x as [[] [] [] []], y as [[] [] [] []], r as [[] [] [] []].
  assert (t = 0 \/ t = 1 \/ t = 2 \/ t = 3) as [->|[->|[->| ->]]] by lia;
    unfold soa, lane; cbn; hunf; fma; f_equal; ring.
Qed.
Lemma MULD4Q_NN_H (x y : m4 K) t : 0 <= t < 4 -> soa (MULD4Q_NN x y) t = Hmul (soa x t) (soa y t).
Proof.
  intros Ht. destruct x as [[] [] [] []], y as [[] [] [] []].
  assert (t = 0 \/ t = 1 \/ t = 2 \/ t = 3) as [->|[->|[->| ->]]] by lia;
    unfold soa, lane; cbn; hunf; fma; f_equal; ring.
Qed.
Lemma MULD4Q_CN_H (x y : m4 K) t : 0 <= t < 4 -> soa (MULD4Q_CN x y) t = Hmul (Hconj (soa x t)) (soa y t).
Proof.
  intros Ht. destruct x as [[] [] [] []], y as [[] [] [] []].
  assert (t = 0 \/ t = 1 \/ t = 2 \/ t = 3) as [->|[->|[->| ->]]] by lia;
    unfold soa, lane; cbn; hunf; fma; f_equal; ring.
Qed.
End F.
