(** C35-C36: expansion to complex / real matrices, contraction. *)
From Coq Require Import ZArith Bool Ascii List Lia.
From Verif Require Import Num NumR Res ResFacts Spec SpecFacts SpecExp MQuat MForL1 MForL3 MUtil UtilFacts UtilFacts2 F64 PropsL1.
Import ListNotations.
Local Open Scope Z_scope.

(** ** C35: values and frame, any scalar arithmetic *)
Theorem C35_complex_expand : forall (K : num) c o m n (a : arr (quat K)) lda (b : arr (cplx K)) ldb A,
  order_char c = Some o -> 0 <= m -> 0 <= n -> 2 * m <= ldb -> holds_mat a lda m n A -> alloc_mat b ldb (2 * m) (2 * n) ->
  returns (complex_expand c m n a lda b ldb) (fun b' => holds_cexp o b' ldb m n A /\ same_but_mat b b' ldb (2 * m) (2 * n)).
Proof. intros K c o m n a lda b ldb A. exact (complex_expand_ok c o m n a lda b ldb A). Qed.
Print Assumptions C35_complex_expand.
Theorem C35_real_expand : forall (K : num) m n (a : arr (quat K)) lda (b : arr K) ldb A,
  0 <= m -> 0 <= n -> 4 * m <= ldb -> holds_mat a lda m n A -> alloc_mat b ldb (4 * m) (4 * n) ->
  returns (real_expand m n a lda b ldb) (fun b' => holds_rexp b' ldb m n A /\ same_but_mat b b' ldb (4 * m) (4 * n)).
Proof. intros K m n a lda b ldb A. exact (hdexp_ok m n a lda b ldb A). Qed.
Print Assumptions C35_real_expand.

(** products: expanding A (M x K), B (K x N) and their quaternion product C gives complex matrices with EC = EA * EB *)
Theorem C35_complex_product : forall (K : num), laws K -> forall ch o m n k (a b c : arr (quat K)) lda ldb ldc A B C (xa xb xc : arr (cplx K)) lxa lxb lxc,
  order_char ch = Some o -> 0 <= m -> 0 <= n -> 0 <= k -> 2 * m <= lxa -> 2 * k <= lxb -> 2 * m <= lxc ->
  holds_mat a lda m k A -> holds_mat b ldb k n B -> holds_mat c ldc m n C ->
  (forall i j, 0 <= i < m -> 0 <= j < n -> C i j = Hsum k (fun l => Hmul (A i l) (B l j))) ->
  alloc_mat xa lxa (2 * m) (2 * k) -> alloc_mat xb lxb (2 * k) (2 * n) -> alloc_mat xc lxc (2 * m) (2 * n) ->
  returns (complex_expand ch m k a lda xa lxa) (fun xa' =>
  returns (complex_expand ch k n b ldb xb lxb) (fun xb' =>
  returns (complex_expand ch m n c ldc xc lxc) (fun xc' =>
    exists EA EB EC, holds_mat xa' lxa (2 * m) (2 * k) EA /\ holds_mat xb' lxb (2 * k) (2 * n) EB /\ holds_mat xc' lxc (2 * m) (2 * n) EC /\
      forall r s, 0 <= r < 2 * m -> 0 <= s < 2 * n -> EC r s = Zsum (2 * k) (fun l => Zmul (EA r l) (EB l s))))).
Proof.
  intros K L ch o m n k a b c lda ldb ldc A B C xa xb xc lxa lxb lxc Ho Hm Hn Hk La Lb Lc HA HB HC EC Xa Xb Xc.
  eapply returns_mono; [apply (complex_expand_ok ch o); eauto|]. intros xa' [Ha _].
  eapply returns_mono; [apply (complex_expand_ok ch o); eauto|]. intros xb' [Hb _].
  eapply returns_mono.
  { apply (complex_expand_ok ch o _ _ _ _ _ _ (fun i j => Hsum k (fun l => Hmul (A i l) (B l j)))); eauto.
    intros i j Hi Hj. rewrite <- EC by auto. apply HC; auto. }
  intros xc' [Hc _]. exists (cexp o m k A), (cexp o k n B), (cexp o m n (fun i j => Hsum k (fun l => Hmul (A i l) (B l j)))).
  refine (conj (cexp_mat _ _ _ _ _ _ Ha) (conj (cexp_mat _ _ _ _ _ _ Hb) (conj (cexp_mat _ _ _ _ _ _ Hc) _))).
  intros r s Hr Hs. apply (cexp_mul L); auto.
Qed.
Print Assumptions C35_complex_product.
Theorem C35_complex_sum : forall (K : num), laws K -> forall ch o m n (a b c : arr (quat K)) lda ldb ldc A B C (xa xb xc : arr (cplx K)) lxa lxb lxc,
  order_char ch = Some o -> 0 <= m -> 0 <= n -> 2 * m <= lxa -> 2 * m <= lxb -> 2 * m <= lxc ->
  holds_mat a lda m n A -> holds_mat b ldb m n B -> holds_mat c ldc m n C ->
  (forall i j, 0 <= i < m -> 0 <= j < n -> C i j = Hadd (A i j) (B i j)) ->
  alloc_mat xa lxa (2 * m) (2 * n) -> alloc_mat xb lxb (2 * m) (2 * n) -> alloc_mat xc lxc (2 * m) (2 * n) ->
  returns (complex_expand ch m n a lda xa lxa) (fun xa' =>
  returns (complex_expand ch m n b ldb xb lxb) (fun xb' =>
  returns (complex_expand ch m n c ldc xc lxc) (fun xc' =>
    exists EA EB EC, holds_mat xa' lxa (2 * m) (2 * n) EA /\ holds_mat xb' lxb (2 * m) (2 * n) EB /\ holds_mat xc' lxc (2 * m) (2 * n) EC /\
      forall r s, 0 <= r < 2 * m -> 0 <= s < 2 * n -> EC r s = Zadd (EA r s) (EB r s)))).
Proof.
  intros K L ch o m n a b c lda ldb ldc A B C xa xb xc lxa lxb lxc Ho Hm Hn La Lb Lc HA HB HC EC Xa Xb Xc.
  eapply returns_mono; [apply (complex_expand_ok ch o); eauto|]. intros xa' [Ha _].
  eapply returns_mono; [apply (complex_expand_ok ch o); eauto|]. intros xb' [Hb _].
  eapply returns_mono.
  { apply (complex_expand_ok ch o _ _ _ _ _ _ (fun i j => Hadd (A i j) (B i j))); eauto.
    intros i j Hi Hj. rewrite <- EC by auto. apply HC; auto. }
  intros xc' [Hc _]. exists (cexp o m n A), (cexp o m n B), (cexp o m n (fun i j => Hadd (A i j) (B i j))).
  refine (conj (cexp_mat _ _ _ _ _ _ Ha) (conj (cexp_mat _ _ _ _ _ _ Hb) (conj (cexp_mat _ _ _ _ _ _ Hc) _))).
  intros r s Hr Hs. apply (cexp_add L).
Qed.
Print Assumptions C35_complex_sum.
(** conjugate transposes: C = A^H quaternionically gives EC = EA^H *)
Theorem C35_complex_adjoint : forall (K : num), laws K -> forall ch o m n (a c : arr (quat K)) lda ldc A C (xa xc : arr (cplx K)) lxa lxc,
  order_char ch = Some o -> 0 <= m -> 0 <= n -> 2 * n <= lxa -> 2 * m <= lxc ->
  holds_mat a lda n m A -> holds_mat c ldc m n C ->
  (forall i j, 0 <= i < m -> 0 <= j < n -> C i j = Hconj (A j i)) ->
  alloc_mat xa lxa (2 * n) (2 * m) -> alloc_mat xc lxc (2 * m) (2 * n) ->
  returns (complex_expand ch n m a lda xa lxa) (fun xa' =>
  returns (complex_expand ch m n c ldc xc lxc) (fun xc' =>
    exists EA EC, holds_mat xa' lxa (2 * n) (2 * m) EA /\ holds_mat xc' lxc (2 * m) (2 * n) EC /\
      forall r s, 0 <= r < 2 * m -> 0 <= s < 2 * n -> EC r s = Zconj (EA s r))).
Proof.
  intros K L ch o m n a c lda ldc A C xa xc lxa lxc Ho Hm Hn La Lc HA HC EC Xa Xc.
  eapply returns_mono; [apply (complex_expand_ok ch o); eauto|]. intros xa' [Ha _].
  eapply returns_mono.
  { apply (complex_expand_ok ch o _ _ _ _ _ _ (fun i j => Hconj (A j i))); eauto.
    intros i j Hi Hj. rewrite <- EC by auto. apply HC; auto. }
  intros xc' [Hc _]. exists (cexp o n m A), (cexp o m n (fun i j => Hconj (A j i))).
  refine (conj (cexp_mat _ _ _ _ _ _ Ha) (conj (cexp_mat _ _ _ _ _ _ Hc) _)).
  intros r s Hr Hs. apply (cexp_conj L); auto.
Qed.
Print Assumptions C35_complex_adjoint.
(** the real 4x4 representation *)
Theorem C35_real_product : forall (K : num), laws K -> forall m n k (a b c : arr (quat K)) lda ldb ldc A B C (xa xb xc : arr K) lxa lxb lxc,
  0 <= m -> 0 <= n -> 0 <= k -> 4 * m <= lxa -> 4 * k <= lxb -> 4 * m <= lxc ->
  holds_mat a lda m k A -> holds_mat b ldb k n B -> holds_mat c ldc m n C ->
  (forall i j, 0 <= i < m -> 0 <= j < n -> C i j = Hsum k (fun l => Hmul (A i l) (B l j))) ->
  alloc_mat xa lxa (4 * m) (4 * k) -> alloc_mat xb lxb (4 * k) (4 * n) -> alloc_mat xc lxc (4 * m) (4 * n) ->
  returns (real_expand m k a lda xa lxa) (fun xa' =>
  returns (real_expand k n b ldb xb lxb) (fun xb' =>
  returns (real_expand m n c ldc xc lxc) (fun xc' =>
    exists EA EB EC, holds_mat xa' lxa (4 * m) (4 * k) EA /\ holds_mat xb' lxb (4 * k) (4 * n) EB /\ holds_mat xc' lxc (4 * m) (4 * n) EC /\
      forall r s, 0 <= r < 4 * m -> 0 <= s < 4 * n -> EC r s = Ksum (4 * k) (fun l => nmul (EA r l) (EB l s))))).
Proof.
  intros K L m n k a b c lda ldb ldc A B C xa xb xc lxa lxb lxc Hm Hn Hk La Lb Lc HA HB HC EC Xa Xb Xc.
  eapply returns_mono; [apply hdexp_ok; eauto|]. intros xa' [Ha _].
  eapply returns_mono; [apply hdexp_ok; eauto|]. intros xb' [Hb _].
  eapply returns_mono.
  { apply (hdexp_ok _ _ _ _ _ _ (fun i j => Hsum k (fun l => Hmul (A i l) (B l j)))); eauto.
    intros i j Hi Hj. rewrite <- EC by auto. apply HC; auto. }
  intros xc' [Hc _]. exists (rexp A), (rexp B), (rexp (fun i j => Hsum k (fun l => Hmul (A i l) (B l j)))).
  refine (conj (rexp_mat _ _ _ _ _ Ha) (conj (rexp_mat _ _ _ _ _ Hb) (conj (rexp_mat _ _ _ _ _ Hc) _))).
  intros r s Hr Hs. apply (rexp_mul L m n); auto.
Qed.
Print Assumptions C35_real_product.
Theorem C35_real_sum : forall (K : num), laws K -> forall m n (a b c : arr (quat K)) lda ldb ldc A B C (xa xb xc : arr K) lxa lxb lxc,
  0 <= m -> 0 <= n -> 4 * m <= lxa -> 4 * m <= lxb -> 4 * m <= lxc ->
  holds_mat a lda m n A -> holds_mat b ldb m n B -> holds_mat c ldc m n C ->
  (forall i j, 0 <= i < m -> 0 <= j < n -> C i j = Hadd (A i j) (B i j)) ->
  alloc_mat xa lxa (4 * m) (4 * n) -> alloc_mat xb lxb (4 * m) (4 * n) -> alloc_mat xc lxc (4 * m) (4 * n) ->
  returns (real_expand m n a lda xa lxa) (fun xa' =>
  returns (real_expand m n b ldb xb lxb) (fun xb' =>
  returns (real_expand m n c ldc xc lxc) (fun xc' =>
    exists EA EB EC, holds_mat xa' lxa (4 * m) (4 * n) EA /\ holds_mat xb' lxb (4 * m) (4 * n) EB /\ holds_mat xc' lxc (4 * m) (4 * n) EC /\
      forall r s, 0 <= r < 4 * m -> 0 <= s < 4 * n -> EC r s = nadd (EA r s) (EB r s)))).
Proof.
  intros K L m n a b c lda ldb ldc A B C xa xb xc lxa lxb lxc Hm Hn La Lb Lc HA HB HC EC Xa Xb Xc.
  eapply returns_mono; [apply hdexp_ok; eauto|]. intros xa' [Ha _].
  eapply returns_mono; [apply hdexp_ok; eauto|]. intros xb' [Hb _].
  eapply returns_mono.
  { apply (hdexp_ok _ _ _ _ _ _ (fun i j => Hadd (A i j) (B i j))); eauto.
    intros i j Hi Hj. rewrite <- EC by auto. apply HC; auto. }
  intros xc' [Hc _]. exists (rexp A), (rexp B), (rexp (fun i j => Hadd (A i j) (B i j))).
  refine (conj (rexp_mat _ _ _ _ _ Ha) (conj (rexp_mat _ _ _ _ _ Hb) (conj (rexp_mat _ _ _ _ _ Hc) _))).
  intros r s Hr Hs. apply (rexp_add L).
Qed.
Print Assumptions C35_real_sum.
Theorem C35_real_adjoint : forall (K : num), laws K -> forall m n (a c : arr (quat K)) lda ldc A C (xa xc : arr K) lxa lxc,
  0 <= m -> 0 <= n -> 4 * n <= lxa -> 4 * m <= lxc ->
  holds_mat a lda n m A -> holds_mat c ldc m n C ->
  (forall i j, 0 <= i < m -> 0 <= j < n -> C i j = Hconj (A j i)) ->
  alloc_mat xa lxa (4 * n) (4 * m) -> alloc_mat xc lxc (4 * m) (4 * n) ->
  returns (real_expand n m a lda xa lxa) (fun xa' =>
  returns (real_expand m n c ldc xc lxc) (fun xc' =>
    exists EA EC, holds_mat xa' lxa (4 * n) (4 * m) EA /\ holds_mat xc' lxc (4 * m) (4 * n) EC /\
      forall r s, 0 <= r < 4 * m -> 0 <= s < 4 * n -> EC r s = EA s r)).
Proof.
  intros K L m n a c lda ldc A C xa xc lxa lxc Hm Hn La Lc HA HC EC Xa Xc.
  eapply returns_mono; [apply hdexp_ok; eauto|]. intros xa' [Ha _].
  eapply returns_mono.
  { apply (hdexp_ok _ _ _ _ _ _ (fun i j => Hconj (A j i))); eauto.
    intros i j Hi Hj. rewrite <- EC by auto. apply HC; auto. }
  intros xc' [Hc _]. exists (rexp A), (rexp (fun i j => Hconj (A j i))).
  refine (conj (rexp_mat _ _ _ _ _ Ha) (conj (rexp_mat _ _ _ _ _ Hc) _)).
  intros r s Hr Hs. apply (rexp_conj L).
Qed.
Print Assumptions C35_real_adjoint.

(** concrete: two quaternions side by side (M = 1, N = 2), LDB = 3 > 2M, both orders; and a 4x4 real tile *)
Definition q12 : arr (quat Znum) := arr_list [zq 1 2 3 4; zq 5 6 7 8].
Definition zfill (n : nat) : arr (cplx Znum) := arr_list (repeat (zc 0 0) n).
Example C35_concrete :
  match complex_expand "F" 1 2 q12 1 (zfill 12) 3, complex_expand "S" 1 2 q12 1 (zfill 12) 3, real_expand 1 1 q12 1 (arr_list (A := Znum) (repeat 0 16)) 4 with
  | Ok f, Ok s, Ok r =>
     map f [0;1;3;4;6;7;9;10] = map Some [zc 1 2; zc (-3) 4; zc 3 4; zc 1 (-2); zc 5 6; zc (-7) 8; zc 7 8; zc 5 (-6)] /\
     map s [0;1;3;4;6;7;9;10] = map Some [zc 1 2; zc (-3) 4; zc 5 6; zc (-7) 8; zc 3 4; zc 1 (-2); zc 7 8; zc 5 (-6)] /\
     map r [0;1;2;3;4;5;6;7] = map Some [1; -2; -3; -4; 2; 1; 4; -3]
  | _, _, _ => False end /\
  alloc_mat (zfill 12) 3 2 4.
Proof.
  split; [vm_compute; repeat split; reflexivity|].
  intros r c Hr Hc. assert (Hrc : In r [0;1] /\ In c [0;1;2;3]) by (cbn; lia). destruct Hrc as [H1 H2].
  repeat (destruct H1 as [<-|H1]; [repeat (destruct H2 as [<-|H2]; [vm_compute; discriminate|]); destruct H2|]). destruct H1.
Qed.

(** ** C36 *)
(** Any arithmetic in which negation is an involution, either UPLO; with UPLO = 'U' or 'u' no assumption at all *)
Theorem C36_contract_expand : forall (K : num) c u o m n (a : arr (quat K)) lda (b : arr (cplx K)) ldb (a2 : arr (quat K)) lda2 A,
  order_char c = Some o -> (u = "U"%char \/ u = "u"%char \/ forall x : K, nopp (nopp x) = x) ->
  0 <= m -> 0 <= n -> 2 * m <= ldb -> m <= lda2 -> holds_mat a lda m n A -> alloc_mat b ldb (2 * m) (2 * n) -> alloc_mat a2 lda2 m n ->
  returns (complex_expand c m n a lda b ldb) (fun b' =>
  returns (complex_contract c u m n a2 lda2 b' ldb) (fun a' => holds_mat a' lda2 m n A /\ same_but_mat a2 a' lda2 m n)).
Proof.
  intros K c u o m n a lda b ldb a2 lda2 A Ho Hu Hm Hn Lb La HA Xb Xa.
  eapply returns_mono; [apply (complex_expand_ok c o); eauto|]. intros b' [Hb _]. apply (contract_expanded c u o); auto.
Qed.
Print Assumptions C36_contract_expand.
(** IEEE negation is an involution, NaN and infinities included *)
Theorem C36_hypothesis_ieee : forall fused (x : F64 fused), nopp (nopp x) = x.
Proof. intros fused [s|s| |s m e H]; cbn; rewrite ?negb_involutive; reflexivity. Qed.
Print Assumptions C36_hypothesis_ieee.
(** the other direction, for complex matrices of the symmetry a quaternion matrix has *)
Theorem C36_expand_contract : forall (K : num) c u o m n (a : arr (quat K)) lda (b : arr (cplx K)) ldb b2 ldb2 Zm,
  order_char c = Some o -> 0 <= m -> 0 <= n -> m <= lda -> 2 * m <= ldb2 -> alloc_mat a lda m n -> alloc_mat b2 ldb2 (2 * m) (2 * n) ->
  holds_mat b ldb (2 * m) (2 * n) Zm ->
  (forall i j, 0 <= i < m -> 0 <= j < n ->
     Zm (brow o m i 1) (brow o n j 0) = Zopp (Zconj (Zm (brow o m i 0) (brow o n j 1))) /\
     Zm (brow o m i 1) (brow o n j 1) = Zconj (Zm (brow o m i 0) (brow o n j 0))) ->
  (u = "U"%char \/ u = "u"%char \/ forall x : K, nopp (nopp x) = x) ->
  returns (complex_contract c u m n a lda b ldb) (fun a' =>
  returns (complex_expand c m n a' lda b2 ldb2) (fun b' =>
    holds_mat b' ldb2 (2 * m) (2 * n) Zm /\ same_but_mat b2 b' ldb2 (2 * m) (2 * n))).
Proof. intros K c u o m n a lda b ldb b2 ldb2 Zm. exact (expand_contracted c u o m n a lda b ldb b2 ldb2 Zm). Qed.
Print Assumptions C36_expand_contract.
(** any other ORDER fails the assertion before touching memory *)
Theorem C36_other_order : forall (K : num) c u m n (a : arr (quat K)) lda (b : arr (cplx K)) ldb,
  order_char c = None -> complex_expand c m n a lda b ldb = Abort /\ complex_contract c u m n a lda b ldb = Abort.
Proof.
  intros K c u m n a lda b ldb. unfold order_char, complex_expand, complex_contract.
  destruct (Ascii.eqb c "F"); [discriminate|]. destruct (Ascii.eqb c "S"); [discriminate|]. split; reflexivity.
Qed.
Print Assumptions C36_other_order.
Example C36_concrete :
  match complex_expand "S" 1 2 q12 1 (zfill 12) 3 with
  | Ok b => match complex_contract "S" "L" 1 2 (arr_list [zq 0 0 0 0; zq 9 9 9 9; zq 0 0 0 0]) 2 b 3 with
            | Ok a => map a [0;1;2;3] = [Some (zq 1 2 3 4); Some (zq 9 9 9 9); Some (zq 5 6 7 8); None] | _ => False end
  | _ => False end.
Proof. vm_compute. reflexivity. Qed.
