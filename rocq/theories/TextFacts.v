(** Proofs about the text form of quaternions. *)
From Coq Require Import ZArith Ascii List Bool Lia.
From Verif Require Import Num MText.
Import ListNotations.
Local Open Scope Z_scope.

Section T.
Context {K : num} {Fmt : Type}.
Variable pr : Fmt -> K -> list ascii.
Local Open Scope char_scope.
Definition body (f : Fmt) (x : quat K) : list ascii :=
  "(" :: pr f (qr x) ++ "," :: pr f (qi x) ++ "," :: pr f (qj x) ++ "," :: pr f (qk x) ++ [")"].

Lemma insert0 (os : ostream Fmt) s : os_width os = 0 -> os_out (insert os s) = os_out os ++ s.
Proof.
  intros E. unfold insert; cbn [os_out]. rewrite E. replace (Z.to_nat (0 - Z.of_nat (length s))) with O by lia.
  destruct (os_left os); cbn [repeat]; rewrite ?app_nil_r; reflexivity.
Qed.
Lemma insert_fmt (os : ostream Fmt) s : os_fmt (insert os s) = os_fmt os.
Proof. reflexivity. Qed.
Lemma put_q_text (os : ostream Fmt) x : put_q pr os x = insert os (body (os_fmt os) x).
Proof.
  unfold put_q, insert_num. cbv zeta. apply (f_equal (insert os)).
  rewrite !insert0 by reflexivity. rewrite !insert_fmt. cbn [os_out os_fmt]. unfold body.
  rewrite <- !app_assoc. reflexivity.
Qed.
Lemma to_string_text f x : to_string pr f x = body f x.
Proof. unfold to_string. rewrite put_q_text, insert0 by reflexivity. reflexivity. Qed.

Lemma split_at (c : ascii) (a b : list ascii) s t : ~ In c a -> ~ In c b -> a ++ c :: s = b ++ c :: t -> a = b /\ s = t.
Proof.
  revert b. induction a as [|u a IH]; intros [|v b] Ha Hb E; cbn in *.
  - injection E as ->. auto.
  - injection E as -> _. exfalso. apply Hb. left. reflexivity.
  - injection E as -> _. exfalso. apply Ha. left. reflexivity.
  - injection E as -> E. destruct (IH b) as [-> ->]; [tauto|tauto|exact E|]. auto.
Qed.
Lemma body_inj f (x y : quat K) s t :
  (forall a, ~ In "," (pr f a) /\ ~ In ")" (pr f a)) -> (forall a b, pr f a = pr f b -> a = b) ->
  body f x ++ s = body f y ++ t -> x = y /\ s = t.
Proof.
  intros Hs Hi E. destruct x as [x0 x1 x2 x3], y as [y0 y1 y2 y3]. unfold body in E. cbn [qr qi qj qk app] in E.
  injection E as E. rewrite <- !app_assoc in E. cbn [app] in E.
  apply split_at in E; try apply Hs. destruct E as [E0 E]. rewrite <- !app_assoc in E. cbn [app] in E.
  apply split_at in E; try apply Hs. destruct E as [E1 E]. rewrite <- !app_assoc in E. cbn [app] in E.
  apply split_at in E; try apply Hs. destruct E as [E2 E]. rewrite <- !app_assoc in E. cbn [app] in E.
  apply split_at in E; try apply Hs. destruct E as [E3 E].
  apply Hi in E0; apply Hi in E1; apply Hi in E2; apply Hi in E3. subst. auto.
Qed.
Lemma bodies_inj_aux f :
  (forall a, ~ In "," (pr f a) /\ ~ In ")" (pr f a)) -> (forall a b, pr f a = pr f b -> a = b) ->
  forall xs ys : list (quat K), flat_map (body f) xs = flat_map (body f) ys -> xs = ys.
Proof.
  intros Hs Hi. induction xs as [|x xs IH]; intros [|y ys] E.
  - reflexivity.
  - discriminate E.
  - discriminate E.
  - change (body f x ++ flat_map (body f) xs = body f y ++ flat_map (body f) ys) in E.
    destruct (body_inj f x y _ _ Hs Hi E) as [-> E']. f_equal. exact (IH ys E').
Qed.
Lemma flat_text f xs : flat_map (to_string pr f) xs = flat_map (body f) xs.
Proof. apply flat_map_ext. intros x. apply to_string_text. Qed.
Lemma bodies_inj f :
  (forall a, ~ In "," (pr f a) /\ ~ In ")" (pr f a)) -> (forall a b, pr f a = pr f b -> a = b) ->
  forall xs ys : list (quat K), flat_map (to_string pr f) xs = flat_map (to_string pr f) ys -> xs = ys.
Proof. intros Hs Hi xs ys E. rewrite !flat_text in E. exact (bodies_inj_aux f Hs Hi xs ys E). Qed.
Fixpoint put_all (os : ostream Fmt) (xs : list (quat K)) : ostream Fmt :=
  match xs with [] => os | x :: r => put_all (put_q pr os x) r end.
Lemma put_all_text os xs : os_width os = 0 -> os_out (put_all os xs) = os_out os ++ flat_map (to_string pr (os_fmt os)) xs.
Proof.
  revert os. induction xs as [|x xs IH]; intros os E; cbn [put_all flat_map].
  - rewrite app_nil_r. reflexivity.
  - rewrite put_q_text, IH by reflexivity. cbn [os_fmt insert]. rewrite insert0 by exact E.
    rewrite to_string_text, <- app_assoc. reflexivity.
Qed.
End T.
