(** C57: the text form of a quaternion. *)
From Coq Require Import ZArith Ascii String List Bool Lia.
From Verif Require Import Num MText TextFacts.
Import ListNotations.
Local Open Scope Z_scope.
Local Open Scope char_scope.
Local Open Scope list_scope.

(** "(a,b,c,d)", each component formatted with the stream's own flags, locale and precision, the whole padded to the field width;
    the width is consumed, the rest of the format is untouched *)
Theorem C57_insertion : forall (K : num) (Fmt : Type) (pr : Fmt -> K -> list ascii) (os : ostream Fmt) (x : quat K),
  let f := os_fmt os in
  let text := "(" :: pr f (qr x) ++ "," :: pr f (qi x) ++ "," :: pr f (qj x) ++ "," :: pr f (qk x) ++ [")"] in
  exists l r,
    os_out (put_q pr os x) = os_out os ++ repeat (os_fill os) l ++ text ++ repeat (os_fill os) r /\
    Z.of_nat (l + r) = Z.max 0 (os_width os - Z.of_nat (List.length text)) /\
    (if os_left os then l = O else r = O) /\
    os_width (put_q pr os x) = 0 /\ os_fmt (put_q pr os x) = f /\ os_left (put_q pr os x) = os_left os /\ os_fill (put_q pr os x) = os_fill os.
Proof.
  intros K Fmt pr os x f text. rewrite put_q_text. fold text.
  set (pad := Z.to_nat (os_width os - Z.of_nat (List.length text))).
  exists (if os_left os then O else pad), (if os_left os then pad else O).
  change (body pr (os_fmt os) x) with text. unfold insert; cbn [os_out os_width os_fmt os_left os_fill]. fold pad.
  destruct (os_left os); cbn [repeat app]; rewrite ?app_nil_r; repeat split; subst pad; lia.
Qed.
Print Assumptions C57_insertion.
(** If the component texts identify the component and contain no ',' and no ')' (the "C" locale), the text identifies the
    quaternion, and a sequence of quaternions written without separators identifies the sequence. *)
Theorem C57_text_identifies_partial : forall (K : num) (Fmt : Type) (pr : Fmt -> K -> list ascii) (f : Fmt),
  (forall a, ~ In "," (pr f a) /\ ~ In ")" (pr f a)) -> (forall a b, pr f a = pr f b -> a = b) ->
  (forall x y : quat K, to_string pr f x = to_string pr f y -> x = y) /\
  (forall xs ys (os : ostream Fmt), os_fmt os = f -> os_width os = 0 ->
     os_out (put_all pr os xs) = os_out (put_all pr os ys) -> xs = ys).
Proof.
  intros K Fmt pr f Hs Hi. split.
  - intros x y E. rewrite !to_string_text in E. apply (body_inj pr f x y [] [] Hs Hi). rewrite E. reflexivity.
  - intros xs ys os Ef Ew E. rewrite !put_all_text in E by exact Ew. apply app_inv_head in E. rewrite Ef in E.
    exact (bodies_inj pr f Hs Hi xs ys E).
Qed.
Print Assumptions C57_text_identifies_partial.
(** Where the decimal separator is a comma the text does not identify the quaternion, although every component text identifies
    its component: components are tenths (15 is 1.5), printed without a trailing ",0". *)
Definition digits_de (n : Z) : list ascii := [ascii_of_nat (Z.to_nat (48 + n))].
Definition pr_de (_ : unit) (n : Z) : list ascii :=
  if Z.eqb (n mod 10) 0 then digits_de (n / 10) else digits_de (n / 10) ++ [","] ++ digits_de (n mod 10).
Theorem C57_comma_locale_refuted :
  to_string (K:=Znum) pr_de tt (zq 15 20 30 40) = to_string (K:=Znum) pr_de tt (zq 10 52 30 40) /\
  to_string (K:=Znum) pr_de tt (zq 15 20 30 40) = list_ascii_of_string "(1,5,2,3,4)" /\ zq 15 20 30 40 <> zq 10 52 30 40.
Proof. refine (conj _ (conj _ _)); [vm_compute; reflexivity|vm_compute; reflexivity|discriminate]. Qed.
Print Assumptions C57_comma_locale_refuted.
(** non-vacuity: a component printer meeting both hypotheses exists (unary with sign), and a padded example *)
Definition pr_un (_ : unit) (n : Z) : list ascii := (if Z.ltb n 0 then ["-"] else []) ++ repeat "1" (Z.abs_nat n).
Example C57_concrete :
  (forall a, ~ In "," (pr_un tt a) /\ ~ In ")" (pr_un tt a)) /\ (forall a b, pr_un tt a = pr_un tt b -> a = b) /\
  os_out (put_q (K:=Znum) pr_un (OS tt false 13 "*" ["x"]) (zq 1 (-2) 0 3)) = list_ascii_of_string "x*(1,-11,,111)".
Proof.
  refine (conj _ (conj _ _)).
  - intros a. split; unfold pr_un; rewrite in_app_iff; intros [Hin|Hin];
      (apply repeat_spec in Hin; discriminate) || (destruct (Z.ltb a 0); cbn in Hin; [destruct Hin as [Hin|[]]; discriminate|exact Hin]).
  - intros a b E. unfold pr_un in E. destruct (Z.ltb_spec a 0), (Z.ltb_spec b 0); cbn [app] in E.
    + injection E as E. apply (f_equal (@List.length ascii)) in E. rewrite !repeat_length in E. lia.
    + destruct (Z.abs_nat b); discriminate.
    + destruct (Z.abs_nat a); discriminate.
    + apply (f_equal (@List.length ascii)) in E. rewrite !repeat_length in E. lia.
  - vm_compute. reflexivity.
Qed.
