(** C23, continued: what GEMV does on the shapes where C23 fails. *)
From Coq Require Import ZArith Ascii List Lia Bool.
From Verif Require Import Num Res ResFacts Spec MQuat MForL2 RawL2b PropsL1.
Import ListNotations.
Local Open Scope Z_scope.

(** The eight GEMV kernels other than (real, real), any shape: x is read as a vector of LENX = (if 'T' then N else M) elements and
    y as one of LENY = (if 'T' then M else N) elements (exchanged for 'N' and 'T'), BETA is applied to the first LENY elements of
    y, ALPHA*op(A)*x is added to the first op_rows ones, nothing else is written.
    Partial: a description of the computed values, not the property; without the two strided defects refuted in PropsL2. *)
Theorem C23_gemv_actual_partial : forall (K : num), laws K -> forall c o m n alpha (a : arr (quat K)) lda (x : arr (quat K)) incx beta (y : arr (quat K)) incy A v w t,
  trans_char c = Some o -> 0 < m -> 0 < n -> incx <> 0 -> incy <> 0 ->
  ~ (exists r s, alpha = SR r /\ beta = SR s) ->
  (incy = 1 \/ ~ (exists r q, alpha = SR r /\ beta = SH q) /\ ~ (c = "N"%char /\ exists q, alpha = SH q)) ->
  let lenx := match o with OpT => n | _ => m end in let leny := match o with OpT => m | _ => n end in
  let rows := op_rows o m n in let cols := op_cols o m n in
  (emb beta = H1 -> t = rows) -> (emb beta <> H1 -> t = Z.max rows leny) ->
  holds_mat a lda m n A -> (forall j, 0 <= j < cols -> x (vpos lenx incx j) = Some (v j)) ->
  (forall i, 0 <= i < t -> y (vpos leny incy i) = Some (w i)) ->
  returns (hgemv c m n alpha a lda x incx beta y incy) (fun y' =>
    (forall i, 0 <= i < t -> let b := if i <? leny then emb beta else H1 in
       y' (vpos leny incy i) = Some (if i <? rows then gemv_elt o cols (emb alpha) A v b w i else Hmul b (w i))) /\
    (forall p, (forall i, 0 <= i < t -> p <> vpos leny incy i) -> y' p = y p)).
Proof. exact @hgemv_actual. Qed.
Print Assumptions C23_gemv_actual_partial.
(** M = 2, N = 1, TRANS = 'N', complex scalars: y(2) keeps its old value times 1 *)
Example C23_actual_concrete :
  match hgemv "N" 2 1 (SC (zc 1 0)) (vZ [1;1]) 2 (vZ [1]) 1 (SC (zc 0 0)) (vZ [5;5]) 1 with
  | Ok y' => y' 0 = Some (zq 0 0 0 (-2)) /\ y' 1 = Some (zq 5 0 0 (-7)) | _ => False end.
Proof. vm_compute. split; reflexivity. Qed.
