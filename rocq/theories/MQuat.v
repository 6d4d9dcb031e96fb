(** Model of the quaternion operators.
    include/haxx/haxx_quaternion_op.hpp, haxx_scalar_op.hpp, haxx_complex_op.hpp, haxx_quaternion_reduction.hpp.
    In-place operators are functions returning the new value of the left operand. *)
From Coq Require Import ZArith Bool.
From Verif Require Import Num.
Local Open Scope num_scope.

Section Q.
Context {K : num}.
Local Notation quat := (quat K). Local Notation cplx := (cplx K).

(* haxx_def.hpp:50-55, quaternion(a,b,c,d) with defaults _F() *)
Definition q_of_real (a : K) : quat := Quat a n0 n0 n0.
(* haxx_def.hpp:57-63, quaternion(_CF a, _CF b = _CF()) *)
Definition q_of_cplx2 (a b : cplx) : quat := Quat (re a) (im a) (re b) (im b).
(* haxx_def.hpp:57-63, second argument defaulted *)
Definition q_of_cplx (a : cplx) : quat := q_of_cplx2 a (Cplx n0 n0).

(* haxx_quaternion_op.hpp:38-47 *)
Definition q_addeq (p q : quat) : quat :=
  Quat (qr p + qr q) (qi p + qi q) (qj p + qj q) (qk p + qk q).
(* haxx_quaternion_op.hpp:54-63 *)
Definition q_subeq (p q : quat) : quat :=
  Quat (qr p - qr q) (qi p - qi q) (qj p - qj q) (qk p - qk q).
(* haxx_quaternion_op.hpp:72-76 *)
Definition q_neg (x : quat) : quat := Quat (- qr x) (- qi x) (- qj x) (- qk x).
(* haxx_quaternion_op.hpp:83-90 *)
Definition q_add (x y : quat) : quat := let r := x in q_addeq r y.
(* haxx_quaternion_op.hpp:96-103 *)
Definition q_sub (x y : quat) : quat := let r := x in q_subeq r y.
(* haxx_quaternion_op.hpp:109-129 (the portable template) *)
Definition q_mul (x y : quat) : quat :=
  Quat (qr x * qr y - qi x * qi y - qj x * qj y - qk x * qk y)
       (qr x * qi y + qi x * qr y + qj x * qk y - qk x * qj y)
       (qr x * qj y - qi x * qk y + qj x * qr y + qk x * qi y)
       (qr x * qk y + qi x * qj y - qj x * qi y + qk x * qr y).
(* haxx_quaternion_op.hpp:157-162, as written: the last conjunct compares q with q *)
Definition q_eqb (p q : quat) : bool :=
  neqb (qr p) (qr q) && neqb (qi p) (qi q) && neqb (qj p) (qj q) && neqb (qk q) (qk q).
(* haxx_quaternion_op.hpp:169-173 *)
Definition q_neqb (p q : quat) : bool := negb (q_eqb p q).

(* haxx_scalar_op.hpp:26-35 *)
Definition q_set_real (q : quat) (t : K) : quat := Quat t n0 n0 n0.
(* haxx_scalar_op.hpp:49-54 *)
Definition q_addeq_r (q : quat) (t : K) : quat := Quat (qr q + t) (qi q) (qj q) (qk q).
(* haxx_scalar_op.hpp:66-71 *)
Definition q_subeq_r (q : quat) (t : K) : quat := Quat (qr q - t) (qi q) (qj q) (qk q).
(* haxx_scalar_op.hpp:83-92 *)
Definition q_muleq_r (q : quat) (t : K) : quat := Quat (qr q * t) (qi q * t) (qj q * t) (qk q * t).
(* haxx_scalar_op.hpp:105-114 *)
Definition q_diveq_r (q : quat) (t : K) : quat :=
  Quat (ndiv (qr q) t) (ndiv (qi q) t) (ndiv (qj q) t) (ndiv (qk q) t).
(* haxx_scalar_op.hpp:131-137 *)
Definition q_add_r (x : quat) (y : K) : quat := q_addeq_r x y.
(* haxx_scalar_op.hpp:150-156 *)
Definition r_add_q (x : K) (y : quat) : quat := q_addeq_r y x.
(* haxx_scalar_op.hpp:169-175 *)
Definition q_sub_r (x : quat) (y : K) : quat := q_subeq_r x y.
(* haxx_scalar_op.hpp:188-194 *)
Definition r_sub_q (x : K) (y : quat) : quat := q_addeq_r (q_neg y) x.
(* haxx_scalar_op.hpp:207-213 *)
Definition q_mul_r (x : quat) (y : K) : quat := q_muleq_r x y.
(* haxx_scalar_op.hpp:225-231 *)
Definition r_mul_q (x : K) (y : quat) : quat := q_muleq_r y x.
(* haxx_scalar_op.hpp:243-249 *)
Definition q_div_r (x : quat) (y : K) : quat := q_diveq_r x y.

(* haxx_complex_op.hpp:26-35 *)
Definition q_set_cplx (q : quat) (z : cplx) : quat := Quat (re z) (im z) n0 n0.
(* haxx_complex_op.hpp:47-53 *)
Definition q_addeq_c (q : quat) (z : cplx) : quat := Quat (qr q + re z) (qi q + im z) (qj q) (qk q).
(* haxx_complex_op.hpp:66-72 *)
Definition q_subeq_c (q : quat) (z : cplx) : quat := Quat (qr q - re z) (qi q - im z) (qj q) (qk q).
(* haxx_complex_op.hpp:88-95 *)
Definition q_add_c (x : quat) (y : cplx) : quat := q_addeq_c x y.
(* haxx_complex_op.hpp:108-115 *)
Definition c_add_q (x : cplx) (y : quat) : quat := q_addeq_c y x.
(* haxx_complex_op.hpp:128-135 *)
Definition q_sub_c (x : quat) (y : cplx) : quat := q_subeq_c x y.
(* haxx_complex_op.hpp:148-155 *)
Definition c_sub_q (x : cplx) (y : quat) : quat := q_addeq_c (q_neg y) x.
(* haxx_complex_op.hpp:170-183 *)
Definition q_mul_c (x : quat) (y : cplx) : quat :=
  Quat (qr x * re y - qi x * im y) (qr x * im y + qi x * re y)
       (qj x * re y + qk x * im y) (qk x * re y - qj x * im y).
(* haxx_complex_op.hpp:196-209 *)
Definition c_mul_q (x : cplx) (y : quat) : quat :=
  Quat (re x * qr y - im x * qi y) (re x * qi y + im x * qr y)
       (re x * qj y - im x * qk y) (re x * qk y + im x * qj y).

(* haxx_quaternion_reduction.hpp:24-31 *)
Definition q_norm (q : quat) : K :=
  let nmsq := qr q * qr q in
  let nmsq := nmsq + qi q * qi q in
  let nmsq := nmsq + qj q * qj q in
  let nmsq := nmsq + qk q * qk q in
  nsqrt nmsq.
(* haxx_quaternion_reduction.hpp:37-41 *)
Definition q_conj (q : quat) : quat := Quat (qr q) (- qi q) (- qj q) (- qk q).
(* haxx_quaternion_reduction.hpp:67-72 *)
Definition q_inv (q : quat) : quat :=
  let nrm := q_norm q in q_div_r (q_div_r (q_conj q) nrm) nrm.
(* haxx_quaternion_reduction.hpp:78-83 *)
Definition q_versor (q : quat) : quat := let nrm := q_norm q in q_div_r q nrm.
(* haxx_scalar_op.hpp:261-267 *)
Definition r_div_q (x : K) (y : quat) : quat := q_muleq_r (q_inv y) x.
(* haxx_quaternion_reduction.hpp:89-93 *)
Definition q_comm (p q : quat) : quat := q_sub (q_mul p q) (q_mul q p).
(* haxx_quaternion_reduction.hpp:95-102 *)
Definition q_comm_qc (p : quat) (q : cplx) : quat := q_sub (q_mul_c p q) (c_mul_q q p).
(* haxx_quaternion_reduction.hpp:104-109 *)
Definition q_comm_cq (p : cplx) (q : quat) : quat := q_neg (q_comm_qc q p).
(* haxx_quaternion_reduction.hpp:112-117 *)
Definition q_comm_rq (p : K) (q : quat) : quat := q_of_real n0.
(* haxx_quaternion_reduction.hpp:119-124 *)
Definition q_comm_qr (q : quat) (p : K) : quat := q_of_real n0.
(* haxx_quaternion_reduction.hpp:128-136, SmartConj on double, complex, quaternion *)
Definition smartconj_r (x : K) : K := x.
(* haxx_quaternion_reduction.hpp:128-136 *)
Definition smartconj_c (z : cplx) : cplx := Cplx (re z) (- im z).
(* haxx_quaternion_reduction.hpp:128-136 *)
Definition smartconj_q (q : quat) : quat := q_conj q.
End Q.
