(** Specification vocabulary for norm, inverse and versor in double precision. *)
From Coq Require Import ZArith Reals.
From Flocq Require Import Core.Raux Core.Zaux IEEE754.BinarySingleNaN.
From Verif Require Import Num NumR F64 SpecErr.
Local Open Scope R_scope.

(** exact squared norm and exact norm of the real quaternion that q denotes *)
Definition nrm2 {f} (q : quat (F64 f)) : R := B2R (qr q) * B2R (qr q) + B2R (qi q) * B2R (qi q) + B2R (qj q) * B2R (qj q) + B2R (qk q) * B2R (qk q).
Definition nrm {f} (q : quat (F64 f)) : R := sqrt (nrm2 q).
(** far from overflow and underflow of the squares: 2^-480 <= |q| <= 2^480 *)
Definition moderate {f} (q : quat (F64 f)) : Prop := fin q /\ bpow radix2 (-960) <= nrm2 q <= bpow radix2 960.
(** every component of v is finite and within e of the real quaternion r *)
Definition qnear {f} (v : quat (F64 f)) (r : quat Rnum) (e : R) : Prop :=
  fin v /\ Rabs (B2R (qr v) - qr r) <= e /\ Rabs (B2R (qi v) - qi r) <= e /\ Rabs (B2R (qj v) - qj r) <= e /\ Rabs (B2R (qk v) - qk r) <= e.
