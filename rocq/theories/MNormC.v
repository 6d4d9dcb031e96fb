(** norm, inv and versor as an optimising compiler may evaluate them: C++ allows the implementation to contract
    "nmsq += x * x" (haxx_quaternion_reduction.hpp:26-28) into one fused multiply-add, which GCC does by default when FMA is enabled.
    Simplification: all three accumulations are contracted or (K := F64 false) none. *)
From Verif Require Import Num MQuat.
(** haxx_quaternion_reduction.hpp:24-31 as a compiler may contract it: each "nmsq += x * x" one fused multiply-add *)
Definition q_norm_contracted {K : num} (q : quat K) : K :=
  nsqrt (nfma (qk q) (qk q) (nfma (qj q) (qj q) (nfma (qi q) (qi q) (nmul (qr q) (qr q))))).
(** haxx_quaternion_reduction.hpp:67-72, 78-83 with that norm *)
Definition q_inv_contracted {K : num} (q : quat K) : quat K := let nrm := q_norm_contracted q in q_div_r (q_div_r (q_conj q) nrm) nrm.
Definition q_versor_contracted {K : num} (q : quat K) : quat K := let nrm := q_norm_contracted q in q_div_r q nrm.
