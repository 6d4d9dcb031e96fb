(** C79: packing in every arithmetic.  The layout of C31 and C77 needs no law of the scalars: what the text of TPACK and NPACK (include/hblas/pack/pack.hpp:27-125,
    131-229) leaves in the buffer is stated here operation by operation, so the statement holds exactly for binary64, NaNs, infinities and signed zeros
    included (NaN payloads are not modelled: F64.v has one NaN).  ALPHA is absent, real or complex: the kinds the optimised GEMM is built for (src/hblas/cxx/hblas3/Gemm.cmake:7-10). *)
From Coq Require Import ZArith Lia Bool Ascii String List.
From Flocq Require Import IEEE754.BinarySingleNaN.
From Verif Require Import Num Res ResFacts Spec SpecFacts MQuat MSimd SimdFacts MPack PackFacts F64 PropsL3 TSyntax TSem MSrcT CSyntax CSem PropsSrcT.
Import ListNotations.
Local Open Scope string_scope.
Local Open Scope Z_scope.

Section S.
Context {K : num}.
(** what an element becomes: its imaginary components change sign if conjugation is asked; a real ALPHA multiplies each component once; a complex ALPHA = z takes
    four products and two differences, (r z_r - i z_i) + (r z_i - i (-z_r)) i for the first two components, and the same for the last two *)
Definition conj_elt (cnj : bool) (q : quat K) : quat K := if cnj then Quat (qr q) (nopp (qi q)) (nopp (qj q)) (nopp (qk q)) else q.
Definition scale_elt (alpha : option (car K + cplx K)) (q : quat K) : quat K :=
  match alpha with
  | None => q
  | Some (inl a) => Quat (nmul a (qr q)) (nmul a (qi q)) (nmul a (qj q)) (nmul a (qk q))
  | Some (inr z) =>
      Quat (nsub (nmul (qr q) (re z)) (nmul (qi q) (im z))) (nsub (nmul (qr q) (im z)) (nmul (qi q) (nopp (re z))))
           (nsub (nmul (qj q) (re z)) (nmul (qk q) (im z))) (nsub (nmul (qj q) (im z)) (nmul (qk q) (nopp (re z))))
  end.
Definition as_scal (alpha : option (car K + cplx K)) : option (scal K) :=
  match alpha with None => None | Some (inl a) => Some (SR a) | Some (inr z) => Some (SC z) end.
(** strips of pairs: the first [R] rows (or columns), two at a time, each of [len] elements; a missing last one counts as zeros, which are conjugated and scaled too
    (so that in binary64 the padding of a conjugated panel holds negative zeros) *)
Definition packed_any (pair : quat K -> quat K -> quat K * quat K) (cnj : bool) (alpha : option (car K + cplx K)) (R len : Z) (F : Z -> Z -> quat K) (buf : arr (quat K)) : Prop :=
  forall g l, 0 <= g -> 2 * g < R -> 0 <= l < len ->
    let u := scale_elt alpha (conj_elt cnj (F (2 * g) l)) in
    let v := scale_elt alpha (conj_elt cnj (if 2 * g + 1 <? R then F (2 * g + 1) l else Quat n0 n0 n0 n0)) in
    buf (2 * (g * len + l)) = Some (fst (pair u v)) /\ buf (2 * (g * len + l) + 1) = Some (snd (pair u v)).

Lemma pre_any cnj alpha (q : quat K) : pre cnj (as_scal alpha) q = scale_elt alpha (conj_elt cnj q).
Proof. destruct q as [r i j k]; destruct alpha as [[a|[z w]]|], cnj; reflexivity. Qed.
Lemma panels_any o cnj alpha R len F (buf : arr (quat K)) : panels o cnj (as_scal alpha) R len F buf ->
  packed_any (match o with T1 => pairA | T2 => pairB end) cnj alpha R len F buf.
Proof.
  intros Hp g l Hg HR Hl. cbv zeta. destruct (Hp g Hg HR l Hl) as [E1 E2]. rewrite !pre_any in E1, E2.
  assert (Hk : forall x y : quat K, pk o x y = (match o with T1 => pairA | T2 => pairB end) x y) by (destruct o; reflexivity).
  rewrite Hk in E1, E2. unfold padrow in E1, E2. replace (2 * g <? R) with true in E1, E2 by (symmetry; apply Z.ltb_lt; lia).
  change (Quat n0 n0 n0 n0) with (H0 (K := K)). rewrite <- E1, <- E2. split; f_equal; lia.
Qed.
End S.

Lemma alloc_some {K : num} (buf : arr (quat K)) n : (forall p, 0 <= p < n -> buf p <> None) -> allocated buf 0 n.
Proof. intros H p Hp. specialize (H p Hp). destruct (buf p) as [q|]; [exists q; reflexivity|congruence]. Qed.

(** ** C79 *)
Theorem C79_tpack : forall (K : num) fma fuel (o : packop) cnj (alpha : option (car K + cplx K)) m n (x : arr (quat K)) x0 ldx a0 a1 (buf : arr (quat K)) F,
  0 <= m -> 0 <= n -> (Z.to_nat m < fuel)%nat -> (Z.to_nat n < fuel)%nat ->
  (forall i j, 0 <= i < m -> 0 <= j < n -> x (x0 + i + j * ldx) = Some (F i j)) ->
  (forall p, 0 <= p < 2 * ((n + 1) / 2) * m -> buf p <> None) ->
  exists buf', tpack_src fma fuel "TPACK" (pack_args o cnj) m n x0 ldx (as_scal alpha) a0 x a1 buf = Some (Ok ([(a0, DQ x); (a1, DQ buf')], PVoid)) /\
    packed_any (match o with T1 => pairA | T2 => pairB end) cnj alpha n m (fun r l => F l r) buf' /\
    forall p, ~ (0 <= p < 2 * ((n + 1) / 2) * m) -> buf' p = buf p.
Proof.
  intros K fma fuel o cnj al m n x x0 ldx a0 a1 buf F Hm Hn Fm Fn Hx Hb. rewrite C77_tpack by assumption. rewrite tpack_gen.
  pose proof (pack_gen_ok o cnj (as_scal al) n m ldx 1 x x0 buf (fun r l => F l r) Hn Hm) as C.
  destruct (pack_gen o cnj (as_scal al) n m ldx 1 x x0 buf) as [b| |].
  2,3: exfalso; apply C; [intros r l Hr Hl; rewrite <- (Hx l r Hl Hr); f_equal; lia|apply alloc_some; exact Hb].
  destruct C as (P & O & _); [intros r l Hr Hl; rewrite <- (Hx l r Hl Hr); f_equal; lia|apply alloc_some; exact Hb|].
  exists b. split; [reflexivity|]. split; [apply panels_any; exact P|]. intros p Hp. apply O. unfold psize in *. lia.
Qed.
Print Assumptions C79_tpack.
Theorem C79_npack : forall (K : num) fma fuel (o : packop) cnj (alpha : option (car K + cplx K)) m n (x : arr (quat K)) x0 ldx a0 a1 (buf : arr (quat K)) F,
  0 <= m -> 0 <= n -> (Z.to_nat m < fuel)%nat -> (Z.to_nat n < fuel)%nat ->
  (forall i j, 0 <= i < m -> 0 <= j < n -> x (x0 + i + j * ldx) = Some (F i j)) ->
  (forall p, 0 <= p < 2 * ((m + 1) / 2) * n -> buf p <> None) ->
  exists buf', tpack_src fma fuel "NPACK" (pack_args o cnj) m n x0 ldx (as_scal alpha) a0 x a1 buf = Some (Ok ([(a0, DQ x); (a1, DQ buf')], PVoid)) /\
    packed_any (match o with T1 => pairA | T2 => pairB end) cnj alpha m n F buf' /\
    forall p, ~ (0 <= p < 2 * ((m + 1) / 2) * n) -> buf' p = buf p.
Proof.
  intros K fma fuel o cnj al m n x x0 ldx a0 a1 buf F Hm Hn Fm Fn Hx Hb. rewrite C77_npack by assumption. rewrite npack_gen.
  pose proof (pack_gen_ok o cnj (as_scal al) m n 1 ldx x x0 buf F Hm Hn) as C.
  destruct (pack_gen o cnj (as_scal al) m n 1 ldx x x0 buf) as [b| |].
  2,3: exfalso; apply C; [intros r l Hr Hl; rewrite <- (Hx r l Hr Hl); f_equal; lia|apply alloc_some; exact Hb].
  destruct C as (P & O & _); [intros r l Hr Hl; rewrite <- (Hx r l Hr Hl); f_equal; lia|apply alloc_some; exact Hb|].
  exists b. split; [reflexivity|]. split; [apply panels_any; exact P|]. intros p Hp. apply O. unfold psize in *. lia.
Qed.
Print Assumptions C79_npack.
Definition fq {fused : bool} (a b c d : f64) : quat (F64 fused) := @Quat (F64 fused) a b c d.
(** concrete, in binary64: the text packs the one element (NaN, -0, inf, 1), conjugated, two rows at a time for the A side; the missing row becomes (0, -0, -0, -0) *)
Example C79_concrete : forall fused, let K := F64 fused in
  let x : arr (quat K) := arr_list [fq f_nan (fopp f_zero) f_inf f_one] in
  let buf : arr (quat K) := arr_list [fq f_one f_one f_one f_one; fq f_one f_one f_one f_one] in
  exists buf' : arr (quat K), tpack_src (K := K) true 3 "NPACK" (pack_args T1 true) 1 1 0 1 None 0 x 64 buf = Some (Ok ([(0, DQ x); (64, DQ buf')], PVoid)) /\
   buf' 0 = Some (fq f_nan f_zero f_zero (B754_zero true)) /\
   buf' 1 = Some (fq (B754_infinity true) (fopp f_one) (B754_zero true) (B754_zero true)) /\ buf' 2 = None.
Proof.
  intros fused K x buf.
  destruct (C79_npack K true 3 T1 true None 1 1 x 0 1 0 64 buf (fun _ _ => fq f_nan (fopp f_zero) f_inf f_one)) as (b & E & P & O).
  1,2: lia. 1,2: cbn; lia.
  - intros i j Hi Hj. replace (0 + i + j * 1) with 0 by lia. reflexivity.
  - intros p Hp. change (2 * ((1 + 1) / 2) * 1) with 2 in Hp. assert (C : p = 0 \/ p = 1) by lia. destruct C as [-> | ->]; discriminate.
  - exists b. split; [exact E|]. destruct (P 0 0) as [P0 P1]; try lia. split; [exact P0|]. split; [exact P1|]. rewrite O by (vm_compute; intros [_ H]; discriminate H). reflexivity.
Qed.
