(** C71, C72: the source texts of the quaternion headers include/haxx/*.hpp.  MSrcH.v says how a text is called; [Obj p] is the object at address p, bound by
    reference (addresses may coincide or overlap), [Val v] a temporary. *)
From Coq Require Import ZArith Lia Reals Bool Ascii String List.
From Verif Require Import Num NumR Res ResFacts Spec MQuat MSimd MObj SpecObj RealFacts ObjFacts PropsQuat PropsObj HParse HSem MSrcH HEq.
Import ListNotations.
Local Open Scope string_scope.
Local Open Scope Z_scope.

(** ** C71.  Each definition of the headers, executed from its text, does what the function of MQuat.v or MObj.v does, for every heap, every address and every
    arithmetic, in builds with and without AVX *)
Theorem C71_constructors : forall (K : num) avx (m : arr K) p,
  (forall a b c d, hctor avx p [ar (Obj a); ar (Obj b); ar (Obj c); ar (Obj d)] m = Some (m' <- ctor4 m p a b c d ;; Ok (m', Nothing))) /\
  (forall a b c d : K, hctor avx p [] m = Some (m' <- store_obj m p (q_of_real n0) ;; Ok (m', Nothing)) /\
     hctor avx p [ar (Val a)] m = Some (m' <- store_obj m p (q_of_real a) ;; Ok (m', Nothing)) /\
     hctor avx p [ar (Val a); ar (Val b)] m = Some (m' <- store_obj m p (Quat a b n0 n0) ;; Ok (m', Nothing)) /\
     hctor avx p [ar (Val a); ar (Val b); ar (Val c)] m = Some (m' <- store_obj m p (Quat a b c n0) ;; Ok (m', Nothing)) /\
     hctor avx p [ar (Val a); ar (Val b); ar (Val c); ar (Val d)] m = Some (m' <- store_obj m p (Quat a b c d) ;; Ok (m', Nothing))) /\
  (forall a b, hctor avx p [ac (Obj a); ac (Obj b)] m = Some (m' <- ctor_cc m p a b ;; Ok (m', Nothing))) /\
  (forall z w : cplx K, hctor avx p [ac (Val z)] m = Some (m' <- store_obj m p (q_of_cplx z) ;; Ok (m', Nothing)) /\
     hctor avx p [ac (Val z); ac (Val w)] m = Some (m' <- store_obj m p (q_of_cplx2 z w) ;; Ok (m', Nothing))) /\
  (forall a, hctor avx p [LV (HA 4) (At a)] m = Some (m' <- ctor_arr m p a ;; Ok (m', Nothing)) /\
     hctor avx p [LV (HCA 2) (At a)] m = Some (m' <- ctor_carr m p a ;; Ok (m', Nothing))) /\
  (forall q, hctor avx p [aq (Obj q)] m = Some (m' <- copy_obj m p q ;; Ok (m', Nothing))).
Proof. intros K avx m p. refine (conj _ (conj _ (conj _ (conj _ (conj _ _))))); intros; repeat split; heq. Qed.
Print Assumptions C71_constructors.
Theorem C71_accessors : forall (K : num) avx (m : arr K) p,
  (hmethod avx "real" p [] m = Some (a <- g_real m p ;; Ok (m, vr a)) /\ hmethod avx "imag_i" p [] m = Some (a <- g_i m p ;; Ok (m, vr a)) /\
   hmethod avx "imag_j" p [] m = Some (a <- g_j m p ;; Ok (m, vr a)) /\ hmethod avx "imag_k" p [] m = Some (a <- g_k m p ;; Ok (m, vr a)) /\
   hmethod avx "imag" p [] m = Some ('(b, c, d) <- g_imag m p ;; Ok (m, RV (VL [b; c; d])))) /\
  (forall v : opnd K,
     hmethod avx "real" p [ar v] m = Some (a <- getr m v ;; m' <- s_real m p a ;; Ok (m', Nothing)) /\
     hmethod avx "imag_i" p [ar v] m = Some (a <- getr m v ;; m' <- s_i m p a ;; Ok (m', Nothing)) /\
     hmethod avx "imag_j" p [ar v] m = Some (a <- getr m v ;; m' <- s_j m p a ;; Ok (m', Nothing)) /\
     hmethod avx "imag_k" p [ar v] m = Some (a <- getr m v ;; m' <- s_k m p a ;; Ok (m', Nothing))) /\
  (forall a, hmethod avx "imag" p [LV (HA 3) (At a)] m = Some (m' <- s_imag m p a ;; Ok (m', Nothing))) /\
  (forall x : quat K, hfree avx "real" [vq x] m = Some (Ok (m, vr (qr x))) /\ hfree avx "imag_i" [vq x] m = Some (Ok (m, vr (qi x))) /\
     hfree avx "imag_j" [vq x] m = Some (Ok (m, vr (qj x))) /\ hfree avx "imag_k" [vq x] m = Some (Ok (m, vr (qk x)))) /\
  (hfree avx "real" [aq (Obj p)] m = Some (a <- ld m p ;; Ok (m, vr a)) /\ hfree avx "imag_i" [aq (Obj p)] m = Some (a <- ld m (p + 1) ;; Ok (m, vr a)) /\
   hfree avx "imag_j" [aq (Obj p)] m = Some (a <- ld m (p + 2) ;; Ok (m, vr a)) /\ hfree avx "imag_k" [aq (Obj p)] m = Some (a <- ld m (p + 3) ;; Ok (m, vr a))) /\
  hmethod avx "__rep" p [] m = Some (q <- load_obj m p ;; Ok (m, vq q)).
Proof. intros K avx m p. repeat match goal with |- _ /\ _ => split end; try intros [v|v]; intros; repeat match goal with |- _ /\ _ => split end; heq. Qed.
Print Assumptions C71_accessors.
(** assignment and compound assignment; the result is a reference to the object itself.  A reference argument may be part of the object *)
Theorem C71_assignment : forall (K : num) avx (m : arr K) p,
  (forall t, hmethod avx "operator=" p [ar (Obj t)] m = Some (m' <- set_r m p t ;; Ok (m', aq (Obj p))) /\
     hmethod avx "operator+=" p [ar (Obj t)] m = Some (m' <- addeq_r m p t ;; Ok (m', aq (Obj p))) /\
     hmethod avx "operator-=" p [ar (Obj t)] m = Some (m' <- subeq_r m p t ;; Ok (m', aq (Obj p))) /\
     hmethod avx "operator*=" p [ar (Obj t)] m = Some (m' <- muleq_r m p t ;; Ok (m', aq (Obj p))) /\
     hmethod avx "operator/=" p [ar (Obj t)] m = Some (m' <- diveq_r m p t ;; Ok (m', aq (Obj p)))) /\
  (forall t, hmethod avx "operator=" p [ac (Obj t)] m = Some (m' <- set_c m p t ;; Ok (m', aq (Obj p))) /\
     hmethod avx "operator+=" p [ac (Obj t)] m = Some (m' <- addeq_c m p t ;; Ok (m', aq (Obj p))) /\
     hmethod avx "operator-=" p [ac (Obj t)] m = Some (m' <- subeq_c m p t ;; Ok (m', aq (Obj p)))) /\
  (forall q, hmethod avx "operator=" p [aq (Obj q)] m = Some (m' <- copy_obj m p q ;; Ok (m', aq (Obj p))) /\
     hmethod avx "operator+=" p [aq (Obj q)] m = Some (m' <- addeq_q m p q ;; Ok (m', aq (Obj p))) /\
     hmethod avx "operator-=" p [aq (Obj q)] m = Some (m' <- subeq_q m p q ;; Ok (m', aq (Obj p)))).
Proof. intros K avx m p. refine (conj _ (conj _ _)); intros; repeat split; heq. Qed.
Print Assumptions C71_assignment.
(** the same with a temporary on the right: the object is replaced by the value of the operator *)
Theorem C71_assignment_value : forall (K : num) avx (m : arr K) p,
  let upd_obj g := Some (x <- load_obj m p ;; m' <- store_obj m p (g x) ;; Ok (m', aq (Obj p))) in
  (forall t : K, hmethod avx "operator=" p [ar (Val t)] m = Some (m' <- store_obj m p (q_of_real t) ;; Ok (m', aq (Obj p))) /\
     hmethod avx "operator*=" p [ar (Val t)] m = upd_obj (fun x => q_muleq_r x t) /\ hmethod avx "operator/=" p [ar (Val t)] m = upd_obj (fun x => q_diveq_r x t)) /\
  (forall t : cplx K, hmethod avx "operator=" p [ac (Val t)] m = Some (m' <- store_obj m p (q_of_cplx t) ;; Ok (m', aq (Obj p)))) /\
  (forall q : quat K, hmethod avx "operator=" p [aq (Val q)] m = Some (m' <- store_obj m p q ;; Ok (m', aq (Obj p))) /\
     hmethod avx "operator+=" p [aq (Val q)] m = upd_obj (fun x => q_addeq x q) /\ hmethod avx "operator-=" p [aq (Val q)] m = upd_obj (fun x => q_subeq x q)).
Proof. intros K avx m p u. subst u. refine (conj _ (conj _ _)); intros; repeat split; heq'. Qed.
Print Assumptions C71_assignment_value.
(** the binary and unary operators: operands are read, nothing is written, the result is a value *)
Definition op1 {K : num} (avx : bool) (f : string) (g : quat K -> quat K) : Prop :=
  forall m x, hfree avx f [aq x] m = Some (a <- getq m x ;; Ok (m, vq (g a))).
Definition op_qq {K : num} (avx : bool) (f : string) (g : quat K -> quat K -> quat K) : Prop :=
  forall m x y, hfree avx f [aq x; aq y] m = Some (a <- getq m x ;; b <- getq m y ;; Ok (m, vq (g a b))).
Definition op_qr {K : num} (avx : bool) (f : string) (g : quat K -> K -> quat K) : Prop :=
  forall m x y, hfree avx f [aq x; ar y] m = Some (a <- getq m x ;; b <- getr m y ;; Ok (m, vq (g a b))).
Definition op_rq {K : num} (avx : bool) (f : string) (g : K -> quat K -> quat K) : Prop :=
  forall m x y, hfree avx f [ar x; aq y] m = Some (a <- getr m x ;; b <- getq m y ;; Ok (m, vq (g a b))).
Definition op_qc {K : num} (avx : bool) (f : string) (g : quat K -> cplx K -> quat K) : Prop :=
  forall m x y, hfree avx f [aq x; ac y] m = Some (a <- getq m x ;; b <- getc m y ;; Ok (m, vq (g a b))).
Definition op_cq {K : num} (avx : bool) (f : string) (g : cplx K -> quat K -> quat K) : Prop :=
  forall m x y, hfree avx f [ac x; aq y] m = Some (a <- getc m x ;; b <- getq m y ;; Ok (m, vq (g a b))).
Ltac hop := intros ? ? ?; intros; repeat match goal with x : opnd _ |- _ => destruct x end; heq.
Theorem C71_quaternion_operators : forall (K : num) avx,
  op1 avx "operator-" (@q_neg K) /\ op_qq avx "operator+" (@q_add K) /\ op_qq avx "operator-" (@q_sub K) /\
  op_qq false "operator*" (@q_mul K) /\ op_qq true "operator*" (@q_mul_avx K).
Proof. intros K avx. refine (conj _ (conj _ (conj _ (conj _ _)))); [intros m x; destruct x; heq | hop ..]. Qed.
Print Assumptions C71_quaternion_operators.
Theorem C71_real_operators : forall (K : num) avx,
  op_qr avx "operator+" (@q_add_r K) /\ op_rq avx "operator+" (@r_add_q K) /\ op_qr avx "operator-" (@q_sub_r K) /\ op_rq avx "operator-" (@r_sub_q K) /\
  op_qr avx "operator*" (@q_mul_r K) /\ op_rq avx "operator*" (@r_mul_q K) /\ op_qr avx "operator/" (@q_div_r K) /\ op_rq avx "operator/" (@r_div_q K).
Proof. intros K avx. repeat match goal with |- _ /\ _ => split end; hop. Qed.
Print Assumptions C71_real_operators.
Theorem C71_complex_operators : forall (K : num) avx,
  op_qc avx "operator+" (@q_add_c K) /\ op_cq avx "operator+" (@c_add_q K) /\ op_qc avx "operator-" (@q_sub_c K) /\ op_cq avx "operator-" (@c_sub_q K) /\
  op_qc avx "operator*" (@q_mul_c K) /\ op_cq avx "operator*" (@c_mul_q K).
Proof. intros K avx. repeat match goal with |- _ /\ _ => split end; hop. Qed.
Print Assumptions C71_complex_operators.
Theorem C71_reductions : forall (K : num) avx,
  (forall (m : arr K) x, hfree avx "norm" [aq x] m = Some (a <- getq m x ;; Ok (m, vr (q_norm a)))) /\
  op1 avx "conj" (@q_conj K) /\ op1 avx "inv" (@q_inv K) /\ op1 avx "versor" (@q_versor K) /\
  op_qq false "comm" (@q_comm K) /\ op_qq true "comm" (fun p q : quat K => q_sub (q_mul_avx p q) (q_mul_avx q p)) /\
  op_qc avx "comm" (@q_comm_qc K) /\ op_cq avx "comm" (@q_comm_cq K).
Proof.
  intros K avx. repeat match goal with |- _ /\ _ => split end.
  1-4: intros m x; destruct x; heq.
  all: hop.
Qed.
Print Assumptions C71_reductions.
(** a commutator with a real number does not even read its arguments *)
Theorem C71_comm_real : forall (K : num) avx (m : arr K) x y,
  hfree avx "comm" [aq x; ar y] m = Some (Ok (m, vq (q_of_real n0))) /\ hfree avx "comm" [ar y; aq x] m = Some (Ok (m, vq (q_of_real n0))).
Proof. intros K avx m [x|x] [y|y]; split; heq. Qed.
Print Assumptions C71_comm_real.
Theorem C71_smartconj : forall (K : num) avx (m : arr K) a,
  hfree avx "SmartConj" [ar (Obj a)] m = Some (k <- ld m a ;; Ok (m, vr (smartconj_r k))) /\
  hfree avx "SmartConj" [ac (Obj a)] m = Some (z <- getc m (Obj a) ;; Ok (m, RV (VC (smartconj_c z)))) /\
  hfree avx "SmartConj" [aq (Obj a)] m = Some (q <- load_obj m a ;; Ok (m, vq (smartconj_q q))).
Proof. intros K avx m a. refine (conj _ (conj _ _)); heq. Qed.
Print Assumptions C71_smartconj.
Theorem C71_comparisons : forall (K : num) avx (m : arr K) x y a b, getq m x = Ok a -> getq m y = Ok b ->
  hfree avx "operator==" [aq x; aq y] m = Some (Ok (m, vb (q_eqb a b))) /\ hfree avx "operator!=" [aq x; aq y] m = Some (Ok (m, vb (q_neqb a b))).
Proof.
  intros K avx m x y a b Hx Hy. destruct a as [a1 a2 a3 a4], b as [b1 b2 b3 b4].
  assert (C : forall (o : opnd (quat K)) c, getq m o = Ok c -> o = Val c \/ exists p, o = Obj p /\ m p = Some (qr c) /\ m (p + 1) = Some (qi c) /\ m (p + 2) = Some (qj c) /\ m (p + 3) = Some (qk c)).
  { intros [p|v] c Hc; [right; exists p; split; [reflexivity | exact (load_cells m p c Hc)] | left; injection Hc as ->; reflexivity]. }
  apply C in Hx. apply C in Hy. clear C.
  destruct Hx as [->|(p & -> & P1 & P2 & P3 & P4)], Hy as [->|(q & -> & Q1 & Q2 & Q3 & Q4)]; cbn [qr qi qj qk] in *; split;
    unfold hfree, hcall; hbuild; rewrite unit_eq; hred; rewrite ?P1, ?P2, ?P3, ?P4, ?Q1, ?Q2, ?Q3, ?Q4; cbv beta iota;
    repeat (match goal with |- context [neqb ?u ?v] => destruct (neqb u v) end; cbv beta iota; rewrite ?P1, ?P2, ?P3, ?P4, ?Q1, ?Q2, ?Q3, ?Q4; cbv beta iota); reflexivity.
Qed.
Print Assumptions C71_comparisons.

(** ** C72.  Users' expressions and statements over quaternion objects x, y, z, d of the heap (any of which may be the same object), run from their text with
    the headers included, mean what the mathematics says *)
Definition mulb {K : num} (avx : bool) : quat K -> quat K -> quat K := if avx then q_mul_avx else q_mul.
Lemma mulb_H {K : num} (L : laws K) avx (p q : quat K) : mulb avx p q = Hmul p q.
Proof. destruct avx; [exact (eq_trans (C02_simd_product K L p q) (C01_product_is_hamilton K L p q)) | exact (C01_product_is_hamilton K L p q)]. Qed.
Section Run.
Context {K : num}.
Variables (avx : bool) (m : arr K) (a b c : Z).
Definition xyz (a b c : Z) : list (string * Z) := [("x", a); ("y", b); ("z", c)].
Definition on3 (f : quat K -> quat K -> quat K -> quat K) : option (res (arr K * hval K)) :=
  Some (x <- load_obj m a ;; y <- load_obj m b ;; z <- load_obj m c ;; Ok (m, VQ (f x y z))).
Definition on2 (f : quat K -> quat K -> quat K) : option (res (arr K * hval K)) := Some (x <- load_obj m a ;; y <- load_obj m b ;; Ok (m, VQ (f x y))).
Definition on1 (f : quat K -> quat K) : option (res (arr K * hval K)) := Some (x <- load_obj m a ;; Ok (m, VQ (f x))).
Local Notation ex t := (hexp avx (xyz a b c) t m).
Lemma run_mul3l : ex "(x * y) * z" = on3 (fun x y z => mulb avx (mulb avx x y) z). Proof. huser. Qed.
Lemma run_mul3r : ex "x * (y * z)" = on3 (fun x y z => mulb avx x (mulb avx y z)). Proof. huser. Qed.
Lemma run_distr : ex "x * (y + z)" = on3 (fun x y z => mulb avx x (q_add y z)). Proof. huser. Qed.
Lemma run_distr2 : ex "x * y + x * z" = on3 (fun x y z => q_add (mulb avx x y) (mulb avx x z)). Proof. huser. Qed.
Lemma run_distrr : ex "(x - y) * z" = on3 (fun x y z => mulb avx (q_sub x y) z). Proof. huser. Qed.
Lemma run_prec : ex "x - y * z" = on3 (fun x y z => q_sub x (mulb avx y z)). Proof. huser. Qed.
Lemma run_assoc : ex "x - y - z" = on3 (fun x y z => q_sub (q_sub x y) z). Proof. huser. Qed.
Lemma run_conjmul : ex "conj(x * y)" = on2 (fun x y => q_conj (mulb avx x y)). Proof. huser. Qed.
Lemma run_conjmul2 : ex "conj(y) * conj(x)" = on2 (fun x y => mulb avx (q_conj y) (q_conj x)). Proof. huser. Qed.
Lemma run_comm : ex "comm(x,y)" = on2 (fun x y => q_sub (mulb avx x y) (mulb avx y x)). Proof. huser. Qed.
Lemma run_inv : ex "x * inv(x)" = on1 (fun x => mulb avx x (q_inv x)). Proof. huser. Qed.
Lemma run_inv2 : ex "inv(x) * x" = on1 (fun x => mulb avx (q_inv x) x). Proof. huser. Qed.
Lemma run_invmul : ex "inv(x * y)" = on2 (fun x y => q_inv (mulb avx x y)). Proof. huser. Qed.
Lemma run_invmul2 : ex "inv(y) * inv(x)" = on2 (fun x y => mulb avx (q_inv y) (q_inv x)). Proof. huser. Qed.
Lemma run_versor : ex "norm(x) * versor(x)" = on1 (fun x => r_mul_q (q_norm x) (q_versor x)). Proof. huser. Qed.
Lemma run_nn : ex "x * conj(x)" = on1 (fun x => mulb avx x (q_conj x)). Proof. huser. Qed.
Lemma run_norm : ex "norm(x * y)" = Some (x <- load_obj m a ;; y <- load_obj m b ;; Ok (m, VR (q_norm (mulb avx x y)))). Proof. huser. Qed.
Lemma run_normn : ex "norm(x) * norm(y)" = Some (x <- load_obj m a ;; y <- load_obj m b ;; Ok (m, VR (nmul (q_norm x) (q_norm y)))). Proof. huser. Qed.
Lemma run_setmul : hstmts avx [("d", a); ("x", b); ("y", c)] "d = x * y;" m = Some (x <- load_obj m b ;; y <- load_obj m c ;; store_obj m a (mulb avx x y)). Proof. huser. Qed.
Lemma run_muladd : hstmts avx [("d", a); ("x", b); ("y", c)] "d += x * y;" m =
  Some (x <- load_obj m b ;; y <- load_obj m c ;; d <- load_obj m a ;; store_obj m a (q_addeq d (mulb avx x y))).
Proof. intros; unfold hexp, hstmts; hbuild; rewrite unit_eq; hred; hcells'. Qed.
Lemma run_addsub : hstmts avx [("x", a); ("y", b)] "x += y; x -= y;" m = Some (m1 <- addeq_q m a b ;; subeq_q m1 a b). Proof. huser. Qed.
End Run.

(** products associate, distribute and are grouped as written; conj reverses them; any build, any coincidence of objects *)
Theorem C72_ring_expressions : forall (K : num), laws K -> forall avx (m : arr K) a b c x y z, obj_at m a x -> obj_at m b y -> obj_at m c z ->
  let run t v := hexp avx (xyz a b c) t m = Some (Ok (m, VQ v)) in
  (run "(x * y) * z" (Hmul (Hmul x y) z) /\ run "x * (y * z)" (Hmul (Hmul x y) z)) /\
  (run "x * (y + z)" (Hadd (Hmul x y) (Hmul x z)) /\ run "x * y + x * z" (Hadd (Hmul x y) (Hmul x z))) /\
  run "(x - y) * z" (Hsub (Hmul x z) (Hmul y z)) /\ run "x - y * z" (Hsub x (Hmul y z)) /\ run "x - y - z" (Hsub (Hsub x y) z) /\
  (run "conj(x * y)" (Hmul (Hconj y) (Hconj x)) /\ run "conj(y) * conj(x)" (Hmul (Hconj y) (Hconj x))) /\
  run "comm(x,y)" (Hsub (Hmul x y) (Hmul y x)).
Proof.
  intros K L avx m a b c x y z Hx Hy Hz run. subst run. cbv beta.
  rewrite run_mul3l, run_mul3r, run_distr, run_distr2, run_distrr, run_prec, run_assoc, run_conjmul, run_conjmul2, run_comm. unfold on3, on2.
  rewrite (load_obj_ok _ _ _ Hx), (load_obj_ok _ _ _ Hy), (load_obj_ok _ _ _ Hz). cbn [bind]. rewrite !(mulb_H L).
  assert (A : forall p q r : quat K, Hmul p (Hmul q r) = Hmul (Hmul p q) r) by (intros; rewrite <- !(C01_product_is_hamilton K L); apply (C01_product_assoc K L)).
  assert (D : forall p q r : quat K, Hmul p (q_add q r) = Hadd (Hmul p q) (Hmul p r)) by (intros; rewrite <- !(C01_product_is_hamilton K L); apply (C01_product_distr_l K L)).
  assert (D' : forall p q r : quat K, Hmul (q_sub p q) r = Hsub (Hmul p r) (Hmul q r)) by (intros; rewrite <- !(C01_product_is_hamilton K L); apply (C01_product_distr_sub_r K L)).
  assert (C : forall p q : quat K, q_conj (Hmul p q) = Hmul (Hconj q) (Hconj p)) by (intros; rewrite <- !(C01_product_is_hamilton K L); apply (C06_conj K L)).
  rewrite (A x y z), (D x y z), (D' x y z), (C x y). repeat split.
Qed.
Print Assumptions C72_ring_expressions.
(** over the real numbers *)
Theorem C72_division_expressions : forall avx (m : arr Rnum) a b c x y, obj_at m a x -> obj_at m b y -> x <> H0 -> y <> H0 ->
  let run t v := hexp avx (xyz a b c) t m = Some (Ok (m, VQ v)) in
  run "x * inv(x)" H1 /\ run "inv(x) * x" H1 /\ run "norm(x) * versor(x)" x /\
  (exists v, run "inv(x * y)" v /\ run "inv(y) * inv(x)" v) /\
  (exists r, hexp avx (xyz a b c) "norm(x * y)" m = Some (Ok (m, VR r)) /\ hexp avx (xyz a b c) "norm(x) * norm(y)" m = Some (Ok (m, VR r))).
Proof.
  intros avx m a b c x y Hx Hy Nx Ny run. subst run. cbv beta.
  rewrite run_inv, run_inv2, run_versor, run_invmul, run_invmul2, run_norm, run_normn. unfold on2, on1.
  rewrite (load_obj_ok _ _ _ Hx), (load_obj_ok _ _ _ Hy). cbn [bind]. rewrite !(mulb_H Rlaws).
  rewrite <- !(C01_product_is_hamilton Rnum Rlaws).
  destruct (C08_inv x Nx) as [I1 I2]. rewrite I1, I2. destruct (C09_versor x Nx) as [_ V]. rewrite V. destruct (C08_inv_mul x y Nx Ny) as [M _].
  destruct (C07_norm x y) as (_ & _ & _ & _ & N & _).
  split; [reflexivity|]. split; [reflexivity|]. split; [reflexivity|]. split.
  - exists (q_mul (q_inv y) (q_inv x)). rewrite M. split; reflexivity.
  - eexists. split; [reflexivity|]. rewrite N. reflexivity.
Qed.
Print Assumptions C72_division_expressions.
(** statements: the object on the left changes and nothing else; it may be an operand *)
Theorem C72_statements : forall (K : num), laws K -> forall avx (m : arr K) d a b z x y, obj_at m d z -> obj_at m a x -> obj_at m b y ->
  (exists m', hstmts avx [("d", d); ("x", a); ("y", b)] "d = x * y;" m = Some (Ok m') /\ obj_at m' d (Hmul x y) /\ only_obj m m' d) /\
  (exists m', hstmts avx [("d", d); ("x", a); ("y", b)] "d += x * y;" m = Some (Ok m') /\ obj_at m' d (Hadd z (Hmul x y)) /\ only_obj m m' d).
Proof.
  intros K L avx m d a b z x y Hz Hx Hy. rewrite run_setmul, run_muladd, (load_obj_ok _ _ _ Hz), (load_obj_ok _ _ _ Hx), (load_obj_ok _ _ _ Hy). cbn [bind].
  rewrite (mulb_H L). split.
  - pose proof (store_obj_ok m d (Hmul x y) (ex_intro _ z Hz)) as S. destruct (store_obj m d (Hmul x y)) as [m'| |]; try contradiction. exists m'. split; [reflexivity | exact S].
  - pose proof (store_obj_ok m d (q_addeq z (Hmul x y)) (ex_intro _ z Hz)) as S. destruct (store_obj m d (q_addeq z (Hmul x y))) as [m'| |]; try contradiction. exists m'. split; [reflexivity | exact S].
Qed.
Print Assumptions C72_statements.
(** += and -= undo each other, for distinct objects *)
Theorem C72_add_subtract : forall (K : num), laws K -> forall avx (m : arr K) a b x y, obj_at m a x -> obj_at m b y -> (a + 4 <= b \/ b + 4 <= a) ->
  exists m', hstmts avx [("x", a); ("y", b)] "x += y; x -= y;" m = Some (Ok m') /\ obj_at m' a x /\ only_obj m m' a.
Proof.
  intros K L avx m a b x y Hx Hy Hab. rewrite run_addsub.
  destruct (C56_quaternion_argument K m a b x y Hx Hy (or_intror Hab)) as [P _]. destruct (addeq_q m a b) as [m1| |]; try contradiction. destruct P as [P1 P2].
  assert (Hy1 : obj_at m1 b y).
  { destruct Hy as (Y1 & Y2 & Y3 & Y4). unfold obj_at. rewrite !P2 by lia. repeat split; assumption. }
  cbn [bind]. destruct (C56_quaternion_argument K m1 a b _ y P1 Hy1 (or_intror Hab)) as [_ Q]. destruct (subeq_q m1 a b) as [m2| |]; try contradiction. destruct Q as [Q1 Q2].
  exists m2. split; [reflexivity|]. destruct (C03_additive_group K L) as (_ & _ & _ & _ & _ & _ & E). specialize (E x y). change (q_subeq (q_addeq x y) y) with (Hsub (Hadd x y) y) in E. rewrite E in Q1.
  split; [exact Q1|]. intros p Hp. rewrite Q2, P2 by exact Hp. reflexivity.
Qed.
Print Assumptions C72_add_subtract.
(** the comparison operators do not look at the k component of their first operand *)
Theorem C72_comparison_refuted : ~ (forall avx (m : arr Znum) a b c x y, obj_at m a x -> obj_at m b y ->
  (hexp avx (xyz a b c) "x == y" m = Some (Ok (m, VB true)) <-> x = y)).
Proof.
  intros F. pose (m := (fun i => if i =? 3 then Some 1 else Some 0) : arr Znum).
  destruct (F true m 0 4 8 (zq 0 0 0 1) (zq 0 0 0 0) ltac:(repeat split) ltac:(repeat split)) as [G _].
  assert (E : zq 0 0 0 1 = zq 0 0 0 0) by (apply G; vm_compute; reflexivity). discriminate E.
Qed.
Print Assumptions C72_comparison_refuted.
Theorem C72_comparison_partial : forall (K : num), laws K -> forall avx (m : arr K) a b x y, obj_at m a x -> obj_at m b y ->
  (hfree avx "operator==" [aq (Obj a); aq (Obj b)] m = Some (Ok (m, vb true)) <-> qr x = qr y /\ qi x = qi y /\ qj x = qj y) /\
  (hfree avx "operator!=" [aq (Obj a); aq (Obj b)] m = Some (Ok (m, vb false)) <-> qr x = qr y /\ qi x = qi y /\ qj x = qj y).
Proof.
  intros K L avx m a b x y Hx Hy.
  destruct (C71_comparisons K avx m (Obj a) (Obj b) x y (load_obj_ok _ _ _ Hx) (load_obj_ok _ _ _ Hy)) as [E1 E2].
  rewrite E1, E2. rewrite <- (C11_eq_exact_meaning K L x y). unfold q_neqb, vb. destruct (q_eqb x y); cbn; split; split; congruence.
Qed.
Print Assumptions C72_comparison_partial.
Definition cells8 : arr Znum := fun i => if (0 <=? i) && (i <? 8) then Some (i + 1) else None.
Definition outcome {K : num} (o : option (res (arr K * hval K))) : option (res (hval K)) := match o with Some r => Some ('(_, v) <- r ;; Ok v) | None => None end.
Example C72_concrete : outcome (hexp true (xyz 0 4 0) "x * y" cells8) = Some (Ok (VQ (zq (-60) 12 30 24))) /\
  outcome (hexp false (xyz 0 4 0) "x * y" cells8) = Some (Ok (VQ (zq (-60) 12 30 24))) /\ outcome (hexp true (xyz 0 6 0) "x * y" cells8) = Some UB /\
  obj_at cells8 0 (zq 1 2 3 4) /\ obj_at cells8 4 (zq 5 6 7 8).
Proof. repeat split; vm_compute; reflexivity. Qed.
