From Coq Require Import ZArith Bool Ascii String List Lia.
From Verif Require Import Num Res ResFacts MQuat MSimd MOptL1 MPack CSyntax CPre CSem CSrc CProg CLinkG TSrc TSyntax TParse TSem MSrcT TEq TEq2 TEq3 TEq4 TEq5 TEq6 TEq7.
Import ListNotations.
Local Open Scope string_scope.
Local Open Scope Z_scope.
Definition fst3 {A B C D} (x : A * B * C * D) : A := fst (fst (fst x)).
Definition T_init := Eval vm_compute in fst3 (for_of T_body).
Definition N_init := Eval vm_compute in fst3 (for_of N_body).
Definition T_cond := Eval vm_compute in snd (fst (fst (for_of T_body))).
Definition N_cond := Eval vm_compute in snd (fst (fst (for_of N_body))).
Definition T_step := Eval vm_compute in snd (fst (for_of T_body)).
Definition N_step := Eval vm_compute in snd (fst (for_of N_body)).
Definition init_ (t : bool) := if t then T_init else N_init.
Definition cond_ (t : bool) := if t then T_cond else N_cond.
Definition step_ (t : bool) := if t then T_step else N_step.
Definition bnd (t : bool) (m n : Z) : Z := if t then m else n.
Section E.
Context {K : num} (lf : nat).
Local Notation exec := (exec u (K := K) lf).
Local Notation eval := (eval u (K := K) lf).
Local Notation call := (call u (K := K) lf).
Local Notation pval := (pval (K := K)).
Local Notation qarr := (arr (quat K)).
Local Notation S_ := (stP (K := K)).
Ltac lz := lazy -[Z.add Z.mul Z.ltb].
Definition vz (z : Z) : option pval := Some (V (VZ z)).
Lemma init_in t f o cj al m n e ld v w x xp col mm :
  blk u lf (46 + f) (sc o cj) (ebd t) [init_ t] (S_ t o cj al m n e ld v w x xp [col], mm) = Some (Ok (S_ t o cj al m n e ld (vz 0) w x xp [col], mm)).
Proof. destruct t, o, cj. all: lz; reflexivity. Qed.
Lemma cond_in t f o cj al m n e ld i w x xp col mm :
  tests u lf (46 + f) (sc o cj) (ebd t) (cond_ t) (S_ t o cj al m n e ld (vz i) w x xp [col], mm) = Some (Ok (i <? bnd t m n, (S_ t o cj al m n e ld (vz i) w x xp [col], mm))).
Proof. destruct t, o, cj. all: lz; reflexivity. Qed.
Lemma step_in t f o cj al m n e ld i w x xp col mm :
  blk u lf (46 + f) (sc o cj) (ebd t) [step_ t] (S_ t o cj al m n e ld (vz i) w x xp [col], mm) = Some (Ok (S_ t o cj al m n e ld (vz (i + 1)) w x xp [col], mm)).
Proof. destruct t, o, cj. all: lz; reflexivity. Qed.

(** the body of pack_loop, with the iteration of the text *)
Definition ploop (o : packop) (cj : bool) (al : option (scal K)) (ic : Z) (src : qarr) (_ : Z) (z : Z * option Z * Z * qarr) : res (Z * option Z * Z * qarr) :=
  let '(p1, p2, pos, buf) := z in b <- pstep o cj al src p1 p2 pos buf ;; Ok (p1 + ic, option_map (fun p => p + ic) p2, pos + 2, b).
Lemma pack_loop_ploop o cj al cnt ic src p1 p2 pos buf :
  pack_loop o cj al cnt ic src p1 p2 pos buf = ('(_, _, pos, buf) <- zfor 0 cnt (ploop o cj al ic src) (p1, p2, pos, buf) ;; Ok (pos, buf)).
Proof.
  unfold pack_loop. f_equal. apply zfor_ext. clear. intros i [[[p1 p2] pos] buf] _. unfold ploop, pstep, pload.
  rewrite vldf. destruct (src p1) as [q1|]; [|reflexivity]. cbn [bind].
  destruct p2 as [p2|].
  - rewrite vldf. destruct (src p2) as [q2|]; [|reflexivity]. cbn [bind]. destruct (packOP o (preOP cj al (v_of_q q1)) (preOP cj al (v_of_q q2))) as [t1 t2]. cbn [fst snd].
    destruct (vst false 0 buf pos t1) as [b| |]; reflexivity.
  - cbn [bind]. destruct (packOP o (preOP cj al (v_of_q q1)) (preOP cj al mm256_zero)) as [t1 t2]. cbn [fst snd].
    destruct (vst false 0 buf pos t1) as [b| |]; reflexivity.
Qed.
Lemma inner t f o cj al m n e ld w x a0 (src : qarr) a1 : forall k i L p1 p2 pos buf, k = Z.to_nat (bnd t m n - i) -> (k < L)%nat ->
  while_ L (tests u lf (46 + f) (sc o cj) (ebd t) (cond_ t)) (fun s => mb (blk u lf (46 + f) (sc o cj) (ebd t) T_for s) (blk u lf (46 + f) (sc o cj) (ebd t) [step_ t]))
    (S_ t o cj al m n e ld (vz i) w x (qp 1 pos) [Some (ptrs p1 p2)], memq a0 src a1 buf) =
  oput (floop k i (ploop o cj al (inc t ld) src) (p1, p2, pos, buf))
    (fun '(p1, p2, pos, buf) => (S_ t o cj al m n e ld (vz (i + Z.of_nat k)) w x (qp 1 pos) [Some (ptrs p1 p2)], memq a0 src a1 buf)).
Proof.
  induction k as [|k IH]; intros i L p1 p2 pos buf Ek HL; destruct L as [|L]; try lia.
  - cbn [while_ floop]. rewrite cond_in. cbn [mb]. replace (i <? bnd t m n) with false by (symmetry; apply Z.ltb_ge; lia).
    cbn [oput mret Z.of_nat]. rewrite Z.add_0_r. reflexivity.
  - cbn [while_ floop]. rewrite cond_in. cbn [mb]. replace (i <? bnd t m n) with true by (symmetry; apply Z.ltb_lt; lia).
    rewrite body_x. cbn [ploop]. destruct (pstep o cj al src p1 p2 pos buf) as [b| |]; try reflexivity. cbn [oput mb bind].
    rewrite step_in. cbn [mb]. rewrite IH by lia. replace (i + 1 + Z.of_nat k) with (i + Z.of_nat (S k)) by lia. reflexivity.
Qed.
Definition cBody (t : bool) o cj : pval := if t then clo eT17 (sc o cj) T_body else clo eN16 (sc o cj) N_body.
Lemma body_call t f o cj al m n e ld v w x a0 (src : qarr) a1 p1 p2 pos buf : (Z.to_nat (bnd t m n) < lf)%nat ->
  call (48 + f) (S_ t o cj al m n e ld v w x (qp 1 pos) [Some (ptrs p1 p2)], memq a0 src a1 buf) (cBody t o cj)
    [(ptrs p1 p2, Some (if t then 18 else 17)%nat); (qp 1 pos, Some (if t then 12 else 11)%nat)] =
  oput (zfor 0 (bnd t m n) (ploop o cj al (inc t ld) src) (p1, p2, pos, buf))
    (fun '(p1, p2, pos, buf) => (PVoid, (S_ t o cj al m n e ld (vz (Z.max 0 (bnd t m n))) w x (qp 1 pos) [Some (ptrs p1 p2)], memq a0 src a1 buf))).
Proof.
  intros HL. change (48 + f)%nat with (S (47 + f)).
  transitivity (mb (exec (47 + f) (sc o cj) (ebd t) (S_ t o cj al m n e ld v w x (qp 1 pos) [Some (ptrs p1 p2)], memq a0 src a1 buf) [SFor (init_ t) (cond_ t) (step_ t) T_for])
     (fun '(r, s2) => mret (match r with Some v => v | None => PVoid end, leave (if t then 19 else 18)%nat s2))).
  { destruct t; refine (call_clo u lf (47 + f) _ _ _ _ _ _ _ _ _); reflexivity. }
  change (47 + f)%nat with (S (46 + f)). rewrite ex_for, init_in. cbn [mb].
  refine (eq_trans (f_equal (fun z => mb (mb z _) _) (inner t f o cj al m n e ld w x a0 src a1 (Z.to_nat (bnd t m n - 0)) 0 lf p1 p2 pos buf eq_refl _)) _).
  { rewrite Z.sub_0_r. exact HL. }
  unfold zfor. destruct (floop _ _ _ _) as [[[[q1 q2] ps] b]| |]; try reflexivity. cbn [oput mb].
  change (46 + f)%nat with (S (45 + f)). rewrite ex_end. cbn [mb mret]. replace (0 + Z.of_nat (Z.to_nat (bnd t m n - 0))) with (Z.max 0 (bnd t m n)) by lia.
  destruct t; reflexivity.
Qed.
End E.
