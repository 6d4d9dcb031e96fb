(** CEqL1.v continued: AXPYV with a real ALPHA, DOTUV, DOTCV. *)
From Coq Require Import ZArith Bool Ascii String List Lia.
From Verif Require Import Num Res MQuat MSimd MOptL1 MOptGemm CSyntax CParse CSrc CSem CProg CSimFacts CTac CObj CEqQ CEqL1.
Import ListNotations. Local Open Scope string_scope. Local Open Scope Z_scope.

Section S.
Context {K : num}.
Variable fma : bool.
Hypothesis U : fma = false -> two_step K.
Local Notation qp b e := (Some (VP (Ptr (OnQ b) e 0 TQuat))).
Lemma src_axpyd side n a xa x incx ya y incy fuel :
  (Z.to_nat n < fuel)%nat ->
  sim (fun r o => o = ([(xa, DQ x); (ya, DQ r)], None))
    (axpyv_opt side n (SR a) xa x incx ya y incy)
    (ccall (K:=K) (unit_axpyv fma "DOUBLE") no_ext fuel "HBLAS_AXPYV" [VChr side; VZ n; VK a; pv 0 0; VZ incx; pv 1 0; VZ incy] [(xa, DQ x); (ya, DQ y)]).
Proof.
  intros Hf. cstart fma K (unit_axpyd_eq fma) (f_axpyd fma). pose proof (fma_two (K:=K) fma U) as F1.
  generalize (callv (K:=K) (app (qop fma) [f_axpyd fma]) no_ext fuel (List.length (app (qop fma) [f_axpyd fma]))),
    (callp (K:=K) (app (qop fma) [f_axpyd fma]) no_ext fuel (List.length (app (qop fma) [f_axpyd fma]))), (refs_of (app (qop fma) [f_axpyd fma])).
  intros rv rp rr. unfold pv.
  unfold f_axpyd; destruct fma; unfold f_axpyd_t, f_axpyd_f; cinit; csteps; rewrite ?aligned_at0; unfold axpyv_opt, axpy_step; 
  destruct (IS_ALIGNED xa && IS_ALIGNED ya); csteps;
  (lazymatch goal with |- context [exec _ _ _ _ _ _ (?en, _)] =>
    cwhile (fun (i : Z) '(y, lx, ly) (s : st K) => exists j0 j1, s = (puts en [(14%nat, Some (VZ i)); (7%nat, qp 0%nat lx); (8%nat, qp 1%nat ly); (9%nat, j0); (10%nat, j1)], [(xa, DQ x); (ya, DQ y)])) end;
  [ intros i [[y1 lx] ly] s (j0 & j1 & ->); cbn [puts]; cleaf; reflexivity
  | intros i [[y1 lx] ly] s Hi (j0 & j1 & ->); cbn [puts put];
    rewrite (x_end (exec _ _ _ _ _ _ _)); csteps; cdata; csteps; cdata; csteps; rewrite ?(fun a b c => F1 a b c eq_refl); cdata; csteps;
    apply sim_ok; refine (conj eq_refl _); do 2 eexists; reflexivity
  | do 2 eexists; reflexivity
  | apply quot_fuel; exact Hf
  | intros [[y1 lx] ly] [s fl] [E (i & Hi & j0 & j1 & Es)]; cbn in E, Es; subst fl s; csteps; apply sim_ok; reflexivity ]).
Qed.
Lemma quot4_fuel n fuel : (Z.to_nat n < fuel)%nat -> (Z.to_nat (Z.quot n 4 - 0) < fuel)%nat.
Proof.
  intros Hf. rewrite Z.sub_0_r. destruct (Z.le_gt_cases n 0) as [Hn | Hn].
  - assert (E : Z.quot n 4 <= 0) by (pose proof (Z.quot_le_mono n 0 4 ltac:(lia) Hn) as E; rewrite Z.quot_0_l in E by lia; exact E). lia.
  - pose proof (Z.quot_le_upper_bound n 4 n ltac:(lia)). lia.
Qed.
Lemma rem4_fuel n fuel : (4 < fuel)%nat -> (Z.to_nat (Z.rem n 4 - 0) < fuel)%nat.
Proof. intros Hf. rewrite Z.sub_0_r. pose proof (Z.rem_bound_abs n 4 ltac:(lia)). lia. Qed.
Lemma src_dotuv n xa x incx ya y incy fuel :
  (Z.to_nat n < fuel)%nat -> (4 < fuel)%nat ->
  sim (fun r o => o = ([(xa, DQ x); (ya, DQ y)], Some (VQ r)))
    (dotuv_opt n xa x incx ya y incy)
    (ccall (K:=K) (unit_dotuv fma) no_ext fuel "HBLAS_DOTUV" [VZ n; pv 0 0; VZ incx; pv 1 0; VZ incy] [(xa, DQ x); (ya, DQ y)]).
Proof.
  intros Hf Hf4. cstart fma K (unit_dotuv_eq fma) f_dotuv.
  replace (List.length (app (qop fma) [f_dotuv])) with 11%nat by (destruct fma; reflexivity).
  pose proof (q_nn (K:=K) fma U [f_dotuv] no_ext fuel 10) as Qc. pose proof (q_inn (K:=K) fma U [f_dotuv] no_ext fuel 9) as Qi.
  pose proof (refs_qop (K:=K) fma U [f_dotuv] 8 ltac:(lia)) as R9. revert Qc Qi R9.
  generalize (callv (K:=K) (app (qop fma) [f_dotuv]) no_ext fuel 11), (callp (K:=K) (app (qop fma) [f_dotuv]) no_ext fuel 11), (refs_of (app (qop fma) [f_dotuv])).
  intros rv rp rr Qc Qi R9.
  assert (R9' : rr 8%nat = [true;true;true;true;true;true;true;true;true;true;true;true]) by (rewrite R9; destruct fma; reflexivity). clear R9.
  assert (Qi' : forall x1 x2 x3 x4 y1 y2 y3 y4 r (m : mem K),
    rp 8%nat [VM x1; VM x2; VM x3; VM x4; VM y1; VM y2; VM y3; VM y4; VM (w1 r); VM (w2 r); VM (w3 r); VM (w4 r)] m =
    mret (map Some (vs12 (M4 x1 x2 x3 x4) (M4 y1 y2 y3 y4) (INC_MULD4Q_NN (M4 x1 x2 x3 x4) (M4 y1 y2 y3 y4) r)), m))
    by (intros x1 x2 x3 x4 y1 y2 y3 y4 r m; exact (Qi (M4 x1 x2 x3 x4) (M4 y1 y2 y3 y4) r m)).
  clear Qi. unfold f_dotuv, pv; cinit. csteps. rewrite !aligned_at0. unfold dotuv_opt, dot_opt.
  destruct (IS_ALIGNED xa && IS_ALIGNED ya); csteps;
  (lazymatch goal with |- context [exec _ _ _ _ _ _ (?en, _)] =>
    cwhile (fun (i : Z) '(r, lx, ly) (s : st K) => exists a1 a2 a3 a4 b1 b2 b3 b4 t1 t2 t3 t4,
      s = (puts en [(27%nat, Some (VZ i)); (6%nat, qp 0%nat lx); (7%nat, qp 1%nat ly);
                    (20%nat, Some (VM (w1 r))); (21%nat, Some (VM (w2 r))); (22%nat, Some (VM (w3 r))); (23%nat, Some (VM (w4 r)));
                    (8%nat, a1); (9%nat, a2); (10%nat, a3); (11%nat, a4); (12%nat, b1); (13%nat, b2); (14%nat, b3); (15%nat, b4);
                    (16%nat, t1); (17%nat, t2); (18%nat, t3); (19%nat, t4)], [(xa, DQ x); (ya, DQ y)])) end;
  [ intros i [[r lx] ly] s (a1 & a2 & a3 & a4 & b1 & b2 & b3 & b4 & t1 & t2 & t3 & t4 & ->); cbn [puts]; cleaf; reflexivity
  | intros i [[r lx] ly] s Hi (a1 & a2 & a3 & a4 & b1 & b2 & b3 & b4 & t1 & t2 & t3 & t4 & ->); cbn [puts put];
    rewrite (x_end (exec _ _ _ _ _ _ _)); crun; rewrite Qi'; csteps; rewrite R9'; unfold vs12; csteps;
    apply sim_ok; refine (conj eq_refl _); do 12 eexists; reflexivity
  | do 12 eexists; reflexivity
  | apply quot4_fuel; exact Hf
  | intros [[r lx] ly] [s fl] [E (i & Hi & a1 & a2 & a3 & a4 & b1 & b2 & b3 & b4 & t1 & t2 & t3 & t4 & Es)]; cbn in E, Es; subst fl s; csteps;
    (lazymatch goal with |- context [exec _ _ _ _ _ _ (?en, _)] =>
      cwhile (fun (i : Z) r1 (s : st K) => exists a1 b1,
        s = (puts en [(27%nat, Some (VZ i)); (20%nat, Some (VM r1)); (8%nat, a1); (12%nat, b1)], [(xa, DQ x); (ya, DQ y)])) end;
    [ intros i' r1 s (e1 & e2 & ->); cbn [puts]; cleaf; reflexivity
    | intros i' r1 s Hi' (e1 & e2 & ->); cbn [puts put];
      rewrite (x_end (exec _ _ _ _ _ _ _)); crun; rewrite Qc; csteps;
      apply sim_ok; refine (conj eq_refl _); do 2 eexists; reflexivity
    | do 2 eexists; reflexivity
    | apply rem4_fuel; exact Hf4
    | intros r2 [s fl] [E (i2 & Hi' & e1 & e2 & Es)]; cbn in E, Es; subst fl s; csteps; apply sim_ok; reflexivity ]) ]).
Qed.
Lemma src_dotcv n xa x incx ya y incy fuel :
  (Z.to_nat n < fuel)%nat -> (4 < fuel)%nat ->
  sim (fun r o => o = ([(xa, DQ x); (ya, DQ y)], Some (VQ r)))
    (dotcv_opt n xa x incx ya y incy)
    (ccall (K:=K) (unit_dotcv fma) no_ext fuel "HBLAS_DOTCV" [VZ n; pv 0 0; VZ incx; pv 1 0; VZ incy] [(xa, DQ x); (ya, DQ y)]).
Proof.
  intros Hf Hf4. cstart fma K (unit_dotcv_eq fma) f_dotcv.
  replace (List.length (app (qop fma) [f_dotcv])) with 11%nat by (destruct fma; reflexivity).
  pose proof (q_cn (K:=K) fma U [f_dotcv] no_ext fuel 9) as Qc. pose proof (q_icn (K:=K) fma U [f_dotcv] no_ext fuel 9) as Qi.
  pose proof (refs_qop (K:=K) fma U [f_dotcv] 9 ltac:(lia)) as R9. revert Qc Qi R9.
  generalize (callv (K:=K) (app (qop fma) [f_dotcv]) no_ext fuel 11), (callp (K:=K) (app (qop fma) [f_dotcv]) no_ext fuel 11), (refs_of (app (qop fma) [f_dotcv])).
  intros rv rp rr Qc Qi R9.
  assert (R9' : rr 9%nat = [true;true;true;true;true;true;true;true;true;true;true;true]) by (rewrite R9; destruct fma; reflexivity). clear R9.
  assert (Qi' : forall x1 x2 x3 x4 y1 y2 y3 y4 r (m : mem K),
    rp 9%nat [VM x1; VM x2; VM x3; VM x4; VM y1; VM y2; VM y3; VM y4; VM (w1 r); VM (w2 r); VM (w3 r); VM (w4 r)] m =
    mret (map Some (vs12 (M4 x1 x2 x3 x4) (M4 y1 y2 y3 y4) (INC_MULD4Q_CN (M4 x1 x2 x3 x4) (M4 y1 y2 y3 y4) r)), m))
    by (intros x1 x2 x3 x4 y1 y2 y3 y4 r m; exact (Qi (M4 x1 x2 x3 x4) (M4 y1 y2 y3 y4) r m)).
  clear Qi. unfold f_dotcv, pv; cinit. csteps. rewrite !aligned_at0. unfold dotcv_opt, dot_opt.
  destruct (IS_ALIGNED xa && IS_ALIGNED ya); csteps;
  (lazymatch goal with |- context [exec _ _ _ _ _ _ (?en, _)] =>
    cwhile (fun (i : Z) '(r, lx, ly) (s : st K) => exists a1 a2 a3 a4 b1 b2 b3 b4 t1 t2 t3 t4,
      s = (puts en [(27%nat, Some (VZ i)); (6%nat, qp 0%nat lx); (7%nat, qp 1%nat ly);
                    (20%nat, Some (VM (w1 r))); (21%nat, Some (VM (w2 r))); (22%nat, Some (VM (w3 r))); (23%nat, Some (VM (w4 r)));
                    (8%nat, a1); (9%nat, a2); (10%nat, a3); (11%nat, a4); (12%nat, b1); (13%nat, b2); (14%nat, b3); (15%nat, b4);
                    (16%nat, t1); (17%nat, t2); (18%nat, t3); (19%nat, t4)], [(xa, DQ x); (ya, DQ y)])) end;
  [ intros i [[r lx] ly] s (a1 & a2 & a3 & a4 & b1 & b2 & b3 & b4 & t1 & t2 & t3 & t4 & ->); cbn [puts]; cleaf; reflexivity
  | intros i [[r lx] ly] s Hi (a1 & a2 & a3 & a4 & b1 & b2 & b3 & b4 & t1 & t2 & t3 & t4 & ->); cbn [puts put];
    rewrite (x_end (exec _ _ _ _ _ _ _)); crun; rewrite Qi'; csteps; rewrite R9'; unfold vs12; csteps;
    apply sim_ok; refine (conj eq_refl _); do 12 eexists; reflexivity
  | do 12 eexists; reflexivity
  | apply quot4_fuel; exact Hf
  | intros [[r lx] ly] [s fl] [E (i & Hi & a1 & a2 & a3 & a4 & b1 & b2 & b3 & b4 & t1 & t2 & t3 & t4 & Es)]; cbn in E, Es; subst fl s; csteps;
    (lazymatch goal with |- context [exec _ _ _ _ _ _ (?en, _)] =>
      cwhile (fun (i : Z) r1 (s : st K) => exists a1 b1,
        s = (puts en [(27%nat, Some (VZ i)); (20%nat, Some (VM r1)); (8%nat, a1); (12%nat, b1)], [(xa, DQ x); (ya, DQ y)])) end;
    [ intros i' r1 s (e1 & e2 & ->); cbn [puts]; cleaf; reflexivity
    | intros i' r1 s Hi' (e1 & e2 & ->); cbn [puts put];
      rewrite (x_end (exec _ _ _ _ _ _ _)); crun; rewrite Qc; csteps;
      apply sim_ok; refine (conj eq_refl _); do 2 eexists; reflexivity
    | do 2 eexists; reflexivity
    | apply rem4_fuel; exact Hf4
    | intros r2 [s fl] [E (i2 & Hi' & e1 & e2 & Es)]; cbn in E, Es; subst fl s; csteps; apply sim_ok; reflexivity ]) ]).
Qed.
End S.
