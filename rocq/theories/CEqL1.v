(** The level-1 kernels of src/hblas/cxx/hblas1, run from the text, have the outcome of the models of MOptL1.v. *)
From Coq Require Import ZArith Bool Ascii String List Lia.
From Verif Require Import Num Res MQuat MSimd MOptL1 MOptGemm CSyntax CParse CSrc CSem CProg CSimFacts CTac CObj CEqQ.
Import ListNotations. Local Open Scope string_scope. Local Open Scope Z_scope.

Ltac cstart fma K UE f :=
  lazymatch goal with |- context [ccall ?u ?ext ?fuel ?n ?args ?m] =>
    pose proof (ccall_eq (K:=K) u (app (qop fma) [f]) ext fuel n 10 args m f UE
      ltac:(destruct fma; vm_compute; reflexivity) ltac:(destruct fma; vm_compute; reflexivity)) as Q;
    rewrite Q; clear Q end.

Section S.
Context {K : num}.
Variable fma : bool.
Hypothesis U : fma = false -> two_step K.
Definition pv (b : nat) (e : Z) : val K := VP (Ptr (OnQ b) e 0 TQuat).
Local Notation qp b e := (Some (VP (Ptr (OnQ b) e 0 TQuat))).
Lemma quot_fuel n fuel : (Z.to_nat n < fuel)%nat -> (Z.to_nat (Z.quot n 1 - 0) < fuel)%nat.
Proof. intros Hf. rewrite Z.quot_1_r, Z.sub_0_r. exact Hf. Qed.

Ltac hide fuel f :=
  replace (List.length (app (qop fma) [f])) with 11%nat by (destruct fma; reflexivity);
  generalize (callv (K:=K) (app (qop fma) [f]) no_ext fuel 11), (callp (K:=K) (app (qop fma) [f]) no_ext fuel 11), (refs_of (app (qop fma) [f]));
  intros rv rp rr; unfold f, pv; cinit.
(** the same, keeping what MULDQ_NN does *)
Ltac hideq fuel f :=
  replace (List.length (app (qop fma) [f])) with 11%nat by (destruct fma; reflexivity);
  pose proof (q_nn (K:=K) fma U [f] no_ext fuel 10) as Qn; revert Qn;
  generalize (callv (K:=K) (app (qop fma) [f]) no_ext fuel 11), (callp (K:=K) (app (qop fma) [f]) no_ext fuel 11), (refs_of (app (qop fma) [f]));
  intros rv rp rr Qn; unfold f, pv; cinit.

Lemma src_swapv n xa x incx ya y incy fuel :
  (Z.to_nat n < fuel)%nat ->
  sim (fun r o => o = ([(xa, DQ (fst r)); (ya, DQ (snd r))], None))
    (swapv_opt n xa x incx ya y incy)
    (ccall (K:=K) (unit_swapv fma) no_ext fuel "HBLAS_SWAPV" [VZ n; pv 0 0; VZ incx; pv 1 0; VZ incy] [(xa, DQ x); (ya, DQ y)]).
Proof.
  clear U. intros Hf. cstart fma K (unit_swapv_eq fma) f_swapv. hide fuel f_swapv.
  csteps. rewrite !aligned_at0. unfold swapv_opt.
  destruct (IS_ALIGNED xa && IS_ALIGNED ya); csteps;
  (lazymatch goal with |- context [exec _ _ _ _ _ _ (?en, _)] =>
    cwhile (fun (i : Z) '(x, y, lx, ly) (s : st K) => exists j1 j2, s = (puts en [(12%nat, Some (VZ i)); (5%nat, qp 0%nat lx); (6%nat, qp 1%nat ly); (7%nat, j1); (8%nat, j2)], [(xa, DQ x); (ya, DQ y)])) end;
  [ intros i [[[x1 y1] lx] ly] s (j1 & j2 & ->); cbn [puts]; cleaf; reflexivity
  | intros i [[[x1 y1] lx] ly] s Hi (j1 & j2 & ->); cbn [puts put];
    rewrite (x_end (exec _ _ _ _ _ _ _)); crun;
    apply sim_ok; refine (conj eq_refl _); do 2 eexists; reflexivity
  | do 2 eexists; reflexivity
  | apply quot_fuel; exact Hf
  | intros [[[x1 y1] lx] ly] [s fl] [E (i & Hi & j1 & j2 & Es)]; cbn in E, Es; subst fl s; csteps; apply sim_ok; reflexivity ]).
Qed.
Lemma src_copyv n xa x incx ya y incy fuel :
  (Z.to_nat n < fuel)%nat ->
  sim (fun r o => o = ([(xa, DQ x); (ya, DQ r)], None))
    (copyv_opt n xa x incx ya y incy)
    (ccall (K:=K) (unit_copyv fma) no_ext fuel "HBLAS_COPYV" [VZ n; pv 0 0; VZ incx; pv 1 0; VZ incy] [(xa, DQ x); (ya, DQ y)]).
Proof.
  clear U. intros Hf. cstart fma K (unit_copyv_eq fma) f_copyv. hide fuel f_copyv.
  csteps. rewrite !aligned_at0. unfold copyv_opt.
  destruct (IS_ALIGNED xa && IS_ALIGNED ya); csteps;
  (lazymatch goal with |- context [exec _ _ _ _ _ _ (?en, _)] =>
    cwhile (fun (i : Z) '(y, lx, ly) (s : st K) => exists j1, s = (puts en [(11%nat, Some (VZ i)); (5%nat, qp 0%nat lx); (6%nat, qp 1%nat ly); (7%nat, j1)], [(xa, DQ x); (ya, DQ y)])) end;
  [ intros i [[y1 lx] ly] s (j1 & ->); cbn [puts]; cleaf; reflexivity
  | intros i [[y1 lx] ly] s Hi (j1 & ->); cbn [puts put];
    rewrite (x_end (exec _ _ _ _ _ _ _)); crun;
    apply sim_ok; refine (conj eq_refl _); do 1 eexists; reflexivity
  | do 1 eexists; reflexivity
  | apply quot_fuel; exact Hf
  | intros [[y1 lx] ly] [s fl] [E (i & Hi & j1 & Es)]; cbn in E, Es; subst fl s; csteps; apply sim_ok; reflexivity ]).
Qed.

(** scalar ALPHA as passed *)
Definition vscal (a : scal K) : val K := match a with SR a => VK a | SC z => VC z | SH q => VQ q end.



Lemma src_scald side n a xa x incx fuel :
  (Z.to_nat n < fuel)%nat ->
  sim (fun r o => o = ([(xa, DQ r)], None))
    (scalv_opt side n (SR a) xa x incx)
    (ccall (K:=K) (unit_scalv fma "DOUBLE") no_ext fuel "HBLAS_SCALV" [VChr side; VZ n; VK a; pv 0 0; VZ incx] [(xa, DQ x)]).
Proof.
  clear U. intros Hf. cstart fma K (unit_scald_eq fma) f_scald. hide fuel f_scald.
  csteps. rewrite ?aligned_at0. unfold scalv_opt, scal_step, alpha_cplx, smartconj_c. cbn [re im].
  destruct (Ascii.eqb side "L"), (IS_ALIGNED xa); csteps;
  (lazymatch goal with |- context [exec _ _ _ _ _ _ (?en, _)] =>
    cwhile (fun (i : Z) '(x, lx) (s : st K) => exists j0, s = (puts en [(10%nat, Some (VZ i)); (5%nat, qp 0%nat lx); (6%nat, j0)], [(xa, DQ x)])) end;
  [ intros i [x1 lx] s (j0 & ->); cbn [puts]; cleaf; reflexivity
  | intros i [x1 lx] s Hi (j0 & ->); cbn [puts put];
    rewrite (x_end (exec _ _ _ _ _ _ _)); csteps; cdata; csteps; cdata; csteps;
    apply sim_ok; refine (conj eq_refl _); do 1 eexists; reflexivity
  | do 1 eexists; reflexivity
  | apply quot_fuel; exact Hf
  | intros [x1 lx] [s fl] [E (i & Hi & j0 & Es)]; cbn in E, Es; subst fl s; csteps; apply sim_ok; reflexivity ]).
Qed.

Lemma src_scalz side n a xa x incx fuel :
  (Z.to_nat n < fuel)%nat ->
  sim (fun r o => o = ([(xa, DQ r)], None))
    (scalv_opt side n (SC a) xa x incx)
    (ccall (K:=K) (unit_scalv fma "DCOMPLEX") no_ext fuel "HBLAS_SCALV" [VChr side; VZ n; VC a; pv 0 0; VZ incx] [(xa, DQ x)]).
Proof.
  clear U. intros Hf. cstart fma K (unit_scalz_eq fma) f_scalz. hide fuel f_scalz.
  csteps. rewrite ?aligned_at0. unfold scalv_opt, scal_step, alpha_cplx, smartconj_c. cbn [re im].
  destruct (Ascii.eqb side "L"), (IS_ALIGNED xa); csteps;
  (lazymatch goal with |- context [exec _ _ _ _ _ _ (?en, _)] =>
    cwhile (fun (i : Z) '(x, lx) (s : st K) => exists j0 j1 j2, s = (puts en [(10%nat, Some (VZ i)); (5%nat, qp 0%nat lx); (6%nat, j0); (21%nat, j1); (22%nat, j2)], [(xa, DQ x)])) end;
  [ intros i [x1 lx] s (j0 & j1 & j2 & ->); cbn [puts]; cleaf; reflexivity
  | intros i [x1 lx] s Hi (j0 & j1 & j2 & ->); cbn [puts put];
    rewrite (x_end (exec _ _ _ _ _ _ _)); csteps; cdata; csteps; cdata; csteps;
    apply sim_ok; refine (conj eq_refl _); do 3 eexists; reflexivity
  | do 3 eexists; reflexivity
  | apply quot_fuel; exact Hf
  | intros [x1 lx] [s fl] [E (i & Hi & j0 & j1 & j2 & Es)]; cbn in E, Es; subst fl s; csteps; apply sim_ok; reflexivity ]).
Qed.

Lemma src_scalh side n a xa x incx fuel :
  (Z.to_nat n < fuel)%nat ->
  sim (fun r o => o = ([(xa, DQ r)], None))
    (scalv_opt side n (SH a) xa x incx)
    (ccall (K:=K) (unit_scalv fma "DQUATERNION") no_ext fuel "HBLAS_SCALV" [VChr side; VZ n; VQ a; pv 0 0; VZ incx] [(xa, DQ x)]).
Proof.
  intros Hf. cstart fma K (unit_scalh_eq fma) f_scalh. hideq fuel f_scalh.
  csteps. rewrite ?aligned_at0. unfold scalv_opt, scal_step, alpha_cplx, smartconj_c. cbn [re im].
  destruct (Ascii.eqb side "L"), (IS_ALIGNED xa); csteps;
  (lazymatch goal with |- context [exec _ _ _ _ _ _ (?en, _)] =>
    cwhile (fun (i : Z) '(x, lx) (s : st K) => exists j0, s = (puts en [(10%nat, Some (VZ i)); (5%nat, qp 0%nat lx); (6%nat, j0)], [(xa, DQ x)])) end;
  [ intros i [x1 lx] s (j0 & ->); cbn [puts]; cleaf; reflexivity
  | intros i [x1 lx] s Hi (j0 & ->); cbn [puts put];
    rewrite (x_end (exec _ _ _ _ _ _ _)); csteps; cdata; csteps; rewrite Qn; csteps; cdata; csteps;
    apply sim_ok; refine (conj eq_refl _); do 1 eexists; reflexivity
  | do 1 eexists; reflexivity
  | apply quot_fuel; exact Hf
  | intros [x1 lx] [s fl] [E (i & Hi & j0 & Es)]; cbn in E, Es; subst fl s; csteps; apply sim_ok; reflexivity ]).
Qed.

Lemma src_axpyz side n a xa x incx ya y incy fuel :
  (Z.to_nat n < fuel)%nat ->
  sim (fun r o => o = ([(xa, DQ x); (ya, DQ r)], None))
    (axpyv_opt side n (SC a) xa x incx ya y incy)
    (ccall (K:=K) (unit_axpyv fma "DCOMPLEX") no_ext fuel "HBLAS_AXPYV" [VChr side; VZ n; VC a; pv 0 0; VZ incx; pv 1 0; VZ incy] [(xa, DQ x); (ya, DQ y)]).
Proof.
  clear U. intros Hf. cstart fma K (unit_axpyz_eq fma) f_axpyz. hide fuel f_axpyz.
  csteps. rewrite ?aligned_at0. unfold axpyv_opt, axpy_step, alpha_cplx, smartconj_c. cbn [re im].
  destruct (Ascii.eqb side "L"), (IS_ALIGNED xa && IS_ALIGNED ya); csteps;
  (lazymatch goal with |- context [exec _ _ _ _ _ _ (?en, _)] =>
    cwhile (fun (i : Z) '(y, lx, ly) (s : st K) => exists j0 j1 j2 j3, s = (puts en [(14%nat, Some (VZ i)); (7%nat, qp 0%nat lx); (8%nat, qp 1%nat ly); (9%nat, j0); (10%nat, j1); (26%nat, j2); (27%nat, j3)], [(xa, DQ x); (ya, DQ y)])) end;
  [ intros i [[y1 lx] ly] s (j0 & j1 & j2 & j3 & ->); cbn [puts]; cleaf; reflexivity
  | intros i [[y1 lx] ly] s Hi (j0 & j1 & j2 & j3 & ->); cbn [puts put];
    rewrite (x_end (exec _ _ _ _ _ _ _)); csteps; cdata; csteps; cdata; csteps; cdata; csteps;
    apply sim_ok; refine (conj eq_refl _); do 4 eexists; reflexivity
  | do 4 eexists; reflexivity
  | apply quot_fuel; exact Hf
  | intros [[y1 lx] ly] [s fl] [E (i & Hi & j0 & j1 & j2 & j3 & Es)]; cbn in E, Es; subst fl s; csteps; apply sim_ok; reflexivity ]).
Qed.

Lemma src_axpyh side n a xa x incx ya y incy fuel :
  (Z.to_nat n < fuel)%nat ->
  sim (fun r o => o = ([(xa, DQ x); (ya, DQ r)], None))
    (axpyv_opt side n (SH a) xa x incx ya y incy)
    (ccall (K:=K) (unit_axpyv fma "DQUATERNION") no_ext fuel "HBLAS_AXPYV" [VChr side; VZ n; VQ a; pv 0 0; VZ incx; pv 1 0; VZ incy] [(xa, DQ x); (ya, DQ y)]).
Proof.
  intros Hf. cstart fma K (unit_axpyh_eq fma) f_axpyh. hideq fuel f_axpyh.
  csteps. rewrite ?aligned_at0. unfold axpyv_opt, axpy_step, alpha_cplx, smartconj_c. cbn [re im].
  destruct (Ascii.eqb side "L"), (IS_ALIGNED xa && IS_ALIGNED ya); csteps;
  (lazymatch goal with |- context [exec _ _ _ _ _ _ (?en, _)] =>
    cwhile (fun (i : Z) '(y, lx, ly) (s : st K) => exists j0 j1, s = (puts en [(14%nat, Some (VZ i)); (7%nat, qp 0%nat lx); (8%nat, qp 1%nat ly); (9%nat, j0); (10%nat, j1)], [(xa, DQ x); (ya, DQ y)])) end;
  [ intros i [[y1 lx] ly] s (j0 & j1 & ->); cbn [puts]; cleaf; reflexivity
  | intros i [[y1 lx] ly] s Hi (j0 & j1 & ->); cbn [puts put];
    rewrite (x_end (exec _ _ _ _ _ _ _)); csteps; cdata; csteps; cdata; csteps; rewrite Qn; csteps; cdata; csteps;
    apply sim_ok; refine (conj eq_refl _); do 2 eexists; reflexivity
  | do 2 eexists; reflexivity
  | apply quot_fuel; exact Hf
  | intros [[y1 lx] ly] [s fl] [E (i & Hi & j0 & j1 & Es)]; cbn in E, Es; subst fl s; csteps; apply sim_ok; reflexivity ]).
Qed.
End S.
