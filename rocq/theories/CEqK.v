(** The GEMM micro-kernel of src/hblas/cxx/hblas3/kern.cxx, run from the text, has the outcome of [kern] (MOptGemm.v). *)
From Coq Require Import ZArith Bool Ascii String List Lia.
From Verif Require Import Num Res MQuat MSimd MOptL1 MOptGemm CSyntax CParse CSrc CSem CProg CSimFacts CTac CObj CEqQ CEqL1.
Import ListNotations. Local Open Scope string_scope. Local Open Scope Z_scope.

(** accesses through a pointer to double *)
Ltac drun := repeat (progress (crun; change (dstep 0 2) with (0, 2); change (dstep 0 4) with (1, 0); change (dstep 0 6) with (1, 2); rewrite ?Z.add_0_r)).
Section S.
Context {K : num}.
Variable fma : bool.
Hypothesis U : fma = false -> two_step K.
Local Notation qp b e := (Some (VP (Ptr (OnQ b) e 0 TQuat))).
Lemma down i k : (0 <? k - i) = (i <? k).
Proof. destruct (Z.ltb_spec 0 (k - i)), (Z.ltb_spec i k); lia || reflexivity. Qed.

Lemma tail_bind {A} (r : res A) : r = bind r (fun a => Ok a).
Proof. destruct r; reflexivity. Qed.
Lemma src_kern m n k aa a oa ba b ob ca c oc ldc fuel :
  (Z.to_nat k <= fuel)%nat ->
  sim (fun r o => o = ([(aa, DQ a); (ba, DQ b); (ca, DQ r)], None))
    (kern m n k aa a oa ba b ob c oc ldc)
    (ccall (K:=K) (unit_kern fma) no_ext fuel "Kern" [VZ m; VZ n; VZ k; pv 0 oa; pv 1 ob; pv 2 oc; VZ ldc] [(aa, DQ a); (ba, DQ b); (ca, DQ c)]).
Proof.
  intros Hf. cstart fma K (unit_kern_eq fma) f_kern.
  replace (List.length (app (qop fma) [f_kern])) with 11%nat by (destruct fma; reflexivity).
  pose proof (q_inn (K:=K) fma U [f_kern] no_ext fuel 9) as Qi.
  pose proof (refs_qop (K:=K) fma U [f_kern] 8 ltac:(lia)) as R8. revert Qi R8.
  generalize (callv (K:=K) (app (qop fma) [f_kern]) no_ext fuel 11), (callp (K:=K) (app (qop fma) [f_kern]) no_ext fuel 11), (refs_of (app (qop fma) [f_kern])).
  intros rv rp rr Qi R8.
  assert (R8' : rr 8%nat = [true;true;true;true;true;true;true;true;true;true;true;true]) by (rewrite R8; destruct fma; reflexivity). clear R8.
  assert (Qi' : forall x1 x2 x3 x4 y1 y2 y3 y4 r (m : mem K),
    rp 8%nat [VM x1; VM x2; VM x3; VM x4; VM y1; VM y2; VM y3; VM y4; VM (w1 r); VM (w2 r); VM (w3 r); VM (w4 r)] m =
    mret (map Some (vs12 (M4 x1 x2 x3 x4) (M4 y1 y2 y3 y4) (INC_MULD4Q_NN (M4 x1 x2 x3 x4) (M4 y1 y2 y3 y4) r)), m))
    by (intros x1 x2 x3 x4 y1 y2 y3 y4 r m'; exact (Qi (M4 x1 x2 x3 x4) (M4 y1 y2 y3 y4) r m')).
  clear Qi. unfold f_kern, pv; cinit. unfold kern.
  cbv zeta.
  change (vld (K:=K) false 0) with (vld (K:=K) false ca). change (vst (K:=K) false 0) with (vst (K:=K) false ca).
  destruct (m =? 2) eqn:Em, (n =? 2) eqn:En; cbn [andb];
  (csteps; rewrite ?Em, ?En; crun;
   lazymatch goal with |- context [wloop _ _ _ (?en, _)] =>
    eapply sim_bind; [eapply (wfor_sim (fun (i : Z) '(r, lA, lB) (s : st K) => exists j0 j1 j2 j3 j4 j5 j6 j7 j8 j9 j10 j11 j12,
      s = (puts en [(19%nat, Some (VZ (k - i))); (18%nat, qp 0%nat lA); (17%nat, qp 1%nat lB);
                    (13%nat, Some (VM (w1 r))); (15%nat, Some (VM (w2 r))); (14%nat, Some (VM (w3 r))); (16%nat, Some (VM (w4 r)));
                    (20%nat, j0); (21%nat, j1); (22%nat, j2); (23%nat, j3); (24%nat, j4); (25%nat, j5); (26%nat, j6); (27%nat, j7); (28%nat, j8); (29%nat, j9); (30%nat, j10); (31%nat, j11); (32%nat, j12)], [(aa, DQ a); (ba, DQ b); (ca, DQ c)]))) |] end;
   [ intros i [[r lA] lB] s (j0 & j1 & j2 & j3 & j4 & j5 & j6 & j7 & j8 & j9 & j10 & j11 & j12 & ->); cbn [puts]; cleaf; rewrite down; reflexivity
   | intros i [[r lA] lB] s Hi (j0 & j1 & j2 & j3 & j4 & j5 & j6 & j7 & j8 & j9 & j10 & j11 & j12 & ->); cbn [puts put];
     rewrite (x_end (exec _ _ _ _ _ _ _)); drun; rewrite Qi'; csteps; rewrite R8'; unfold vs12; csteps;
     apply sim_ok; refine (conj eq_refl _); rewrite <- Z.sub_add_distr; do 13 eexists; reflexivity
   | rewrite Z.sub_0_r; do 13 eexists; reflexivity
   | lia
   | intros [[r lA] lB] [s fl] [E (i & Hi & j0 & j1 & j2 & j3 & j4 & j5 & j6 & j7 & j8 & j9 & j10 & j11 & j12 & Es)]; cbn in E, Es; subst fl s; unfold TRANSPOSE_4x4; cbn [w1 w2 w3 w4]; crun; try (rewrite (tail_bind (vst _ _ _ _ _)); cdata; csteps); apply sim_ok; reflexivity ]).
Qed.
End S.
