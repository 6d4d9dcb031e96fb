(** HBLAS_GEMM of gemm.cxx linked as in CLinkT.v, with the texts of the packing functions, has the outcome of [gemm_opt_default] (MOptGemm.v). *)
From Coq Require Import ZArith Bool Ascii String List Lia.
From Verif Require Import Num Res MQuat MSimd MOptL1 MGenM MPack MOptGemm CSyntax CParse CSrc CSem CProg CSimFacts CTac CLinkG CLink CObj CObjG CEqQ CEqL1 CEqK CEqG CEqG2.
From Verif Require Import TSyntax TSem MSrcT CLinkT.
From Verif Require TEq2 TEq7 TEq8 TEq10 TEq11.
From Verif Require Import CSyntax CSem.
Import ListNotations. Local Open Scope string_scope. Local Open Scope Z_scope.

Lemma quot2_le z : (Z.to_nat (Z.quot z 2) <= Z.to_nat z)%nat.
Proof.
  destruct (Z_lt_le_dec z 0) as [L|L].
  - pose proof (Z.quot_le_mono z 0 2 ltac:(lia) ltac:(lia)) as H. rewrite Z.quot_0_l in H by lia. lia.
  - apply Z2Nat.inj_le; [apply Z.quot_pos; lia|lia|]. rewrite Z.quot_div_nonneg by lia. apply Z.div_le_upper_bound; lia.
Qed.
Section S.
Context {K : num}.
Variable fma : bool.
Hypothesis U : fma = false -> two_step K.
Variables (fuel : nat) (aa ba : Z) (ga gb : Z -> quat K).
Local Notation ext := (gemm_link_t (K:=K) fma fuel aa ba ga gb).
Local Notation MEM A B ca c bp ap := [A; B; (ca, DQ c); (ba, DQ bp); (aa, DQ ap)].
(** a packing call, on the memory of gemm.cxx *)
Lemma link_pack (t : bool) o cj (al : option (scal K)) p q e ld (m : mem K) b x a0 (src : arr (quat K)) a1 (buf : arr (quat K)) :
  Nat.eqb b x = false -> nth_error m b = Some (a0, DQ src) -> nth_error m x = Some (a1, DQ buf) ->
  pack_text_link fma (TEq11.pname t) (TEq2.ops_text o cj)
    ([VZ p; VZ q; VP (Ptr (OnQ b) e 0 TQuat); VZ ld; VP (Ptr (OnQ x) 0 0 TQuat)] ++ match al with Some al => [v_of al] | None => [] end) m =
  lift (r <- TEq10.pack_ t o cj al p q src e ld buf ;; Ok (mput m x (DQ r))).
Proof.
  intros E Eb Ex.
  transitivity (mb (tpack_src fma (S (Z.to_nat p + Z.to_nat q)) (TEq11.pname t) (TEq2.ops_text o cj) p q e ld al a0 src a1 buf)
    (fun '(m', _) => match m' with [_; (_, d)] => mret (mput m x d) | _ => None end)).
  { cbn [pack_text_link app]. rewrite E, Eb, Ex. unfold tpack_src. destruct (unit_pack fma) as [w|]; [|reflexivity]. cbn [obind].
    destruct (targs_of _) as [ts|]; [|reflexivity]. cbn [obind]. destruct al as [[a|z|h]|]; reflexivity. }
  rewrite TEq11.tpack_src_ok.
  - destruct (TEq10.pack_ t o cj al p q src e ld buf); reflexivity.
  - destruct t; cbn [TEq8.bnd]; lia.
  - pose proof (quot2_le (TEq10.cnt t p q)). destruct t; cbn [TEq10.cnt] in *; lia.
Qed.
Variables (ta tb : ascii) (m n k : Z) (al be : scal K) (a_ad b_ad : Z) (a b : arr (quat K)) (lda ldb : Z) (ca : Z) (c : arr (quat K)) (ldc : Z).
Local Notation A := (a_ad, DQ a). Local Notation B := (b_ad, DQ b).
Hypotheses (Hm : (Z.to_nat m < fuel)%nat) (Hn : (Z.to_nat n < fuel)%nat) (Hk : (Z.to_nat k < fuel)%nat).
Local Notation qp b e := (Some (VP (Ptr (OnQ b) e 0 TQuat))).
Lemma alloc1 X Y Z : ext "aligned_alloc" "" [VZ 32; VZ (64 * 512 * 32)] [X; Y; Z] = mret [X; Y; Z; (ba, DQ (aligned_buf (FixMod (64 * 512) REQ_ALIGN) gb))].
Proof. exact (CEqG2.alloc1 fma fuel aa ba ga gb X Y Z). Qed.
Lemma alloc2 X Y Z T : ext "aligned_alloc" "" [VZ 32; VZ (64 * 64 * 32)] [X; Y; Z; T] = mret [X; Y; Z; T; (aa, DQ (aligned_buf (FixMod (64 * 64) REQ_ALIGN) ga))].
Proof. exact (CEqG2.alloc2 fma fuel aa ba ga gb X Y Z T). Qed.
Lemma link_scalm X Y Z T : ext "HBLAS_SCALM" "" [VChr "L"; VChr "N"; VZ m; VZ n; v_of be; VP (Ptr (OnQ 2) 0 0 TQuat); VZ ldc; VZ 1] [X; Y; (ca, DQ c); Z; T] =
  lift (x <- scalm_avx "L" "N" m n be ca c ldc 1 ;; Ok [X; Y; (ca, DQ x); Z; T]).
Proof. exact (CEqG2.link_scalm fma U fuel aa ba ga gb m n be ca c ldc Hm Hn X Y Z T). Qed.
Lemma g_body_ok rv rp rr :
  sim (fun r y => snd y = Next /\ exists en bp ap, fst y = (en, MEM A B ca r bp ap))
    (gemm_opt_default aa ba ga gb ta tb m n k al a lda b ldb be ca c ldc)
    (exec rv rp rr ext fuel g_body
      ([Some (VChr ta); Some (VChr tb); Some (VZ m); Some (VZ n); Some (VZ k); Some (v_of al); qp 0 0; Some (VZ lda); qp 1 0; Some (VZ ldb); Some (v_of be); qp 2 0; Some (VZ ldc);
        None; None; None; None; None; None; None; None; None; None; None; None; None; None; None; None; None; None; None; None; None; None; None; None; None; None; None; None; None; None; None; None],
       [A; B; (ca, DQ c)])).
Proof.
  pose proof (g_j_ok (K:=K) rv rp rr ext fuel ta tb m n k (v_of al) (v_of be) lda ldb ldc al A B a b ca aa ba) as G.
  assert (HK : forall p q k oa ob oc (c bp ap : arr (quat K)), (Z.to_nat k <= fuel)%nat ->
    sim (fun r m' => m' = MEM A B ca r bp ap) (kern p q k aa ap oa ba bp ob c oc ldc)
    (ext "Kern" "" [VZ p; VZ q; VZ k; VP (Ptr (OnQ 4) oa 0 TQuat); VP (Ptr (OnQ 3) ob 0 TQuat); VP (Ptr (OnQ 2) oc 0 TQuat); VZ ldc] (MEM A B ca c bp ap)))
    by (intros; refine (link_kern fma U fuel aa ba ga gb _ _ _ _ _ _ _ _ _ _ _ _ _ _); assumption).
  specialize (G HK). clear HK.
  rewrite (x_end (exec _ _ _ _ _ _ _)). unfold g_body.
  csteps. change (negb (Z.rem (64 * 512) 32 =? 0)) with false. cbv beta iota. cleaf. rewrite alloc1. csteps.
  change (negb (Z.rem (64 * 64) 32 =? 0)) with false. cbv beta iota. cleaf. rewrite alloc2. csteps.
  rewrite link_scalm. unfold gemm_opt_default, gemm_opt, gemm_opt_at. cbv zeta.
  destruct (scalm_avx "L" "N" m n be ca c ldc 1) as [c' | |]; [| reflexivity | reflexivity]. csteps. rewrite x_while. unfold gemm_nc.
  cbe.
  { refine (G _ _ _ _ _ _ _ _ _ _ _ _ _ _ _ _ _ _ _ _ _ _ _ _ _ _ _ _ _ Hk Hm Hn eq_refl eq_refl eq_refl).
    - intros p q e c2 bp ap vs r. unfold vs, r. clear G.
      exact (conj (link_pack true MPack.T1 false (Some al) q p e lda (MEM A B ca c2 bp ap) 0 4 a_ad a aa ap eq_refl eq_refl eq_refl) (conj (link_pack true MPack.T1 true (Some al) q p e lda (MEM A B ca c2 bp ap) 0 4 a_ad a aa ap eq_refl eq_refl eq_refl)
        (conj (link_pack false MPack.T1 true (Some al) p q e lda (MEM A B ca c2 bp ap) 0 4 a_ad a aa ap eq_refl eq_refl eq_refl) (link_pack false MPack.T1 false (Some al) p q e lda (MEM A B ca c2 bp ap) 0 4 a_ad a aa ap eq_refl eq_refl eq_refl)))).
    - intros p q e c2 bp ap vs r. unfold vs, r. clear G.
      exact (conj (link_pack false MPack.T2 false None p q e ldb (MEM A B ca c2 bp ap) 1 3 b_ad b ba bp eq_refl eq_refl eq_refl) (conj (link_pack false MPack.T2 true None p q e ldb (MEM A B ca c2 bp ap) 1 3 b_ad b ba bp eq_refl eq_refl eq_refl)
        (conj (link_pack true MPack.T2 true None q p e ldb (MEM A B ca c2 bp ap) 1 3 b_ad b ba bp eq_refl eq_refl eq_refl) (link_pack true MPack.T2 false None q p e ldb (MEM A B ca c2 bp ap) 1 3 b_ad b ba bp eq_refl eq_refl eq_refl)))). }
  intros [[[[c2 p2] q2] r2] t2] [y fl] (E & en & bp & ap & E2 & E3 & E4). cbn [fst snd] in E, E2. subst fl y.
  csteps. rewrite E3. csteps. change (ext "free" "") with (fun (_ : list (val K)) (m : mem K) => mret m). cbv beta. csteps.
  rewrite E4. csteps. change (ext "free" "") with (fun (_ : list (val K)) (m : mem K) => mret m). cbv beta. csteps.
  apply sim_ok. refine (conj eq_refl _). do 3 eexists. reflexivity.
Qed.
End S.

Ltac gtop_t fma K Hb UE f :=
  cstart fma K UE f;
  match type of Hb with context [gemm_link_t fma ?fuel ?aa ?ba ?ga ?gb] =>
    revert Hb; generalize (callv (K:=K) (app (qop fma) [f]) (gemm_link_t fma fuel aa ba ga gb) fuel (List.length (app (qop fma) [f]))),
      (callp (K:=K) (app (qop fma) [f]) (gemm_link_t fma fuel aa ba ga gb) fuel (List.length (app (qop fma) [f]))), (refs_of (app (qop fma) [f])) end;
  intros rv rp rr Hb; specialize (Hb rv rp rr);
  change (f_body f) with g_body; unfold f, pv; cbn [bind_args mb mret convert app repeat List.length Nat.sub f_params f_slots f_ret];
  rewrite mb_mb;
  lazymatch goal with |- sim _ ?r (mb ?x ?g) => rewrite (tail_bind r); refine (sim_bind _ _ r x (fun a => Ok a) g Hb _) end;
  intros r' [y fl] (E1 & en & bp & ap & E2); cbn [fst snd] in E1, E2; subst fl y; apply sim_ok; do 2 eexists; reflexivity.
Section T.
Context {K : num}.
Variable fma : bool.
Hypothesis U : fma = false -> two_step K.
Variables (fuel : nat) (aa ba : Z) (ga gb : Z -> quat K).
Lemma tsrc_gemmdd ta tb m n k al be a_ad b_ad a b lda ldb ca c ldc :
  (Z.to_nat m < fuel)%nat -> (Z.to_nat n < fuel)%nat -> (Z.to_nat k < fuel)%nat ->
  sim (fun r o => exists bp ap, o = ([(a_ad, DQ a); (b_ad, DQ b); (ca, DQ r); (ba, DQ bp); (aa, DQ ap)], None))
    (gemm_opt_default aa ba ga gb ta tb m n k (SR al) a lda b ldb (SR be) ca c ldc)
    (ccall (K:=K) (unit_gemm fma "DOUBLE" "DOUBLE") (gemm_link_t fma fuel aa ba ga gb) fuel "HBLAS_GEMM"
      [VChr ta; VChr tb; VZ m; VZ n; VZ k; VK al; pv 0 0; VZ lda; pv 1 0; VZ ldb; VK be; pv 2 0; VZ ldc] [(a_ad, DQ a); (b_ad, DQ b); (ca, DQ c)]).
Proof.
  intros Hm Hn Hk.
  pose proof (g_body_ok (K:=K) fma U fuel aa ba ga gb ta tb m n k (SR al) (SR be) a_ad b_ad a b lda ldb ca c ldc Hm Hn Hk) as Hb. cbn [v_of] in Hb.
  gtop_t fma K Hb (unit_gemmdd_eq fma) f_gemmdd.
Qed.
Lemma tsrc_gemmdz ta tb m n k al be a_ad b_ad a b lda ldb ca c ldc :
  (Z.to_nat m < fuel)%nat -> (Z.to_nat n < fuel)%nat -> (Z.to_nat k < fuel)%nat ->
  sim (fun r o => exists bp ap, o = ([(a_ad, DQ a); (b_ad, DQ b); (ca, DQ r); (ba, DQ bp); (aa, DQ ap)], None))
    (gemm_opt_default aa ba ga gb ta tb m n k (SR al) a lda b ldb (SC be) ca c ldc)
    (ccall (K:=K) (unit_gemm fma "DOUBLE" "DCOMPLEX") (gemm_link_t fma fuel aa ba ga gb) fuel "HBLAS_GEMM"
      [VChr ta; VChr tb; VZ m; VZ n; VZ k; VK al; pv 0 0; VZ lda; pv 1 0; VZ ldb; VC be; pv 2 0; VZ ldc] [(a_ad, DQ a); (b_ad, DQ b); (ca, DQ c)]).
Proof.
  intros Hm Hn Hk.
  pose proof (g_body_ok (K:=K) fma U fuel aa ba ga gb ta tb m n k (SR al) (SC be) a_ad b_ad a b lda ldb ca c ldc Hm Hn Hk) as Hb. cbn [v_of] in Hb.
  gtop_t fma K Hb (unit_gemmdz_eq fma) f_gemmdz.
Qed.
Lemma tsrc_gemmzd ta tb m n k al be a_ad b_ad a b lda ldb ca c ldc :
  (Z.to_nat m < fuel)%nat -> (Z.to_nat n < fuel)%nat -> (Z.to_nat k < fuel)%nat ->
  sim (fun r o => exists bp ap, o = ([(a_ad, DQ a); (b_ad, DQ b); (ca, DQ r); (ba, DQ bp); (aa, DQ ap)], None))
    (gemm_opt_default aa ba ga gb ta tb m n k (SC al) a lda b ldb (SR be) ca c ldc)
    (ccall (K:=K) (unit_gemm fma "DCOMPLEX" "DOUBLE") (gemm_link_t fma fuel aa ba ga gb) fuel "HBLAS_GEMM"
      [VChr ta; VChr tb; VZ m; VZ n; VZ k; VC al; pv 0 0; VZ lda; pv 1 0; VZ ldb; VK be; pv 2 0; VZ ldc] [(a_ad, DQ a); (b_ad, DQ b); (ca, DQ c)]).
Proof.
  intros Hm Hn Hk.
  pose proof (g_body_ok (K:=K) fma U fuel aa ba ga gb ta tb m n k (SC al) (SR be) a_ad b_ad a b lda ldb ca c ldc Hm Hn Hk) as Hb. cbn [v_of] in Hb.
  gtop_t fma K Hb (unit_gemmzd_eq fma) f_gemmzd.
Qed.
Lemma tsrc_gemmzz ta tb m n k al be a_ad b_ad a b lda ldb ca c ldc :
  (Z.to_nat m < fuel)%nat -> (Z.to_nat n < fuel)%nat -> (Z.to_nat k < fuel)%nat ->
  sim (fun r o => exists bp ap, o = ([(a_ad, DQ a); (b_ad, DQ b); (ca, DQ r); (ba, DQ bp); (aa, DQ ap)], None))
    (gemm_opt_default aa ba ga gb ta tb m n k (SC al) a lda b ldb (SC be) ca c ldc)
    (ccall (K:=K) (unit_gemm fma "DCOMPLEX" "DCOMPLEX") (gemm_link_t fma fuel aa ba ga gb) fuel "HBLAS_GEMM"
      [VChr ta; VChr tb; VZ m; VZ n; VZ k; VC al; pv 0 0; VZ lda; pv 1 0; VZ ldb; VC be; pv 2 0; VZ ldc] [(a_ad, DQ a); (b_ad, DQ b); (ca, DQ c)]).
Proof.
  intros Hm Hn Hk.
  pose proof (g_body_ok (K:=K) fma U fuel aa ba ga gb ta tb m n k (SC al) (SC be) a_ad b_ad a b lda ldb ca c ldc Hm Hn Hk) as Hb. cbn [v_of] in Hb.
  gtop_t fma K Hb (unit_gemmzz_eq fma) f_gemmzz.
Qed.
End T.
