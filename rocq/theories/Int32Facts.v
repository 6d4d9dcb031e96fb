(** Facts about MInt32.v: within the stated bounds no HAXX_INT computation overflows and the checked code is the
    unchecked one; beyond them it is UB. *)
From Coq Require Import ZArith Bool Ascii Lia.
From Verif Require Import Num Res ResFacts MQuat MSimd MOptL1 MGenL1 MGenM MGenL2 MPack MOptGemm MInt32.
Local Open Scope Z_scope.

Lemma i32_ok v : - 2 ^ 31 <= v < 2 ^ 31 -> i32 v = Ok v.
Proof.
  intros H. unfold i32.
  assert (E1 : (- 2 ^ 31 <=? v) = true) by (apply Z.leb_le; lia).
  assert (E2 : (v <? 2 ^ 31) = true) by (apply Z.ltb_lt; lia).
  rewrite E1, E2. reflexivity.
Qed.
Lemma i32_ub v : 2 ^ 31 <= v -> i32 v = UB.
Proof.
  intros H. unfold i32.
  assert (E2 : (v <? 2 ^ 31) = false) by (apply Z.ltb_ge; lia).
  rewrite E2, andb_false_r. reflexivity.
Qed.

Lemma mul_i32 i d L : 0 <= d -> 0 <= i < L -> (L - 1) * d < 2 ^ 31 -> i32 (i * d) = Ok (i * d).
Proof. intros D I H. apply i32_ok. nia. Qed.

Lemma floop_ext_inv {S} (I : Z -> S -> Prop) n lo (b1 b2 : Z -> S -> res S) s :
  (forall i s, lo <= i < lo + Z.of_nat n -> I i s -> b1 i s = b2 i s) ->
  (forall i s s', lo <= i < lo + Z.of_nat n -> I i s -> b2 i s = Ok s' -> I (i + 1) s') ->
  I lo s -> floop n lo b1 s = floop n lo b2 s.
Proof.
  revert lo s; induction n as [|n IH]; intros lo s H Hi Hs; cbn [floop]; auto.
  rewrite H by (auto; lia). destruct (b2 lo s) as [s'| |] eqn:E; cbn [bind]; auto.
  apply IH; intros; [apply H|eapply Hi|eapply Hi]; eauto; lia.
Qed.
Lemma zfor_ext_inv {S} (I : Z -> S -> Prop) lo hi (b1 b2 : Z -> S -> res S) s :
  (forall i s, lo <= i < hi -> I i s -> b1 i s = b2 i s) ->
  (forall i s s', lo <= i < hi -> I i s -> b2 i s = Ok s' -> I (i + 1) s') ->
  I lo s -> zfor lo hi b1 s = zfor lo hi b2 s.
Proof. intros H Hi Hs. apply floop_ext_inv with (I := I); auto; intros; [apply H|eapply Hi]; eauto; lia. Qed.
(** cursor loops: the second component is j*inc at iteration j *)
Lemma zfor_cur {S} n inc (f : Z -> S -> Z -> res S) s :
  0 <= inc -> n * inc < 2 ^ 31 ->
  zfor 0 n (fun j '(s, jx) => s <- f j s jx ;; jx <- i32 (jx + inc) ;; Ok (s, jx)) (s, 0) =
  zfor 0 n (fun j '(s, jx) => s <- f j s jx ;; Ok (s, jx + inc)) (s, 0).
Proof.
  intros Hi Hb. apply zfor_ext_inv with (I := fun j (p : S * Z) => snd p = j * inc); cbn [snd]; try lia.
  - intros j [s' jx] Hj E. cbn [snd] in E. subst jx. destruct (f j s' (j * inc)); cbn [bind]; auto.
    rewrite i32_ok by nia. reflexivity.
  - intros j [s' jx] s'' Hj E E2. cbn [snd] in E. subst jx. destruct (f j s' (j * inc)); cbn [bind] in E2; inversion E2; subst.
    cbn [snd]. lia.
Qed.
Lemma zfor_cur_ext {S} n (f g : Z -> S -> Z -> res S) inc s :
  (forall j s jx, 0 <= j < n -> f j s jx = g j s jx) ->
  zfor 0 n (fun j '(s, jx) => s <- f j s jx ;; Ok (s, jx + inc)) (s, 0) =
  zfor 0 n (fun j '(s, jx) => s <- g j s jx ;; Ok (s, jx + inc)) (s, 0).
Proof. intros H. apply zfor_ext. intros j [s' jx] Hj. rewrite H by lia. reflexivity. Qed.

Lemma zforstep_ext_pos {S} lo hi step (b1 b2 : Z -> S -> res S) s : 0 < step ->
  (forall i s, lo <= i < hi -> b1 i s = b2 i s) -> zforstep lo hi step b1 s = zforstep lo hi step b2 s.
Proof.
  intros Hs H. unfold zforstep. apply zfor_ext. intros t s' Ht. apply H.
  pose proof (Z.mul_div_le (hi - lo + step - 1) step Hs). nia.
Qed.

Section G.
Context {K : num} {MT : Type}.
Local Notation qarr := (arr (quat K)).
Variable qmul : quat K -> quat K -> quat K.
Variable mmul : MT -> quat K -> quat K.
Variable aM Ma : scal K -> MT -> MT.
Variable msub : MT -> MT -> MT.
Variable mconj : MT -> MT.

Lemma rank2_ok i j m n lda : 0 <= lda -> 0 <= i < m -> 0 <= j < n -> (m - 1) + (n - 1) * lda < 2 ^ 31 ->
  rank2_32 i j lda = Ok (i + j * lda).
Proof. intros L I J B. unfold rank2_32. rewrite i32_ok by nia. cbn [bind]. apply i32_ok. nia. Qed.

Lemma gemv_beta32_eq beta leny y incy : 0 <= incy -> leny * incy < 2 ^ 31 ->
  gemv_beta32 (K:=K) qmul beta leny y incy = gemv_beta qmul beta leny y incy.
Proof.
  intros Hi Hb. unfold gemv_beta32, gemv_beta.
  destruct (s_eqb beta n1); auto. destruct (incy =? 1); auto. destruct (s_eqb beta n0).
  - rewrite zfor_cur with (f := fun _ y iy => v <- ld y iy ;; st y iy (q_set_real v n0)) by lia. reflexivity.
  - rewrite zfor_cur with (f := fun _ y iy => v <- ld y iy ;; st y iy (smul_l qmul beta v)) by lia. reflexivity.
Qed.

Lemma gemv_n32_eq alpha m n (a : arr MT) lda (x : qarr) incx (y : qarr) incy :
  0 <= lda -> 0 <= incx -> 0 <= incy -> (m - 1) + (n - 1) * lda < 2 ^ 31 -> n * incx < 2 ^ 31 -> m * incy < 2 ^ 31 ->
  gemv_n32 qmul mmul aM Ma msub alpha m n a lda x incx y incy = gemv_n qmul mmul aM Ma msub alpha m n a lda x incx y incy.
Proof.
  intros L X Y B BX BY. unfold gemv_n32, gemv_n. destruct (incy =? 1).
  - rewrite zfor_cur with (f := fun j y jx => v <- ld x jx ;;
      zfor 0 m (fun i y => p <- rank2_32 i j lda ;; aij <- ld a p ;; gemv_n_step qmul mmul aM Ma msub alpha aij v i y) y) by lia.
    rewrite zfor_cur_ext with (g := fun j y jx => v <- ld x jx ;;
      zfor 0 m (fun i y => aij <- ld a (i + j * lda) ;; gemv_n_step qmul mmul aM Ma msub alpha aij v i y) y); [reflexivity|].
    intros j s jx Hj. destruct (ld x jx) as [v| |]; cbn [bind]; auto. apply zfor_ext. intros i s' Hi.
    rewrite (rank2_ok i j m n) by lia. reflexivity.
  - rewrite zfor_cur with (f := fun j y jx => v <- ld x jx ;;
      '(y, _) <- zfor 0 m (fun i '(y, iy) => p <- rank2_32 i j lda ;; y <- (aij <- ld a p ;; gemv_n_step qmul mmul aM Ma msub alpha aij v iy y) ;; iy <- i32 (iy + incy) ;; Ok (y, iy)) (y, 0) ;; Ok y) by lia.
    rewrite zfor_cur_ext with (g := fun j y jx => v <- ld x jx ;;
      '(y, _) <- zfor 0 m (fun i '(y, iy) => y <- (aij <- ld a (i + j * lda) ;; gemv_n_step qmul mmul aM Ma msub alpha aij v iy y) ;; Ok (y, iy + incy)) (y, 0) ;; Ok y); [reflexivity|].
    intros j s jx Hj. destruct (ld x jx) as [v| |]; cbn [bind]; auto. f_equal.
    rewrite <- zfor_cur with (f := fun i y iy => aij <- ld a (i + j * lda) ;; gemv_n_step qmul mmul aM Ma msub alpha aij v iy y) by lia.
    apply zfor_ext. intros i [s' iy] Hi. rewrite (rank2_ok i j m n) by lia. reflexivity.
Qed.

Lemma gemv_t32_eq alpha noconj m n (a : arr MT) lda (x : qarr) incx (y : qarr) incy :
  0 <= lda -> 0 <= incx -> 0 <= incy -> (m - 1) + (n - 1) * lda < 2 ^ 31 -> m * incx < 2 ^ 31 -> n * incy < 2 ^ 31 ->
  gemv_t32 qmul mmul mconj alpha noconj m n a lda x incx y incy = gemv_t qmul mmul mconj alpha noconj m n a lda x incx y incy.
Proof.
  intros L X Y B BX BY. unfold gemv_t32, gemv_t. cbv zeta.
  match goal with |- context [zfor 0 n (fun j '(y, jy) => y <- @?F j y jy ;; jy <- i32 (jy + incy) ;; Ok (y, jy))] =>
    rewrite zfor_cur with (f := F) by lia end.
  match goal with |- _ = bind (zfor 0 n (fun j '(y, jy) => y <- @?F j y jy ;; Ok (y, jy + incy)) _) _ =>
    rewrite zfor_cur_ext with (g := F); [reflexivity|] end.
  intros j s jy Hj. cbv beta. f_equal. destruct (incx =? 1).
  - apply zfor_ext. intros i h Hi. rewrite (rank2_ok i j m n) by lia. reflexivity.
  - f_equal.
    rewrite <- zfor_cur with (f := fun i h ix => aij <- ld a (i + j * lda) ;; v <- ld x ix ;; Ok (gemv_dot mmul mconj noconj aij v h)) by lia.
    apply zfor_ext. intros i [s' ix] Hi. rewrite (rank2_ok i j m n) by lia. reflexivity.
Qed.

Lemma gemv_gen32_eq trans m n alpha (a : arr MT) lda (x : qarr) incx beta (y : qarr) incy :
  0 <= lda -> (m - 1) + (n - 1) * lda < 2 ^ 31 ->
  (if Ascii.eqb trans "N" then n else m) * incx < 2 ^ 31 ->
  (if Ascii.eqb trans "N" then m else n) * incy < 2 ^ 31 ->
  gemv_gen32 qmul mmul aM Ma msub mconj trans m n alpha a lda x incx beta y incy =
  gemv_gen qmul mmul aM Ma msub mconj trans m n alpha a lda x incx beta y incy.
Proof.
  intros L B BX BY. unfold gemv_gen32, gemv_gen.
  destruct ((m =? 0) || (n =? 0) || (s_eqb alpha n0 && s_eqb beta n1)); auto.
  unfold assertb at 1 3. destruct (incx >? 0) eqn:EX; cbn [bind]; auto.
  unfold assertb. destruct (incy >? 0) eqn:EY; cbn [bind]; auto.
  apply Z.gtb_lt in EX, EY. cbv zeta.
  destruct (Ascii.eqb trans "N"); cbn [negb].
  - rewrite gemv_beta32_eq by lia. destruct (gemv_beta qmul beta m y incy); cbn [bind]; auto.
    destruct (s_eqb alpha n0); auto. apply gemv_n32_eq; lia.
  - rewrite gemv_beta32_eq by lia. destruct (gemv_beta qmul beta n y incy); cbn [bind]; auto.
    destruct (s_eqb alpha n0); auto. apply gemv_t32_eq; lia.
Qed.

Lemma gemm_nota32_eq m n k alpha (a : arr MT) lda bq bq' beta (c : qarr) ldc :
  0 <= lda -> 0 <= ldc -> (n - 1) * ldc < 2 ^ 31 -> (k - 1) * lda < 2 ^ 31 ->
  (forall l j, 0 <= l < k -> 0 <= j < n -> bq l j = bq' l j) ->
  gemm_nota32 qmul mmul aM m n k alpha a lda bq beta c ldc = gemm_nota qmul mmul aM m n k alpha a lda bq' beta c ldc.
Proof.
  intros L LC BC BA HB. unfold gemm_nota32, gemm_nota. apply zfor_ext. intros j c' Hj.
  rewrite (mul_i32 j ldc n) by lia. cbn [bind].
  match goal with |- bind ?A _ = bind ?B _ => destruct B as [c2| |]; cbn [bind]; auto end.
  apply zfor_ext. intros l c3 Hl. rewrite (mul_i32 l lda k) by lia. cbn [bind].
  apply zfor_ext. intros i c4 Hi. rewrite HB by lia. reflexivity.
Qed.
Lemma gemm_transa32_eq ca m n k alpha (a : arr MT) lda bq bq' beta (c : qarr) ldc :
  0 <= lda -> 0 <= ldc -> (n - 1) * ldc < 2 ^ 31 -> (m - 1) * lda < 2 ^ 31 ->
  (forall l j, 0 <= l < k -> 0 <= j < n -> bq l j = bq' l j) ->
  gemm_transa32 qmul mmul mconj ca m n k alpha a lda bq beta c ldc = gemm_transa qmul mmul mconj ca m n k alpha a lda bq' beta c ldc.
Proof.
  intros L LC BC BA HB. unfold gemm_transa32, gemm_transa. apply zfor_ext. intros j c' Hj.
  rewrite (mul_i32 j ldc n) by lia. cbn [bind].
  apply zfor_ext. intros i c2 Hi. rewrite (mul_i32 i lda m) by lia. cbn [bind]. f_equal.
  apply zfor_ext. intros l h Hl. rewrite HB by lia. reflexivity.
Qed.

Lemma gemm_gen32_eq transa transb m n k alpha (a : arr MT) lda (b : qarr) ldb beta (c : qarr) ldc :
  0 <= lda -> 0 <= ldb -> 0 <= ldc -> (n - 1) * ldc < 2 ^ 31 ->
  ((if Ascii.eqb transa "N" then k else m) - 1) * lda < 2 ^ 31 ->
  ((if Ascii.eqb transb "N" then n else k) - 1) * ldb < 2 ^ 31 ->
  gemm_gen32 qmul mmul aM mconj transa transb m n k alpha a lda b ldb beta c ldc =
  gemm_gen qmul mmul aM mconj transa transb m n k alpha a lda b ldb beta c ldc.
Proof.
  intros LA LB LC BC BA BB. unfold gemm_gen32, gemm_gen.
  destruct ((m =? 0) || (n =? 0) || ((s_eqb alpha n0 || (k =? 0)) && s_eqb beta n1)); auto.
  destruct (s_eqb alpha n0).
  { apply zfor_ext. intros j c' Hj. rewrite (mul_i32 j ldc n) by lia. reflexivity. }
  cbv zeta.
  destruct (Ascii.eqb transb "N").
  - destruct (Ascii.eqb transa "N"); [|destruct (Ascii.eqb transa "C")];
      [apply gemm_nota32_eq|apply gemm_transa32_eq..]; auto;
      intros l j Hl Hj; rewrite (mul_i32 j ldb n) by lia; reflexivity.
  - destruct (Ascii.eqb transa "N"); [|destruct (Ascii.eqb transa "C")]; destruct (Ascii.eqb transb "C");
      first [apply gemm_nota32_eq|apply gemm_transa32_eq]; auto;
      intros l j Hl Hj; rewrite (mul_i32 l ldb k) by lia; reflexivity.
Qed.
End G.

Section O.
Context {K : num}.
Local Notation qarr := (arr (quat K)).

Lemma dot_opt32_eq cnj n xa (x : qarr) incx ya (y : qarr) incy :
  - 2 ^ 31 <= 4 * incx < 2 ^ 31 -> - 2 ^ 31 <= 4 * incy < 2 ^ 31 ->
  dot_opt32 cnj n xa x incx ya y incy = dot_opt cnj n xa x incx ya y incy.
Proof.
  intros BX BY. unfold dot_opt32, dot_opt. cbv zeta.
  match goal with |- bind ?A _ = bind ?B _ => replace A with B end.
  - match goal with |- bind ?A _ = _ => destruct A as [[[r lx] ly]| |]; cbn [bind]; auto end.
    f_equal. apply zfor_ext. intros i r1 Hi.
    assert (Z.rem n 4 < 4) by (destruct (Z.le_gt_cases 0 n); [apply Z.rem_bound_pos|pose proof (Z.rem_nonpos n 4)]; lia).
    rewrite !i32_ok by nia. reflexivity.
  - apply zfor_ext. intros i [[r lx] ly] Hi. rewrite !i32_ok by lia. reflexivity.
Qed.

Lemma scalv_gen32_eq qmul side n alpha (x : qarr) incx : (n + 1) * incx < 2 ^ 31 ->
  scalv_gen32 qmul side n alpha x incx = scalv_gen qmul side n alpha x incx.
Proof.
  intros B. unfold scalv_gen32. destruct ((n <=? 0) || (incx <=? 0)) eqn:E.
  { unfold scalv_gen. rewrite E. reflexivity. }
  apply orb_false_iff in E. destruct E as [E1 E2]. apply Z.leb_gt in E1, E2.
  destruct (incx =? 1) eqn:E3; auto.
  unfold scalv_gen. rewrite (proj2 (Z.leb_gt _ _) E1), (proj2 (Z.leb_gt _ _) E2), E3. cbn [orb]. cbv zeta.
  rewrite i32_ok by nia. cbn [bind]. apply zforstep_ext_pos; auto.
  intros i s Hi. rewrite i32_ok by nia. destruct (scal1 qmul (negb (Ascii.eqb side "R")) alpha i s); reflexivity.
Qed.

Lemma gemm_tiles32_eq nI nJ nK aa (aPack : qarr) ba bPack (c : qarr) Ci ldc :
  nI <= 2 ^ 31 - 2 -> nJ <= 2 ^ 31 - 2 -> 0 <= nK -> 2 * nK < 2 ^ 31 -> 0 <= ldc -> 2 * ldc < 2 ^ 31 ->
  gemm_tiles32 nI nJ nK aa aPack ba bPack c Ci ldc = gemm_tiles nI nJ nK aa aPack ba bPack c Ci ldc.
Proof.
  intros BI BJ PK BK PC BC. unfold gemm_tiles32, gemm_tiles. f_equal.
  apply zforstep_ext_pos; [lia|]. intros jj [[c1 BL1] CBlk] Hj. cbv zeta.
  match goal with |- bind ?A _ = bind ?B _ => replace A with B end.
  - match goal with |- bind ?A _ = _ => destruct A as [[[c2 s1] s2]| |]; cbn [bind]; auto end.
    rewrite !i32_ok by lia. reflexivity.
  - apply zforstep_ext_pos; [lia|]. intros ii [[c3 sA] sC] Hi. rewrite !i32_ok by lia. reflexivity.
Qed.

Lemma gemm_mc32_eq mc transa m alA nJ nK (a : qarr) Ap lda aa aPack ba bPack (c : qarr) Cj ldc :
  0 < mc -> m + mc <= 2 ^ 31 -> mc <= 2 ^ 31 - 2 -> nJ <= 2 ^ 31 - 2 -> 0 <= nK -> 2 * nK < 2 ^ 31 ->
  0 <= lda -> 0 <= ldc -> 2 * ldc < 2 ^ 31 -> mc * lda < 2 ^ 31 ->
  gemm_mc32 mc transa m alA nJ nK a Ap lda aa aPack ba bPack c Cj ldc =
  gemm_mc mc transa m alA nJ nK a Ap lda aa aPack ba bPack c Cj ldc.
Proof.
  intros PM BM BMC BJ PK BK PA PC BC BA. unfold gemm_mc32, gemm_mc. f_equal.
  apply zforstep_ext_pos; [lia|]. intros i [[[c1 aP] Ai] Ci] Hi. cbv zeta.
  destruct (apack_call transa alA (Z.min (m - i) mc) nK a Ai lda aP) as [aP2| |]; cbn [bind]; auto.
  rewrite gemm_tiles32_eq by lia.
  destruct (gemm_tiles (Z.min (m - i) mc) nJ nK aa aP2 ba bPack c1 Ci ldc) as [c2| |]; cbn [bind]; auto.
  assert (0 <= Z.min (m - i) mc * lda < 2 ^ 31) by nia.
  destruct (Ascii.eqb transa "T" || Ascii.eqb transa "C"); cbn [bind]; rewrite !i32_ok by lia; reflexivity.
Qed.

Lemma gemm_kc32_eq mc kc transa transb m k alA alB nJ (a : qarr) lda b Bj ldb aa aPack ba bPack (c : qarr) Cj ldc :
  0 < mc -> m + mc <= 2 ^ 31 -> mc <= 2 ^ 31 - 2 -> nJ <= 2 ^ 31 - 2 -> 0 < kc -> k + kc <= 2 ^ 31 -> 2 * kc < 2 ^ 31 ->
  0 <= lda -> 0 <= ldb -> 0 <= ldc -> 2 * ldc < 2 ^ 31 -> mc * lda < 2 ^ 31 -> kc * lda < 2 ^ 31 -> kc * ldb < 2 ^ 31 ->
  gemm_kc32 mc kc transa transb m k alA alB nJ a lda b Bj ldb aa aPack ba bPack c Cj ldc =
  gemm_kc mc kc transa transb m k alA alB nJ a lda b Bj ldb aa aPack ba bPack c Cj ldc.
Proof.
  intros PM BM BMC BJ PK BK BKC PA PB PC BC BA BA2 BB. unfold gemm_kc32, gemm_kc. f_equal.
  apply zforstep_ext_pos; [lia|]. intros kk [[[[c1 aP] bP] Ap] Bp] Hk. cbv zeta.
  set (nK := Z.min (k - kk) kc). assert (HK : 0 < nK <= kc) by lia.
  destruct (bpack_call transb alB nJ nK b Bp ldb bP) as [bP2| |]; cbn [bind]; auto.
  rewrite gemm_mc32_eq by lia.
  destruct (gemm_mc mc transa m alA nJ nK a Ap lda aa aP ba bP2 c1 Cj ldc) as [[c2 aP2]| |]; cbn [bind]; auto.
  assert (0 <= nK * lda < 2 ^ 31) by nia. assert (0 <= nK * ldb < 2 ^ 31) by nia.
  destruct (Ascii.eqb transa "T" || Ascii.eqb transa "C"), (Ascii.eqb transb "T" || Ascii.eqb transb "C");
    rewrite ?i32_ok by lia; cbn [bind]; rewrite ?i32_ok by lia; cbn [bind]; rewrite ?i32_ok by lia; reflexivity.
Qed.

Lemma gemm_nc32_eq mc nc kc transa transb m n k alA alB (a : qarr) lda b ldb aa aPack ba bPack (c : qarr) ldc :
  0 < mc -> 0 < nc -> 0 < kc -> m + mc <= 2 ^ 31 -> n + nc <= 2 ^ 31 -> k + kc <= 2 ^ 31 ->
  mc <= 2 ^ 31 - 2 -> nc <= 2 ^ 31 - 2 -> 2 * kc < 2 ^ 31 ->
  0 <= lda -> 0 <= ldb -> 0 <= ldc -> 2 * ldc < 2 ^ 31 -> nc * ldc < 2 ^ 31 ->
  mc * lda < 2 ^ 31 -> kc * lda < 2 ^ 31 -> kc * ldb < 2 ^ 31 -> nc * ldb < 2 ^ 31 ->
  gemm_nc32 mc nc kc transa transb m n k alA alB a lda b ldb aa aPack ba bPack c ldc =
  gemm_nc mc nc kc transa transb m n k alA alB a lda b ldb aa aPack ba bPack c ldc.
Proof.
  intros PM PN PK BM BN BK BMC BNC BKC PA PB PC BC BNCC BA BA2 BB BB2. unfold gemm_nc32, gemm_nc. f_equal.
  apply zforstep_ext_pos; [lia|]. intros j [[[[c1 aP] bP] Bj] Cj] Hj. cbv zeta.
  set (nJ := Z.min (n - j) nc). assert (HJ : 0 < nJ <= nc) by lia.
  rewrite gemm_kc32_eq by lia.
  destruct (gemm_kc mc kc transa transb m k alA alB nJ a lda b Bj ldb aa aP ba bP c1 Cj ldc) as [[[c2 aP2] bP2]| |]; cbn [bind]; auto.
  assert (0 <= nJ * ldc < 2 ^ 31) by nia. assert (0 <= nJ * ldb < 2 ^ 31) by nia.
  rewrite (i32_ok (nJ * ldc)) by lia. cbn [bind].
  destruct (Ascii.eqb transb "T" || Ascii.eqb transb "C");
    rewrite ?i32_ok by lia; cbn [bind]; rewrite ?i32_ok by lia; reflexivity.
Qed.

Lemma gemm_opt32_eq mc nc kc aa ba ga gb transa transb m n k alpha (a : qarr) lda b ldb beta ca (c : qarr) ldc :
  0 < mc -> 0 < nc -> 0 < kc -> m + mc <= 2 ^ 31 -> n + nc <= 2 ^ 31 -> k + kc <= 2 ^ 31 ->
  mc <= 2 ^ 31 - 2 -> nc <= 2 ^ 31 - 2 -> 2 * kc < 2 ^ 31 ->
  0 <= lda -> 0 <= ldb -> 0 <= ldc -> 2 * ldc < 2 ^ 31 -> nc * ldc < 2 ^ 31 ->
  mc * lda < 2 ^ 31 -> kc * lda < 2 ^ 31 -> kc * ldb < 2 ^ 31 -> nc * ldb < 2 ^ 31 ->
  gemm_opt32 mc nc kc aa ba ga gb transa transb m n k alpha a lda b ldb beta ca c ldc =
  gemm_opt mc nc kc aa ba ga gb transa transb m n k alpha a lda b ldb beta ca c ldc.
Proof.
  intros. unfold gemm_opt32, gemm_opt, gemm_opt_at. cbv zeta.
  destruct (scalm_avx "L" "N" m n beta ca c ldc 1); cbn [bind]; auto. apply gemm_nc32_eq; assumption.
Qed.
End O.

(** ** beyond the bounds *)
Lemma floop_fails {S} n lo (b : Z -> S -> res S) i0 s s' :
  lo <= i0 < lo + Z.of_nat n -> (forall s s', b i0 s <> Ok s') -> floop n lo b s <> Ok s'.
Proof.
  revert lo s; induction n as [|n IH]; intros lo s Hi H; cbn [floop]; [lia|].
  destruct (Z.eq_dec i0 lo) as [->|Hne].
  - specialize (H s). destruct (b lo s) as [u| |]; cbn [bind]; try discriminate. destruct (H u eq_refl).
  - destruct (b lo s) as [u| |]; cbn [bind]; try discriminate. apply IH; auto; lia.
Qed.
Lemma zfor_fails {S} lo hi (b : Z -> S -> res S) i0 s s' :
  lo <= i0 < hi -> (forall s s', b i0 s <> Ok s') -> zfor lo hi b s <> Ok s'.
Proof. intros Hi H. apply floop_fails with (i0 := i0); auto; lia. Qed.
(** a cursor bumped [n] times by [inc] past 2^31 *)
Lemma floop_cur_reach {S} (inc : Z) (f : Z -> S -> Z -> res S) n lo s jx s' :
  floop n lo (fun j '(s, jx) => s <- f j s jx ;; jx <- i32 (jx + inc) ;; Ok (s, jx)) (s, jx) = Ok s' -> (n <> 0)%nat ->
  jx + Z.of_nat n * inc < 2 ^ 31.
Proof.
  revert lo s jx; induction n as [|n IH]; intros lo s jx; cbn [floop]; [congruence|]. intros E _.
  destruct (f lo s jx) as [u| |]; cbn [bind] in E; try discriminate.
  destruct (Z.lt_ge_cases (jx + inc) (2 ^ 31)) as [Hl|Hl]; [|rewrite i32_ub in E by lia; cbn [bind] in E; discriminate].
  destruct (i32 (jx + inc)) as [v| |] eqn:Ev; cbn [bind] in E; try discriminate.
  assert (v = jx + inc). { unfold i32 in Ev. destruct ((- 2 ^ 31 <=? jx + inc) && (jx + inc <? 2 ^ 31)); congruence. } subst v.
  destruct n as [|n]; [lia|]. specialize (IH _ _ _ E ltac:(discriminate)). lia.
Qed.
Lemma zfor_cur_fails {S} n inc (f : Z -> S -> Z -> res S) s s' : 0 < n -> 2 ^ 31 <= n * inc ->
  zfor 0 n (fun j '(s, jx) => s <- f j s jx ;; jx <- i32 (jx + inc) ;; Ok (s, jx)) (s, 0) <> Ok s'.
Proof.
  intros Hn Hb E. unfold zfor in E. apply floop_cur_reach in E; lia.
Qed.

Section GF.
Context {K : num} {MT : Type}.
Local Notation qarr := (arr (quat K)).
Variable qmul : quat K -> quat K -> quat K.
Variable mmul : MT -> quat K -> quat K.
Variable aM Ma : scal K -> MT -> MT.
Variable msub : MT -> MT -> MT.
Variable mconj : MT -> MT.

Lemma gemm_gen32_overflow transa transb m n k alpha (a : arr MT) lda (b : qarr) ldb beta (c : qarr) ldc c' :
  m <> 0 -> 0 < n -> 2 ^ 31 <= (n - 1) * ldc -> (s_eqb alpha n0 || (k =? 0)) && s_eqb beta n1 = false ->
  gemm_gen32 qmul mmul aM mconj transa transb m n k alpha a lda b ldb beta c ldc <> Ok c'.
Proof.
  intros Hm Hn Hb E. unfold gemm_gen32. rewrite E.
  rewrite (proj2 (Z.eqb_neq m 0)) by lia. rewrite (proj2 (Z.eqb_neq n 0)) by lia. cbn [orb].
  assert (F : forall A (f : Z -> res A), forall r, (cj <- i32 ((n - 1) * ldc) ;; f cj) <> Ok r)
    by (intros; rewrite i32_ub by lia; discriminate).
  destruct (s_eqb alpha n0); [apply zfor_fails with (i0 := n - 1); [lia|intros; apply F]|].
  cbv zeta. unfold gemm_nota32, gemm_transa32.
  repeat match goal with |- context [if ?b then _ else _] =>
    match b with Ascii.eqb _ _ => destruct b end end;
  (apply zfor_fails with (i0 := n - 1); [lia|intros; apply F]).
Qed.

Lemma gemv_gen32_overflow trans m n alpha (a : arr MT) lda (x : qarr) incx beta (y : qarr) incy y' :
  0 < m -> 0 < n -> s_eqb alpha n0 = false ->
  2 ^ 31 <= (n - 1) * lda \/ 2 ^ 31 <= n * (if Ascii.eqb trans "N" then incx else incy) ->
  gemv_gen32 qmul mmul aM Ma msub mconj trans m n alpha a lda x incx beta y incy <> Ok y'.
Proof.
  intros Hm Hn E B. unfold gemv_gen32. rewrite E.
  rewrite (proj2 (Z.eqb_neq m 0)) by lia. rewrite (proj2 (Z.eqb_neq n 0)) by lia. cbn [orb andb].
  unfold assertb. destruct (incx >? 0); cbn [bind]; try discriminate.
  destruct (incy >? 0); cbn [bind]; try discriminate. cbv zeta.
  match goal with |- bind ?A _ <> _ => destruct A as [y1| |]; cbn [bind]; try discriminate end.
  assert (F : forall i A (f : Z -> res A), 2 ^ 31 <= (n - 1) * lda -> forall r, (p <- rank2_32 i (n - 1) lda ;; f p) <> Ok r)
    by (intros; unfold rank2_32; rewrite i32_ub by lia; discriminate).
  destruct (Ascii.eqb trans "N").
  - unfold gemv_n32. destruct (incy =? 1).
    + match goal with |- bind ?A _ <> _ => destruct A as [[y2 jx]| |] eqn:E2; cbn [bind]; try discriminate end.
      exfalso. destruct B as [B|B].
      * revert E2. apply zfor_fails with (i0 := n - 1); [lia|]. intros [s jx'] s'.
        destruct (ld x jx') as [v| |]; cbn [bind]; try discriminate.
        match goal with |- bind ?A _ <> _ => destruct A eqn:E3; cbn [bind]; try discriminate end.
        exfalso. revert E3. apply zfor_fails with (i0 := 0); [lia|]. intros; apply F; auto.
      * revert E2.
        apply zfor_cur_fails with (f := fun j y jx => v <- ld x jx ;;
          zfor 0 m (fun i y => p <- rank2_32 i j lda ;; aij <- ld a p ;; gemv_n_step qmul mmul aM Ma msub alpha aij v i y) y); lia.
    + match goal with |- bind ?A _ <> _ => destruct A as [[y2 jx]| |] eqn:E2; cbn [bind]; try discriminate end.
      exfalso. destruct B as [B|B].
      * revert E2. apply zfor_fails with (i0 := n - 1); [lia|]. intros [s jx'] s'.
        destruct (ld x jx') as [v| |]; cbn [bind]; try discriminate.
        match goal with |- bind (bind ?A _) _ <> _ => destruct A eqn:E3; cbn [bind]; try discriminate end.
        exfalso. revert E3. apply zfor_fails with (i0 := 0); [lia|]. intros [? ?] ?; apply F; auto.
      * revert E2.
        apply zfor_cur_fails with (f := fun j y jx => v <- ld x jx ;;
          '(y, _) <- zfor 0 m (fun i '(y, iy) => p <- rank2_32 i j lda ;; y <- (aij <- ld a p ;; gemv_n_step qmul mmul aM Ma msub alpha aij v iy y) ;; iy <- i32 (iy + incy) ;; Ok (y, iy)) (y, 0) ;; Ok y); lia.
  - unfold gemv_t32. cbv zeta.
    match goal with |- bind ?A _ <> _ => destruct A as [[y2 jx]| |] eqn:E2; cbn [bind]; try discriminate end.
    exfalso. destruct B as [B|B].
    + revert E2. apply zfor_fails with (i0 := n - 1); [lia|]. intros [s jx'] s'.
      destruct (incx =? 1).
      * match goal with |- bind (bind ?A _) _ <> _ => destruct A eqn:E3; cbn [bind]; try discriminate end.
        exfalso. revert E3. apply zfor_fails with (i0 := 0); [lia|]. intros; apply F; auto.
      * match goal with |- bind (bind (bind ?A _) _) _ <> _ => destruct A eqn:E3; cbn [bind]; try discriminate end.
        exfalso. revert E3. apply zfor_fails with (i0 := 0); [lia|]. intros [? ?] ?; apply F; auto.
    + revert E2.
      match goal with |- context [zfor 0 n (fun j '(y, jy) => y <- @?F j y jy ;; jy <- i32 (jy + incy) ;; Ok (y, jy))] =>
        apply zfor_cur_fails with (f := F); lia end.
Qed.
End GF.

Section OF.
Context {K : num}.
Local Notation qarr := (arr (quat K)).
Lemma dot_opt32_overflow cnj n xa (x : qarr) incx ya (y : qarr) incy r :
  4 <= n -> 2 ^ 31 <= 4 * incx \/ 2 ^ 31 <= 4 * incy -> dot_opt32 cnj n xa x incx ya y incy <> Ok r.
Proof.
  intros Hn B. unfold dot_opt32. cbv zeta.
  match goal with |- bind ?A _ <> _ => destruct A as [[[r1 lx] ly]| |] eqn:E2; cbn [bind]; try discriminate end.
  exfalso. revert E2. apply zfor_fails with (i0 := 0).
  - split; [lia|]. rewrite Z.quot_div_nonneg by lia. apply Z.div_str_pos. lia.
  - intros [[r2 lx2] ly2] s'.
    destruct (i32 (2 * incx)); cbn [bind]; try discriminate. destruct (i32 (3 * incx)); cbn [bind]; try discriminate.
    destruct B as [B|B]; [rewrite (i32_ub (4 * incx)) by lia; discriminate|].
    destruct (i32 (4 * incx)); cbn [bind]; try discriminate.
    destruct (i32 (2 * incy)); cbn [bind]; try discriminate. destruct (i32 (3 * incy)); cbn [bind]; try discriminate.
    rewrite (i32_ub (4 * incy)) by lia. discriminate.
Qed.
Lemma gemm_opt32_overflow mc nc kc aa ba ga gb transa transb m n k alpha (a : qarr) lda b ldb beta ca (c : qarr) ldc c' :
  0 < nc -> 0 < n -> 2 ^ 31 <= Z.min n nc * ldc ->
  gemm_opt32 mc nc kc aa ba ga gb transa transb m n k alpha a lda b ldb beta ca c ldc <> Ok c'.
Proof.
  intros Pn Hn Hb. unfold gemm_opt32. cbv zeta.
  destruct (scalm_avx "L" "N" m n beta ca c ldc 1) as [c1| |]; cbn [bind]; try discriminate.
  unfold gemm_nc32.
  match goal with |- bind ?A _ <> _ => destruct A as [[[[[c2 aP] bP] Bj] Cj]| |] eqn:E2; cbn [bind]; try discriminate end.
  exfalso. revert E2. unfold zforstep. apply zfor_fails with (i0 := 0).
  - split; [lia|]. apply Z.div_str_pos. lia.
  - intros [[[[c3 aP3] bP3] Bj3] Cj3] s'. cbv zeta. rewrite Z.mul_0_r, Z.add_0_l, Z.sub_0_r.
    match goal with |- bind ?A _ <> _ => destruct A as [[[c4 aP4] bP4]| |]; cbn [bind]; try discriminate end.
    rewrite i32_ub by lia. discriminate.
Qed.
End OF.
