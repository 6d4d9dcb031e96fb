(** Property theorems C61: level-1, level-2 and real-matrix results depend on the operand values only, bit for bit. *)
From Coq Require Import ZArith Lia Bool Ascii List.
From Verif Require Import Num Res ResFacts Spec MQuat MSimd MOptL1 MForL2 MGenL2 SpecBlock SpecLocal LocalFacts F64.
Import ListNotations.
Local Open Scope Z_scope.

(** ** C61.  No law of arithmetic is assumed, so the theorems hold for doubles bit for bit.  Two calls, on different arrays, at different
    addresses, with different lengths, strides and leading dimensions: where the operands of an element agree, the results agree. *)
Theorem C61_scalv : forall (K : num) c n n' alpha xa xa' (x x' : arr (quat K)) inc inc' v v' i i', 0 < inc -> 0 < inc' -> holds_vec x n inc v -> holds_vec x' n' inc' v' ->
  0 <= i < n -> 0 <= i' < n' -> v i = v' i' ->
  returns (scalv_opt c n alpha xa x inc) (fun r => returns (scalv_opt c n' alpha xa' x' inc') (fun r' =>
    exists q, r (i * inc) = Some q /\ r' (i' * inc') = Some q)).
Proof. exact @scalv_local. Qed.
Print Assumptions C61_scalv.
Theorem C61_axpyv : forall (K : num) c n n' alpha xa xa' (x x' : arr (quat K)) incx incx' ya ya' (y y' : arr (quat K)) incy incy' v v' w w' i i',
  0 < incx -> 0 < incx' -> 0 < incy -> 0 < incy' ->
  holds_vec x n incx v -> holds_vec x' n' incx' v' -> holds_vec y n incy w -> holds_vec y' n' incy' w' ->
  0 <= i < n -> 0 <= i' < n' -> v i = v' i' -> w i = w' i' ->
  returns (axpyv_opt c n alpha xa x incx ya y incy) (fun r => returns (axpyv_opt c n' alpha xa' x' incx' ya' y' incy') (fun r' =>
    exists q, r (i * incy) = Some q /\ r' (i' * incy') = Some q)).
Proof. exact @axpyv_local. Qed.
Print Assumptions C61_axpyv.
(** DOTUV (cnj = false) and DOTCV (cnj = true): alignment selects other load instructions but not another order of summation *)
Theorem C61_dot : forall (K : num) cnj n xa xa' (x x' : arr (quat K)) incx incx' ya ya' (y y' : arr (quat K)) incy incy' v v' w w',
  0 <= n -> 0 < incx -> 0 < incx' -> 0 < incy -> 0 < incy' ->
  holds_vec x n incx v -> holds_vec x' n incx' v' -> holds_vec y n incy w -> holds_vec y' n incy' w' ->
  (forall i, 0 <= i < n -> v i = v' i) -> (forall i, 0 <= i < n -> w i = w' i) ->
  exists q, dot_opt cnj n xa x incx ya y incy = Ok q /\ dot_opt cnj n xa' x' incx' ya' y' incy' = Ok q.
Proof. exact @dot_local. Qed.
Print Assumptions C61_dot.
(** Fortran GEMV: y(i) depends on row i of op(A), x, y(i) and the scalars.  Missing: the shapes and strides the code mishandles (C23);
    [gemv_usable] excludes them, see [C61_gemv_stride_refuted]. *)
Theorem C61_gemv_partial : forall (K : num) c o m n m' n' alpha beta (a a' : arr (quat K)) lda lda' (x x' : arr (quat K)) incx incx' (y y' : arr (quat K)) incy incy' A A' v v' w w' i i',
  trans_char c = Some o -> 0 < m -> 0 < n -> 0 < m' -> 0 < n' -> incx <> 0 -> incx' <> 0 -> incy <> 0 -> incy' <> 0 ->
  gemv_usable c alpha beta m n incy -> gemv_usable c alpha beta m' n' incy' -> op_cols o m n = op_cols o m' n' ->
  holds_mat a lda m n A -> holds_vec x (op_cols o m n) incx v -> holds_vec y (op_rows o m n) incy w ->
  holds_mat a' lda' m' n' A' -> holds_vec x' (op_cols o m' n') incx' v' -> holds_vec y' (op_rows o m' n') incy' w' ->
  0 <= i < op_rows o m n -> 0 <= i' < op_rows o m' n' ->
  (forall l, 0 <= l < op_cols o m n -> stored o A i l = stored o A' i' l) -> (forall l, 0 <= l < op_cols o m n -> v l = v' l) -> w i = w' i' ->
  returns (hgemv c m n alpha a lda x incx beta y incy) (fun r => returns (hgemv c m' n' alpha a' lda' x' incx' beta y' incy') (fun r' =>
    exists q, r (vpos (op_rows o m n) incy i) = Some q /\ r' (vpos (op_rows o m' n') incy' i') = Some q)).
Proof. exact @hgemv_local. Qed.
Print Assumptions C61_gemv_partial.
(** GERU / GERC: A(i,j) depends on x(i), y(j), A(i,j) and ALPHA.  Missing: real ALPHA with INCX <> 1 (C25: undefined behaviour). *)
Theorem C61_ger_partial : forall (K : num) cnj m n m' n' alpha (x x' : arr (quat K)) incx incx' (y y' : arr (quat K)) incy incy' (a a' : arr (quat K)) lda lda' v v' w w' A A' i i' j j',
  incx <> 0 -> incx' <> 0 -> incy <> 0 -> incy' <> 0 -> m <= lda -> m' <= lda' ->
  (incx = 1 \/ forall r, alpha <> SR r) -> (incx' = 1 \/ forall r, alpha <> SR r) ->
  holds_vec x m incx v -> holds_vec y n incy w -> holds_mat a lda m n A ->
  holds_vec x' m' incx' v' -> holds_vec y' n' incy' w' -> holds_mat a' lda' m' n' A' ->
  0 <= i < m -> 0 <= j < n -> 0 <= i' < m' -> 0 <= j' < n' -> v i = v' i' -> w j = w' j' -> A i j = A' i' j' ->
  returns (hger cnj m n alpha x incx y incy a lda) (fun r => returns (hger cnj m' n' alpha x' incx' y' incy' a' lda') (fun r' =>
    exists q, r (i + j * lda) = Some q /\ r' (i' + j' * lda') = Some q)).
Proof. exact @hger_local. Qed.
Print Assumptions C61_ger_partial.
(** the real-matrix kernels *)
Theorem C61_gemv_real : forall (K : num) qmul c o m n m' n' (alpha beta : K) (a a' : arr K) lda lda' (x x' : arr (quat K)) incx incx' (y y' : arr (quat K)) incy incy' A A' v v' w w' i i',
  trans_char c = Some o -> 0 < m -> 0 < n -> 0 < m' -> 0 < n' -> 0 < incx -> 0 < incx' -> 0 < incy -> 0 < incy' -> op_cols o m n = op_cols o m' n' ->
  holds_mat a lda m n A -> holds_vec x (op_cols o m n) incx v -> holds_vec y (op_rows o m n) incy w ->
  holds_mat a' lda' m' n' A' -> holds_vec x' (op_cols o m' n') incx' v' -> holds_vec y' (op_rows o m' n') incy' w' ->
  0 <= i < op_rows o m n -> 0 <= i' < op_rows o m' n' ->
  (forall l, 0 <= l < op_cols o m n -> stored o A i l = stored o A' i' l) -> (forall l, 0 <= l < op_cols o m n -> v l = v' l) -> w i = w' i' ->
  returns (gemv_real qmul c m n alpha a lda x incx beta y incy) (fun r => returns (gemv_real qmul c m' n' alpha a' lda' x' incx' beta y' incy') (fun r' =>
    exists q, r (i * incy) = Some q /\ r' (i' * incy') = Some q)).
Proof. exact @gemv_real_local. Qed.
Print Assumptions C61_gemv_real.
Theorem C61_gemm_real : forall (K : num) qmul ca cb oa ob k (alpha beta : K) m n (a : arr K) lda (b : arr (quat K)) ldb (c : arr (quat K)) ldc A B w
  m' n' (a' : arr K) lda' (b' : arr (quat K)) ldb' (c' : arr (quat K)) ldc' A' B' w' i j i' j',
  trans_char ca = Some oa -> trans_char cb = Some ob -> 0 <= k -> m <= ldc -> m' <= ldc' ->
  holds_mat a lda (op_rows oa m k) (op_cols oa m k) A -> holds_mat b ldb (op_rows ob k n) (op_cols ob k n) B -> holds_mat c ldc m n w ->
  holds_mat a' lda' (op_rows oa m' k) (op_cols oa m' k) A' -> holds_mat b' ldb' (op_rows ob k n') (op_cols ob k n') B' -> holds_mat c' ldc' m' n' w' ->
  0 <= i < m -> 0 <= j < n -> 0 <= i' < m' -> 0 <= j' < n' ->
  (forall l, 0 <= l < k -> stored oa A i l = stored oa A' i' l) -> (forall l, 0 <= l < k -> stored ob B l j = stored ob B' l j') -> w i j = w' i' j' ->
  returns (gemm_real qmul ca cb m n k alpha a lda b ldb beta c ldc) (fun r => returns (gemm_real qmul ca cb m' n' k alpha a' lda' b' ldb' beta c' ldc') (fun r' =>
    exists q, r (i + j * ldc) = Some q /\ r' (i' + j' * ldc') = Some q)).
Proof. exact @gemm_real_local. Qed.
Print Assumptions C61_gemm_real.

Definition zq a b c d : quat Znum := @Quat Znum a b c d.
(** the same 1 x 1 GEMV 'N' with quaternion ALPHA = 1, A = j, x = i, y = 0, on contiguous and on strided y: -k, then k *)
Theorem C61_gemv_stride_refuted :
  returns (hgemv "N" 1 1 (SH (zq 1 0 0 0)) (arr_list [zq 0 0 1 0]) 1 (arr_list [zq 0 1 0 0]) 1 (SR (1 : Znum)) (arr_list [zq 0 0 0 0]) 1) (fun r =>
  returns (hgemv "N" 1 1 (SH (zq 1 0 0 0)) (arr_list [zq 0 0 1 0]) 1 (arr_list [zq 0 1 0 0]) 1 (SR (1 : Znum)) (arr_list [zq 0 0 0 0]) 2) (fun r' =>
    r 0 = Some (zq 0 0 0 (-1)) /\ r' 0 = Some (zq 0 0 0 1))).
Proof. vm_compute. split; reflexivity. Qed.
Print Assumptions C61_gemv_stride_refuted.

(** the hypotheses are met: rows 0 and 1 of two different matrices, different strides, agreeing where they must *)
Example C61_concrete :
  let A := fun i j => zq (1 + i + 2 * j) 1 0 2 in let A' := fun i j => if i =? 0 then zq 9 9 9 9 else zq (1 + 2 * j) 1 0 2 in
  gemv_usable "N" (SC (@Cplx Znum 1 2)) (SR (2 : Znum)) 2 2 3 /\
  holds_mat (arr_list [A 0 0; A 1 0; A 0 1; A 1 1]) 2 2 2 A /\ holds_mat (arr_list [A' 0 0; A' 1 0; zq 7 7 7 7; A' 0 1; A' 1 1]) 3 2 2 A' /\
  (forall l, 0 <= l < 2 -> stored OpN A 0 l = stored OpN A' 1 l) /\
  returns (hgemv "N" 2 2 (SC (@Cplx Znum 1 2)) (arr_list [A 0 0; A 1 0; A 0 1; A 1 1]) 2 (arr_list [zq 1 2 3 4; zq 4 3 2 1]) 1 (SR (2 : Znum))
             (arr_list [zq 1 0 0 0; zq 0 0 0 0; zq 0 0 0 0; zq 2 0 0 0]) 3) (fun r =>
  returns (hgemv "N" 2 2 (SC (@Cplx Znum 1 2)) (arr_list [A' 0 0; A' 1 0; zq 7 7 7 7; A' 0 1; A' 1 1]) 3 (arr_list [zq 4 3 2 1; zq 1 2 3 4]) (-1) (SR (2 : Znum))
             (arr_list [zq 2 0 0 0; zq 1 0 0 0]) 1) (fun r' => r 0 = r' 1 /\ r 0 <> None)).
Proof.
  intros A A'. split; [|split; [|split; [|split]]].
  - split; [left; reflexivity|]. right. split; [intros (r & q & E & _); discriminate|intros (_ & q & E); discriminate].
  - intros i j Hi Hj. assert (i = 0 \/ i = 1) as [->| ->] by lia; assert (j = 0 \/ j = 1) as [->| ->] by lia; reflexivity.
  - intros i j Hi Hj. assert (i = 0 \/ i = 1) as [->| ->] by lia; assert (j = 0 \/ j = 1) as [->| ->] by lia; reflexivity.
  - intros l Hl. assert (l = 0 \/ l = 1) as [->| ->] by lia; reflexivity.
  - vm_compute. split; [reflexivity|discriminate].
Qed.
