(** gemm.cxx linked with the texts of NPACK and TPACK (pack.hpp, packops.hpp, util/types.hpp) in place of the model of MPack.v. *)
From Coq Require Import ZArith Bool Ascii String List.
From Verif Require Import Num Res MQuat MSimd TSyntax TSem MSrcT CSyntax CSem CProg CLinkG CLink MSrcC MBuild MPublic.
Import ListNotations.
Local Open Scope string_scope.
Local Open Scope Z_scope.

Section L.
Context {K : num}.
(** gemm.cxx:99-134 calls NPACK/TPACK (pack.hpp): the text of pack.hpp on the two blocks its arguments point into; stuck if the source and the buffer are the same block.
    The number of iterations allowed to each loop, one more than the number of rows and columns together, is enough for both functions. *)
Definition pack_text_link (fma : bool) (f ta : string) (vs : list (val K)) (m : mem K) : M (mem K) :=
  match vs with
  | VZ r :: VZ s :: VP (Ptr (OnQ b) e Z0 TQuat) :: VZ ld :: VP (Ptr (OnQ x) Z0 Z0 TQuat) :: al =>
      if Nat.eqb b x then None else
      match nth_error m b, nth_error m x with
      | Some src, Some buf =>
          obind (unit_pack fma) (fun u => obind (targs_of ta) (fun ts =>
            mb (tcall u (S (Z.to_nat r + Z.to_nat s)) 200 f ts ([VZ r; VZ s; VP (Ptr (OnQ 0) e 0 TQuat); VZ ld; VP (Ptr (OnQ 1) 0 0 TQuat)] ++ al)%list [src; buf])
               (fun '(m', _) => match m' with [_; (_, d)] => mret (mput m x d) | _ => None end)))
      | _, _ => None
      end
  | _ => None
  end.
(** what gemm.cxx calls: as [gemm_link] (CLink.v), but for the packing functions *)
Definition gemm_link_t (fma : bool) (fuel : nat) (aa ba : Z) (ga gb : Z -> quat K) : string -> string -> list (val K) -> mem K -> M (mem K) :=
  fun f ta vs m =>
    if String.eqb f "NPACK" then pack_text_link fma f ta vs m
    else if String.eqb f "TPACK" then pack_text_link fma f ta vs m
    else gemm_link fma fuel aa ba ga gb f ta vs m.
(** a call of the public HBLAS_GEMM (include/hblas/hblas3.hpp:62-72), resolved through the build texts as [pub_gemm] (MPublic.v), with everything it calls but
    aligned_alloc and free run from the texts *)
Definition pub_gemm_t (fma : bool) (fuel : nat) (aa ba : Z) (ga gb : Z -> quat K) (ta tb : ascii) (m n k : Z) (alpha : scal K) (a_ad : Z) (a : arr (quat K)) (lda : Z)
    (b_ad : Z) (b : arr (quat K)) (ldb : Z) (beta : scal K) (c_ad : Z) (c : arr (quat K)) (ldc : Z) :=
  after (cpp_call fma fuel "HBLAS_GEMM" (gemm_types alpha beta) (gemm_link_t fma fuel aa ba ga gb)
    [VChr ta; VChr tb; VZ m; VZ n; VZ k; val_of alpha; CLinkG.ptr 0; VZ lda; CLinkG.ptr 1; VZ ldb; val_of beta; CLinkG.ptr 2; VZ ldc] [(a_ad, DQ a); (b_ad, DQ b); (c_ad, DQ c)]).
End L.
