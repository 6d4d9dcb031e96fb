(** gemm.cxx and the functions it calls that are defined elsewhere. *)
From Coq Require Import ZArith Bool Ascii String List.
From Verif Require Import Num Res MQuat MSimd MOptL1 MGenM MPack MOptGemm CSyntax CParse CSrc CSem CProg CProgG CLinkG.
Import ListNotations.
Local Open Scope string_scope.
Local Open Scope Z_scope.

(** Gemm.cmake:7-10; [ta] and [tb], DOUBLE or DCOMPLEX, are the types of ALPHA and BETA *)
Definition unit_gemm (fma : bool) (ta tb : string) :=
  compile [] (app (machine fma) [("AMATF", "DQUATERNION"); ("BMATF", "DQUATERNION"); ("ALPHAF", ta); ("BETAF", tb)]) headers csrc_gemm.

Section L.
Context {K : num}.
(** the template arguments of a pack call: which PackOps, with or without conjugation (packops.hpp) *)
Definition pack_ops (ta : string) : option (packop * bool) :=
  if String.eqb ta "2,quaternion<double>,GenericPackOps_T1<>" then Some (T1, false)
  else if String.eqb ta "2,quaternion<double>,ConjPackOps_T1<>" then Some (T1, true)
  else if String.eqb ta "2,quaternion<double>,GenericPackOps_T2<>" then Some (T2, false)
  else if String.eqb ta "2,quaternion<double>,ConjPackOps_T2<>" then Some (T2, true) else None.
(** a packing call (MPack.v): source pointer anywhere in its block, buffer pointer at the start of its block *)
Definition pack_link (f : packop -> bool -> option (scal K) -> Z -> Z -> arr (quat K) -> Z -> Z -> arr (quat K) -> res (arr (quat K)))
    (ta : string) (vs : list (val K)) (m : mem K) : M (mem K) :=
  match pack_ops ta with
  | None => None
  | Some (o, cj) =>
      let go al r s b e lds x := match qblock m b, qblock m x with
                                 | Some (_, src), Some (_, buf) => lift (buf <- f o cj al r s src e lds buf ;; Ok (mput m x (DQ buf)))
                                 | _, _ => None
                                 end in
      match vs with
      | [VZ r; VZ s; VP (Ptr (OnQ b) e Z0 TQuat); VZ lds; VP (Ptr (OnQ x) Z0 Z0 TQuat)] => go None r s b e lds x
      | [VZ r; VZ s; VP (Ptr (OnQ b) e Z0 TQuat); VZ lds; VP (Ptr (OnQ x) Z0 Z0 TQuat); al] =>
          match scal_of al with Some al => go (Some al) r s b e lds x | None => None end
      | _ => None
      end
  end.
(** Kern is the text of kern.cxx, on the three blocks its arguments point into *)
Definition kern_link (fma : bool) (fuel : nat) (vs : list (val K)) (m : mem K) : M (mem K) :=
  match vs with
  | [VZ p; VZ q; VZ k; VP (Ptr (OnQ a) oa Z0 TQuat); VP (Ptr (OnQ b) ob Z0 TQuat); VP (Ptr (OnQ c) oc Z0 TQuat); VZ ldc] =>
      if negb (Nat.eqb a b) && negb (Nat.eqb a c) && negb (Nat.eqb b c) then
        match nth_error m a, nth_error m b, nth_error m c with
        | Some ma, Some mb, Some mc =>
            CSem.mb (ccall (unit_kern fma) no_ext fuel "Kern"
                  [VZ p; VZ q; VZ k; VP (Ptr (OnQ 0) oa 0 TQuat); VP (Ptr (OnQ 1) ob 0 TQuat); VP (Ptr (OnQ 2) oc 0 TQuat); VZ ldc] [ma; mb; mc])
               (fun '(m', _) => match m' with [_; _; (_, d)] => mret (mput m c d) | _ => None end)
        | _, _, _ => None
        end
      else None
  | _ => None
  end.
(** HBLAS_SCALM (gemm.cxx:63) is the text of hblas_scalm_impl.hpp, linked with the text of axpy_scal.cxx, on the block its argument points into *)
Definition scalm_link (fma : bool) (fuel : nat) (vs : list (val K)) (m : mem K) : M (mem K) :=
  match vs with
  | [VChr s; VChr t; VZ p; VZ q; be; VP (Ptr (OnQ c) Z0 Z0 TQuat); VZ ldc; VZ inc] =>
      match scal_of be, nth_error m c with
      | Some be, Some mc =>
          mb (ccall (unit_scalm_g (ty be)) (scalv_link fma fuel) fuel "HBLAS_SCALM" [VChr s; VChr t; VZ p; VZ q; val_of be; CLinkG.ptr 0; VZ ldc; VZ inc] [mc])
             (fun '(m', _) => match m' with [(_, d)] => mret (mput m c d) | _ => None end)
      | _, _ => None
      end
  | _ => None
  end.
(** aligned_alloc(32, bytes): the first call returns the address [ba], the second [aa]; contents [gb], [ga] *)
Definition alloc_link (aa ba : Z) (ga gb : Z -> quat K) (vs : list (val K)) (m : mem K) : M (mem K) :=
  match vs with
  | [VZ al; VZ n] =>
      if al =? 32 then
        match List.length m with
        | 3%nat => mret (app m [(ba, DQ (aligned_buf (n / 32) gb))])
        | 4%nat => mret (app m [(aa, DQ (aligned_buf (n / 32) ga))])
        | _ => None
        end
      else None
  | _ => None
  end.
Definition gemm_link (fma : bool) (fuel : nat) (aa ba : Z) (ga gb : Z -> quat K) : string -> string -> list (val K) -> mem K -> M (mem K) :=
  fun f ta vs m =>
    if String.eqb f "aligned_alloc" then alloc_link aa ba ga gb vs m
    else if String.eqb f "HBLAS_SCALM" then scalm_link fma fuel vs m
    else if String.eqb f "NPACK" then pack_link npack ta vs m
    else if String.eqb f "TPACK" then pack_link tpack ta vs m
    else if String.eqb f "Kern" then kern_link fma fuel vs m
    else if String.eqb f "free" then mret m
    else None.
End L.
