(** The matrix templates SCALM and AXPYM and the vector routine each calls for every column: the text of src/hblas/cxx/hblas1/axpy_scal.cxx. *)
From Coq Require Import ZArith Bool Ascii String List.
From Verif Require Import Num Res MQuat MForL1 MOptL1 CSyntax CParse CSem CProg CProgG.
Import ListNotations.
Local Open Scope string_scope.
Local Open Scope Z_scope.

Section L.
Context {K : num}.
Definition scal_of (v : val K) : option (scal K) := match v with VK a => Some (SR a) | VC z => Some (SC z) | VQ q => Some (SH q) | _ => None end.
(** a pointer to the start of a block; the value, C++ type and type name of a scalar *)
Definition ptr (b : nat) : val K := VP (Ptr (OnQ b) 0 0 TQuat).
Definition val_of (a : scal K) : val K := match a with SR a => VK a | SC z => VC z | SH q => VQ q end.
(** AXPYScal.cmake:10-15, Gemm.cmake:7-10: the name of the type of a scalar argument *)
Definition type_of (a : scal K) : string := match a with SR _ => "DOUBLE" | SC _ => "DCOMPLEX" | SH _ => "DQUATERNION" end.
Definition ty (a : scal K) : ctype := match a with SR _ => TDouble | SC _ => TCplx | SH _ => TQuat end.
Variables (fma : bool) (fuel : nat).
(** hblas_scalm_impl.hpp:37: HBLAS_SCALV(SIDE,M,ALPHA,locA,INCA).  The callee sees the block from locA on: its element 0 is at the address of locA *)
Definition scalv_link (f ta : string) (vs : list (val K)) (m : mem K) : M (mem K) :=
  if String.eqb f "HBLAS_SCALV" then
    match vs, m with
    | [VChr s; VZ n; al; VP (Ptr (OnQ O) e Z0 TQuat); VZ inc], [(aa, DQ a)] =>
        match scal_of al with
        | Some al => mb (ccall (unit_scalv fma (type_of al)) no_ext fuel "HBLAS_SCALV" [VChr s; VZ n; val_of al; ptr 0; VZ inc] [(aa + 32 * e, DQ (shiftp a e))])
            (fun '(m', _) => match m' with [(_, DQ x)] => mret [(aa, DQ (shiftp x (- e)))] | _ => None end)
        | None => None
        end
    | _, _ => None
    end
  else None.
(** hblas_axpym_impl.hpp:37: HBLAS_AXPYV(SIDE,M,ALPHA,locA,INCA,locB,INCB) *)
Definition axpyv_link (f ta : string) (vs : list (val K)) (m : mem K) : M (mem K) :=
  if String.eqb f "HBLAS_AXPYV" then
    match vs, m with
    | [VChr s; VZ n; al; VP (Ptr (OnQ O) e Z0 TQuat); VZ incx; VP (Ptr (OnQ (S O)) e' Z0 TQuat); VZ incy], [(aa, DQ a); (ba, DQ b)] =>
        match scal_of al with
        | Some al => mb (ccall (unit_axpyv fma (type_of al)) no_ext fuel "HBLAS_AXPYV" [VChr s; VZ n; val_of al; ptr 0; VZ incx; ptr 1; VZ incy]
                           [(aa + 32 * e, DQ (shiftp a e)); (ba + 32 * e', DQ (shiftp b e'))])
            (fun '(m', _) => match m' with [_; (_, DQ y)] => mret [(aa, DQ a); (ba, DQ (shiftp y (- e')))] | _ => None end)
        | None => None
        end
    | _, _ => None
    end
  else None.
End L.
