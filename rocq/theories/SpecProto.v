(** The Fortran routines of the library as C++ declares them: symbol and parameter types (without const), by the naming rule of the HAXX documentation: the letters
    after the name of the operation are the kinds of the scalars ALPHA, BETA (d or r: real, z or c: complex, h: quaternion). *)
From Coq Require Import String List.
From Verif Require Import CSyntax.
Import ListNotations.
Local Open Scope string_scope.
Local Open Scope list_scope.

(** letter of a scalar kind, and the C++ type *)
Definition kinds : list (string * ctype) := [("d", TDouble); ("z", TCplx); ("h", TQuat)].
Definition kinds1 : list (string * ctype) := [("d", TDouble); ("c", TCplx); ("h", TQuat)].
Definition declared : list (string * list ctype) :=
  let c := TPtr TChar in let n := TPtr TInt in let q := TPtr TQuat in let z := TPtr TCplx in let d := TPtr TDouble in
  map (fun k => ("hscal" ++ fst k ++ "_", [c; n; TPtr (snd k); q; n])%string) kinds1 ++
  map (fun s => (s, [q; n; q; n; q; n])) ["hdotu_"; "hdotc_"] ++
  map (fun k => ("haxpy" ++ fst k ++ "h_", [c; n; TPtr (snd k); q; n; q; n])%string) kinds1 ++
  flat_map (fun a => map (fun b => ("hgemv" ++ fst a ++ fst b ++ "_", [c; n; n; TPtr (snd a); q; n; q; n; TPtr (snd b); q; n])%string) kinds) kinds ++
  map (fun a => ("hgeru" ++ fst a ++ "_", [n; n; TPtr (snd a); q; n; q; n; q; n])%string) kinds ++
  map (fun a => ("hgerc" ++ fst a ++ "_", [n; n; TPtr (snd a); q; n; q; n; q; n])%string) kinds ++
  flat_map (fun a => map (fun b => ("hgemm" ++ fst a ++ fst b ++ "_", [c; c; n; n; n; TPtr (snd a); q; n; q; n; TPtr (snd b); q; n])%string) kinds) kinds ++
  [("hzexp1_", [n; n; q; n; z; n]); ("hzexp2_", [n; n; q; n; z; n]); ("hdexp_", [n; n; q; n; d; n]);
   ("hzcon1_", [c; n; n; q; n; z; n]); ("hzcon2_", [c; n; n; q; n; z; n])].

(** What a Fortran dummy argument is: a scalar or an array of elements of a type, with its first extent when that is a literal (None: it is not). *)
Inductive elt := Character | Integer4 | Real8 | Complex16.
Inductive dummy := Scalar (t : elt) | Array (t : elt) (first : option nat).
(** A pointer to objects of the C++ type may be received by the dummy: the objects are laid out as the elements, or as the columns, of the dummy.
    std::complex<double> is two consecutive doubles, quaternion<double> four: a column of 2 COMPLEX*16 or of 4 REAL*8. *)
Inductive receives : dummy -> ctype -> Prop :=
| rc_char : receives (Scalar Character) (TPtr TChar)
| rc_int : receives (Scalar Integer4) (TPtr TInt)
| rc_real : receives (Scalar Real8) (TPtr TDouble)
| rc_reals : forall n, receives (Array Real8 n) (TPtr TDouble)
| rc_cplx : receives (Scalar Complex16) (TPtr TCplx)
| rc_cplxs : forall n, receives (Array Complex16 n) (TPtr TCplx)
| rc_cplx2 : receives (Array Real8 (Some 2)) (TPtr TCplx)
| rc_quat2 : receives (Array Complex16 (Some 2)) (TPtr TQuat)
| rc_quat4 : receives (Array Real8 (Some 4)) (TPtr TQuat).

(** The instances of the templates of the public headers that the library provides: type arguments in the order of the headers, _F first.  Only double is supported as _F;
    vectors and matrices are of quaternions, except that GEMV and GEMM also take a real matrix A, with real ALPHA and BETA. *)
Definition scalar (t : ctype) : Prop := t = TDouble \/ t = TCplx \/ t = TQuat.
Inductive supported : string -> list ctype -> Prop :=
| sup_1 : forall f, In f ["HBLAS_SWAPV"; "HBLAS_COPYV"; "HBLAS_DOTUV"; "HBLAS_DOTCV"; "HBLAS_COMPLEX_EXPAND"; "HBLAS_REAL_EXPAND"; "HBLAS_COMPLEX_CONTRACT"] -> supported f [TDouble]
| sup_scal : forall f a, In f ["HBLAS_SCALV"; "HBLAS_SCALM"] -> scalar a -> supported f [TDouble; a]
| sup_axpy : forall f a, In f ["HBLAS_AXPYV"; "HBLAS_AXPYM"] -> scalar a -> supported f [TDouble; TQuat; a]
| sup_ger : forall f a, In f ["HBLAS_GERU"; "HBLAS_GERC"] -> scalar a -> supported f [TDouble; TQuat; TQuat; a]
| sup_gem : forall f a b, In f ["HBLAS_GEMV"; "HBLAS_GEMM"] -> scalar a -> scalar b -> supported f [TDouble; TQuat; TQuat; a; b]
| sup_real : forall f, In f ["HBLAS_GEMV"; "HBLAS_GEMM"] -> supported f [TDouble; TDouble; TQuat; TDouble; TDouble].
