(** The public functions of the library: names and parameter types, as documented in include/hblas/hblas{1,2,3}.hpp and hblas_util.hpp for _F = double and 32-bit HAXX_INT. *)
From Coq Require Import String List.
From Verif Require Import CSyntax.
Import ListNotations.
Local Open Scope string_scope.
Local Open Scope list_scope.

Definition int := TInt.
Definition quaternion := TQuat.
Definition scalars : list ctype := [TDouble; TCplx; quaternion].
Definition pairs : list (ctype * ctype) := flat_map (fun a => map (fun b => (a, b)) scalars) scalars.
Definition public_signatures : list (string * list ctype) :=
  let V := TPtr quaternion in
  flat_map (fun f => [(f, [int; V; int; V; int])]) ["HBLAS_SWAPV"; "HBLAS_COPYV"; "HBLAS_DOTUV"; "HBLAS_DOTCV"] ++
  map (fun a => ("HBLAS_SCALV", [TChar; int; a; V; int])) scalars ++
  map (fun a => ("HBLAS_AXPYV", [TChar; int; a; V; int; V; int])) scalars ++
  map (fun a => ("HBLAS_SCALM", [TChar; TChar; int; int; a; V; int; int])) scalars ++
  map (fun a => ("HBLAS_AXPYM", [TChar; TChar; int; int; a; V; int; int; V; int; int])) scalars ++
  map (fun p => ("HBLAS_GEMV", [TChar; int; int; fst p; V; int; V; int; snd p; V; int])) pairs ++
  map (fun a => ("HBLAS_GERU", [int; int; a; V; int; V; int; V; int])) scalars ++
  map (fun a => ("HBLAS_GERC", [int; int; a; V; int; V; int; V; int])) scalars ++
  map (fun p => ("HBLAS_GEMM", [TChar; TChar; int; int; int; fst p; V; int; V; int; snd p; V; int])) pairs ++
  (* the matrix is real *)
  [("HBLAS_GEMV", [TChar; int; int; TDouble; TPtr TDouble; int; V; int; TDouble; V; int]);
   ("HBLAS_GEMM", [TChar; TChar; int; int; int; TDouble; TPtr TDouble; int; V; int; TDouble; V; int]);
   ("HBLAS_COMPLEX_EXPAND", [TChar; int; int; V; int; TPtr TCplx; int]); ("HBLAS_REAL_EXPAND", [int; int; V; int; TPtr TDouble; int]);
   ("HBLAS_COMPLEX_CONTRACT", [TChar; TChar; int; int; V; int; TPtr TCplx; int])].
