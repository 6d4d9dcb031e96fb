(** The translation units of src/hblas/cxx, compiled with the options of its .cmake files. *)
From Coq Require Import String List.
From Verif Require Import CSyntax CParse CSrc.
Import ListNotations.
Local Open Scope string_scope.

(** the project headers whose text is used; the other #include names are skipped (CPre.v) *)
Definition headers : list (string * string) :=
  [("util/simd.hpp", csrc_simd_hpp); ("simd/intrin_alias.hpp", csrc_intrin_alias_hpp); ("simd/misc.hpp", csrc_misc_hpp); ("simd/qop.hpp", csrc_qop_hpp);
   ("util/macro.hpp", csrc_macro_hpp); ("util/constants.hpp", csrc_constants_hpp); ("hblas/config/types.hpp", csrc_types_hpp);
   ("hblas/config/hblas3/gemm.hpp", csrc_gemm_hpp)].
(** an AVX machine, with or without FMA (CMakeLists.txt: -march=native or the like; the compiler predefines these macros) *)
Definition machine (fma : bool) : list (string * string) := ("__AVX__", "1") :: if fma then [("__FMA__", "1")] else [].
(** CopySwap.cmake:6-7 *)
Definition unit_copyv (fma : bool) := compile [] (machine fma ++ [("FNAME", "HBLAS_COPYV"); ("_COPY", "1")]) headers csrc_copy_swap.
Definition unit_swapv (fma : bool) := compile [] (machine fma ++ [("FNAME", "HBLAS_SWAPV"); ("_SWAP", "1")]) headers csrc_copy_swap.
(** Dot.cmake:6-7 *)
Definition unit_dotuv (fma : bool) := compile [] (machine fma ++ [("FNAME", "HBLAS_DOTUV")]) headers csrc_dot.
Definition unit_dotcv (fma : bool) := compile [] (machine fma ++ [("FNAME", "HBLAS_DOTCV"); ("_CONJ", "1")]) headers csrc_dot.
(** AXPYScal.cmake:10-15; [t] is DOUBLE, DCOMPLEX or DQUATERNION *)
Definition unit_scalv (fma : bool) (t : string) := compile [] (machine fma ++ [("FNAME", "HBLAS_SCALV"); ("_SCAL", "1"); ("ALPHAF", t)]) headers csrc_axpy_scal.
Definition unit_axpyv (fma : bool) (t : string) := compile [] (machine fma ++ [("FNAME", "HBLAS_AXPYV"); ("_AXPY", "1"); ("ALPHAF", t)]) headers csrc_axpy_scal.
(** src/hblas/cxx/hblas3/CMakeLists.txt: kern.cxx has no options of its own *)
Definition unit_kern (fma : bool) := compile [] (machine fma) headers csrc_kern.
