(** NPACK and TPACK (include/hblas/pack/pack.hpp) run from their text. *)
From Coq Require Import ZArith Bool Ascii String List.
From Verif Require Import Num Res MQuat MSimd MPack FParse CSyntax CPre CSem CSrc CProg CLinkG TSrc TSyntax TParse TSem.
Import ListNotations.
Local Open Scope string_scope.
Local Open Scope Z_scope.

(** pack.hpp with packops.hpp and util/types.hpp.  Of the headers behind util/simd.hpp only intrin_alias.hpp is read here: the functions of misc.hpp and qop.hpp that are
    called (MULDQ_NN, QCONJ_256D) are those of MSimd.v. *)
Definition pack_headers : list (string * string) :=
  [("util/simd.hpp", csrc_intrin_alias_hpp); ("hblas/pack/packops.hpp", tsrc_packops); ("util/types.hpp", tsrc_types)].
Definition unit_pack (fma : bool) : option tunit := tcompile (machine fma) pack_headers tsrc_pack.
(** explicit template arguments as written *)
Definition targs_of (ta : string) : option (list ty) :=
  match lex_line (FParse.explode (ta ++ ">")) with Some ts => match p_targs 20 ts with Some (l, []) => Some l | _ => None end | None => None end.

Section R.
Context {K : num}.
(** A packing call on the two blocks its pointers point into: the source anywhere in block 0, the buffer at the start of block 1; [fuel] bounds the number of iterations
    of each loop.  Result: the memory. *)
Definition tpack_src (fma : bool) (fuel : nat) (x ta : string) (m n e ld : Z) (al : option (scal K)) (a0 : Z) (src : arr (quat K)) (a1 : Z) (buf : arr (quat K)) :
    option (res (list (Z * data K) * pval)) :=
  obind (unit_pack fma) (fun u => obind (targs_of ta) (fun ts =>
    tcall u fuel 200 x ts ([VZ m; VZ n; VP (Ptr (OnQ 0) e 0 TQuat); VZ ld; VP (Ptr (OnQ 1) 0 0 TQuat)] ++ match al with Some al => [val_of al] | None => [] end)%list
      [(a0, DQ src); (a1, DQ buf)])).
End R.
