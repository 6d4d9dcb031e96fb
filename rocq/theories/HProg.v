(** The quaternion headers as a parsed unit: include/haxx.hpp (HSrc.v) with its five headers, preprocessed and parsed.  [avx]: is __AVX__ defined. *)
From Coq Require Import ZArith String List.
From Verif Require Import CPre HSrc HParse.
Import ListNotations.
Local Open Scope string_scope.

Definition haxx_includes : list (string * string) :=
  [("haxx/haxx_def.hpp", hsrc_def); ("haxx/haxx_scalar_op.hpp", hsrc_scalar); ("haxx/haxx_complex_op.hpp", hsrc_complex);
   ("haxx/haxx_quaternion_op.hpp", hsrc_quat); ("haxx/haxx_quaternion_reduction.hpp", hsrc_red)].
Definition haxx_unit (avx : bool) : option hunit :=
  match preprocess (if avx then [("__AVX__", "1")] else []) haxx_includes hsrc_haxx with
  | Some ts => parse_unit ts
  | None => None
  end.
