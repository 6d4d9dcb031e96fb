(** The templates of include/hblas/generic, instantiated.  hblas/hblas2.hpp includes util/macro.hpp (line 14) and otherwise declares;
    hblas1.hpp and hblas3.hpp only declare. *)
From Coq Require Import String List.
From Verif Require Import CSyntax CParse CSrc CSrcG.
Import ListNotations.
Local Open Scope string_scope.

Definition gheaders : list (string * string) := [("hblas/hblas2.hpp", csrc_macro_hpp)].
(** [ta], [tb]: the types of ALPHA and BETA; [tm]: the element type of A *)
Definition unit_swapv_g := compile [("_F", TDouble)] [] gheaders csrc_swapv_impl.
Definition unit_copyv_g := compile [("_F", TDouble)] [] gheaders csrc_copyv_impl.
Definition unit_scalv_g (ta : ctype) := compile [("_F", TDouble); ("_AlphaF", ta)] [] gheaders csrc_scalv_impl.
Definition unit_axpyv_g (ta : ctype) := compile [("_F", TDouble); ("_XF", TQuat); ("_AlphaF", ta)] [] gheaders csrc_axpyv_impl.
Definition unit_dotuv_g := compile [("_F", TDouble)] [] gheaders csrc_dotuv_impl.
Definition unit_dotcv_g := compile [("_F", TDouble)] [] gheaders csrc_dotcv_impl.
Definition unit_scalm_g (ta : ctype) := compile [("_F", TDouble); ("_AlphaF", ta)] [] gheaders csrc_scalm_impl.
Definition unit_axpym_g (ta : ctype) := compile [("_F", TDouble); ("_XF", TQuat); ("_AlphaF", ta)] [] gheaders csrc_axpym_impl.
Definition unit_gemv_g (tm ta tb : ctype) :=
  compile [("_F", TDouble); ("_MatF", tm); ("_VecF", TQuat); ("_AlphaF", ta); ("_BetaF", tb)] [] gheaders csrc_gemv_impl.
Definition unit_geru_g (ta : ctype) := compile [("_F", TDouble); ("_LeftVecF", TQuat); ("_RightVecF", TQuat); ("_AlphaF", ta)] [] gheaders csrc_geru_impl.
Definition unit_gerc_g (ta : ctype) := compile [("_F", TDouble); ("_LeftVecF", TQuat); ("_RightVecF", TQuat); ("_AlphaF", ta)] [] gheaders csrc_gerc_impl.
Definition unit_gemm_g (tm ta tb : ctype) :=
  compile [("_F", TDouble); ("_AMatF", tm); ("_BMatF", TQuat); ("_AlphaF", ta); ("_BetaF", tb)] [] gheaders csrc_gemm_impl.
