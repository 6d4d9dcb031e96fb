(** Lookups in the library of MBuild.v. *)
From Coq Require Import ZArith Bool Ascii String List.
From Verif Require Import Num Res FSyntax FParse FSem FProg SrcL2 SrcL3 SrcUtil CSyntax CPre CParse CSrc CSem CProg CProgG CLink MSrcC MSrcG MSrc MPar DSrc MBuild MPublic.
Import ListNotations.
Local Open Scope string_scope.
Local Open Scope Z_scope.

(** what the forwarding sources and the instantiations define *)
Definition unopt {A} (o : option (list A)) : list A := match o with Some l => l | None => [] end.
Definition text_defs : list defn := Eval vm_compute in
  unopt (concat_opt (fun t => obind (items [] t) (fun l => Some (map of_item l))) [dsrc_hblas1; dsrc_hblas2; dsrc_hblas3; dsrc_util]).
Local Notation int := CSyntax.TInt.
Local Notation quatp := (TPtr TQuat).
Definition fn (f : string) := [("FNAME", f)].
Definition gd (a b : string) := [("AMATF", "DQUATERNION"); ("BMATF", "DQUATERNION"); ("ALPHAF", a); ("BETAF", b)].
Definition sv (a : string) := app (fn "HBLAS_SCALV") [("_SCAL", "1"); ("ALPHAF", a)].
Definition av (a : string) := app (fn "HBLAS_AXPYV") [("_AXPY", "1"); ("ALPHAF", a)].
Definition vv := [int; quatp; int; quatp; int].
Definition svt t := [TChar; int; t; quatp; int].
Definition avt t := [TChar; int; t; quatp; int; quatp; int].
Definition gmt a m b := [TChar; TChar; int; int; int; a; TPtr m; int; quatp; int; b; quatp; int].
Definition object_defs : list defn :=
  [("HBLAS_DOTUV", vv, Object csrc_dot (fn "HBLAS_DOTUV")); ("HBLAS_DOTCV", vv, Object csrc_dot (app (fn "HBLAS_DOTCV") [("_CONJ", "1")]));
   ("HBLAS_SCALV", svt TDouble, Object csrc_axpy_scal (sv "DOUBLE")); ("HBLAS_SCALV", svt CSyntax.TCplx, Object csrc_axpy_scal (sv "DCOMPLEX"));
   ("HBLAS_SCALV", svt TQuat, Object csrc_axpy_scal (sv "DQUATERNION"));
   ("HBLAS_AXPYV", avt TDouble, Object csrc_axpy_scal (av "DOUBLE")); ("HBLAS_AXPYV", avt CSyntax.TCplx, Object csrc_axpy_scal (av "DCOMPLEX"));
   ("HBLAS_AXPYV", avt TQuat, Object csrc_axpy_scal (av "DQUATERNION"));
   ("HBLAS_COPYV", vv, Object csrc_copy_swap (app (fn "HBLAS_COPYV") [("_COPY", "1")])); ("HBLAS_SWAPV", vv, Object csrc_copy_swap (app (fn "HBLAS_SWAPV") [("_SWAP", "1")]));
   ("HBLAS_GEMM", gmt TDouble TQuat TDouble, Object csrc_gemm (gd "DOUBLE" "DOUBLE")); ("HBLAS_GEMM", gmt CSyntax.TCplx TQuat TDouble, Object csrc_gemm (gd "DCOMPLEX" "DOUBLE"));
   ("HBLAS_GEMM", gmt TDouble TQuat CSyntax.TCplx, Object csrc_gemm (gd "DOUBLE" "DCOMPLEX")); ("HBLAS_GEMM", gmt CSyntax.TCplx TQuat CSyntax.TCplx, Object csrc_gemm (gd "DCOMPLEX" "DCOMPLEX"))].
Definition lib_defs : list defn := app text_defs object_defs.
Lemma definitions_eq : forall fma, definitions fma = Some lib_defs.
Proof. intros [|]; vm_compute; reflexivity. Qed.
Lemma implementation_eq fma f ts : implementation fma f ts = resolve lib_defs f ts.
Proof. unfold implementation. rewrite definitions_eq. reflexivity. Qed.
Lemma public_unit_eq fma f ts i : resolve lib_defs f ts = Some i -> public_unit fma f ts = unit_of fma f ts i.
Proof. intros E. unfold public_unit. rewrite implementation_eq, E. reflexivity. Qed.

(** ** C++ *)
Lemma u_swapv fma : public_unit fma "HBLAS_SWAPV" vv = unit_swapv fma.
Proof. refine (public_unit_eq fma _ _ (Object csrc_copy_swap (app (fn "HBLAS_SWAPV") [("_SWAP", "1")])) _); vm_compute; reflexivity. Qed.
Lemma u_copyv fma : public_unit fma "HBLAS_COPYV" vv = unit_copyv fma.
Proof. refine (public_unit_eq fma _ _ (Object csrc_copy_swap (app (fn "HBLAS_COPYV") [("_COPY", "1")])) _); vm_compute; reflexivity. Qed.
Lemma u_dotuv fma : public_unit fma "HBLAS_DOTUV" vv = unit_dotuv fma.
Proof. refine (public_unit_eq fma _ _ (Object csrc_dot (fn "HBLAS_DOTUV")) _); vm_compute; reflexivity. Qed.
Lemma u_dotcv fma : public_unit fma "HBLAS_DOTCV" vv = unit_dotcv fma.
Proof. refine (public_unit_eq fma _ _ (Object csrc_dot (app (fn "HBLAS_DOTCV") [("_CONJ", "1")])) _); vm_compute; reflexivity. Qed.
Section K.
Context {K : num}.
Lemma u_scalv fma (al : scal K) : public_unit fma "HBLAS_SCALV" (svt (ty al)) = unit_scalv fma (type_of al).
Proof. destruct al; cbn [ty type_of].
  - refine (public_unit_eq fma _ _ (Object csrc_axpy_scal (sv "DOUBLE")) _); vm_compute; reflexivity.
  - refine (public_unit_eq fma _ _ (Object csrc_axpy_scal (sv "DCOMPLEX")) _); vm_compute; reflexivity.
  - refine (public_unit_eq fma _ _ (Object csrc_axpy_scal (sv "DQUATERNION")) _); vm_compute; reflexivity.
Qed.
Lemma u_axpyv fma (al : scal K) : public_unit fma "HBLAS_AXPYV" (avt (ty al)) = unit_axpyv fma (type_of al).
Proof. destruct al; cbn [ty type_of].
  - refine (public_unit_eq fma _ _ (Object csrc_axpy_scal (av "DOUBLE")) _); vm_compute; reflexivity.
  - refine (public_unit_eq fma _ _ (Object csrc_axpy_scal (av "DCOMPLEX")) _); vm_compute; reflexivity.
  - refine (public_unit_eq fma _ _ (Object csrc_axpy_scal (av "DQUATERNION")) _); vm_compute; reflexivity.
Qed.
Lemma u_gemm fma (al be : scal K) : (forall q, al <> SH q) -> (forall q, be <> SH q) -> public_unit fma "HBLAS_GEMM" (gemm_types al be) = unit_gemm fma (type_of al) (type_of be).
Proof.
  intros Ha Hb. refine (public_unit_eq fma _ _ (Object csrc_gemm (gd (type_of al) (type_of be))) _).
  destruct al as [?|?|q]; [| |destruct (Ha q eq_refl)]; (destruct be as [?|?|q']; [| |destruct (Hb q' eq_refl)]); vm_compute; reflexivity.
Qed.
Lemma u_scalm fma (al : scal K) : public_unit fma "HBLAS_SCALM" [TChar; TChar; int; int; ty al; quatp; int; int] = unit_scalm_g (ty al).
Proof. refine (public_unit_eq fma _ _ Template _); destruct al; vm_compute; reflexivity. Qed.
Lemma u_axpym fma (al : scal K) : public_unit fma "HBLAS_AXPYM" [TChar; TChar; int; int; ty al; quatp; int; int; quatp; int; int] = unit_axpym_g (ty al).
Proof. refine (public_unit_eq fma _ _ Template _); destruct al; vm_compute; reflexivity. Qed.
Lemma u_gemv_real fma : public_unit fma "HBLAS_GEMV" [TChar; int; int; TDouble; TPtr TDouble; int; quatp; int; TDouble; quatp; int] = unit_gemv_g TDouble TDouble TDouble.
Proof. etransitivity; [refine (public_unit_eq fma _ _ Template _); vm_compute; reflexivity|]. cbv [unit_of andb forallb ctype_eqb String.eqb Ascii.eqb Bool.eqb nth elem]. reflexivity. Qed.
Lemma u_gemm_real fma : public_unit fma "HBLAS_GEMM" [TChar; TChar; int; int; int; TDouble; TPtr TDouble; int; quatp; int; TDouble; quatp; int] = unit_gemm_g TDouble TDouble TDouble.
Proof. etransitivity; [refine (public_unit_eq fma _ _ Template _); vm_compute; reflexivity|]. cbv [unit_of andb forallb ctype_eqb String.eqb Ascii.eqb Bool.eqb nth elem]. reflexivity. Qed.

(** ** Fortran *)
Lemma fortran_eq (env : list (string * uarg K)) f es n src out ks xs :
  option_map fst (find (fun k => String.eqb (fst (fst (fst k))) (symbol f)) kernels) = Some (n, src, out) ->
  option_map formals (program n src) = Some ks -> link_args env ks es = Some xs -> fortran env f es = Some (fcall n src xs out).
Proof.
  intros E1 E2 E3. unfold fortran. destruct (find _ kernels) as [[[[n' src'] out'] i]|]; [|discriminate]. cbn [option_map fst] in E1.
  apply (f_equal (fun o => match o with Some t => t | None => (n', src', out') end)) in E1. cbv beta iota in E1.
  assert (A : n' = n) by exact (f_equal (fun t => fst (fst t)) E1). assert (B : src' = src) by exact (f_equal (fun t => snd (fst t)) E1). assert (C : out' = out) by exact (f_equal snd E1).
  subst n' src' out'. destruct (program n src); [|discriminate]. cbn [option_map] in E2. assert (E2' : formals p = ks) by congruence. rewrite E2', E3. reflexivity.
Qed.
Lemma fortran_call_eq fma f (xs : list (uarg K)) ts ps b : map utype xs = ts -> resolve lib_defs f ts = Some (Body ps b) -> Nat.eqb (List.length ps) (List.length xs) = true ->
  fortran_call fma f xs = match forward (combine ps xs) b with Some (Ok (Some m)) => Some (Ok m) | Some UB => Some UB | Some Abort => Some Abort | _ => None end.
Proof. intros Et E Hl. unfold fortran_call. rewrite implementation_eq, Et, E. cbn [obind]. rewrite Hl. reflexivity. Qed.
(** one forwarding call *)
Lemma fortran_call1 fma f (xs : list (uarg K)) ts ps g q es n src out ks ys :
  map utype xs = ts -> resolve lib_defs f ts = Some (Body ps (NSeq (NExpr (NCall g q es)) NSkip)) -> Nat.eqb (List.length ps) (List.length xs) = true ->
  option_map fst (find (fun k => String.eqb (fst (fst (fst k))) (symbol g)) kernels) = Some (n, src, out) ->
  option_map formals (program n src) = Some ks -> link_args (combine ps xs) ks es = Some ys -> fortran_call fma f xs = Some (fcall n src ys out).
Proof.
  intros Et E Hl E1 E2 E3. rewrite (fortran_call_eq fma f xs ts ps _ Et E Hl). cbn [forward]. rewrite (fortran_eq _ _ _ _ _ _ _ _ E1 E2 E3).
  destruct (fcall n src ys out); reflexivity.
Qed.
End K.
