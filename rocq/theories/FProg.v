(** The Fortran kernels as programs: parsed from the source texts of SrcL1.v, SrcL2.v, SrcL3.v and SrcUtil.v and run by FSem.v. *)
From Coq Require Import ZArith Bool Ascii String List.
From Verif Require Import Num Res MForL1 FSyntax FParse FSem SrcUtil.
Import ListNotations.
Local Open Scope string_scope.
Local Open Scope Z_scope.

Section P.
Context {K : num}.
(** LSAME is the function of util/lsame.f; it calls nothing but ICHAR *)
Definition lsame_ext (f : string) (vs : list (val K)) : res (val K) :=
  if String.eqb f "LSAME" then
    match program "LSAME" src_lsame with
    | Some p => run_fun (fun _ _ => Abort) p (map AV vs)
    | None => Abort
    end
  else Abort.
Fixpoint find_array (x : string) (ds : list (string * ty * list rexpr)) (ms : list (arr K)) : res (arr K) :=
  match ds, ms with
  | (y, _, _) :: ds, m :: ms => if String.eqb x y then Ok m else find_array x ds ms
  | _, _ => Abort
  end.
(** CALL name(args) of the subroutine [name] of a source text: the contents of its array argument [out] afterwards *)
Definition fcall (name src : string) (args : list (actual K)) (out : string) : res (arr K) :=
  match program name src with
  | Some p => ms <- run_sub lsame_ext p args ;; find_array out (p_ar p) ms
  | None => Abort
  end.
(** the cells of an array of quaternions: four REAL*8 each, in the order real, i, j, k *)
Definition comp (q : quat K) (t : Z) : K := if t =? 0 then qr q else if t =? 1 then qi q else if t =? 2 then qj q else qk q.
Definition cells (q : arr (quat K)) : arr K := fun z => option_map (fun v => comp v (z mod 4)) (q (z / 4)).
(** the cells of a COMPLEX*16 array *)
Definition ccells (b : arr (cplx K)) : arr K := fun z => option_map (fun v => if z mod 2 =? 0 then re v else im v) (b (z / 2)).
(** an array holding one quaternion: ALPHA(2) or ALPHA(4) *)
Definition one (q : quat K) : arr (quat K) := fun p => if p =? 0 then Some q else None.
(** how ALPHA and BETA are passed: hblas??.cxx.in pass a reference; COMPLEX*16 / REAL*8 scalars for d and z, arrays for h *)
Definition pass (s : scal K) : actual K := match s with SR a => AV (VR a) | SC z => AV (VZ z) | SH q => AM (cells (one q)) end.
(** haxpych.f declares its complex ALPHA as REAL*8 ALPHA(2) *)
Definition pass2 (s : scal K) : actual K := match s with SC z => AM (ccells (fun p => if p =? 0 then Some z else None)) | _ => pass s end.
End P.
