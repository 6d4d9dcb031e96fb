(** Concurrent calls of the Fortran kernels on one shared memory of REAL*8 cells: each call is the text of a .f file (SrcL1.v, SrcL2.v, SrcL3.v,
    SrcUtil.v), parsed and turned into its tree of accesses (FIo.v).  INTEGER, CHARACTER, REAL*8 and COMPLEX*16 scalars are passed by reference in
    Fortran; here by value: variables of the calling thread that nobody else writes. *)
From Coq Require Import ZArith Ascii String List.
From Verif Require Import Num Res SpecPar FSyntax FParse FSem FIo FProg SrcL1 SrcL2 SrcL3 SrcUtil.
Import ListNotations.
Local Open Scope string_scope.
Local Open Scope Z_scope.

(** a call: the subroutine, its text, the array it returns its result in (name, and position in the argument list counted from 0), and the arguments *)
Record tcall (K : num) := TCall { t_name : string; t_src : string; t_out : string; t_pos : nat; t_args : list (farg K) }.
Arguments TCall {K} _ _ _ _ _. Arguments t_name {K} _. Arguments t_src {K} _. Arguments t_out {K} _. Arguments t_pos {K} _. Arguments t_args {K} _.
(** the kernels: name, text, result argument, its position *)
Definition kernels : list (string * string * string * nat) := [
  ("HSCALD", src_hscald, "X", 3%nat); ("HSCALC", src_hscalc, "X", 3%nat); ("HSCALH", src_hscalh, "X", 3%nat);
  ("HAXPYDH", src_haxpydh, "Y", 5%nat); ("HAXPYCH", src_haxpych, "Y", 5%nat); ("HAXPYHH", src_haxpyhh, "Y", 5%nat);
  ("HDOTU", src_hdotu, "R", 0%nat); ("HDOTC", src_hdotc, "R", 0%nat);
  ("HGEMVDD", src_hgemvdd, "Y", 9%nat); ("HGEMVDZ", src_hgemvdz, "Y", 9%nat); ("HGEMVDH", src_hgemvdh, "Y", 9%nat); ("HGEMVZD", src_hgemvzd, "Y", 9%nat); ("HGEMVZZ", src_hgemvzz, "Y", 9%nat);
  ("HGEMVZH", src_hgemvzh, "Y", 9%nat); ("HGEMVHD", src_hgemvhd, "Y", 9%nat); ("HGEMVHZ", src_hgemvhz, "Y", 9%nat); ("HGEMVHH", src_hgemvhh, "Y", 9%nat);
  ("HGERUD", src_hgerud, "A", 7%nat); ("HGERUZ", src_hgeruz, "A", 7%nat); ("HGERUH", src_hgeruh, "A", 7%nat); ("HGERCD", src_hgercd, "A", 7%nat); ("HGERCZ", src_hgercz, "A", 7%nat); ("HGERCH", src_hgerch, "A", 7%nat);
  ("HGEMMDD", src_hgemmdd, "C", 11%nat); ("HGEMMDZ", src_hgemmdz, "C", 11%nat); ("HGEMMDH", src_hgemmdh, "C", 11%nat); ("HGEMMZD", src_hgemmzd, "C", 11%nat); ("HGEMMZZ", src_hgemmzz, "C", 11%nat);
  ("HGEMMZH", src_hgemmzh, "C", 11%nat); ("HGEMMHD", src_hgemmhd, "C", 11%nat); ("HGEMMHZ", src_hgemmhz, "C", 11%nat); ("HGEMMHH", src_hgemmhh, "C", 11%nat);
  ("HZEXP1", src_hzexp, "B", 4%nat); ("HZEXP2", src_hzexp, "B", 4%nat); ("HDEXP", src_hdexp, "B", 4%nat); ("HZCON1", src_hzcon, "A", 3%nat); ("HZCON2", src_hzcon, "A", 3%nat)].
Section M.
Context {K : num}.
(** the thread that makes the call *)
Definition call_thread (t : tcall K) : thread K unit :=
  match program (t_name t) (t_src t) with
  | Some p => Thread (ioprog lsame_ext p (t_args t)) (slot_base (p_args p) (t_args t))
  | None => Thread Stop (fun _ => 0)
  end.
(** the cells of the shared memory [G] a call may use, argument by argument: a value, or a part of [G] starting at the address passed *)
Definition part_of (G : arr K) (x : farg K) (y : actual K) : Prop :=
  match x, y with FVal v, AV v' => v = v' | FPtr a, AM m => forall p v, m p = Some v -> G (a + p) = Some v | _, _ => False end.
(** address [z] belongs to argument number [n] *)
Definition uses (t : tcall K) (ys : list (actual K)) (n : nat) (z : Z) : Prop :=
  exists a m p, nth_error (t_args t) n = Some (FPtr a) /\ nth_error ys n = Some (AM m) /\ m p <> None /\ z = a + p.
End M.
