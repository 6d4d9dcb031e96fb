(** Calls on one memory as calls of the Fortran texts: the addresses are passed where MSrc.v passes arrays. *)
From Coq Require Import ZArith Ascii String List.
From Verif Require Import Num Res FSem FIo FProg SrcL1 SrcL2 SrcL3 SpecPar SpecCalls MPar.
Import ListNotations.
Local Open Scope string_scope.
Local Open Scope Z_scope.

Section C.
Context {K : num}.
Local Notation i z := (FVal (VI z)).
Local Notation ch c := (FVal (VC c)).
(** FProg.pass and FProg.pass2 *)
Definition passp (s : scal K) (p : Z) : farg K := match s with SR a => FVal (VR a) | SC z => FVal (VZ z) | SH _ => FPtr p end.
Definition passp2 (s : scal K) (p : Z) : farg K := match s with SC z => FPtr p | _ => passp s p end.
(** the argument lists of MSrc.v *)
Definition tcall_of (c : hcall K) : tcall K :=
  match c with
  | KScal side n al pal x incx =>
      let args := [ch side; i n; passp al pal; FPtr x; i incx] in
      match al with SR _ => TCall "HSCALD" src_hscald "X" 3 args | SC _ => TCall "HSCALC" src_hscalc "X" 3 args | SH _ => TCall "HSCALH" src_hscalh "X" 3 args end
  | KAxpy side n al pal x incx y incy =>
      let args a := [ch side; i n; a; FPtr x; i incx; FPtr y; i incy] in
      match al with SR _ => TCall "HAXPYDH" src_haxpydh "Y" 5 (args (passp al pal)) | SC _ => TCall "HAXPYCH" src_haxpych "Y" 5 (args (passp2 al pal)) | SH _ => TCall "HAXPYHH" src_haxpyhh "Y" 5 (args (passp al pal)) end
  | KDot cj r n x incx y incy =>
      let args := [FPtr r; i n; FPtr x; i incx; FPtr y; i incy] in if cj : bool then TCall "HDOTC" src_hdotc "R" 0 args else TCall "HDOTU" src_hdotu "R" 0 args
  | KGemv t m n al a lda x incx be y incy =>
      TCall "HGEMVDD" src_hgemvdd "Y" 9 [ch t; i m; i n; FVal (VR al); FPtr a; i lda; FPtr x; i incx; FVal (VR be); FPtr y; i incy]
  | KGer cj m n al pal x incx y incy a lda =>
      let args := [i m; i n; passp al pal; FPtr x; i incx; FPtr y; i incy; FPtr a; i lda] in
      if cj : bool then match al with SR _ => TCall "HGERCD" src_hgercd "A" 7 args | SC _ => TCall "HGERCZ" src_hgercz "A" 7 args | SH _ => TCall "HGERCH" src_hgerch "A" 7 args end
      else match al with SR _ => TCall "HGERUD" src_hgerud "A" 7 args | SC _ => TCall "HGERUZ" src_hgeruz "A" 7 args | SH _ => TCall "HGERUH" src_hgeruh "A" 7 args end
  | KGemm ta tb m n k al pal a lda b ldb be pbe c ldc =>
      let args := [ch ta; ch tb; i m; i n; i k; passp al pal; FPtr a; i lda; FPtr b; i ldb; passp be pbe; FPtr c; i ldc] in
      match al, be with
      | SR _, SR _ => TCall "HGEMMDD" src_hgemmdd "C" 11 args | SR _, SC _ => TCall "HGEMMDZ" src_hgemmdz "C" 11 args | SR _, SH _ => TCall "HGEMMDH" src_hgemmdh "C" 11 args
      | SC _, SR _ => TCall "HGEMMZD" src_hgemmzd "C" 11 args | SC _, SC _ => TCall "HGEMMZZ" src_hgemmzz "C" 11 args | SC _, SH _ => TCall "HGEMMZH" src_hgemmzh "C" 11 args
      | SH _, SR _ => TCall "HGEMMHD" src_hgemmhd "C" 11 args | SH _, SC _ => TCall "HGEMMHZ" src_hgemmhz "C" 11 args | SH _, SH _ => TCall "HGEMMHH" src_hgemmhh "C" 11 args
      end
  end.
(** the thread that makes the call *)
Definition hthread (c : hcall K) : thread K unit := call_thread (tcall_of c).
End C.
