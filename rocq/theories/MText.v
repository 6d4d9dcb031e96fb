(** Text output: operator<< and to_string (include/haxx/haxx_def.hpp:196-215). *)
From Coq Require Import ZArith Ascii List Bool.
From Verif Require Import Num.
Import ListNotations.
Local Open Scope Z_scope.
Local Open Scope char_scope.

(** The state of a std::basic_ostream the operator uses; [Fmt] stands for (flags, locale, precision).  Simplification: [left] (the
    adjustfield bit of flags that decides on which side padding goes) is kept apart from the rest of the flags. *)
Record ostream (Fmt : Type) := OS { os_fmt : Fmt; os_left : bool; os_width : Z; os_fill : ascii; os_out : list ascii }.
Arguments OS {_} _ _ _ _ _. Arguments os_fmt {_} _. Arguments os_left {_} _. Arguments os_width {_} _. Arguments os_fill {_} _. Arguments os_out {_} _.

Section T.
Context {K : num} {Fmt : Type}.
(** pr f x: the text num_put produces for a component under format f with field width 0.  Not part of this library. *)
Variable pr : Fmt -> K -> list ascii.

(** standard library: inserting characters with padding to the field width, which is then reset to 0 *)
Definition insert (os : ostream Fmt) (s : list ascii) : ostream Fmt :=
  let pad := repeat (os_fill os) (Z.to_nat (os_width os - Z.of_nat (length s))) in
  let t := if os_left os then s ++ pad else pad ++ s in
  OS (os_fmt os) (os_left os) 0 (os_fill os) (os_out os ++ t).
(** standard library: inserting a number into the private stream, whose field width is 0 from the start *)
Definition insert_num (os : ostream Fmt) (x : K) : ostream Fmt := insert os (pr (os_fmt os) x).

(* haxx_def.hpp:197-208; __s is a fresh ostringstream: width 0, fill ' ', empty, with flags, locale and precision of __os *)
Definition put_q (os : ostream Fmt) (x : quat K) : ostream Fmt :=
  let s := OS (os_fmt os) (os_left os) 0 " " [] in
  let s := insert s ["("] in
  let s := insert_num s (qr x) in
  let s := insert s [","] in
  let s := insert_num s (qi x) in
  let s := insert s [","] in
  let s := insert_num s (qj x) in
  let s := insert s [","] in
  let s := insert_num s (qk x) in
  let s := insert s [")"] in
  insert os (os_out s).

(* haxx_def.hpp:210-215; a default stringstream, f0 its default format (global locale), right adjustment, width 0 *)
Definition to_string (f0 : Fmt) (x : quat K) : list ascii := os_out (put_q (OS f0 false 0 " " []) x).
End T.
