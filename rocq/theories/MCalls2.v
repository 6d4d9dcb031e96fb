(** Public calls on one memory as threads, following the dispatch of the default (AVX) build: src/hblas/cxx/hblas1/*.cmake and src/hblas/cxx/hblas3/Gemm.cmake
    (optimised C++), src/hblas/hblas2.cxx.in:53-95 and src/hblas/hblas3.cxx.in:41-60 (Fortran); MDispatch.v. *)
From Coq Require Import ZArith Ascii List.
From Verif Require Import Num Res SpecPar FIo MIoOpt SpecCalls SpecCalls2 MPar MCalls.
Import ListNotations.
Local Open Scope char_scope.
Local Open Scope Z_scope.

Section C.
Context {K : num}.
Local Notation th := (thread K (option (quat K))).
(** a call without a return value *)
Definition noret (t : io K unit) : io K (option (quat K)) := _ <~ t ;; Ret None.
Definition text (c : hcall K) : th := Thread (noret (code (hthread c))) (base (hthread c)).
(** pointer arguments in the order of the slots *)
Definition at_ (l : list Z) (x : nat) : Z := nth x l 0.
(** src/hblas/cxx/hblas3/gemm.cxx:56-59: where a call finds its two pack buffers and what they contain *)
Record bufs := Bufs { b_aa : Z; b_ba : Z; b_ga : Z -> quat K; b_gb : Z -> quat K }.
(** a double at address p has byte address 8 p *)
Definition pthread (e : bufs) (c : pcall K) : th :=
  match c with
  | PSwap n x incx y incy => Thread (noret (swapv_io n (8 * x) incx (8 * y) incy)) (at_ [x; y])
  | PCopy n x incx y incy => Thread (noret (copyv_io n (8 * x) incx (8 * y) incy)) (at_ [x; y])
  | PScal s n al x incx => Thread (noret (scalv_io s n al (8 * x) 0 0 incx)) (at_ [x])
  | PAxpy s n al x incx y incy => Thread (noret (axpyv_io s n al (8 * x) 0 incx (8 * y) 0 incy)) (at_ [x; y])
  | PDot cj n x incx y incy => Thread (r <~ dot_io cj n (8 * x) incx (8 * y) incy ;; Ret (Some r)) (at_ [x; y])
  | PScalm s m n al a lda inca => Thread (noret (scalm_io s "N" m n al (8 * a) 0 lda inca)) (at_ [a])
  | PAxpym s m n al a lda inca b ldb incb => Thread (noret (axpym_io s "N" m n al (8 * a) lda inca (8 * b) ldb incb)) (at_ [a; b])
  | PGemv t m n al a lda x incx be y incy => text (KGemv t m n al a lda x incx be y incy)
  | PGer cj m n al pal x incx y incy a lda => text (KGer cj m n al pal x incx y incy a lda)
  | PGemm ta tb m n k al pal a lda b ldb be pbe c ldc =>
      match al, be with
      | SH _, _ | _, SH _ => text (KGemm ta tb m n k al pal a lda b ldb be pbe c ldc)
      | _, _ => Thread (noret (gemm_io 64 512 64 (b_aa e) (b_ba e) (b_ga e) (b_gb e) ta tb m n k al lda ldb be (8 * c) ldc)) (at_ [a; b; c])
      end
  end.
End C.
Arguments bufs : clear implicits.
(** gemm.cxx:56-59: aligned_alloc(32, ...) *)
Definition aligned {K : num} (e : bufs K) : Prop := b_aa e mod 32 = 0 /\ b_ba e mod 32 = 0.
