# A Rocq (Coq 8.16.1) model of HAXX and its properties

Source: `/repo` (wavefunction91/HAXX, pinned, read as text). Properties: `properties.jsonl`. Status and theorem names per property:
`MANIFEST.json`. Axioms per theorem: `ASSUMPTIONS.txt`. Wrong-program experiments: `seeded/LOG.jsonl`.
Sources: `rocq/theories/*.v`; `M*.v` = model of the code, `Spec*.v` = specification, `*Facts*.v` etc. = proofs,
`Props*.v` = the property theorems, each followed by `Print Assumptions` and a concrete case meeting its hypotheses.

## 1. How the code is modelled

* **Scalars.** The code is modelled over a record `num` of *operations* (add, sub, mul, neg, the four fused multiply-adds, div, sqrt,
  boolean equality) without any law (`Num.v`). Laws (commutative ring, fused = unfused, equality test decides equality) are a separate
  record `laws K`, an explicit hypothesis of the theorems that need algebra. Instances: `Z` (executable examples and counterexamples),
  `R` (`NumR.v`; norm, inv, versor) and IEEE binary64 with or without hardware FMA (`F64.v`, Flocq's `BinarySingleNaN`, round to nearest
  even, all NaNs identified). A theorem with no `laws` hypothesis holds for floating point bit for bit (up to NaN payloads);
  a theorem with it is about exact arithmetic, and C43 bounds the distance between the two.
* **Memory.** Every pointer argument is its own array `arr A = Z -> option A` indexed by element; `None` = not allocated.
  Access outside is the distinct outcome `UB`; a failed `assert` is the distinct outcome `Abort`; Fortran reads of an
  undefined variable are `UB`; an aligned 32-byte load or store at a misaligned address is `UB`. `returns r P` says the run ends
  normally (neither `UB` nor `Abort`) and the result satisfies `P`, so every contract includes memory safety and termination.
  Different pointer arguments are different arrays (no aliasing: Fortran forbids it, and so do the BLAS contracts).
* **Loops** are counted loops over `Z` with the exact trip counts of the source (`for_`, `do_` in `Res.v`); pointer and cursor variables
  are part of the loop state. C++ `/` and `%` are `Z.quot` and `Z.rem`.
* **SIMD** intrinsics are modelled lane by lane (`MSimd.v`) with the immediates of the source.
* **Fortran** `COMPLEX*16` pairs `(2,*)` are the two halves of a quaternion element. The hand-written kernels are proved equal to what the parsed and interpreted source texts compute (C62), so for Fortran the trusted part is the copied text, the parser and the interpreter, not the transcription.
* **Template / file variants** selected by the types of ALPHA and BETA (`double`, `complex`, `quaternion`) are selected by the
  constructor (`SR`, `SC`, `SH`) of a scalar argument.
* **`HAXX_INT`** is unbounded `Z`, except in `MInt32.v`, which repeats the kernels with every `int32_t` product, sum and increment
  checked (overflow = `UB`) and relates them to the unbounded ones (C38).
* **Pack buffers** of the packed GEMM are arrays with arbitrary initial contents and an arbitrary base address that is a multiple of 32;
  `aligned_alloc` is assumed to succeed.

## 2. Specification

`Spec.v` does not mention the code: Hamilton product in scalar/vector form, embeddings of reals and complex numbers, finite sums, strided
vectors (`holds_vec`, `vpos` with the BLAS negative-increment convention), column-major windows (`holds_mat`), frames
(`same_but_vec`, `same_but_mat`), `gemm_elt`, `gemv_elt`. `SpecExp.v`: the complex and real matrix representations. `SpecErr.v`: unit
roundoff, error bound, magnitudes. `SpecBlock.v`: sub-block addressing.

## 3. Per property: model and proof

| id | model | proof |
|----|-------|-------|
| C01, C03–C06, C10 | `operator` overloads as Gallina functions over `num` (`MQuat.v`) | ring identities against `Spec.v` |
| C02, C39 | intrinsics and `qop.hpp` (`MSimd.v`) | lane evaluation + ring |
| C07–C09 | norm/inv/versor over `R` | `field`, square-root lemmas |
| C11 | `operator==`, `!=` | refuted (k of the left operand ignored); exact meaning proved |
| C12–C20 | the three implementations of each level-1 routine (`MOptL1`, `MGenL1`, `MForL1`) | loop invariants; agreement as corollary; refutations |
| C21, C22 | SCALM/AXPYM templates (`MGenM`) | loop invariants over columns; refutation for purely-k ALPHA |
| C23, C24 | HGEMVxx (nine files, `MForL2`), generic template (`MGenL2`) | loop invariants; refutations for the defective variants |
| C25, C26 | HGERUx/HGERCx (`MForL2`), generic | loop invariants; refutation for real ALPHA with INCX<>1 |
| C27, C28 | HGEMMxx (nine files, `MForL3`), generic template | loop invariants |
| C29–C32 | pack, micro-kernel, blocked driver with parameters MC,NC,KC (`MPack`, `MOptGemm`) | invariants over the five loops |
| C33 | same models over binary64 / law-free (`RawL3`) | law-free value of each kernel; refutation by computation |
| C34 | same models | direct, with unallocated operands |
| C35, C36 | HZEXP1/2, HDEXP, HZCON1/2 (`MUtil`) | loop invariants + ring |
| C37 | LSAME and option decoding | case analysis over all 256 characters; refutations |
| C38 | 32-bit checked copies of the C++ kernels (`MInt32`) | equality with the unbounded model under bounds; overflow witnesses for every size beyond them |
| C40 | corollaries of the above | rewriting |
| C41, C42 | `AVXType::Mul`, packing with an optional scalar on either side | lane evaluation; refutations for the non-default options |
| C43 | packed kernels over binary64 | error calculus `apx` (`RoundFacts`) transported through the loops |
| C44, C45 | public dispatch of `HBLAS_GEMM` (`MDispatch`) | corollaries of C27, C29; algebra of `gemm_elt` |
| C46, C47 | public dispatch | law-free value of both backends as a function of one row, one column and one element |
| C48 | AVX kernels and Fortran GEMM over IEEE doubles | an exactness calculus (integer value, magnitude bound) pushed through the law-free values of the kernels |
| C49 | norm, inv, versor over IEEE doubles, also with contracted sums of squares (`MNormC`) | relative error analysis with Flocq's correctness of division and square root; refutations by computation |
| C50 | optimised level-1 kernels and AXPYM re-stated on one memory (`MShared`), operands at element offsets | loop invariant "the first i elements of Y are new"; X(i) is read before it can be overwritten; law-free agreement with the separate-array models |
| C51 | optimised GEMM on one memory (`MShared`): packing reads the current memory | the C29 block invariants with operands re-read from any memory that differs from the start only inside C |
| C52 | no new model: sequences of the optimised level-1 calls | compositions of C12, C14–C17 with quaternion algebra (`LawFacts`); Cauchy–Schwarz by expanding sum abs(y a - x p)^2 over R |
| C53 | no new model: Fortran GEMV 'N'/'C', GERC and the optimised DOTCV in sequence | C23, C26, C17 plus exchange of finite sums |
| C54 | no new model: `hgemm`, `hgemv`, `hger` over IEEE binary64 | the law-free meaning of each call (`RawL3`, `RawL2`), then a forward error calculus on complex halves (`ErrFor*`); specification in `SpecErrF`. The model rounds every Fortran operation once: a compiler that contracts a*b+c into an FMA is outside it |
| C55 | no new model: `hgemv`, `hger` over IEEE binary64 | `RawL2` plus the integer calculus of C48 (`IntFor`); specification in `SpecIntF` |
| C56 | member functions of `quaternion<_F>` executed statement by statement on a memory of scalar cells, arguments as addresses (`MObj`); specification vocabulary in `SpecObj` | case analysis on the position of the argument (`ObjFacts`) |
| C57 | `operator<<`, `to_string` on a model of `std::basic_ostream` (format, width, fill, text) with an arbitrary component printer (`MText`) | text equation, then unique readability by splitting at separators (`TextFacts`) |
| C58 | the value of each element of the real-matrix GEMV and GEMM for any arithmetic (`RawL2g`, `RawL3`), evaluated in binary64; vocabulary `SpecErrR` | each component of a quaternion is a real sum of products; running error analysis per component (`ErrReal`), then assembled (`ErrReal2`) |
| C59 | the same elements on integer-valued doubles (`SpecInt`, `SpecIntF`) | every intermediate value is an integer below 2^53, hence exact (`IntReal`) |
| C60 | no new model: DOTCV over IEEE binary64; its law-free value as a function of the operand values (`RawL1`) | each lane of the accumulator is a sum of non-negative terms; the imaginary lanes are sums of exactly opposite rounded products (`SelfFacts`); refutations by computation |
| C61 | no new model: law-free values of the level-1, level-2 and real-matrix kernels (`RawL1`, `RawL2`, `RawL2g`, `RawL3`) | two calls have the same value because the value is a function of the element's own operands (`LocalFacts`) |
| C62 | `SrcL1`..`SrcUtil`: the 36 `.f` files byte for byte; `FParse`: preprocessor, fixed form, lexer, parser, implicit typing; `FSem`: interpreter over any arithmetic with real cells as memory; `MSrc`: argument lists | simulation of every text by its reference kernel, loop by loop with invariants over the slots of the interpreter state (`FSimFacts`, `FTac*`, `SrcEq*`) |
| C63 | as C62 | contracts C14-C17, C23, C25-C27, C35, C36 transported along C62 |
| C64 | `MDispatch` | the contracts C23-C26 at the public names |
| C65 | `SpecPar`: calls as trees of single accesses, schedules; `FIo`: the interpreter of C62 with the arrays outside; `MPar`, `MCalls`: calls of the texts on one shared memory; `SpecCalls`: reads, writes, pre and post of a call | the tree run alone is the interpreter (`FIoFacts`, induction on the program); invariant over all schedules: every thread's own cells are as if it ran alone (`ParFacts`); contracts by C63 on the owned cells (`ParText`, `CallFacts`) |
| C66 | `MIoOpt`: the optimised level-1 kernels, SCALM, AXPYM and the optimised GEMM (packing, micro-kernel) as trees of single double accesses, pack buffers private; `MCalls2`: the dispatch of the default build; `SpecCalls2`: reads, writes, pre and post of a public call | each tree run alone refines the modelled kernel (`IoOptFacts`, a 256-bit access being four accesses), then the schedule invariant of C65 in the general form of `ParGen` and the contracts of C12-C31, C63 (`CallFacts2`); to the bit in any arithmetic from the law-free forms of these lemmas (`CallFacts3`) |
| C67 | `CSrc`: the five `.cxx` files and eight headers byte for byte; `CPre`: comments, tokens, directives, macros; `CParse`: parser, name and overload resolution; `CSem`: interpreter over any arithmetic, blocks of quaternions as memory; `CLink`: what gemm.cxx is linked with; `MSrcC`: argument lists | simulation of every text by its reference kernel, loop by loop with invariants over the slots of the interpreter state (`CSimFacts`, `CTac`, `CEq*`), both FMA builds at once |
| C68 | as C67 | contracts C12-C17, C29, C32 transported along C67 |
| C69 | `CSrcG`: the template headers of include/hblas/generic byte for byte; `CProgG`: instantiation at the argument types; `CLinkG`: SCALM and AXPYM linked with the text of axpy_scal.cxx; `MSrcG`: argument lists; preprocessor, parser and interpreter as C67 | simulation of every text by its reference kernel (`CEqGen1`-`CEqGen4`); the column loops by induction over the loop counter |
| C70 | as C69 | contracts C12-C17, C21, C22, C24, C28, C32 transported along C69 |
| C71 | `HSrc`: haxx.hpp and its five headers byte for byte; `HParse`: parser for classes, member functions, constructors with initialisers, operators; `HSem`: interpreter over a heap of scalar cells, references as locations, overload resolution by types, producing the sequence of heap accesses; `MSrcH`: calls | symbolic execution of each definition to a normal form, then case analysis on the cells (`HEq`) |
| C72 | as C71, plus texts of user expressions and statements | evaluation as in C71, then C01-C11, C56 |
| C73 | `DSrc`: the CMake files of src/hblas, hblas{1,2,3}.cxx.in, util.cxx and the utility headers byte for byte; `MBuild`: CMake commands, configure_file, macro pasting, explicit specialisations and instantiations, object libraries with their -D options, lookup of a definition by name and parameter types, forwarding calls with arguments by reference; `MPublic`: calls of the public functions; `SpecBuild`: the table of signatures | computation of the library's definitions (once), then per routine equality of the run with the text of C62-C70 |
| C74 | as C73 | C63, C68, C70 transported along C73 |
| C75, C76 | as C73, at the IEEE binary64 arithmetic of `F64.v` (fused exactly when the unit is compiled with FMA) | C43, C48, C54, C55, C58, C59 transported along C73 |
| C77 | `TSrc`: pack.hpp, packops.hpp, types.hpp byte for byte; `TParse`: parser for class templates, static member functions, generic lambdas; `TSem`: interpreter with scopes, closures capturing by reference, class-template instantiation and member-type lookup; `MSrcT`: the call | one-step equations of the interpreter, each straight-line piece evaluated, induction over the two loops (`TEq`..`TEq11`): equal to `MPack` for every input; then C31 |
| C78 | `CLinkT`: the link table of gemm.cxx with the packing texts | the driver proof of C67 with the packing calls discharged by C77; then C29, C32 |
| C79 | as C77 | the layout lemma of C31 before any law of the scalars is used, with each element's operations written out; a binary64 instance with NaN, -0 and inf |
| C80 | as C78 | C78's equality of the texts with `MOptGemm`, then C46, C30, C43 and C48 |
| C81 | `MTuple`: the templates of boilerplate.hpp by their recursion over N and the pack, tuples as lists, operations as state transformers that may fail, the order of argument evaluation a parameter of every call | induction over N, the tuple, the evaluation order (any permutation); `pack_loop` of `MPack` equals the loop written with the helpers for all orders |
| C82 | `PSrc`: hblas1.hpp, hblas2.hpp, hblas3.hpp, hblas_util.hpp byte for byte; `MProto`: preprocessing, macro expansion and parsing of the `extern "C"` blocks, declarations of Fortran dummies (type statements, DIMENSION, IMPLICIT), types of the arguments of the calls; `SpecProto`: the documented table of routines, when a dummy receives a pointer | evaluation of the texts once; sound checkers |
| C83 | `MDecl`: the template declarations of the same headers, their instances by binding the type parameters, lookup of the definition as in C73; `SpecProto`: `supported`, the documented instances | all lists of type arguments of the right length computed, other lengths have no instance |

File-level order of the proofs: `ResFacts` (Hoare rules for `returns`), `SpecFacts` (ring of quaternions), `VecFacts`/`LoopFacts`
(loops that map a function over a strided vector or window), then one facts file per model file.

## 4. Trusted base

* Coq 8.16.1's kernel (including `vm_compute`, used for concrete cases and refutation witnesses).
* The axioms listed per theorem in `ASSUMPTIONS.txt` (output of `Print Assumptions`). They are: none for most theorems; for the
  theorems about real numbers or binary64 the standard library's `ClassicalDedekindReals.sig_not_dec`,
  `ClassicalDedekindReals.sig_forall_dec`, `FunctionalExtensionality.functional_extensionality_dep` and `Classical_Prop.classic`
  (through `Reals` and Flocq). No axiom is declared in this development; no functor, module type, plugin or kernel switch is used.
* Libraries used: the Coq standard library and Flocq (its definitions and proved lemmas; Flocq declares no axiom of its own).
* The faithfulness of the model: every definition cites the file and lines it models. The C++ model was transcribed by hand; the optimised
  kernels of `src/hblas/cxx` (`MOptL1`, `MOptGemm`: SWAPV, COPYV, SCALV, AXPYV, DOTUV, DOTCV, the micro-kernel, the GEMM driver and the SIMD helpers they use) are proved equal
  to the source texts (C67); what is trusted there is: the texts in `CSrc.v` being those of `/repo` (strings, byte for byte; string quotes doubled as Coq requires), the
  preprocessor `CPre.v`, the parser `CParse.v` and the interpreter `CSem.v` (unbounded integers; the meaning of each AVX intrinsic as in `MSimd.v`; every array argument a block
  of its own), and for gemm.cxx the link table of `CLink.v`: Kern is the text of kern.cxx and HBLAS_SCALM the text of its template
  linked with the text of axpy_scal.cxx, but NPACK and TPACK (`MPack.v`; their texts in C77, C78) and aligned_alloc/free are hand-written models there (a callee given a pointer into a
  block sees the block shifted to start there). The templates of include/hblas/generic are tied to their texts (`CSrcG.v`) in the same way (C69), except the quaternion-matrix GEMV and GEMM
  and the GERU/GERC templates, which the library does not instantiate; operator*(quaternion,quaternion) is the portable one there. The Fortran
  kernels (`MForL1`, `MForL2`, `MForL3`, `MUtil`) were transcribed by hand too, but are proved equal to the source texts (C62); what is trusted there is:
  the texts in `SrcL1.v`, `SrcL2.v`, `SrcL3.v`, `SrcUtil.v` being those of `/repo` (strings, byte for byte), the reader `FParse.v` and the interpreter `FSem.v`
  (unbounded integers; COMPLEX*16 arithmetic by the usual formulas, unfused; a default REAL variable written and then used counts as outside the subset;
  arguments do not alias; arrays are sequences of REAL*8 cells, a quaternion being four of them).
* The quaternion headers (C71, C72): the texts in `HSrc.v`, the preprocessor `CPre.v`, the parser `HParse.v` and the interpreter `HSem.v` (templates instantiated at double; overload
  resolution by exact argument types, explicit specialisations first; definitions outside the subset are skipped and cannot be called; std::sqrt, std::conj, std::complex accessors, LOAD/STORE_256D and MULDQ_NN built in;
  operands evaluated left to right).
* The packing headers (C77, C78): the texts in `TSrc.v`, the preprocessor `CPre.v`, the parser `TParse.v` and the interpreter `TSem.v` (all explicit template arguments given; overloads chosen by
  the number and the types of the arguments; generic lambdas; the helpers apply, apply_n, array_tuple_execute and pointer_sequence of `util/boilerplate.hpp`, std::tuple, the load/store and
  permute intrinsics, MULDQ_NN and QCONJ_256D built in; loop variables unbounded integers; the source and the buffer are different blocks).
* Concurrency (C65, C66): sequentially consistent interleaving of single REAL*8 accesses, a 256-bit access being four of them (for the programs covered, which are free of data races, this is what
  the C++ and POSIX memory models promise); pthreads, locks and the scheduler themselves are not modelled.

### Modelled
* `include/haxx/*`: constructors' effect, `+ - * /` for all operand types and their compound forms, unary minus, `==`/`!=`, `conj`, `norm`,
  `inv`, `versor`, `comm`, real part/imaginary parts.
* `include/util/simd/*.hpp`, `include/util/types.hpp`, `include/util/macro.hpp` (index macros, cut/bound arithmetic as used).
* `src/hblas/cxx/hblas1/*.cxx`, `src/hblas/cxx/hblas3/{gemm,kern}.cxx`, `include/hblas/pack/*.hpp`, `include/hblas/config/hblas3/gemm.hpp`.
* `include/hblas/generic/hblas{1,2,3}/*`, `include/hblas/generic/util/*` (as forwarders), all of `src/hblas/fortran/**`.
* `src/hblas/hblas{1,2,3}.cxx.in`, `src/hblas/util.cxx`: the forwarding table (`MDispatch.v` and the comments of the model files).
  Their texts and those of the CMake files are parsed and resolved in `MBuild.v` (C73, C74); trusted there: the copied texts (`DSrc.v`), the little CMake reader, the
  item parser and the name mangling of gfortran.

### Not modelled
* Build files other than those run in C73 and C74 (`DSrc.v`), compilers (in particular floating-point contraction or reassociation by the compiler in the scalar code:
  C43 is stated for the kernels written with intrinsics, for both settings of `FMA_256D`), calling conventions, name mangling.
* The number formatting of the C++ library (a parameter of `MText.v`), benchmark and tuning drivers, tests.
* Aliasing operands, except for the AVX kernels on one shared memory in `MShared.v` (C50, C51; whole-element offsets) and for quaternion objects (`MObj.v`, C56); failure of `aligned_alloc`, signalling NaNs, NaN payloads, rounding modes other than nearest-even.
* Dead code: `include/hblas/pack/typewrapper.hpp` (GenericTypeWrapper, AVX64BitTypeWrapper: included by pack.hpp, named nowhere else; superseded by `include/util/types.hpp`).
* Code that the pinned build cannot compile: the non-AVX `GenericPackOps` (uses an undeclared `Mul`), the `_FACTOR_TRANSPOSE_INTO_*`
  alternatives, and the `REAL*8` branches of `hgemmd?.f` behind `#ifndef HBLAS_USE_COMPLEX`.

## 5. Defects of the code exhibited by `_refuted` theorems

1. `operator==`/`!=` ignore the k component of the left operand (C11). 2. AXPYM/generic AXPYV with ALPHA = d·k do nothing (C15, C22).
3. HGERUD/HGERCD read an undefined variable for INCX≠1 (C25, C26). 4. HGEMVxx (all but DD) swap the lengths of x and y: wrong result
or out-of-bounds access for non-square A (C23). 5. HGEMVDH scales only y(1) for INCY≠1. 6. HGEMVHx 'N' with INCY≠1 uses the wrong
conjugation. 7. Fortran HSCAL with ALPHA=0 does nothing (C14). 8. The packed GEMM multiplies C by BETA=0, so NaN survives (C33).
9. Option characters are decoded differently by the backends (C37). 10. 32-bit index overflow on operands that fit in memory (C38).
11. Odd MC/NC overrun the pack buffers (C31). 12. AVX level-1 kernels ignore the negative-increment convention (C20). 13. The packed
GEMM reads operands an empty or ALPHA=0 problem does not need (C34). 14. `_FACTOR_ALPHA_IN_B_PACK` is wrong for complex ALPHA (C42).
15. `norm` squares the components, so it overflows or underflows for ordinary doubles, and `inv`/`versor` with it (C49).
16. `q *= r` and `q /= r` with `r` a reference to q's own real, i or j component change `r` half-way (C56). 17. The text form is
ambiguous in locales with a decimal comma (C57). 18. GEMV 'N' with a real matrix adds `(ALPHA*A - A*ALPHA)*x`: NaN as soon as
`ALPHA*A` overflows, even if the result is an ordinary number (C58).
