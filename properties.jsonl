{"id": "C01", "title": "Quaternion product is Hamilton's product", "statement": "p * q of two quaternions equals the scalar/vector form (ab - v.w, a w + b v + v x w); hence * is associative, distributes over + and -, has unit 1, and satisfies i*i=j*j=k*k=i*j*k=-1, i*j=k, j*i=-k.", "quantifier": "all pairs/triples of quaternions over any commutative ring of scalars", "why_tests_cant": "an algebraic identity over an infinite domain; samples cannot separate a sign error that vanishes on the sampled components", "anchors": ["include/haxx/haxx_quaternion_op.hpp: operator*(quaternion,quaternion), operator+, operator-"]}
{"id": "C02", "title": "Vectorised quaternion product equals the scalar product", "statement": "The AVX specialisation of operator* for double (and its left-conjugated form) returns, for every pair of operands, the same quaternion as the portable formula, respectively conj(p)*q.", "quantifier": "all pairs of quaternions", "why_tests_cant": "lane shuffles are correct on all inputs or wrong on some components only", "anchors": ["include/util/simd/qop.hpp: MULDQ_NN, MULDQ_CN, QCONJ_256D", "include/haxx/haxx_quaternion_op.hpp: operator* specialisation"]}
{"id": "C03", "title": "Quaternion addition, subtraction, negation and compound assignment are componentwise", "statement": "p+q, p-q, -p, p+=q, p-=q form a commutative group on the four components, compound forms return and store the value of the binary form.", "quantifier": "all quaternions", "why_tests_cant": "algebraic law over an infinite domain", "anchors": ["include/haxx/haxx_quaternion_op.hpp: operator+=, operator-=, operator+, operator-, unary operator-"]}
{"id": "C04", "title": "Mixed real/quaternion arithmetic is the embedded arithmetic", "statement": "Every mixed operation of a real a and a quaternion q (=,+=,-=,*=,q+a,a+q,q-a,a-q,q*a,a*q) gives the same result as first converting a to a quaternion and applying the quaternion operation; q/a multiplied by a gives q back for a<>0, and a/q is a*inv(q).", "quantifier": "all reals (non-zero divisors) and all quaternions", "why_tests_cant": "algebraic law over an infinite domain", "anchors": ["include/haxx/haxx_scalar_op.hpp: all operators"]}
{"id": "C05", "title": "Mixed complex/quaternion arithmetic is the embedded arithmetic and keeps the side", "statement": "Every mixed operation of a complex z and a quaternion q (=,+=,-=,q+z,z+q,q-z,z-q,q*z,z*q) equals the quaternion operation on the embedded z; in particular q*z and z*q multiply on the side written.", "quantifier": "all complex numbers and quaternions", "why_tests_cant": "a wrong side or sign is invisible on commuting samples", "anchors": ["include/haxx/haxx_complex_op.hpp: all operators"]}
{"id": "C06", "title": "Conjugation is an involutive anti-automorphism", "statement": "conj(conj q)=q, conj(p+q)=conj p+conj q, conj(p*q)=conj q*conj p, and q*conj q = conj q*q is the real number |q|^2; SmartConj agrees with conj on reals, complex numbers and quaternions.", "quantifier": "all quaternions", "why_tests_cant": "algebraic law over an infinite domain", "anchors": ["include/haxx/haxx_quaternion_reduction.hpp: conj, SmartConj"]}
{"id": "C07", "title": "norm is the Euclidean norm and is multiplicative", "statement": "norm(q)>=0, norm(q)=0 iff q=0, norm(q)^2 = q*conj(q), norm(p*q)=norm(p)norm(q), norm(conj q)=norm q, triangle inequality.", "quantifier": "all real quaternions", "why_tests_cant": "universally quantified real identity", "anchors": ["include/haxx/haxx_quaternion_reduction.hpp: norm"]}
{"id": "C08", "title": "inv is the two-sided inverse", "statement": "For every q<>0, q*inv(q)=inv(q)*q=1 and inv(p*q)=inv(q)*inv(p).", "quantifier": "all non-zero real quaternions", "why_tests_cant": "universally quantified real identity", "anchors": ["include/haxx/haxx_quaternion_reduction.hpp: inv"]}
{"id": "C09", "title": "versor has unit norm and the direction of q", "statement": "For every q<>0, norm(versor q)=1 and norm(q)*versor(q)=q; versor is multiplicative.", "quantifier": "all non-zero real quaternions", "why_tests_cant": "universally quantified real identity", "anchors": ["include/haxx/haxx_quaternion_reduction.hpp: versor"]}
{"id": "C10", "title": "comm is the commutator", "statement": "comm(p,q)=p*q-q*p for quaternion, complex and real arguments in either position; it is antisymmetric, satisfies the Jacobi identity, and vanishes exactly when the arguments commute (always, for a real argument).", "quantifier": "all quaternions, complex numbers, reals", "why_tests_cant": "algebraic law over an infinite domain", "anchors": ["include/haxx/haxx_quaternion_reduction.hpp: comm (five overloads)"]}
{"id": "C11", "title": "== and != decide equality of quaternions", "statement": "p==q holds exactly when all four components are equal, and p!=q is its negation.", "quantifier": "all pairs of quaternions", "why_tests_cant": "the defect is confined to pairs differing only in one component", "anchors": ["include/haxx/haxx_quaternion_op.hpp: operator==, operator!="]}
{"id": "C12", "title": "SWAPV exchanges the strided vectors and nothing else", "statement": "After HBLAS_SWAPV(N,X,INCX,Y,INCY) with positive strides, element i*INCX of X and i*INCY of Y are exchanged for every i<N and all other elements are unchanged; no access outside those elements.", "quantifier": "all N, positive strides, buffer contents (any scalar type, including NaN payloads)", "why_tests_cant": "all lengths modulo the unroll factor, all strides, all contents", "anchors": ["src/hblas/cxx/hblas1/copy_swap.cxx: HBLAS_SWAPV", "include/hblas/generic/hblas1/hblas_swapv_impl.hpp: HBLAS_GENERIC_SWAPV"]}
{"id": "C13", "title": "COPYV copies the strided vector and nothing else", "statement": "After HBLAS_COPYV(N,X,INCX,Y,INCY) with positive strides, Y(i*INCY)=X(i*INCX) for every i<N; X and the rest of Y are unchanged; no access outside those elements.", "quantifier": "all N, positive strides, buffer contents", "why_tests_cant": "all lengths modulo the unroll factor, all strides, all contents", "anchors": ["src/hblas/cxx/hblas1/copy_swap.cxx: HBLAS_COPYV", "include/hblas/generic/hblas1/hblas_copyv_impl.hpp: HBLAS_GENERIC_COPYV"]}
{"id": "C14", "title": "SCALV scales on the requested side", "statement": "HBLAS_SCALV(SIDE,N,ALPHA,X,INCX) replaces X(i*INCX) by ALPHA*X for SIDE='L' and X*ALPHA for SIDE='R', for i<N, for real, complex and quaternion ALPHA including ALPHA=0, and changes nothing else.", "quantifier": "all N, positive strides, ALPHA, contents, three ALPHA types, every backend", "why_tests_cant": "all lengths modulo the unroll factor; ALPHA=0 and purely-k ALPHA are measure-zero inputs", "anchors": ["src/hblas/cxx/hblas1/axpy_scal.cxx: HBLAS_SCALV", "include/hblas/generic/hblas1/hblas_scalv_impl.hpp", "src/hblas/fortran/hblas1/hscald.f", "src/hblas/fortran/hblas1/hscalc.f", "src/hblas/fortran/hblas1/hscalh.f"]}
{"id": "C15", "title": "AXPYV adds the scaled vector on the requested side", "statement": "HBLAS_AXPYV(SIDE,N,ALPHA,X,INCX,Y,INCY) replaces Y(i*INCY) by Y+ALPHA*X (SIDE='L') or Y+X*ALPHA (SIDE='R') for i<N; X and the rest of Y are unchanged.", "quantifier": "all N, positive strides, ALPHA, contents, three ALPHA types, every backend", "why_tests_cant": "all lengths modulo the unroll factor, all strides", "anchors": ["src/hblas/cxx/hblas1/axpy_scal.cxx: HBLAS_AXPYV", "include/hblas/generic/hblas1/hblas_axpyv_impl.hpp", "src/hblas/fortran/hblas1/haxpydh.f", "src/hblas/fortran/hblas1/haxpych.f", "src/hblas/fortran/hblas1/haxpyhh.f"]}
{"id": "C16", "title": "DOTUV is the unconjugated inner product", "statement": "HBLAS_DOTUV(N,X,INCX,Y,INCY)=sum_{i<N} X(i*INCX)*Y(i*INCY), and writes nothing to X or Y.", "quantifier": "all N (all residues mod 4), positive strides, contents, every backend", "why_tests_cant": "all lengths, batch remainders", "anchors": ["src/hblas/cxx/hblas1/dot.cxx: HBLAS_DOTUV", "include/hblas/generic/hblas1/hblas_dotuv_impl.hpp", "src/hblas/fortran/hblas1/hdotu.f"]}
{"id": "C17", "title": "DOTCV is the conjugated inner product", "statement": "HBLAS_DOTCV(N,X,INCX,Y,INCY)=sum_{i<N} conj(X(i*INCX))*Y(i*INCY); in particular dotc(x,y)=conj(dotc(y,x)) and dotc(x,x) is the real sum of squared norms.", "quantifier": "all N (all residues mod 4), positive strides, contents, every backend", "why_tests_cant": "all lengths, batch remainders", "anchors": ["src/hblas/cxx/hblas1/dot.cxx: HBLAS_DOTCV", "include/hblas/generic/hblas1/hblas_dotcv_impl.hpp", "src/hblas/fortran/hblas1/hdotc.f"]}
{"id": "C18", "title": "Alignment dispatch is safe and invisible", "statement": "For every buffer base address the optimised level-1 routines issue no aligned access to an unaligned address, and the result does not depend on the alignment of the operands.", "quantifier": "all addresses, all N, all positive strides", "why_tests_cant": "a test allocates with one allocator and sees a handful of addresses", "anchors": ["src/hblas/cxx/hblas1/copy_swap.cxx", "src/hblas/cxx/hblas1/axpy_scal.cxx", "src/hblas/cxx/hblas1/dot.cxx", "include/util/macro.hpp: IS_ALIGNED", "include/util/types.hpp: AVXType::Load/Store"]}
{"id": "C19", "title": "Level-1 backends agree", "statement": "For positive strides and SIDE in {'L','R'} the optimised C++, generic C++ and Fortran implementations of each level-1 operation produce the same result on the same input.", "quantifier": "all sizes, strides, contents, ALPHA", "why_tests_cant": "agreement is a relation between three programs over all inputs", "anchors": ["src/hblas/cxx/hblas1", "include/hblas/generic/hblas1", "src/hblas/fortran/hblas1"]}
{"id": "C20", "title": "Negative strides follow the BLAS convention", "statement": "The Fortran level-1 routines with a negative stride traverse the vector from its far end (logical element i of a vector with INC<0 is stored at (N-1-i)*|INC|); every level-1 entry point gives that meaning to a negative stride.", "quantifier": "all N, all strides of either sign", "why_tests_cant": "sign combinations times lengths", "anchors": ["src/hblas/fortran/hblas1: IX=(-N+1)*INCX+1", "src/hblas/cxx/hblas1: locX += INCX"]}
{"id": "C21", "title": "SCALM scales exactly the M x N window", "statement": "HBLAS_SCALM(SIDE,M,N,ALPHA,A,LDA,INCA) replaces element (i,j) at j*LDA+i*INCA by its product with ALPHA on the requested side for all i<M, j<N and leaves every other element unchanged.", "quantifier": "all M,N,LDA,INCA with disjoint columns, ALPHA of three types", "why_tests_cant": "all shapes", "anchors": ["include/hblas/generic/hblas1/hblas_scalm_impl.hpp: HBLAS_SCALM"]}
{"id": "C22", "title": "AXPYM adds exactly on the M x N window", "statement": "HBLAS_AXPYM(SIDE,M,N,ALPHA,A,LDA,INCA,B,LDB,INCB) replaces B(i,j) by B(i,j)+ALPHA*A(i,j) (or A*ALPHA) for all i<M, j<N and leaves the rest unchanged.", "quantifier": "all shapes and strides, ALPHA of three types", "why_tests_cant": "purely-k ALPHA is a measure-zero input", "anchors": ["include/hblas/generic/hblas1/hblas_axpym_impl.hpp: HBLAS_AXPYM"]}
{"id": "C23", "title": "GEMV (quaternion matrix, all nine ALPHA/BETA type pairs)", "statement": "HBLAS_GEMV(TRANS,M,N,ALPHA,A,LDA,X,INCX,BETA,Y,INCY) sets y := ALPHA*op(A)*x + BETA*y with op(A)=A, A^T or A^H for TRANS='N','T','C', scalars on the left, changes only the elements of y, and never reads A or x out of bounds.", "quantifier": "all M,N (square or not), LDA>=M, strides of either sign, contents, nine scalar type pairs", "why_tests_cant": "shape x stride x type x branch combinations; defects sit on rarely tested branches", "anchors": ["src/hblas/fortran/hblas2/hgemvdd.f", "src/hblas/fortran/hblas2/hgemvdz.f", "src/hblas/fortran/hblas2/hgemvdh.f", "src/hblas/fortran/hblas2/hgemvzd.f", "src/hblas/fortran/hblas2/hgemvzz.f", "src/hblas/fortran/hblas2/hgemvzh.f", "src/hblas/fortran/hblas2/hgemvhd.f", "src/hblas/fortran/hblas2/hgemvhz.f", "src/hblas/fortran/hblas2/hgemvhh.f"]}
{"id": "C24", "title": "GEMV with a real matrix", "statement": "HBLAS_GEMV with a real matrix and real scalars and a quaternion vector sets y := ALPHA*op(A)*x+BETA*y and changes only the elements of y.", "quantifier": "all M,N,LDA, strides, contents", "why_tests_cant": "all shapes and strides", "anchors": ["include/hblas/generic/hblas2/hblas_gemv_impl.hpp: HBLAS_GEMV"]}
{"id": "C25", "title": "GERU rank-one update", "statement": "HBLAS_GERU(M,N,ALPHA,X,INCX,Y,INCY,A,LDA) sets A(i,j) := A(i,j)+ALPHA*x_i*y_j for i<M,j<N with the factors in that order, and changes nothing else.", "quantifier": "all M,N,LDA,strides,contents, three ALPHA types", "why_tests_cant": "all shapes; defect on a non-unit-stride path", "anchors": ["src/hblas/fortran/hblas2/hgerud.f", "src/hblas/fortran/hblas2/hgeruz.f", "src/hblas/fortran/hblas2/hgeruh.f", "include/hblas/generic/hblas2/hblas_geru_impl.hpp"]}
{"id": "C26", "title": "GERC conjugated rank-one update", "statement": "HBLAS_GERC(M,N,ALPHA,X,INCX,Y,INCY,A,LDA) sets A(i,j) := A(i,j)+ALPHA*x_i*conj(y_j) and changes nothing else.", "quantifier": "all M,N,LDA,strides,contents, three ALPHA types", "why_tests_cant": "all shapes; defect on a non-unit-stride path", "anchors": ["src/hblas/fortran/hblas2/hgercd.f", "src/hblas/fortran/hblas2/hgercz.f", "src/hblas/fortran/hblas2/hgerch.f", "include/hblas/generic/hblas2/hblas_gerc_impl.hpp"]}
{"id": "C27", "title": "GEMM reference kernels (Fortran)", "statement": "HBLAS_GEMM(TRANSA,TRANSB,M,N,K,ALPHA,A,LDA,B,LDB,BETA,C,LDC) sets C := ALPHA*op(A)*op(B)+BETA*C for all nine TRANSA/TRANSB combinations of 'N','T','C' and every ALPHA/BETA scalar type handled by the Fortran kernels, scalars multiplying on the left.", "quantifier": "all M,N,K, leading dimensions, contents, scalars", "why_tests_cant": "nine branches x scalar types x all shapes; non-commutativity makes each branch a different formula", "anchors": ["src/hblas/fortran/hblas3/hgemmhh.f", "src/hblas/fortran/hblas3/hgemmhz.f", "src/hblas/fortran/hblas3/hgemmhd.f", "src/hblas/fortran/hblas3/hgemmzh.f", "src/hblas/fortran/hblas3/hgemmzz.f", "src/hblas/fortran/hblas3/hgemmzd.f", "src/hblas/fortran/hblas3/hgemmdh.f"]}
{"id": "C28", "title": "GEMM with a real matrix", "statement": "HBLAS_GEMM with real A, quaternion B, real scalars sets C := ALPHA*op(A)*op(B)+BETA*C for all transposition combinations.", "quantifier": "all M,N,K, leading dimensions, contents", "why_tests_cant": "all shapes and branches", "anchors": ["include/hblas/generic/hblas3/hblas_gemm_impl.hpp: HBLAS_GEMM"]}
{"id": "C29", "title": "Optimised GEMM computes the matrix product", "statement": "The packed, blocked GEMM sets C := ALPHA*op(A)*op(B)+BETA*C for every M,N,K including odd sizes and sizes not multiple of the blocking, for op in N,T,C,R (R = conjugate without transpose) and real/complex ALPHA, BETA.", "quantifier": "all M,N,K, leading dimensions, contents, scalars, transposition codes", "why_tests_cant": "edge tiles for all residues of M,N,K modulo MR,NR,MC,NC,KC", "anchors": ["src/hblas/cxx/hblas3/gemm.cxx: HBLAS_GEMM", "src/hblas/cxx/hblas3/kern.cxx: Kern", "include/hblas/pack/pack.hpp: TPACK,NPACK", "include/hblas/pack/packops.hpp"]}
{"id": "C30", "title": "GEMM result is independent of the tuning parameters", "statement": "The result of the optimised GEMM is the same for every admissible choice of the blocking parameters MC,NC,KC.", "quantifier": "all blocking parameters, shapes, contents", "why_tests_cant": "a build fixes one choice", "anchors": ["include/hblas/config/hblas3/gemm.hpp", "src/hblas/cxx/hblas3/gemm.cxx"]}
{"id": "C31", "title": "Packing is memory safe and layout-exact", "statement": "The packing routines write exactly ceil(cols/2)*2*len elements in pair-interleaved order, with zeros in the padding lane, apply conjugation/ALPHA to every element once, never read outside the source block, and stay inside the buffers GEMM allocates.", "quantifier": "all block shapes up to the blocking, all leading dimensions, all contents", "why_tests_cant": "odd remainders at every block edge", "anchors": ["include/hblas/pack/pack.hpp", "include/hblas/pack/packops.hpp", "src/hblas/cxx/hblas3/gemm.cxx: aPack,bPack allocation"]}
{"id": "C32", "title": "GEMM writes only the M x N window of C", "statement": "No GEMM backend changes an element of C outside rows <M of the first N columns, nor any element of A or B, nor accesses memory outside the three operands.", "quantifier": "all shapes with LDC>=M, contents", "why_tests_cant": "padding rows/columns may be any size", "anchors": ["src/hblas/cxx/hblas3/gemm.cxx", "src/hblas/cxx/hblas3/kern.cxx", "src/hblas/fortran/hblas3"]}
{"id": "C33", "title": "BETA=0 ignores the old contents of C", "statement": "With BETA=0 the result of GEMM does not depend on the previous contents of C, even if it holds NaN or infinity.", "quantifier": "all old contents of C including non-finite doubles, all shapes", "why_tests_cant": "requires non-finite garbage in C", "anchors": ["src/hblas/cxx/hblas3/gemm.cxx", "src/hblas/fortran/hblas3/hgemmhh.f", "include/hblas/generic/hblas3/hblas_gemm_impl.hpp"]}
{"id": "C34", "title": "Degenerate sizes and scalars", "statement": "With a zero (or, for vectors, non-positive) dimension no routine touches memory; with ALPHA=0 GEMM/GEMV/GER give BETA*C (or leave A unchanged), without reading A, B or X.", "quantifier": "all other arguments, including invalid pointers for the operands not read", "why_tests_cant": "boundary cases of all routines at once", "anchors": ["src/hblas/fortran", "src/hblas/cxx", "include/hblas/generic"]}
{"id": "C35", "title": "Complex expansion is an algebra homomorphism", "statement": "Expanding quaternion matrices to 2x2 complex (or real 4x4) block form turns sums, conjugate transposes and products into the complex/real ones.", "quantifier": "all M,N,K, contents", "why_tests_cant": "all shapes", "anchors": ["include/hblas/generic/util/expand_impl.hpp", "src/hblas/fortran/util/hzexp.f", "src/hblas/fortran/util/hdexp.f"]}
{"id": "C36", "title": "Contraction inverts expansion", "statement": "HBLAS_COMPLEX_CONTRACT after HBLAS_COMPLEX_EXPAND (ORDER 'S' or 'F') restores the quaternion matrix exactly and writes only its M x N window.", "quantifier": "all M,N, leading dimensions, contents incl. non-finite", "why_tests_cant": "all shapes", "anchors": ["include/hblas/generic/util/contract_impl.hpp", "src/hblas/fortran/util/hzcon.f", "src/hblas/fortran/util/hzexp.f"]}
{"id": "C37", "title": "Option characters are interpreted consistently", "statement": "A given TRANS or SIDE character (either case) has the same meaning for every scalar type of the same routine.", "quantifier": "all characters", "why_tests_cant": "the space is the product of characters, routines and backends", "anchors": ["src/hblas/fortran/util/lsame.f", "src/hblas/cxx/hblas3/gemm.cxx", "src/hblas/cxx/hblas1/axpy_scal.cxx", "include/hblas/generic/hblas2/hblas_gemv_impl.hpp"]}
{"id": "C38", "title": "Index arithmetic does not overflow for representable problems", "statement": "For every problem whose operands fit in memory the index computations stay inside the 32-bit HAXX_INT type.", "quantifier": "all sizes and leading dimensions", "why_tests_cant": "would need > 2^31 element buffers", "anchors": ["include/util/macro.hpp: RANK2_INDX", "cmake/HAXXCompilerFlags.cmake: HAXX_INT", "src/hblas/cxx/hblas3/gemm.cxx"]}
{"id": "C39", "title": "Four-way SIMD primitives", "statement": "The batched multiply(-accumulate) primitives compute four independent quaternion products (plain or left conjugated), and the 4x4 transpose is an involution mapping array-of-structures to structure-of-arrays.", "quantifier": "all operand lanes", "why_tests_cant": "lane permutations must hold for all contents", "anchors": ["include/util/simd/qop.hpp: VEC_MULD4Q_NN, VEC_MULD4Q_CN, INC_MULD4Q_NN, INC_MULD4Q_CN, MULD4Q_NN, MULD4Q_CN", "include/util/simd/misc.hpp: _MM_TRANSPOSE_4x4_PD"]}
{"id": "C40", "title": "Level-2 and level-1 operations are special cases of GEMM", "statement": "GEMV equals GEMM with a one-column B, GERU/GERC equal GEMM with K=1, DOTCV equals GEMM('C','N') with M=N=1: the independent implementations agree wherever they are correct.", "quantifier": "all shapes and contents", "why_tests_cant": "relation between independent implementations for all inputs", "anchors": ["src/hblas"]}
{"id": "C41", "title": "Register-by-scalar products are sided", "statement": "The AVX type wrapper used by the packing code multiplies a loaded quaternion by a real, complex or quaternion scalar on the side on which the scalar is written, and leaves it unchanged when no scalar is given.", "quantifier": "all quaternions and scalars of the three types, both sides", "why_tests_cant": "sign masks and lane permutations must be right for all contents; the right-hand complex product is marked as not validated in the source", "anchors": ["include/util/types.hpp: AVXType<double>::Mul, LoadScalar", "include/hblas/pack/packops.hpp"]}
{"id": "C42", "title": "GEMM contract for every placement of ALPHA", "statement": "Whichever build option selects where ALPHA is folded in (while packing A or while packing B), GEMM sets C := ALPHA*op(A)*op(B)+BETA*C.", "quantifier": "all build options of the header, shapes, contents, scalars", "why_tests_cant": "only one option is ever compiled", "anchors": ["include/hblas/config/hblas3/gemm.hpp: _FACTOR_ALPHA_IN_A_PACK, _FACTOR_ALPHA_IN_B_PACK", "src/hblas/cxx/hblas3/gemm.cxx: HBLAS_GEMM"]}
{"id": "C43", "title": "Forward error of the AVX kernels in double precision", "statement": "In IEEE double precision (with or without hardware FMA) every finite component the AVX product, SCALV, AXPYV, DOTUV, DOTCV and GEMM produce is within ((1+2^-53)^d-1)*m + 2^-1075*(1+2^-53)^d*E of the exact real result, where m is the same expression on absolute values, and d, E depend only on the length (d = 4 for a product, n+4 for a dot product, 4K+3 for GEMM); if the operands are finite and these magnitudes stay below 2^1024 the result is finite.", "quantifier": "all finite and non-finite operands, lengths, strides, leading dimensions, blockings, scalars, with and without FMA", "why_tests_cant": "rounding errors over all operands and all accumulation lengths cannot be enumerated", "anchors": ["include/util/simd/qop.hpp", "include/util/simd/intrin_alias.hpp: FMA_256D", "src/hblas/cxx/hblas1/axpy_scal.cxx", "src/hblas/cxx/hblas1/dot.cxx", "src/hblas/cxx/hblas3/gemm.cxx", "src/hblas/cxx/hblas3/kern.cxx"]}
{"id": "C44", "title": "Public GEMM contract for every scalar type pair", "statement": "Whichever of the nine ALPHA/BETA type pairs (real, complex, quaternion) HBLAS_GEMM is instantiated for, hence whichever backend it is linked to, it sets C := ALPHA*op(A)*op(B)+BETA*C for TRANSA, TRANSB in N, T, C and changes nothing outside C; likewise the public GEMM and GEMV with a real matrix.", "quantifier": "all type pairs, TRANS characters, shapes, leading dimensions, contents, scalars, pack buffer addresses and stale contents", "why_tests_cant": "the type pair selects one of two unrelated implementations", "anchors": ["src/hblas/hblas3.cxx.in: HBLAS_GEMM", "src/hblas/cxx/hblas3/Gemm.cmake", "src/hblas/cxx/hblas3/gemm.cxx", "src/hblas/fortran/hblas3"]}
{"id": "C45", "title": "Laws of the matrix product across GEMM calls", "statement": "Chains of GEMM calls obey the algebra a user relies on: (AB)C and A(BC) leave the same matrix, GEMM('C','C',B,A) is the conjugate transpose of GEMM('N','N',A,B), GEMM('C','N',A,A) is Hermitian with real diagonal of column norms, multiplying by the identity copies.", "quantifier": "all shapes, leading dimensions, contents, initial contents of the result buffers", "why_tests_cant": "laws relating several calls for all contents", "anchors": ["src/hblas/cxx/hblas3/gemm.cxx: HBLAS_GEMM", "src/hblas/hblas3.cxx.in"]}
{"id": "C46", "title": "GEMM is local", "statement": "The value GEMM leaves in C(i,j) depends only on row i of op(A), column j of op(B), the old C(i,j), K and the scalars - not on the other rows or columns, the shape, the leading dimensions, the position in a block or the stale contents of the pack buffers; in double precision this holds bit for bit, so a NaN elsewhere in A or B cannot reach it.", "quantifier": "all pairs of calls that agree on that row, column and element", "why_tests_cant": "a relation between all pairs of calls, including positions at block and edge-tile boundaries", "anchors": ["src/hblas/cxx/hblas3/gemm.cxx: HBLAS_GEMM", "include/hblas/pack/pack.hpp", "src/hblas/fortran/hblas3"]}
{"id": "C47", "title": "Blocking by the caller", "statement": "A caller may cut C into two column blocks or two row blocks and call GEMM on each with advanced pointers, or cut the inner dimension in two and accumulate with BETA=1, and C ends up the same: bit for bit for column and row cuts with every scalar type, bit for bit in double precision for the inner cut with real or complex scalars, exactly for all nine type pairs in exact arithmetic.", "quantifier": "all cut points, shapes, contents, scalars, leading dimensions", "why_tests_cant": "the cut moves every element to another place in the internal blocking", "anchors": ["src/hblas/cxx/hblas3/gemm.cxx: HBLAS_GEMM", "src/hblas/hblas3.cxx.in", "src/hblas/fortran/hblas3"]}
{"id": "C48", "title": "Integer data is processed exactly", "statement": "When the doubles handed to the product operator, SCALV, AXPYV, DOTUV, DOTCV or GEMM (all nine scalar type pairs) are integers and the sums of absolute products stay at or below 2^53, the result is exactly the integer result - no rounding, whatever the build's FMA setting, the kernel's summation order or the backend.", "quantifier": "all integer-valued contents and scalars within the magnitude bound, shapes, strides, leading dimensions, TRANS characters, FMA settings", "why_tests_cant": "tests use a handful of integer matrices; exactness must hold for all of them up to the bound", "anchors": ["include/util/simd/qop.hpp", "src/hblas/cxx/hblas1/axpy_scal.cxx", "src/hblas/cxx/hblas1/dot.cxx", "src/hblas/cxx/hblas3/gemm.cxx", "src/hblas/fortran/hblas3"]}
{"id": "C49", "title": "Accuracy of norm, versor and inverse in double precision", "statement": "In IEEE double precision, for every quaternion of finite components whose norm is a representable nonzero double, norm(q) is the norm to a few units of roundoff, versor(q) and inv(q) are finite and accurate, and q*inv(q) is 1 to a few units of roundoff, whether or not the compiler contracts the sum of squares into fused multiply-adds.", "quantifier": "all quaternions of doubles", "why_tests_cant": "rounding, overflow and underflow for all component magnitudes", "anchors": ["include/haxx/haxx_quaternion_reduction.hpp: norm, inv, versor", "include/haxx/haxx_quaternion_op.hpp: operator*"]}
{"id": "C50", "title": "Level-1 operands inside one allocation", "statement": "When X and Y are parts of the same array, COPYV, AXPYV and AXPYM still leave in Y what the call means for the original contents and touch nothing else, as long as X and Y are disjoint, identical, or (COPYV, AXPYV) Y starts at or before X with the same stride; SWAPV does so for disjoint operands and changes nothing when X is Y. Overlap the other way is not supported.", "quantifier": "all memories, positions, strides of either sign, lengths, scalars, addresses", "why_tests_cant": "whether a store is seen by a later load depends on the relative position of the operands, for all of them", "anchors": ["src/hblas/cxx/hblas1/copy_swap.cxx", "src/hblas/cxx/hblas1/axpy_scal.cxx", "include/hblas/generic/hblas1/hblas_axpym_impl.hpp"]}
{"id": "C51", "title": "GEMM on views of one allocation", "statement": "A, B and C may be sub-matrices of the same array (as in blocked factorisations, interleaved in memory, A and B overlapping each other): if no element of C is an element of A or B, GEMM sets C := ALPHA*op(A)*op(B)+BETA*C and changes nothing else, bit for bit what it computes from separate copies. C must not overlap A: in-place products are not computed.", "quantifier": "all memories, relative positions, leading dimensions, shapes, blockings, contents, scalars", "why_tests_cant": "stores to C and packing reads of A and B interleave differently for every shape and position", "anchors": ["src/hblas/cxx/hblas3/gemm.cxx: HBLAS_GEMM", "include/hblas/pack/pack.hpp"]}
{"id": "C52", "title": "Algebra of level-1 calls", "statement": "Level-1 calls obey the laws of a quaternion vector space: SWAPV twice restores both vectors, SCALV by ALPHA then by BETA is SCALV by their product in call order on either side and scaling by q then by inv(q) restores the vector, AXPYV with ALPHA then -ALPHA restores y, DOTCV and DOTUV are linear in the documented sides, and DOTCV is a positive definite inner product satisfying Cauchy-Schwarz.", "quantifier": "all lengths, strides, contents, scalars of each type, sides, addresses", "why_tests_cant": "laws relating several calls for all contents", "anchors": ["src/hblas/cxx/hblas1/copy_swap.cxx", "src/hblas/cxx/hblas1/axpy_scal.cxx", "src/hblas/cxx/hblas1/dot.cxx", "include/haxx/haxx_quaternion_reduction.hpp: inv"]}
{"id": "C53", "title": "GEMV, GERC and DOTCV fit together", "statement": "The conjugate transpose GEMV applies is the adjoint for the inner product DOTCV computes: <A x, y> from GEMV('N') equals <x, A^H y> from GEMV('C'); and a rank-1 update by GERC followed by GEMV gives A z + ALPHA x <y, z> with <y, z> from DOTCV.", "quantifier": "all shapes, contents, leading dimensions, positive strides, scalars (INCX=1 for real ALPHA because of defect 3)", "why_tests_cant": "laws relating three different routines in two languages", "anchors": ["src/hblas/fortran/hblas2", "src/hblas/cxx/hblas1/dot.cxx"]}
{"id": "C54", "title": "Forward error of the Fortran level-2 and level-3 kernels", "statement": "In IEEE double precision every finite component the Fortran GEMM (nine scalar type pairs), GEMV and GERU/GERC produce is within ((1+2^-53)^d-1)*m + 2^-1075*(1+2^-53)^d*E of the exact real result, where m is the same expression on absolute values, d = 4K+7 (K the number of products per element; 8 for GER) and E depends on the length and the magnitudes of a row; if operands are finite and these magnitudes stay below 2^1024 the result is finite.", "quantifier": "all finite and non-finite operands, shapes, strides, leading dimensions, scalars", "why_tests_cant": "rounding errors over all operands and all accumulation lengths cannot be enumerated", "anchors": ["src/hblas/fortran/hblas2", "src/hblas/fortran/hblas3"]}
{"id": "C55", "title": "Integer data is processed exactly by GEMV and GER", "statement": "When the doubles handed to GEMV, GERU or GERC are integers and the sums of absolute products stay at or below 2^53, the result is exactly the integer result.", "quantifier": "all integer-valued contents and scalars within the magnitude bound, shapes, strides, leading dimensions, TRANS characters", "why_tests_cant": "tests use a handful of integer matrices; exactness must hold for all of them up to the bound", "anchors": ["src/hblas/fortran/hblas2"]}
{"id": "C56", "title": "Quaternion objects: construction, access and compound assignment, including self-reference", "statement": "Each constructor, getter, setter and assignment operator of a quaternion object reads and changes exactly the components it names and no other memory; p += p, p -= p, x = x*y, x = y*x, x = conj(x) and the like use the operands' values from before the statement; a scalar or complex argument passed by reference may be a component of the object itself.", "quantifier": "all memories, object positions, operand values, scalar types, argument positions including inside the object", "why_tests_cant": "an argument passed by reference may alias the object being changed; correctness depends on statement order for every position", "anchors": ["include/haxx/haxx_def.hpp: quaternion", "include/haxx/haxx_quaternion_op.hpp", "include/haxx/haxx_scalar_op.hpp", "include/haxx/haxx_complex_op.hpp"]}
{"id": "C57", "title": "Text form of a quaternion", "statement": "Streaming a quaternion writes (a,b,c,d) with the stream's own number format, padded as a whole to the field width and leaving the stream's format as it was; the text identifies the quaternion whenever the component texts identify the components, also when many quaternions are written one after another.", "quantifier": "all quaternions, sequences of quaternions, stream formats, component printers", "why_tests_cant": "ambiguity must be excluded for all pairs of values and all locales", "anchors": ["include/haxx/haxx_def.hpp: operator<<, to_string"]}
{"id": "C58", "title": "Forward error of GEMV and GEMM with a real matrix", "statement": "In IEEE double precision every finite component GEMV and GEMM with a real matrix A produce is within ((1+2^-53)^(K+3)-1)*m + 2^-1075*(1+2^-53)^(K+3)*E of the exact real result, m being the same expression on absolute values; and the result is finite whenever the operands are, the partial products and m stay in range.", "quantifier": "all finite and non-finite operands, shapes, strides, leading dimensions, scalars", "why_tests_cant": "rounding errors over all operands and all accumulation lengths cannot be enumerated", "anchors": ["include/hblas/generic/hblas2/hblas_gemv_impl.hpp", "include/hblas/generic/hblas3/hblas_gemm_impl.hpp"]}
{"id": "C59", "title": "Integer data is processed exactly by GEMV and GEMM with a real matrix", "statement": "When the doubles handed to GEMV or GEMM with a real matrix are integers and the sums of absolute products stay at or below 2^53, the result is exactly the integer result.", "quantifier": "all integer-valued contents and scalars within the magnitude bound, shapes, strides, leading dimensions, TRANS characters", "why_tests_cant": "tests use a handful of integer matrices; exactness must hold for all of them up to the bound", "anchors": ["include/hblas/generic/hblas2/hblas_gemv_impl.hpp", "include/hblas/generic/hblas3/hblas_gemm_impl.hpp"]}
{"id": "C60", "title": "The inner product of a vector with itself", "statement": "In IEEE double precision DOTCV(N,X,INCX,X,INCX) of NaN-free data returns a real part >= 0, and imaginary parts equal to 0 when the real part is finite; with and without fused multiply-add.", "quantifier": "all vectors of doubles without NaN, lengths, strides, alignments", "why_tests_cant": "sign and cancellation properties over all doubles cannot be sampled", "anchors": ["src/hblas/cxx/hblas1/dot.cxx", "include/util/simd/misc.hpp"]}
{"id": "C61", "title": "Level-1, level-2 and real-matrix results depend on operand values only", "statement": "Two calls of SCALV, AXPYV, DOTUV/DOTCV, GEMV, GERU/GERC or the real-matrix GEMV and GEMM produce the same element, bit for bit, wherever the operands of that element agree: neither addresses and alignment, nor strides and leading dimensions, nor the other elements, nor (except for DOT) the length matter.", "quantifier": "all pairs of calls, all shapes, strides, leading dimensions, alignments and contents, any arithmetic", "why_tests_cant": "the property compares two arbitrary executions", "anchors": ["src/hblas/cxx/hblas1/*.cxx", "src/hblas/fortran/hblas2/*.f", "include/hblas/generic/hblas2/hblas_gemv_impl.hpp", "include/hblas/generic/hblas3/hblas_gemm_impl.hpp"]}
{"id": "C62", "title": "The Fortran source text of every routine has the effect of its reference kernel", "statement": "Parsing and executing the source text of each of the 36 Fortran files (HSCAL*, HAXPY*, HDOT*, HGEMV*, HGER*, HGEMM*, HZEXP*, HDEXP, HZCON*, LSAME) has, for every argument list, exactly the outcome of the reference kernel about which the other properties are proved: the same array contents bit for bit, and undefined behaviour in exactly the same calls.  LSAME compares letters ignoring case.", "quantifier": "all arguments: sizes, strides, leading dimensions, option characters, array contents and allocated extents, real, complex and quaternion scalars; any arithmetic with 0 == 0, IEEE binary64 included", "why_tests_cant": "a test compares finitely many calls; here the program text itself is quantified over all inputs and all out-of-bounds situations", "anchors": ["src/hblas/fortran/hblas1/*.f", "src/hblas/fortran/hblas2/*.f", "src/hblas/fortran/hblas3/*.f", "src/hblas/fortran/util/*.f"]}
{"id": "C63", "title": "The Fortran source texts satisfy the BLAS contracts", "statement": "Executing the source text of a Fortran routine computes the mathematical result in exact arithmetic and changes nothing else: x := alpha x, y := y + alpha x, inner products, matrix-vector products, rank-one updates, matrix-matrix products with every TRANSA/TRANSB, expansion to complex and real matrices and contraction back.", "quantifier": "all shapes, strides, leading dimensions, option characters, contents and scalars", "why_tests_cant": "unit tests compare a few sizes against a naive loop", "anchors": ["src/hblas/fortran/hblas1/*.f", "src/hblas/fortran/hblas2/*.f", "src/hblas/fortran/hblas3/*.f", "src/hblas/fortran/util/*.f"]}
{"id": "C64", "title": "The public GEMV, GERU and GERC compute the product and the rank-one updates", "statement": "The public entry points HBLAS_GEMV, HBLAS_GERU and HBLAS_GERC, for all ALPHA and BETA types, compute y := alpha op(A) x + beta y, A := A + alpha x y^T and A := A + alpha x y^H and change nothing else.", "quantifier": "all shapes, strides, TRANS characters, contents and scalar types", "why_tests_cant": "unit tests fix sizes, unit strides and a few type combinations", "anchors": ["src/hblas/hblas2.cxx.in:HBLAS_GEMV", "src/hblas/hblas2.cxx.in:HBLAS_GERU", "src/hblas/hblas2.cxx.in:HBLAS_GERC"]}
{"id": "C65", "title": "Concurrent calls of the Fortran kernels are safe when nobody else touches their results", "statement": "Threads calling SCAL, AXPY, DOTU, DOTC, GEMV, GERU, GERC, GEMM (and the expansion and contraction routines) at the same time on one memory, sharing operands freely but such that the result elements of a call are touched by no other call and do not overlap its own operands: under every interleaving of their single memory accesses no call crashes or blocks, all calls end after a bounded number of accesses, every result is the one the call computes alone (in exact arithmetic the mathematical one), and no other memory cell changes.", "quantifier": "all numbers of threads, all schedules at the granularity of single REAL*8 accesses, all shapes, strides, addresses, contents and scalar types", "why_tests_cant": "a test run exercises a few schedules; a race may need one particular interleaving", "anchors": ["src/hblas/fortran/hblas1/*.f", "src/hblas/fortran/hblas2/*.f", "src/hblas/fortran/hblas3/*.f", "src/hblas/fortran/util/*.f"]}
{"id": "C66", "title": "Concurrent calls of the public routines of the default build", "statement": "Threads calling SWAPV, COPYV, SCALV, AXPYV, DOTUV, DOTCV, SCALM, AXPYM, GEMV, GERU, GERC and GEMM of the default (AVX) build at the same time on one memory, whichever kernel (optimised C++ or Fortran) the scalar types select, sharing operands freely but such that the result elements of a call are touched by no other call and do not overlap its own operands: under every interleaving of the memory accesses no call makes an invalid access, all calls end after a bounded number of accesses, every result and every returned inner product is the mathematical one of the operands as they were at the start, whatever the packing buffers contained, and nothing else changes; in floating point every call stores and returns, to the bit, what it does when it is the only thread.", "quantifier": "all numbers of threads, all schedules at the granularity of single double accesses, all shapes, positive level-1 strides, addresses, contents, scalar types and initial buffer contents", "why_tests_cant": "a test run exercises a few schedules; a race may need one particular interleaving", "anchors": ["src/hblas/cxx/hblas1/*.cxx", "src/hblas/cxx/hblas3/gemm.cxx", "include/hblas/pack/*.hpp", "src/hblas/cxx/hblas1/*.cmake", "src/hblas/hblas2.cxx.in", "src/hblas/hblas3.cxx.in"]}
{"id": "C67", "title": "The C++ source text of every optimised routine has the effect of its reference kernel", "statement": "Preprocessing, parsing and executing the source text of copy_swap.cxx, axpy_scal.cxx, dot.cxx, kern.cxx and gemm.cxx with the options of the build (SWAPV, COPYV, SCALV and AXPYV for real, complex and quaternion ALPHA, DOTUV, DOTCV, the GEMM micro-kernel, GEMM for real and complex ALPHA and BETA) has, for every argument list, exactly the outcome of the reference kernel about which the other properties are proved: the same array contents bit for bit, the same returned value, undefined exactly when the kernel is; with and without fused multiply-add.", "quantifier": "all arguments: sizes, strides, leading dimensions, option characters, addresses, array contents and allocated extents, scalars; both FMA builds; any arithmetic, IEEE binary64 included", "why_tests_cant": "a test compares finitely many calls; here the program text itself is quantified over all inputs", "anchors": ["src/hblas/cxx/hblas1/copy_swap.cxx", "src/hblas/cxx/hblas1/axpy_scal.cxx", "src/hblas/cxx/hblas1/dot.cxx", "src/hblas/cxx/hblas3/kern.cxx", "src/hblas/cxx/hblas3/gemm.cxx", "include/util/simd/*.hpp", "include/hblas/config/*.hpp"]}
{"id": "C68", "title": "The C++ source texts satisfy the BLAS contracts", "statement": "Executing the source text of an optimised C++ routine computes the mathematical result in exact arithmetic and changes nothing else: copies, swaps, x := alpha x, y := y + alpha x, inner products, C := alpha op(A) op(B) + beta C with every TRANSA/TRANSB; and in every arithmetic GEMM changes only the M by N entries of C.", "quantifier": "all shapes, positive strides, leading dimensions, addresses, option characters, contents and scalars, both FMA builds", "why_tests_cant": "unit tests compare a few sizes against a naive loop", "anchors": ["src/hblas/cxx/hblas1/*.cxx", "src/hblas/cxx/hblas3/*.cxx"]}
{"id": "C69", "title": "The source text of every generic C++ template has the effect of its reference kernel", "statement": "Preprocessing, parsing, instantiating and executing the source text of the templates SWAPV, COPYV, SCALV, AXPYV, DOTUV, DOTCV, SCALM, AXPYM (at real, complex and quaternion ALPHA) and of GEMV and GEMM with a real matrix has, for every argument list, exactly the outcome of the reference kernel about which the other properties are proved: the same array contents bit for bit, the same returned value, undefined exactly when the kernel is.  SCALM and AXPYM are linked with the source text of the optimised SCALV and AXPYV.", "quantifier": "all arguments: sizes, strides, leading dimensions, option characters, addresses, array contents and allocated extents, scalars; any arithmetic, IEEE binary64 included", "why_tests_cant": "a test compares finitely many calls and instantiations; here the program text itself is quantified over all inputs", "anchors": ["include/hblas/generic/hblas1/*_impl.hpp", "include/hblas/generic/hblas2/hblas_gemv_impl.hpp", "include/hblas/generic/hblas3/hblas_gemm_impl.hpp", "src/hblas/cxx/hblas1/axpy_scal.cxx"]}
{"id": "C70", "title": "The source texts of the generic C++ templates satisfy the BLAS contracts", "statement": "Executing the source text of a generic template computes the mathematical result in exact arithmetic and changes nothing else: swaps, copies, x := alpha x, y := y + alpha x, inner products, A := alpha A and B := B + alpha A on strided matrices, y := alpha op(A) x + beta y and C := alpha op(A) op(B) + beta C with a real A and every TRANS character; and in every arithmetic real GEMM changes only the M by N entries of C.", "quantifier": "all shapes, positive strides, leading dimensions, option characters, contents and scalars", "why_tests_cant": "unit tests compare a few sizes against a naive loop", "anchors": ["include/hblas/generic/hblas1/*_impl.hpp", "include/hblas/generic/hblas2/hblas_gemv_impl.hpp", "include/hblas/generic/hblas3/hblas_gemm_impl.hpp"]}
{"id": "C71", "title": "The source text of every quaternion operator has the effect of its reference function", "statement": "Preprocessing, parsing and executing the source text of include/haxx.hpp and its headers (constructors, accessors, assignment and compound assignment, + - * / with quaternion, complex and real operands, == and !=, norm, conj, inv, versor, comm, SmartConj) has, for all operands, exactly the outcome of the reference function about which the other properties are proved: the same value bit for bit, the same stores, undefined exactly when an operand is not there; operands bound by reference may be the same object or overlap; with and without AVX.", "quantifier": "all operand values and addresses (aliasing included), objects and temporaries as operands, both builds, any arithmetic, IEEE binary64 included", "why_tests_cant": "tests evaluate a few operand values; here the header text itself is quantified over all operands and all aliasing", "anchors": ["include/haxx/haxx_def.hpp", "include/haxx/haxx_scalar_op.hpp", "include/haxx/haxx_complex_op.hpp", "include/haxx/haxx_quaternion_op.hpp", "include/haxx/haxx_quaternion_reduction.hpp"]}
{"id": "C72", "title": "Users' quaternion expressions mean what the mathematics says", "statement": "An expression or statement written by a user against the headers, such as x * (y + z), conj(x * y), comm(x,y), x * inv(x), norm(x * y), d = x * y, d += x * y or x += y; x -= y, evaluated from its text, yields the mathematical value: the ring laws, anti-multiplicativity of conj and inv, multiplicativity of norm; grouping follows precedence; a statement changes only the object on its left, which may be one of the operands; x == y holds exactly for equal quaternions.", "quantifier": "all operand values and addresses, including operands that are the same object, both builds; exact arithmetic", "why_tests_cant": "algebraic laws over all operands cannot be sampled", "anchors": ["include/haxx/*.hpp"]}
{"id": "C73", "title": "Every public routine is linked with exactly one implementation, the right one", "statement": "In the library the build produces, each public function has, for each documented combination of scalar and element types (45 signatures), exactly one definition, and no other signature has any; a call of it runs the optimised C++ text (level-1 vector routines; GEMM with real or complex ALPHA and BETA), the Fortran subroutine of the same name and type letters with the arguments in the right order (GEMV, GERU, GERC, the other GEMMs, expansion and contraction, the latter aborting unless ORDER is 'F' or 'S'), or the generic template instantiated at the call's types (SCALM, AXPYM, GEMV and GEMM with a real matrix).", "quantifier": "all signatures, and for each signature all argument values; both FMA builds; any arithmetic", "why_tests_cant": "a wrong letter in one of 23 macro invocations shows only for one combination of types; here the texts of the CMake files and of the forwarding sources are parsed and resolved for every call", "anchors": ["src/hblas/CMakeLists.txt", "src/hblas/hblas1.cxx.in", "src/hblas/hblas2.cxx.in", "src/hblas/hblas3.cxx.in", "src/hblas/util.cxx", "include/hblas/generic/util/*_impl.hpp", "src/hblas/cxx/hblas1/*.cmake", "src/hblas/cxx/hblas3/Gemm.cmake"]}
{"id": "C74", "title": "The public functions satisfy the BLAS contracts end to end", "statement": "A call of a public function, resolved through the texts of the build to the text of its implementation and executed, computes the mathematical result in exact arithmetic, changes only the result elements, and in every arithmetic GEMM changes only the M by N entries of C: all level-1 routines, SCALM, AXPYM, GEMV (quaternion and real matrix), GERU, GERC, GEMM (all scalar types, quaternion and real A), complex and real expansion and contraction.", "quantifier": "all shapes, strides, leading dimensions, option characters, contents and scalars, both FMA builds", "why_tests_cant": "unit tests compare a few sizes against a naive loop", "anchors": ["src/hblas/*", "src/hblas/cxx/*", "src/hblas/fortran/*", "include/hblas/generic/*"]}
{"id": "C75", "title": "Public calls satisfy the IEEE error bounds", "statement": "Executed in IEEE binary64 through the texts of the build, SCALV, AXPYV, DOTUV, DOTCV, GEMM (all scalar types, quaternion or real A), GEMV and GERU/GERC return componentwise within a stated forward error bound of the exact result, do not overflow while the stated magnitudes are in range, and change nothing else; the bound is the same for the FMA and the non-FMA build.", "quantifier": "all lengths, shapes, strides, option characters, contents (including subnormal and non-finite values) and scalars, both FMA builds", "why_tests_cant": "tests compare with a fixed tolerance on random well-scaled data", "anchors": ["src/hblas/*", "src/hblas/cxx/*", "src/hblas/fortran/*", "include/hblas/generic/*"]}
{"id": "C76", "title": "Public calls are exact on integer data", "statement": "If all components of the operands are integers and the intermediate magnitudes stay below 2^53, the same public calls executed in IEEE binary64 return exactly the integer result, in both FMA builds.", "quantifier": "all lengths, shapes, strides, option characters, integer contents and scalars in range, both FMA builds", "why_tests_cant": "exactness must hold for every summation order the blocking produces; a test samples a few", "anchors": ["src/hblas/*", "src/hblas/cxx/*", "src/hblas/fortran/*", "include/hblas/generic/*"]}
{"id": "C77", "title": "The packing routines, as written, produce the packed panels", "statement": "Running NPACK or TPACK as the headers are written (templates instantiated with the pack operations GEMM uses, with or without conjugation, with real, complex, quaternion or no ALPHA) pairs consecutive rows (NPACK) or columns (TPACK), pads a missing last one with zeros, multiplies by ALPHA from the left, writes exactly 2*ceil(count/2)*length elements, leaves the source unchanged, and fails its assertion only for a negative odd count.", "quantifier": "all block shapes, offsets, leading dimensions, contents, ALPHA types, both pack operations, conjugated or not", "why_tests_cant": "tests go through GEMM with a few shapes and never see the buffer", "anchors": ["include/hblas/pack/pack.hpp", "include/hblas/pack/packops.hpp", "include/util/types.hpp"]}
{"id": "C78", "title": "Public GEMM, run wholly from the source texts, computes the product", "statement": "A call of HBLAS_GEMM on quaternion matrices with real or complex ALPHA and BETA, resolved through the build files and run through the texts of the driver, the micro-kernel, the scaling routine and the packing headers, leaves C = ALPHA*op(A)*op(B) + BETA*C in exact arithmetic and changes nothing outside C in any arithmetic.", "quantifier": "all shapes, leading dimensions, option characters, contents, scalars, buffer addresses and initial buffer contents, both FMA builds", "why_tests_cant": "tests sample a few shapes and cannot see writes outside C", "anchors": ["src/hblas/cxx/hblas3/gemm.cxx", "src/hblas/cxx/hblas3/kern.cxx", "include/hblas/pack/pack.hpp", "include/hblas/pack/packops.hpp", "src/hblas/hblas3.cxx.in"]}
{"id": "C79", "title": "Packing moves values exactly, in every arithmetic", "statement": "With no ALPHA the packed panels hold the very values of the source (imaginary parts with flipped sign if conjugated), NaNs, infinities and signed zeros included; with a real ALPHA each component is one product, with a complex ALPHA each is the difference of two products; the padding is zero treated the same way (so it holds negative zeros when conjugated); nothing else in the buffer or the source changes.", "quantifier": "all block shapes, offsets, leading dimensions and contents, every scalar arithmetic (binary64 with or without fused multiply-add among them), both pack operations, conjugated or not", "why_tests_cant": "a test compares a few rounded results of GEMM and never sees the buffer", "anchors": ["include/hblas/pack/pack.hpp", "include/hblas/pack/packops.hpp", "include/util/types.hpp"]}
{"id": "C80", "title": "Public GEMM, wholly from the source texts, is local, reproducible and accurate in binary64", "statement": "Run wholly from texts (driver, kernel, scaling, packing), a call of HBLAS_GEMM leaves in C(i,j) a value that depends only on row i of op(A), column j of op(B), the old C(i,j), K and the scalars (so a NaN or infinity elsewhere cannot reach it); repeating a call with operands and buffers at other addresses and other garbage in the buffers gives the same C everywhere, bit for bit; in binary64 each entry is within the stated rounding bound of the exact one, finite when nothing can overflow, and exact on small integers.", "quantifier": "all shapes, leading dimensions, option characters, contents, real and complex scalars, addresses and initial buffer contents; every scalar arithmetic for locality and reproducibility; both FMA builds", "why_tests_cant": "tests compare a few results with a tolerance; they cannot vary the contents of fresh memory nor show independence from the other rows", "anchors": ["src/hblas/cxx/hblas3/gemm.cxx", "src/hblas/cxx/hblas3/kern.cxx", "include/hblas/pack/pack.hpp", "include/hblas/pack/packops.hpp", "src/hblas/hblas3.cxx.in"]}
{"id": "C81", "title": "The tuple helpers do what they say, whatever order arguments are evaluated in", "statement": "pointer_sequence<N> gives N pointers INC apart; apply gives the results of the operation on each element in the order of the tuple; apply_n<N> compiles for at most N elements and adds results of the operation without argument up to N; array_tuple_execute applies the operation to ptr+i and element i one after the other, so with stores the tuple lands in consecutive elements and nothing else changes. None of this depends on the order in which the compiler evaluates the arguments of a call, for operations that only read, and so the packing loop does not either.", "quantifier": "tuples of every length, every N, strides (negative ones, converted to size_t, included), every operation as stated, every evaluation order in every iteration", "why_tests_cant": "a test runs one compiler's evaluation order and the two tuple sizes GEMM uses", "anchors": ["include/util/boilerplate.hpp", "include/hblas/pack/pack.hpp"]}
{"id": "C82", "title": "C++ and Fortran agree on every routine they share", "statement": "Each Fortran routine is declared to C++ exactly once, with the documented parameter types; the library contains a SUBROUTINE of that name with as many dummy arguments, each of a type and first extent that receives the object the pointer points to (double: REAL*8, std::complex<double>: one COMPLEX*16 or two REAL*8, quaternion<double>: two COMPLEX*16 or four REAL*8); every SUBROUTINE is declared; every call from the library passes exactly the declared types.", "quantifier": "all declared routines, all Fortran subroutines of the library, all calls in the forwarding functions, both FMA builds", "why_tests_cant": "the linker does not check types; a wrong declaration reads beyond an argument or takes one for another, and a test of other routines, or with zero bytes behind the argument, does not notice", "anchors": ["include/hblas/hblas1.hpp", "include/hblas/hblas2.hpp", "include/hblas/hblas3.hpp", "include/hblas/hblas_util.hpp", "src/hblas/fortran/*", "src/hblas/*.cxx.in"]}
{"id": "C83", "title": "A public template links exactly for the supported type arguments", "statement": "The public headers declare fifteen function templates, none overloaded; an instance with type arguments among double, std::complex<double> and quaternion<double> has exactly one definition in the library if it is a supported one (_F = double; quaternion vectors and matrices with any ALPHA, BETA; or a real matrix A with real ALPHA, BETA in GEMV, GEMM), and none otherwise: such a program compiles and does not link. Every function the library defines is an instance of a declared template.", "quantifier": "all declared templates, all lists of type arguments from the three types, both FMA builds", "why_tests_cant": "a test program instantiates a few combinations; one that does not link cannot be a test case", "anchors": ["include/hblas/hblas1.hpp", "include/hblas/hblas2.hpp", "include/hblas/hblas3.hpp", "include/hblas/hblas_util.hpp", "src/hblas/*"]}
