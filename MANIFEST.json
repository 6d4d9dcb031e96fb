{
 "claims": [
  {
   "property": "C01",
   "status": "proved",
   "theorems": [
    "C01_product_is_hamilton",
    "C01_product_assoc",
    "C01_product_distr_l",
    "C01_product_distr_r",
    "C01_product_distr_sub_l",
    "C01_product_distr_sub_r",
    "C01_units"
   ],
   "note": "over any commutative ring of scalars"
  },
  {
   "property": "C02",
   "status": "proved",
   "theorems": [
    "C02_simd_product",
    "C02_simd_conj_product",
    "C02_simd_conj"
   ],
   "note": "over any commutative ring of scalars (exact arithmetic); conjugation for any scalar type"
  },
  {
   "property": "C03",
   "status": "proved",
   "theorems": [
    "C03_additive_group",
    "C03_componentwise"
   ],
   "note": "group laws in exact arithmetic; componentwise forms for any scalar type"
  },
  {
   "property": "C04",
   "status": "proved",
   "theorems": [
    "C04_mixed_real",
    "C04_division"
   ],
   "note": "division over the reals"
  },
  {
   "property": "C05",
   "status": "proved",
   "theorems": [
    "C05_mixed_complex",
    "C05_cayley_dickson"
   ],
   "note": ""
  },
  {
   "property": "C06",
   "status": "proved",
   "theorems": [
    "C06_conj"
   ],
   "note": ""
  },
  {
   "property": "C07",
   "status": "proved",
   "theorems": [
    "C07_norm",
    "C07_norm_real"
   ],
   "note": "over the reals"
  },
  {
   "property": "C08",
   "status": "proved",
   "theorems": [
    "C08_inv",
    "C08_inv_mul",
    "C08_inv_unique",
    "C08_inv_inv",
    "C08_divisor_zero_iff"
   ],
   "note": "over the reals, q<>0"
  },
  {
   "property": "C09",
   "status": "proved",
   "theorems": [
    "C09_versor",
    "C09_versor_mul"
   ],
   "note": "over the reals, q<>0"
  },
  {
   "property": "C10",
   "status": "proved",
   "theorems": [
    "C10_comm",
    "C10_antisymmetric",
    "C10_jacobi",
    "C10_zero_iff_commute"
   ],
   "note": ""
  },
  {
   "property": "C11",
   "status": "partial",
   "theorems": [
    "C11_eq_refuted",
    "C11_eq_exact_meaning",
    "C11_eq_partial"
   ],
   "note": "the property is false of the code (C11_eq_refuted: operator== ignores the k component of its left operand); C11_eq_partial and C11_eq_exact_meaning state what holds"
  },
  {
   "property": "C12",
   "status": "proved",
   "theorems": [
    "C12_swapv_opt",
    "C12_swapv_gen"
   ],
   "note": "optimised and generic implementations, any scalar type"
  },
  {
   "property": "C13",
   "status": "proved",
   "theorems": [
    "C13_copyv_opt",
    "C13_copyv_gen"
   ],
   "note": "optimised and generic implementations, any scalar type"
  },
  {
   "property": "C14",
   "status": "partial",
   "theorems": [
    "C14_scalv_opt",
    "C14_scalv_gen",
    "C14_scalv_fortran_partial",
    "C14_scalv_fortran_refuted"
   ],
   "note": "proved for the optimised and generic implementations; false of the Fortran kernels for ALPHA=0 (C14_scalv_fortran_refuted), proved for them otherwise"
  },
  {
   "property": "C15",
   "status": "partial",
   "theorems": [
    "C15_axpyv_opt",
    "C15_axpyv_fortran",
    "C15_axpyv_gen_partial",
    "C15_axpyv_gen_refuted"
   ],
   "note": "proved for the optimised and Fortran implementations; false of the generic template for ALPHA=d*k (C15_axpyv_gen_refuted), proved for it otherwise"
  },
  {
   "property": "C16",
   "status": "proved",
   "theorems": [
    "C16_dotuv_opt",
    "C16_dotuv_gen",
    "C16_dotuv_fortran"
   ],
   "note": "three implementations"
  },
  {
   "property": "C17",
   "status": "proved",
   "theorems": [
    "C17_dotcv_opt",
    "C17_dotcv_gen",
    "C17_dotcv_fortran",
    "C17_hermitian",
    "C17_self_dot_real"
   ],
   "note": "three implementations"
  },
  {
   "property": "C18",
   "status": "proved",
   "theorems": [
    "C18_alignment_invisible"
   ],
   "note": "no laws assumed: holds for floating point"
  },
  {
   "property": "C19",
   "status": "partial",
   "theorems": [
    "C19_swapv_agree",
    "C19_copyv_agree",
    "C19_scalv_agree_partial",
    "C19_axpyv_agree_partial",
    "C19_axpyv_linked_agree",
    "C19_dot_agree"
   ],
   "note": "agreement proved except the two refuted cases of C14/C15"
  },
  {
   "property": "C20",
   "status": "partial",
   "theorems": [
    "C20_fortran_partial",
    "C20_optimised_refuted",
    "C20_backends_differ_refuted"
   ],
   "note": "Fortran kernels follow the convention; the optimised kernels do not (C20_optimised_refuted, C20_backends_differ_refuted)"
  },
  {
   "property": "C21",
   "status": "partial",
   "theorems": [
    "C21_scalm_avx",
    "C21_scalm_fortran_partial",
    "C21_scalm_fortran_refuted",
    "C21_disjoint_colmajor"
   ],
   "note": "proved for the default (AVX) build; false with the Fortran kernels for ALPHA=0 (C21_scalm_fortran_refuted)"
  },
  {
   "property": "C22",
   "status": "partial",
   "theorems": [
    "C22_axpym_avx_partial",
    "C22_axpym_fortran_partial",
    "C22_axpym_refuted"
   ],
   "note": "false for quaternion ALPHA=d*k (C22_axpym_refuted), proved otherwise for both builds"
  },
  {
   "property": "C23",
   "status": "partial",
   "theorems": [
    "C23_gemv_dd",
    "C23_gemv_partial",
    "C23_gemv_nonsquare_refuted",
    "C23_gemv_out_of_bounds_refuted",
    "C23_gemv_dh_strided_refuted",
    "C23_gemv_h_strided_refuted",
    "C23_gemv_empty",
    "C23_gemv_actual_partial"
   ],
   "note": "full for real ALPHA and BETA; for the other eight kernels proved for square A, for TRANS=C of any shape and for BETA=1 with positive strides, except two strided variants; each exception is refuted (three defects, see the _refuted theorems); C23_gemv_actual_partial states what the exchanged lengths make the eight kernels compute for every shape"
  },
  {
   "property": "C24",
   "status": "proved",
   "theorems": [
    "C24_gemv_real",
    "C24_gemv_quat_template_partial"
   ],
   "note": "the instantiation the library compiles (real matrix); the template at quaternion type is _partial"
  },
  {
   "property": "C25",
   "status": "partial",
   "theorems": [
    "C25_geru_zh",
    "C25_geru_d_partial",
    "C25_ger_d_strided_refuted",
    "C25_ger_template_partial",
    "C25_ger_template_refuted"
   ],
   "note": "complex and quaternion ALPHA in full; real ALPHA is refuted for INCX<>1 and proved for INCX=1"
  },
  {
   "property": "C26",
   "status": "partial",
   "theorems": [
    "C26_gerc_zh",
    "C26_gerc_d_partial",
    "C26_gerc_d_strided_refuted"
   ],
   "note": "complex and quaternion ALPHA in full; real ALPHA is refuted for INCX<>1 and proved for INCX=1"
  },
  {
   "property": "C27",
   "status": "proved",
   "theorems": [
    "C27_gemm_fortran"
   ],
   "note": "all nine kernels"
  },
  {
   "property": "C28",
   "status": "proved",
   "theorems": [
    "C28_gemm_real",
    "C28_gemm_quat_template_partial"
   ],
   "note": "the instantiation the library compiles (real matrix); the template at quaternion type is _partial"
  },
  {
   "property": "C29",
   "status": "proved",
   "theorems": [
    "C29_gemm_opt",
    "C29_gemm_opt_default"
   ],
   "note": "every blocking with even MC, NC; arbitrary buffer contents"
  },
  {
   "property": "C30",
   "status": "proved",
   "theorems": [
    "C30_gemm_blocking_independent"
   ],
   "note": "no algebraic law used, so it holds bitwise for floating point"
  },
  {
   "property": "C31",
   "status": "proved",
   "theorems": [
    "C31_tpack",
    "C31_npack",
    "C31_buffers_fit",
    "C31_odd_blocking_refuted"
   ],
   "note": "for even MC, NC (the shipped values); odd blocking is shown to overrun the buffer"
  },
  {
   "property": "C32",
   "status": "proved",
   "theorems": [
    "C32_gemm_fortran",
    "C32_gemm_real",
    "C32_gemm_opt"
   ],
   "note": "Fortran, real-matrix template and optimised GEMM; everything outside the M x N window of C is unchanged"
  },
  {
   "property": "C33",
   "status": "partial",
   "theorems": [
    "C33_gemm_fortran",
    "C33_gemm_real",
    "C33_hypothesis_ieee",
    "C33_gemm_opt_exact_partial",
    "C33_gemm_opt_nan_refuted"
   ],
   "note": "proved without any law (so for IEEE floating point) for the Fortran and real-matrix GEMM; for the optimised GEMM only in exact arithmetic, and refuted for floating point (a NaN in C survives BETA=0)"
  },
  {
   "property": "C34",
   "status": "partial",
   "theorems": [
    "C34_level1_empty",
    "C34_dot_empty",
    "C34_matrix_empty",
    "C34_scalm_inca",
    "C34_level23_empty",
    "C34_gemm_fortran_alpha0",
    "C34_gemm_real_alpha0",
    "C34_gemv_alpha0_no_reads",
    "C34_gemv_real_alpha0_no_reads",
    "C34_ger_alpha0",
    "C34_axpyv_fortran_alpha0",
    "C34_gemm_opt_n0",
    "C34_gemm_opt_k0",
    "C34_gemm_opt_refuted",
    "C34_axpyv_opt_refuted"
   ],
   "note": "proved for level 1, matrix, GEMV, GER, Fortran and real-matrix GEMM; the optimised GEMM/AXPY read operands that an empty/zero problem does not need (refuted)"
  },
  {
   "property": "C35",
   "status": "proved",
   "theorems": [
    "C35_complex_expand",
    "C35_real_expand",
    "C35_complex_product",
    "C35_complex_sum",
    "C35_complex_adjoint",
    "C35_real_product",
    "C35_real_sum",
    "C35_real_adjoint"
   ],
   "note": "the expanded values are law-free; the homomorphism statements hold over exact arithmetic, both block orders of the complex expansion and the real one"
  },
  {
   "property": "C36",
   "status": "proved",
   "theorems": [
    "C36_contract_expand",
    "C36_hypothesis_ieee",
    "C36_expand_contract",
    "C36_other_order"
   ],
   "note": "both directions, both block orders; the negation hypothesis is discharged for IEEE binary64; any other ORDER aborts"
  },
  {
   "property": "C37",
   "status": "partial",
   "theorems": [
    "C37_gemm_fortran_all_chars",
    "C37_gemm_real_all_chars",
    "C37_gemm_opt_all_chars",
    "C37_gemv_fortran_all_chars",
    "C37_gemv_real_all_chars",
    "C37_side_opt_all_chars",
    "C37_side_template_all_chars",
    "C37_side_fortran_all_chars",
    "C37_gemm_consistent_partial",
    "C37_gemm_lower_case_refuted",
    "C37_gemm_R_refuted",
    "C37_gemv_lower_case_refuted",
    "C37_side_lower_case_refuted"
   ],
   "note": "for every character the meaning each implementation gives it is proved; upper-case N/T/C are consistent across implementations; lower case, 'R' and SIDE 'l' are refuted"
  },
  {
   "property": "C38",
   "status": "partial",
   "theorems": [
    "C38_gemm_real_partial",
    "C38_gemv_real_partial",
    "C38_gemm_opt_default_partial",
    "C38_gemm_opt_partial",
    "C38_dotuv_opt_partial",
    "C38_dotcv_opt_partial",
    "C38_gemm_opt_overflow",
    "C38_gemm_opt_refuted",
    "C38_gemm_real_overflow",
    "C38_gemm_real_refuted",
    "C38_gemv_real_overflow",
    "C38_gemv_real_refuted",
    "C38_dot_overflow",
    "C38_dot_refuted"
   ],
   "note": "false of the code: _refuted theorems exhibit in-memory problems whose 32-bit index arithmetic overflows; the _partial theorems give the bounds under which each kernel meets its contract with 32-bit arithmetic, the _overflow theorems show the bounds on LDC, LDA, INC are sharp"
  },
  {
   "property": "C39",
   "status": "proved",
   "theorems": [
    "C39_batched_products",
    "C39_transpose"
   ],
   "note": ""
  },
  {
   "property": "C40",
   "status": "partial",
   "theorems": [
    "C40_gemm_agree",
    "C40_gemm_real_agree",
    "C40_gemv_gemm_partial",
    "C40_gemv_real_gemm",
    "C40_geru_gemm_partial",
    "C40_gerc_gemm_partial",
    "C40_gerc_gemm_opt_partial",
    "C40_dotuv_gemm",
    "C40_dotcv_gemm",
    "C40_dotcv_gemm_fortran"
   ],
   "note": "GEMM implementations, dot products and real-matrix GEMV agree in full; quaternion GEMV and GER agree with GEMM wherever C23, C25, C26 hold"
  },
  {
   "property": "C41",
   "status": "proved",
   "theorems": [
    "C41_scalar_on_left",
    "C41_scalar_on_right",
    "C41_no_scalar"
   ],
   "note": "both sides, three scalar types, including the right-hand complex product the source marks as not validated"
  },
  {
   "property": "C42",
   "status": "partial",
   "theorems": [
    "C42_factor_in_b_real_partial",
    "C42_factor_in_b_value",
    "C42_factor_in_b_refuted",
    "C42_no_factor_value",
    "C42_no_factor_refuted"
   ],
   "note": "the default build is C29; with _FACTOR_ALPHA_IN_B_PACK proved for real ALPHA and refuted for complex ALPHA; with neither macro ALPHA is ignored (refuted)"
  },
  {
   "property": "C43",
   "status": "proved",
   "theorems": [
    "C43_mul_err",
    "C43_scalv_err",
    "C43_axpyv_err",
    "C43_dot_err",
    "C43_gemm_err",
    "C43_gamma",
    "C43_no_overflow"
   ],
   "note": "product, SCALV, AXPYV (three scalar types), DOTUV/DOTCV and GEMM (real/complex ALPHA, BETA, every blocking), fused and unfused; gamma_d and an overflow criterion as corollaries; uses the axioms of the standard library reals"
  },
  {
   "property": "C44",
   "status": "proved",
   "theorems": [
    "C44_gemm_public",
    "C44_gemv_real_public",
    "C44_gemm_real_public"
   ],
   "note": "all nine type pairs: five forwarded to Fortran, four to the packed kernel; real-matrix GEMM and GEMV"
  },
  {
   "property": "C45",
   "status": "proved",
   "theorems": [
    "C45_associative",
    "C45_adjoint",
    "C45_gram",
    "C45_identity"
   ],
   "note": "associativity, adjoint, Gram matrix, identity; exact arithmetic (rounding: C43)"
  },
  {
   "property": "C46",
   "status": "proved",
   "theorems": [
    "C46_gemm_local"
   ],
   "note": "assumes no arithmetic law, so also for IEEE doubles"
  },
  {
   "property": "C47",
   "status": "proved",
   "theorems": [
    "C47_split_columns",
    "C47_split_rows",
    "C47_split_inner_double",
    "C47_split_inner"
   ],
   "note": "column and row cuts law-free (bitwise) for all nine type pairs; inner cut bitwise in double for the packed kernel's type pairs, exact arithmetic for all nine"
  },
  {
   "property": "C48",
   "status": "proved",
   "theorems": [
    "C48_mul_int",
    "C48_scalv_int",
    "C48_axpyv_int",
    "C48_dot_int",
    "C48_gemm_int"
   ],
   "note": "product, SCALV, AXPYV, DOT, public GEMM in IEEE doubles, fused and unfused"
  },
  {
   "property": "C49",
   "status": "partial",
   "theorems": [
    "C49_norm_err",
    "C49_versor_err",
    "C49_inv_err",
    "C49_inv_mul",
    "C49_contracted",
    "C49_overflow_refuted",
    "C49_underflow_refuted"
   ],
   "note": "proved with explicit constants (4u, 6u, 11u/|q|, 32u) for 2^-480 <= |q| <= 2^480; false outside: the sum of squares overflows or underflows (C49_overflow_refuted, C49_underflow_refuted)"
  },
  {
   "property": "C50",
   "status": "partial",
   "theorems": [
    "C50_copyv",
    "C50_axpyv",
    "C50_swapv",
    "C50_swapv_self",
    "C50_axpym_partial",
    "C50_layouts",
    "C50_separate_agree",
    "C50_copyv_overlap_refuted"
   ],
   "note": "full for COPYV, AXPYV, SWAPV; AXPYM misses ALPHA=d*k (defect C22); the overlap direction the property excludes is shown to fail (C50_copyv_overlap_refuted)"
  },
  {
   "property": "C51",
   "status": "proved",
   "theorems": [
    "C51_gemm_views",
    "C51_separate_agree",
    "C51_in_place_refuted"
   ],
   "note": "law-free agreement with separate operands as well; the excluded in-place call is shown to fail (C51_in_place_refuted)"
  },
  {
   "property": "C52",
   "status": "proved",
   "theorems": [
    "C52_swap_twice",
    "C52_scal_compose",
    "C52_scal_inverse",
    "C52_axpy_undo",
    "C52_dot_linear",
    "C52_inner_product"
   ],
   "note": "exact arithmetic (any commutative ring; reals where inverses or order are involved)"
  },
  {
   "property": "C53",
   "status": "proved",
   "theorems": [
    "C53_adjoint",
    "C53_rank1"
   ],
   "note": "exact arithmetic; real ALPHA with INCX<>1 excluded because GERC itself fails there (C26)"
  },
  {
   "property": "C54",
   "status": "partial",
   "theorems": [
    "C54_hgemm_err",
    "C54_hgemv_err_partial",
    "C54_hger_err_partial"
   ],
   "note": "GEMM complete (nine type pairs); GEMV and GER on every input on which they are correct in exact arithmetic (missing: exactly the defective cases of C23, C25); assumes each Fortran operation is rounded once, i.e. no contraction by the compiler"
  },
  {
   "property": "C55",
   "status": "partial",
   "theorems": [
    "C55_hgemv_int_partial",
    "C55_hger_int_partial"
   ],
   "note": "GEMV and GER on every input on which they are correct in exact arithmetic (missing: exactly the defective cases of C23, C25)"
  },
  {
   "property": "C56",
   "status": "partial",
   "theorems": [
    "C56_accessors",
    "C56_constructors",
    "C56_quaternion_argument",
    "C56_scalar_argument_partial",
    "C56_scalar_self",
    "C56_scalar_self_refuted",
    "C56_complex_argument",
    "C56_assignment_statements",
    "C56_other_component_type"
   ],
   "note": "constructors, accessors, quaternion and complex arguments in full, including self-reference; q *= r and q /= r fail when r refers to the object's own real, i or j component (C56_scalar_self_refuted, actual effect C56_scalar_self)"
  },
  {
   "property": "C57",
   "status": "partial",
   "theorems": [
    "C57_insertion",
    "C57_text_identifies_partial",
    "C57_comma_locale_refuted"
   ],
   "note": "text and padding in full; identification proved for printers without ',' and ')' and refuted for a locale with decimal comma (C57_comma_locale_refuted)"
  },
  {
   "property": "C58",
   "status": "partial",
   "theorems": [
    "C58_gemm_real_err",
    "C58_gemv_real_err",
    "C58_alpha_a_overflow_refuted"
   ],
   "note": "error bound in full; finiteness needs ALPHA*A in range as well: without it GEMV 'N' returns NaN and GEMM infinity although ALPHA*x and the exact result are representable (C58_alpha_a_overflow_refuted)"
  },
  {
   "property": "C59",
   "status": "proved",
   "theorems": [
    "C59_gemm_real_int",
    "C59_gemv_real_int"
   ],
   "note": "all transpose characters and shapes"
  },
  {
   "property": "C60",
   "status": "partial",
   "theorems": [
    "C60_self_nonneg",
    "C60_self_imag_partial",
    "C60_self_imag_refuted",
    "C60_definite_refuted"
   ],
   "note": "real part >= 0 in full; imaginary parts proved 0 without FMA (i for all N, j and k for N < 4) and refuted for the rest (C60_self_imag_refuted); C60_definite_refuted records that the product can be 0 for a nonzero vector"
  },
  {
   "property": "C61",
   "status": "partial",
   "theorems": [
    "C61_scalv",
    "C61_axpyv",
    "C61_dot",
    "C61_gemv_partial",
    "C61_ger_partial",
    "C61_gemv_real",
    "C61_gemm_real",
    "C61_gemv_stride_refuted"
   ],
   "note": "everything except the GEMV shapes and strides the code mishandles (C23, C61_gemv_stride_refuted) and the GER calls with undefined behaviour (C25)"
  },
  {
   "property": "C62",
   "status": "proved",
   "theorems": [
    "C62_scal_text",
    "C62_axpy_text",
    "C62_dot_text",
    "C62_gemv_text",
    "C62_ger_text",
    "C62_gemm_text",
    "C62_util_text",
    "C62_lsame"
   ],
   "note": "all 36 files; integers unbounded in the interpreter (int32: C38); GEMM for M >= 0; law-free, so also for IEEE doubles"
  },
  {
   "property": "C63",
   "status": "partial",
   "theorems": [
    "C63_scal_partial",
    "C63_axpy",
    "C63_dot",
    "C63_gemv_dd",
    "C63_gemv_partial",
    "C63_ger",
    "C63_ger_d_partial",
    "C63_ger_d_strided_refuted",
    "C63_gemm",
    "C63_expand",
    "C63_contract"
   ],
   "note": "GEMM, AXPY, DOT, expansion, contraction in full; SCAL misses ALPHA=0, GEMV and real-ALPHA GER miss exactly the defective calls (C14, C23, C25; C63_ger_d_strided_refuted on the text itself)"
  },
  {
   "property": "C64",
   "status": "partial",
   "theorems": [
    "C64_gemv_dd_public",
    "C64_gemv_public_partial",
    "C64_ger_public",
    "C64_ger_d_public_partial"
   ],
   "note": "everything except the calls in which the linked Fortran kernels are wrong (C23, C25)"
  },
  {
   "property": "C65",
   "status": "proved",
   "theorems": [
    "C65_concurrent_calls",
    "C65_same_as_alone",
    "C65_shared_result_depends_on_schedule"
   ],
   "note": "contract form for SCAL, AXPY, DOT, real-scalar GEMV, GER, GEMM; same-as-alone form in any arithmetic for all 37 subroutines; C65_shared_result_depends_on_schedule shows the disjointness is needed"
  },
  {
   "property": "C66",
   "status": "proved",
   "theorems": [
    "C66_concurrent_public_calls",
    "C66_same_bits"
   ],
   "note": "GEMV with real ALPHA and BETA, as in C65; pack buffers private to the call with arbitrary contents"
  },
  {
   "property": "C67",
   "status": "proved",
   "theorems": [
    "C67_swap",
    "C67_copy",
    "C67_scal",
    "C67_axpy",
    "C67_dot",
    "C67_kern",
    "C67_gemm"
   ],
   "note": "law-free, so also for IEEE doubles; integers unbounded in the interpreter (int32: C38); GEMM is linked with the texts of kern.cxx, of the SCALM template and of SCALV, and with models of the packing templates and the heap"
  },
  {
   "property": "C68",
   "status": "proved",
   "theorems": [
    "C68_swap",
    "C68_copy",
    "C68_scal",
    "C68_axpy",
    "C68_dot",
    "C68_gemm",
    "C68_gemm_frame"
   ],
   "note": "positive strides, as C12-C17 (negative strides: C20); GEMM linked as in C67"
  },
  {
   "property": "C69",
   "status": "proved",
   "theorems": [
    "C69_swap",
    "C69_copy",
    "C69_scal",
    "C69_axpy",
    "C69_dot",
    "C69_scalm",
    "C69_axpym",
    "C69_gemv_real",
    "C69_gemm_real"
   ],
   "note": "law-free, so also for IEEE doubles; integers unbounded in the interpreter (int32: C38); SCALM and AXPYM linked with the text of axpy_scal.cxx"
  },
  {
   "property": "C70",
   "status": "partial",
   "theorems": [
    "C70_swap",
    "C70_copy",
    "C70_scal",
    "C70_axpy_partial",
    "C70_dot",
    "C70_scalm",
    "C70_axpym_partial",
    "C70_axpym_refuted",
    "C70_gemv_real",
    "C70_gemm_real",
    "C70_gemm_real_frame"
   ],
   "note": "everything except AXPYV and AXPYM with ALPHA = d k, d <> 0, which compares equal to zero (C11): C70_axpym_refuted"
  },
  {
   "property": "C71",
   "status": "proved",
   "theorems": [
    "C71_constructors",
    "C71_accessors",
    "C71_assignment",
    "C71_assignment_value",
    "C71_quaternion_operators",
    "C71_real_operators",
    "C71_complex_operators",
    "C71_reductions",
    "C71_comm_real",
    "C71_smartconj",
    "C71_comparisons"
   ],
   "note": "templates at _F = _G = double; the stream operators are not in the subset (C57); MULDQ_NN in the AVX specialisation is the function of MSimd.v, whose text is covered by C67"
  },
  {
   "property": "C72",
   "status": "partial",
   "theorems": [
    "C72_ring_expressions",
    "C72_division_expressions",
    "C72_statements",
    "C72_add_subtract",
    "C72_comparison_refuted",
    "C72_comparison_partial"
   ],
   "note": "everything except ==, which ignores the k component of its left operand (C11): C72_comparison_refuted, C72_comparison_partial"
  },
  {
   "property": "C73",
   "status": "partial",
   "theorems": [
    "C73_one_definition",
    "C73_no_other",
    "C73_cpp",
    "C73_templates",
    "C73_fortran",
    "C73_util",
    "C73_generic_fortran_refuted"
   ],
   "note": "proved for the default build; with ENABLE_GENERIC_FORTRAN hblas1.cxx does not compile (C73_generic_fortran_refuted).  Prototypes: C82.  Not looked at: top-level CMake files, the calls that templates make (linked by hand in CLinkG.v)"
  },
  {
   "property": "C74",
   "status": "partial",
   "theorems": [
    "C74_swap",
    "C74_copy",
    "C74_scal",
    "C74_axpy",
    "C74_dot",
    "C74_gemm",
    "C74_gemm_frame",
    "C74_scalm",
    "C74_axpym_partial",
    "C74_axpym_refuted",
    "C74_gemv_real",
    "C74_gemm_real",
    "C74_gemm_real_frame",
    "C74_gemv_dd",
    "C74_gemv_partial",
    "C74_ger",
    "C74_ger_d_partial",
    "C74_ger_d_strided_refuted",
    "C74_gemm_fortran",
    "C74_expand",
    "C74_contract"
   ],
   "note": "everything except AXPYM with ALPHA = d k (C74_axpym_refuted), GERU/GERC with real ALPHA and INCX <> 1 (C74_ger_d_strided_refuted) and the GEMV calls of C23_gemv_*_refuted"
  },
  {
   "property": "C75",
   "status": "partial",
   "theorems": [
    "C75_scalv",
    "C75_axpyv",
    "C75_dot",
    "C75_gemm",
    "C75_gemm_fortran",
    "C75_gemv_partial",
    "C75_ger_partial",
    "C75_gemm_real",
    "C75_gemv_real"
   ],
   "note": "GEMV and GERU/GERC in the cases of C23/C26 that are correct (C75_gemv_partial, C75_ger_partial); the other cases are the defects C23_gemv_*_refuted, C26_*_refuted"
  },
  {
   "property": "C76",
   "status": "partial",
   "theorems": [
    "C76_scalv",
    "C76_axpyv",
    "C76_dot",
    "C76_gemm",
    "C76_gemm_fortran",
    "C76_gemv_partial",
    "C76_ger_partial",
    "C76_gemm_real",
    "C76_gemv_real"
   ],
   "note": "GEMV and GERU/GERC in the cases of C23/C26 that are correct (C76_gemv_partial, C76_ger_partial)"
  },
  {
   "property": "C77",
   "status": "proved",
   "theorems": [
    "C77_tpack",
    "C77_npack",
    "C77_tpack_layout",
    "C77_npack_layout"
   ],
   "note": "MULDQ_NN and QCONJ_256D are the functions of MSimd.v, whose texts are covered by C67; the tuple helpers of util/boilerplate.hpp and std::tuple are built into the interpreter"
  },
  {
   "property": "C78",
   "status": "proved",
   "theorems": [
    "C78_gemm_text",
    "C78_gemm",
    "C78_gemm_frame"
   ],
   "note": "everything GEMM calls but aligned_alloc and free runs from its text"
  },
  {
   "property": "C79",
   "status": "proved",
   "theorems": [
    "C79_tpack",
    "C79_npack"
   ],
   "note": "ALPHA absent, real or complex, the kinds the optimised GEMM is built for; NaN payloads are not modelled"
  },
  {
   "property": "C80",
   "status": "proved",
   "theorems": [
    "C80_gemm_local",
    "C80_gemm_same",
    "C80_gemm_err",
    "C80_gemm_int"
   ],
   "note": "ALPHA and BETA real or complex, the calls that reach the optimised GEMM; NaN payloads are not modelled"
  },
  {
   "property": "C81",
   "status": "proved",
   "theorems": [
    "C81_apply",
    "C81_apply_ub",
    "C81_apply_n",
    "C81_execute",
    "C81_store",
    "C81_pointers",
    "C81_pack_loop"
   ],
   "note": "hand-written model of the helpers (MTuple.v); overload (boilerplate.hpp:189-217) is modelled in TSem.v only"
  },
  {
   "property": "C82",
   "status": "proved",
   "theorems": [
    "C82_prototypes",
    "C82_receives",
    "C82_declared",
    "C82_calls",
    "C82_level1"
   ],
   "note": "const, and the lengths of CHARACTER arguments that gfortran appends to the argument list, are not looked at (the prototypes omit these lengths; no text reads one)"
  },
  {
   "property": "C83",
   "status": "proved",
   "theorems": [
    "C83_templates",
    "C83_linked",
    "C83_declared"
   ],
   "note": "type arguments other than the three scalar types (float, int) are not looked at; result types are dropped; default build"
  }
 ]
}