Print Assumptions of every theorem named in MANIFEST.json (generated).
"closed" = Closed under the global context.

C01_product_is_hamilton: closed
C01_product_assoc: closed
C01_product_distr_l: closed
C01_product_distr_r: closed
C01_product_distr_sub_l: closed
C01_product_distr_sub_r: closed
C01_units: closed
C02_simd_product: closed
C02_simd_conj_product: closed
C02_simd_conj: closed
C03_additive_group: closed
C03_componentwise: closed
C04_mixed_real: closed
C04_division: ClassicalDedekindReals.sig_forall_dec, ClassicalDedekindReals.sig_not_dec, FunctionalExtensionality.functional_extensionality_dep
C05_mixed_complex: closed
C05_cayley_dickson: closed
C06_conj: closed
C07_norm: ClassicalDedekindReals.sig_forall_dec, ClassicalDedekindReals.sig_not_dec, FunctionalExtensionality.functional_extensionality_dep
C07_norm_real: ClassicalDedekindReals.sig_forall_dec, ClassicalDedekindReals.sig_not_dec, FunctionalExtensionality.functional_extensionality_dep
C08_inv: ClassicalDedekindReals.sig_forall_dec, ClassicalDedekindReals.sig_not_dec, FunctionalExtensionality.functional_extensionality_dep
C08_inv_mul: ClassicalDedekindReals.sig_forall_dec, ClassicalDedekindReals.sig_not_dec, FunctionalExtensionality.functional_extensionality_dep
C08_inv_unique: ClassicalDedekindReals.sig_forall_dec, ClassicalDedekindReals.sig_not_dec, FunctionalExtensionality.functional_extensionality_dep
C08_inv_inv: ClassicalDedekindReals.sig_forall_dec, ClassicalDedekindReals.sig_not_dec, FunctionalExtensionality.functional_extensionality_dep
C08_divisor_zero_iff: ClassicalDedekindReals.sig_forall_dec, ClassicalDedekindReals.sig_not_dec, FunctionalExtensionality.functional_extensionality_dep
C09_versor: ClassicalDedekindReals.sig_forall_dec, ClassicalDedekindReals.sig_not_dec, FunctionalExtensionality.functional_extensionality_dep
C09_versor_mul: ClassicalDedekindReals.sig_forall_dec, ClassicalDedekindReals.sig_not_dec, FunctionalExtensionality.functional_extensionality_dep
C10_comm: closed
C10_antisymmetric: closed
C10_jacobi: closed
C10_zero_iff_commute: closed
C11_eq_refuted: closed
C11_eq_exact_meaning: closed
C11_eq_partial: closed
C12_swapv_opt: closed
C12_swapv_gen: closed
C13_copyv_opt: closed
C13_copyv_gen: closed
C14_scalv_opt: closed
C14_scalv_gen: closed
C14_scalv_fortran_partial: closed
C14_scalv_fortran_refuted: closed
C15_axpyv_opt: closed
C15_axpyv_fortran: closed
C15_axpyv_gen_partial: closed
C15_axpyv_gen_refuted: closed
C16_dotuv_opt: closed
C16_dotuv_gen: closed
C16_dotuv_fortran: closed
C17_dotcv_opt: closed
C17_dotcv_gen: closed
C17_dotcv_fortran: closed
C17_hermitian: closed
C17_self_dot_real: closed
C18_alignment_invisible: closed
C19_swapv_agree: closed
C19_copyv_agree: closed
C19_scalv_agree_partial: closed
C19_axpyv_agree_partial: closed
C19_axpyv_linked_agree: closed
C19_dot_agree: closed
C20_fortran_partial: closed
C20_optimised_refuted: closed
C20_backends_differ_refuted: closed
C21_scalm_avx: closed
C21_scalm_fortran_partial: closed
C21_scalm_fortran_refuted: closed
C21_disjoint_colmajor: closed
C22_axpym_avx_partial: closed
C22_axpym_fortran_partial: closed
C22_axpym_refuted: closed
C23_gemv_dd: closed
C23_gemv_partial: closed
C23_gemv_nonsquare_refuted: closed
C23_gemv_out_of_bounds_refuted: closed
C23_gemv_dh_strided_refuted: closed
C23_gemv_h_strided_refuted: closed
C23_gemv_empty: closed
C23_gemv_actual_partial: closed
C24_gemv_real: closed
C24_gemv_quat_template_partial: closed
C25_geru_zh: closed
C25_geru_d_partial: closed
C25_ger_d_strided_refuted: closed
C25_ger_template_partial: closed
C25_ger_template_refuted: closed
C26_gerc_zh: closed
C26_gerc_d_partial: closed
C26_gerc_d_strided_refuted: closed
C27_gemm_fortran: closed
C28_gemm_real: closed
C28_gemm_quat_template_partial: closed
C29_gemm_opt: closed
C29_gemm_opt_default: closed
C30_gemm_blocking_independent: closed
C31_tpack: closed
C31_npack: closed
C31_buffers_fit: closed
C31_odd_blocking_refuted: closed
C32_gemm_fortran: closed
C32_gemm_real: closed
C32_gemm_opt: closed
C33_gemm_fortran: closed
C33_gemm_real: closed
C33_hypothesis_ieee: ClassicalDedekindReals.sig_forall_dec, ClassicalDedekindReals.sig_not_dec, Classical_Prop.classic, FunctionalExtensionality.functional_extensionality_dep
C33_gemm_opt_exact_partial: closed
C33_gemm_opt_nan_refuted: ClassicalDedekindReals.sig_forall_dec, ClassicalDedekindReals.sig_not_dec, Classical_Prop.classic, FunctionalExtensionality.functional_extensionality_dep
C34_level1_empty: closed
C34_dot_empty: closed
C34_matrix_empty: closed
C34_scalm_inca: closed
C34_level23_empty: closed
C34_gemm_fortran_alpha0: closed
C34_gemm_real_alpha0: closed
C34_gemv_alpha0_no_reads: closed
C34_gemv_real_alpha0_no_reads: closed
C34_ger_alpha0: closed
C34_axpyv_fortran_alpha0: closed
C34_gemm_opt_n0: closed
C34_gemm_opt_k0: closed
C34_gemm_opt_refuted: closed
C34_axpyv_opt_refuted: closed
C35_complex_expand: closed
C35_real_expand: closed
C35_complex_product: closed
C35_complex_sum: closed
C35_complex_adjoint: closed
C35_real_product: closed
C35_real_sum: closed
C35_real_adjoint: closed
C36_contract_expand: closed
C36_hypothesis_ieee: ClassicalDedekindReals.sig_forall_dec, ClassicalDedekindReals.sig_not_dec, Classical_Prop.classic, FunctionalExtensionality.functional_extensionality_dep
C36_expand_contract: closed
C36_other_order: closed
C37_gemm_fortran_all_chars: closed
C37_gemm_real_all_chars: closed
C37_gemm_opt_all_chars: closed
C37_gemv_fortran_all_chars: closed
C37_gemv_real_all_chars: closed
C37_side_opt_all_chars: closed
C37_side_template_all_chars: closed
C37_side_fortran_all_chars: closed
C37_gemm_consistent_partial: closed
C37_gemm_lower_case_refuted: closed
C37_gemm_R_refuted: closed
C37_gemv_lower_case_refuted: closed
C37_side_lower_case_refuted: closed
C38_gemm_real_partial: closed
C38_gemv_real_partial: closed
C38_gemm_opt_default_partial: closed
C38_gemm_opt_partial: closed
C38_dotuv_opt_partial: closed
C38_dotcv_opt_partial: closed
C38_gemm_opt_overflow: closed
C38_gemm_opt_refuted: closed
C38_gemm_real_overflow: closed
C38_gemm_real_refuted: closed
C38_gemv_real_overflow: closed
C38_gemv_real_refuted: closed
C38_dot_overflow: closed
C38_dot_refuted: closed
C39_batched_products: closed
C39_transpose: closed
C40_gemm_agree: closed
C40_gemm_real_agree: closed
C40_gemv_gemm_partial: closed
C40_gemv_real_gemm: closed
C40_geru_gemm_partial: closed
C40_gerc_gemm_partial: closed
C40_gerc_gemm_opt_partial: closed
C40_dotuv_gemm: closed
C40_dotcv_gemm: closed
C40_dotcv_gemm_fortran: closed
C41_scalar_on_left: closed
C41_scalar_on_right: closed
C41_no_scalar: closed
C42_factor_in_b_real_partial: closed
C42_factor_in_b_value: closed
C42_factor_in_b_refuted: closed
C42_no_factor_value: closed
C42_no_factor_refuted: closed
C43_mul_err: ClassicalDedekindReals.sig_forall_dec, ClassicalDedekindReals.sig_not_dec, Classical_Prop.classic, FunctionalExtensionality.functional_extensionality_dep
C43_scalv_err: ClassicalDedekindReals.sig_forall_dec, ClassicalDedekindReals.sig_not_dec, Classical_Prop.classic, FunctionalExtensionality.functional_extensionality_dep
C43_axpyv_err: ClassicalDedekindReals.sig_forall_dec, ClassicalDedekindReals.sig_not_dec, Classical_Prop.classic, FunctionalExtensionality.functional_extensionality_dep
C43_dot_err: ClassicalDedekindReals.sig_forall_dec, ClassicalDedekindReals.sig_not_dec, Classical_Prop.classic, FunctionalExtensionality.functional_extensionality_dep
C43_gemm_err: ClassicalDedekindReals.sig_forall_dec, ClassicalDedekindReals.sig_not_dec, Classical_Prop.classic, FunctionalExtensionality.functional_extensionality_dep
C43_gamma: ClassicalDedekindReals.sig_forall_dec, FunctionalExtensionality.functional_extensionality_dep
C43_no_overflow: ClassicalDedekindReals.sig_forall_dec, ClassicalDedekindReals.sig_not_dec, FunctionalExtensionality.functional_extensionality_dep
C44_gemm_public: closed
C44_gemv_real_public: closed
C44_gemm_real_public: closed
C45_associative: closed
C45_adjoint: closed
C45_gram: closed
C45_identity: closed
C46_gemm_local: closed
C47_split_columns: closed
C47_split_rows: closed
C47_split_inner_double: ClassicalDedekindReals.sig_forall_dec, ClassicalDedekindReals.sig_not_dec, Classical_Prop.classic, FunctionalExtensionality.functional_extensionality_dep
C47_split_inner: closed
C48_mul_int: ClassicalDedekindReals.sig_forall_dec, ClassicalDedekindReals.sig_not_dec, Classical_Prop.classic, FunctionalExtensionality.functional_extensionality_dep
C48_scalv_int: ClassicalDedekindReals.sig_forall_dec, ClassicalDedekindReals.sig_not_dec, Classical_Prop.classic, FunctionalExtensionality.functional_extensionality_dep
C48_axpyv_int: ClassicalDedekindReals.sig_forall_dec, ClassicalDedekindReals.sig_not_dec, Classical_Prop.classic, FunctionalExtensionality.functional_extensionality_dep
C48_dot_int: ClassicalDedekindReals.sig_forall_dec, ClassicalDedekindReals.sig_not_dec, Classical_Prop.classic, FunctionalExtensionality.functional_extensionality_dep
C48_gemm_int: ClassicalDedekindReals.sig_forall_dec, ClassicalDedekindReals.sig_not_dec, Classical_Prop.classic, FunctionalExtensionality.functional_extensionality_dep
C49_norm_err: ClassicalDedekindReals.sig_forall_dec, ClassicalDedekindReals.sig_not_dec, Classical_Prop.classic, FunctionalExtensionality.functional_extensionality_dep
C49_versor_err: ClassicalDedekindReals.sig_forall_dec, ClassicalDedekindReals.sig_not_dec, Classical_Prop.classic, FunctionalExtensionality.functional_extensionality_dep
C49_inv_err: ClassicalDedekindReals.sig_forall_dec, ClassicalDedekindReals.sig_not_dec, Classical_Prop.classic, FunctionalExtensionality.functional_extensionality_dep
C49_inv_mul: ClassicalDedekindReals.sig_forall_dec, ClassicalDedekindReals.sig_not_dec, Classical_Prop.classic, FunctionalExtensionality.functional_extensionality_dep
C49_contracted: ClassicalDedekindReals.sig_forall_dec, ClassicalDedekindReals.sig_not_dec, Classical_Prop.classic, FunctionalExtensionality.functional_extensionality_dep
C49_overflow_refuted: ClassicalDedekindReals.sig_forall_dec, ClassicalDedekindReals.sig_not_dec, Classical_Prop.classic, FunctionalExtensionality.functional_extensionality_dep
C49_underflow_refuted: ClassicalDedekindReals.sig_forall_dec, ClassicalDedekindReals.sig_not_dec, Classical_Prop.classic, FunctionalExtensionality.functional_extensionality_dep
C50_copyv: closed
C50_axpyv: closed
C50_swapv: closed
C50_swapv_self: closed
C50_axpym_partial: closed
C50_layouts: closed
C50_separate_agree: closed
C50_copyv_overlap_refuted: closed
C51_gemm_views: closed
C51_separate_agree: closed
C51_in_place_refuted: closed
C52_swap_twice: closed
C52_scal_compose: closed
C52_scal_inverse: ClassicalDedekindReals.sig_forall_dec, ClassicalDedekindReals.sig_not_dec, FunctionalExtensionality.functional_extensionality_dep
C52_axpy_undo: closed
C52_dot_linear: closed
C52_inner_product: ClassicalDedekindReals.sig_forall_dec, ClassicalDedekindReals.sig_not_dec, FunctionalExtensionality.functional_extensionality_dep
C53_adjoint: closed
C53_rank1: closed
C54_hgemm_err: ClassicalDedekindReals.sig_forall_dec, ClassicalDedekindReals.sig_not_dec, Classical_Prop.classic, FunctionalExtensionality.functional_extensionality_dep
C54_hgemv_err_partial: ClassicalDedekindReals.sig_forall_dec, ClassicalDedekindReals.sig_not_dec, Classical_Prop.classic, FunctionalExtensionality.functional_extensionality_dep
C54_hger_err_partial: ClassicalDedekindReals.sig_forall_dec, ClassicalDedekindReals.sig_not_dec, Classical_Prop.classic, FunctionalExtensionality.functional_extensionality_dep
C55_hgemv_int_partial: ClassicalDedekindReals.sig_forall_dec, ClassicalDedekindReals.sig_not_dec, Classical_Prop.classic, FunctionalExtensionality.functional_extensionality_dep
C55_hger_int_partial: ClassicalDedekindReals.sig_forall_dec, ClassicalDedekindReals.sig_not_dec, Classical_Prop.classic, FunctionalExtensionality.functional_extensionality_dep
C56_accessors: closed
C56_constructors: closed
C56_quaternion_argument: closed
C56_scalar_argument_partial: closed
C56_scalar_self: closed
C56_scalar_self_refuted: closed
C56_complex_argument: closed
C56_assignment_statements: closed
C56_other_component_type: closed
C57_insertion: closed
C57_text_identifies_partial: closed
C57_comma_locale_refuted: closed
C58_gemm_real_err: ClassicalDedekindReals.sig_forall_dec, ClassicalDedekindReals.sig_not_dec, Classical_Prop.classic, FunctionalExtensionality.functional_extensionality_dep
C58_gemv_real_err: ClassicalDedekindReals.sig_forall_dec, ClassicalDedekindReals.sig_not_dec, Classical_Prop.classic, FunctionalExtensionality.functional_extensionality_dep
C58_alpha_a_overflow_refuted: ClassicalDedekindReals.sig_forall_dec, ClassicalDedekindReals.sig_not_dec, Classical_Prop.classic, FunctionalExtensionality.functional_extensionality_dep
C59_gemm_real_int: ClassicalDedekindReals.sig_forall_dec, ClassicalDedekindReals.sig_not_dec, Classical_Prop.classic, FunctionalExtensionality.functional_extensionality_dep
C59_gemv_real_int: ClassicalDedekindReals.sig_forall_dec, ClassicalDedekindReals.sig_not_dec, Classical_Prop.classic, FunctionalExtensionality.functional_extensionality_dep
C60_self_nonneg: ClassicalDedekindReals.sig_forall_dec, ClassicalDedekindReals.sig_not_dec, Classical_Prop.classic, FunctionalExtensionality.functional_extensionality_dep
C60_self_imag_partial: ClassicalDedekindReals.sig_forall_dec, ClassicalDedekindReals.sig_not_dec, Classical_Prop.classic, FunctionalExtensionality.functional_extensionality_dep
C60_self_imag_refuted: ClassicalDedekindReals.sig_forall_dec, ClassicalDedekindReals.sig_not_dec, Classical_Prop.classic, FunctionalExtensionality.functional_extensionality_dep
C60_definite_refuted: ClassicalDedekindReals.sig_forall_dec, ClassicalDedekindReals.sig_not_dec, Classical_Prop.classic, FunctionalExtensionality.functional_extensionality_dep
C61_scalv: closed
C61_axpyv: closed
C61_dot: closed
C61_gemv_partial: closed
C61_ger_partial: closed
C61_gemv_real: closed
C61_gemm_real: closed
C61_gemv_stride_refuted: closed
C62_scal_text: closed
C62_axpy_text: closed
C62_dot_text: closed
C62_gemv_text: closed
C62_ger_text: closed
C62_gemm_text: closed
C62_util_text: closed
C62_lsame: closed
C63_scal_partial: closed
C63_axpy: closed
C63_dot: closed
C63_gemv_dd: closed
C63_gemv_partial: closed
C63_ger: closed
C63_ger_d_partial: closed
C63_ger_d_strided_refuted: closed
C63_gemm: closed
C63_expand: closed
C63_contract: closed
C64_gemv_dd_public: closed
C64_gemv_public_partial: closed
C64_ger_public: closed
C64_ger_d_public_partial: closed
C65_concurrent_calls: closed
C65_same_as_alone: closed
C65_shared_result_depends_on_schedule: closed
C66_concurrent_public_calls: closed
C66_same_bits: closed
C67_swap: closed
C67_copy: closed
C67_scal: closed
C67_axpy: closed
C67_dot: closed
C67_kern: closed
C67_gemm: closed
C68_swap: closed
C68_copy: closed
C68_scal: closed
C68_axpy: closed
C68_dot: closed
C68_gemm: closed
C68_gemm_frame: closed
C69_swap: closed
C69_copy: closed
C69_scal: closed
C69_axpy: closed
C69_dot: closed
C69_scalm: closed
C69_axpym: closed
C69_gemv_real: FunctionalExtensionality.functional_extensionality_dep
C69_gemm_real: closed
C70_swap: closed
C70_copy: closed
C70_scal: closed
C70_axpy_partial: closed
C70_dot: closed
C70_scalm: closed
C70_axpym_partial: closed
C70_axpym_refuted: closed
C70_gemv_real: FunctionalExtensionality.functional_extensionality_dep
C70_gemm_real: closed
C70_gemm_real_frame: closed
C71_constructors: closed
C71_accessors: closed
C71_assignment: closed
C71_assignment_value: closed
C71_quaternion_operators: closed
C71_real_operators: closed
C71_complex_operators: closed
C71_reductions: closed
C71_comm_real: closed
C71_smartconj: closed
C71_comparisons: closed
C72_ring_expressions: closed
C72_division_expressions: ClassicalDedekindReals.sig_forall_dec, ClassicalDedekindReals.sig_not_dec, FunctionalExtensionality.functional_extensionality_dep
C72_statements: closed
C72_add_subtract: closed
C72_comparison_refuted: closed
C72_comparison_partial: closed
C73_one_definition: closed
C73_no_other: closed
C73_cpp: closed
C73_templates: closed
C73_fortran: closed
C73_util: closed
C73_generic_fortran_refuted: closed
C74_swap: closed
C74_copy: closed
C74_scal: closed
C74_axpy: closed
C74_dot: closed
C74_gemm: closed
C74_gemm_frame: closed
C74_scalm: closed
C74_axpym_partial: closed
C74_axpym_refuted: closed
C74_gemv_real: FunctionalExtensionality.functional_extensionality_dep
C74_gemm_real: closed
C74_gemm_real_frame: closed
C74_gemv_dd: closed
C74_gemv_partial: closed
C74_ger: closed
C74_ger_d_partial: closed
C74_ger_d_strided_refuted: closed
C74_gemm_fortran: closed
C74_expand: closed
C74_contract: closed
C75_scalv: ClassicalDedekindReals.sig_forall_dec, ClassicalDedekindReals.sig_not_dec, Classical_Prop.classic, FunctionalExtensionality.functional_extensionality_dep
C75_axpyv: ClassicalDedekindReals.sig_forall_dec, ClassicalDedekindReals.sig_not_dec, Classical_Prop.classic, FunctionalExtensionality.functional_extensionality_dep
C75_dot: ClassicalDedekindReals.sig_forall_dec, ClassicalDedekindReals.sig_not_dec, Classical_Prop.classic, FunctionalExtensionality.functional_extensionality_dep
C75_gemm: ClassicalDedekindReals.sig_forall_dec, ClassicalDedekindReals.sig_not_dec, Classical_Prop.classic, FunctionalExtensionality.functional_extensionality_dep
C75_gemm_fortran: ClassicalDedekindReals.sig_forall_dec, ClassicalDedekindReals.sig_not_dec, Classical_Prop.classic, FunctionalExtensionality.functional_extensionality_dep
C75_gemv_partial: ClassicalDedekindReals.sig_forall_dec, ClassicalDedekindReals.sig_not_dec, Classical_Prop.classic, FunctionalExtensionality.functional_extensionality_dep
C75_ger_partial: ClassicalDedekindReals.sig_forall_dec, ClassicalDedekindReals.sig_not_dec, Classical_Prop.classic, FunctionalExtensionality.functional_extensionality_dep
C75_gemm_real: ClassicalDedekindReals.sig_forall_dec, ClassicalDedekindReals.sig_not_dec, Classical_Prop.classic, FunctionalExtensionality.functional_extensionality_dep
C75_gemv_real: ClassicalDedekindReals.sig_forall_dec, ClassicalDedekindReals.sig_not_dec, Classical_Prop.classic, FunctionalExtensionality.functional_extensionality_dep
C76_scalv: ClassicalDedekindReals.sig_forall_dec, ClassicalDedekindReals.sig_not_dec, Classical_Prop.classic, FunctionalExtensionality.functional_extensionality_dep
C76_axpyv: ClassicalDedekindReals.sig_forall_dec, ClassicalDedekindReals.sig_not_dec, Classical_Prop.classic, FunctionalExtensionality.functional_extensionality_dep
C76_dot: ClassicalDedekindReals.sig_forall_dec, ClassicalDedekindReals.sig_not_dec, Classical_Prop.classic, FunctionalExtensionality.functional_extensionality_dep
C76_gemm: ClassicalDedekindReals.sig_forall_dec, ClassicalDedekindReals.sig_not_dec, Classical_Prop.classic, FunctionalExtensionality.functional_extensionality_dep
C76_gemm_fortran: ClassicalDedekindReals.sig_forall_dec, ClassicalDedekindReals.sig_not_dec, Classical_Prop.classic, FunctionalExtensionality.functional_extensionality_dep
C76_gemv_partial: ClassicalDedekindReals.sig_forall_dec, ClassicalDedekindReals.sig_not_dec, Classical_Prop.classic, FunctionalExtensionality.functional_extensionality_dep
C76_ger_partial: ClassicalDedekindReals.sig_forall_dec, ClassicalDedekindReals.sig_not_dec, Classical_Prop.classic, FunctionalExtensionality.functional_extensionality_dep
C76_gemm_real: ClassicalDedekindReals.sig_forall_dec, ClassicalDedekindReals.sig_not_dec, Classical_Prop.classic, FunctionalExtensionality.functional_extensionality_dep
C76_gemv_real: ClassicalDedekindReals.sig_forall_dec, ClassicalDedekindReals.sig_not_dec, Classical_Prop.classic, FunctionalExtensionality.functional_extensionality_dep
C77_tpack: closed
C77_npack: closed
C77_tpack_layout: closed
C77_npack_layout: closed
C78_gemm_text: closed
C78_gemm: closed
C78_gemm_frame: closed
C79_tpack: closed
C79_npack: closed
C80_gemm_local: closed
C80_gemm_same: closed
C80_gemm_err: ClassicalDedekindReals.sig_forall_dec, ClassicalDedekindReals.sig_not_dec, Classical_Prop.classic, FunctionalExtensionality.functional_extensionality_dep
C80_gemm_int: ClassicalDedekindReals.sig_forall_dec, ClassicalDedekindReals.sig_not_dec, Classical_Prop.classic, FunctionalExtensionality.functional_extensionality_dep
C81_apply: closed
C81_apply_ub: closed
C81_apply_n: closed
C81_execute: closed
C81_store: closed
C81_pointers: closed
C81_pack_loop: closed
C82_prototypes: closed
C82_receives: closed
C82_declared: closed
C82_calls: closed
C82_level1: closed
C83_templates: closed
C83_linked: closed
C83_declared: closed
