{
 "claims": [
  {
   "property": "C01",
   "status": "proved",
   "theorems": [
    "C01_dot_product_unbalanced"
   ],
   "note": ""
  },
  {
   "property": "C02",
   "status": "proved",
   "theorems": [
    "C02_integer_dot_product"
   ],
   "note": ""
  },
  {
   "property": "C03",
   "status": "proved",
   "theorems": [
    "C03_dot_product_multi"
   ],
   "note": ""
  },
  {
   "property": "C04",
   "status": "partial",
   "theorems": [
    "C04_nmod32_dot_split",
    "C04_vec_2dot2_split_partial",
    "C04_vec_2dot2_split_refuted"
   ],
   "note": "nmod32 kernel proved on the whole documented domain; the two-vector kernel is exact up to length 47546087 and refuted at FLINT's maximal length (missing split before recombination)"
  },
  {
   "property": "C05",
   "status": "partial",
   "theorems": [
    "C05_split26_partial",
    "C05_split26_refuted"
   ],
   "note": "refuted as stated: the low accumulator addition loses a carry; proved when the low parts sum below 2^52"
  },
  {
   "property": "C06",
   "status": "proved",
   "theorems": [
    "C06_inverse_mod_power_of_two",
    "C06_shift_63_undefined"
   ],
   "note": "k <= 62; k = 63 is undefined behaviour in C"
  },
  {
   "property": "C07",
   "status": "partial",
   "theorems": [
    "C07_next_power_of_two_partial",
    "C07_next_power_of_two_undefined",
    "C07_next_power_of_two_refuted"
   ],
   "note": "refuted as stated for words above 2^30 (int truncation); exact up to 2^30"
  },
  {
   "property": "C08",
   "status": "partial",
   "theorems": [
    "C08_find_root_sound",
    "C08_find_root_complete_partial",
    "C08_find_root_complete_refuted"
   ],
   "note": "soundness proved; completeness refuted when the largest order is exactly n"
  },
  {
   "property": "C09",
   "status": "proved",
   "theorems": [
    "C09_crt_combine",
    "C09_crt"
   ],
   "note": ""
  },
  {
   "property": "C10",
   "status": "proved",
   "theorems": [
    "C10_multimod_reduce"
   ],
   "note": "size assumption: GMP's own limit on the number of limbs of the product"
  },
  {
   "property": "C15",
   "status": "proved",
   "theorems": [
    "C15_left_nullspace",
    "C15_left_nullspace_compact"
   ],
   "note": "FLINT's nmod_mat_nullspace is trusted (modelled by its specification: nonzero columns of a reduced-echelon-type right kernel basis)"
  },
  {
   "property": "C16",
   "status": "proved",
   "theorems": [
    "C16_poly_mat_to_mat_poly",
    "C16_mat_poly_to_poly_mat",
    "C16_roundtrip_poly_mat",
    "C16_roundtrip_mat_poly"
   ],
   "note": ""
  },
  {
   "property": "C17",
   "status": "partial",
   "theorems": [
    "C17_shift_left_aliased",
    "C17_truncate",
    "C17_shift_left_refuted",
    "C17_is_constant_refuted"
   ],
   "note": "false of the code for non-aliased shift_left and for is_constant: refuted with witnesses; the aliased shift and truncate are proved"
  },
  {
   "property": "C18",
   "status": "proved",
   "theorems": [
    "C18_mbasis",
    "C18_C19_mat_poly_mbasis",
    "C18_mbasis_nonsingular",
    "C18_mbasis_order0_refuted"
   ],
   "note": "for every order >= 1; order 0 on a nonzero input is undefined behaviour"
  },
  {
   "property": "C19",
   "status": "proved",
   "theorems": [
    "C19_mbasis",
    "C18_C19_mat_poly_mbasis"
   ],
   "note": ""
  },
  {
   "property": "C45",
   "status": "proved",
   "theorems": [
    "C45_mul_coeff"
   ],
   "note": ""
  },
  {
   "property": "C46",
   "status": "proved",
   "theorems": [
    "C46_evaluate"
   ],
   "note": ""
  },
  {
   "property": "C20",
   "status": "proved",
   "theorems": [
    "C20_pmbasis",
    "C20_pmbasis_threshold"
   ],
   "note": "prime modulus"
  },
  {
   "property": "C41",
   "status": "partial",
   "theorems": [
    "C41_mul_waksman",
    "C41_mul_waksman_alias_refuted",
    "C41_mul_waksman_even_refuted"
   ],
   "note": "odd moduli, prime or not, without aliasing; false for even moduli (not excluded by the guard) and for aliased outputs: refuted with witnesses. modn = 2^64-1 (wrap of modn+1) is excluded from the model"
  },
  {
   "property": "C42",
   "status": "proved",
   "theorems": [
    "C42_mulmid",
    "C42_mulmid_naive"
   ],
   "note": "prime modulus"
  },
  {
   "property": "C43",
   "status": "proved",
   "theorems": [
    "C43_mulmid_geometric1",
    "C43_mulmid_geometric2",
    "C43_mulmid_geometric"
   ],
   "note": "FLINT's geometric evaluation and interpolation are modelled by their specification"
  },
  {
   "property": "C44",
   "status": "partial",
   "theorems": [
    "C44_mul_geometric",
    "C44_mul_geometric_precomp",
    "C44_mul_vandermonde1",
    "C44_mul_vandermonde2",
    "C44_multiply",
    "C44_mul_vandermonde1_alias_refuted"
   ],
   "note": "prime modulus; aliased output of the Vandermonde products is refuted"
  },
  {
   "property": "C27",
   "status": "proved",
   "theorems": [
    "C27_row_degree",
    "C27_column_degree",
    "C27_row_degree_zero",
    "C27_column_degree_zero",
    "C27_degree_matrix_shifted"
   ],
   "note": ""
  },
  {
   "property": "C28",
   "status": "partial",
   "theorems": [
    "C28_pivot_profile",
    "C28_pivot_profile_zero",
    "C28_pivot_profile_zero_refuted",
    "C28_pivot_index"
   ],
   "note": "nonzero vectors: proved for all orientations and shifts; zero vectors: false of the code for ROW_UPPER/COL_LOWER with a shift (index and degree values exchanged), refuted"
  },
  {
   "property": "C29",
   "status": "proved",
   "theorems": [
    "C29_leading_matrix",
    "C29_is_reduced",
    "C29_weak_popov_is_reduced"
   ],
   "note": "nmod_mat_rank is modelled by the rank"
  },
  {
   "property": "C30",
   "status": "proved",
   "theorems": [
    "C30_is_weak_popov",
    "C30_is_ordered_weak_popov"
   ],
   "note": ""
  },
  {
   "property": "C31",
   "status": "partial",
   "theorems": [
    "C31_is_popov_partial",
    "C31_is_popov_row_upper_refuted",
    "C31_is_popov_row_upper_accepts_refuted",
    "C31_is_popov_row_upper_ub_refuted"
   ],
   "note": "exact for three orientations; false for ROW_UPPER (test written ROW_LOWER || ROW_LOWER): rejects Popov matrices, accepts others, reads outside of the matrix"
  },
  {
   "property": "C32",
   "status": "partial",
   "theorems": [
    "C32_is_echelon",
    "C32_is_hermite",
    "C32_is_form_partial",
    "C32_is_form_hermite_refuted"
   ],
   "note": "both tests are exact; the dispatcher is false for HERMITE, which it sends to the echelon test"
  },
  {
   "property": "C22",
   "status": "partial",
   "theorems": [
    "C22_inv_trunc",
    "C22_inv_trunc_order0_refuted"
   ],
   "note": "proved in full for every order >= 1; at order 0 the stated equivalence is false of the code (it always answers true), refuted"
  },
  {
   "property": "C23",
   "status": "proved",
   "theorems": [
    "C23_dixon",
    "C23_dixon_order0_diverges"
   ],
   "note": "order >= 1 as in the statement; beyond it, order 0 is shown to loop forever"
  },
  {
   "property": "C21",
   "status": "partial",
   "theorems": [
    "C21_complete",
    "C21_sound_partial",
    "C21_refuted",
    "C21_degree_test_vacuous",
    "C21_wrong_dimensions_ub"
   ],
   "note": "completeness proved; soundness is false of the code (only the degree of the determinant is tested, a test that cannot fail), refuted by P = [X+1]; proved under the missing condition that the determinant is a monomial"
  },
  {
   "property": "C47",
   "status": "partial",
   "theorems": [
    "C47_is_kernel_rows",
    "C47_is_kernel_columns",
    "C47_complete",
    "C47_sound_partial",
    "C47_refuted"
   ],
   "note": "completeness proved (row-wise); the code does not check generation, so soundness is false (refuted); proved: accepted matrices generate the kernel over the fractions"
  },
  {
   "property": "C24",
   "status": "proved",
   "theorems": [
    "C24_kernel_via_approx"
   ],
   "note": ""
  },
  {
   "property": "C25",
   "status": "proved",
   "theorems": [
    "C25_kernel_via_approx"
   ],
   "note": "the rank of the constant coefficient is modelled by its specification"
  },
  {
   "property": "C26",
   "status": "proved",
   "theorems": [
    "C26_kernel_zls",
    "C26_agrees_via_approx"
   ],
   "note": "termination is part of the statement; the sort of the shifts is modelled by a stable sort"
  },
  {
   "property": "C48",
   "status": "proved",
   "theorems": [
    "C48_kernel",
    "C48_kernel_throws"
   ],
   "note": ""
  },
  {
   "property": "C11",
   "status": "partial",
   "theorems": [
    "C11_rows_downward",
    "C11_rows_upward",
    "C11_columns_rightward",
    "C11_columns_leftward_partial",
    "C11_columns_leftward_refuted"
   ],
   "note": "proved for three of the four rotations; false for the leftward rotation (last write goes to the wrong column), refuted and characterised"
  },
  {
   "property": "C12",
   "status": "partial",
   "theorems": [
    "C12_permute_columns_partial",
    "C12_permute_columns_refuted",
    "C12_permute_columns_ub_refuted"
   ],
   "note": "false when a permutation is stored for a rectangular matrix (composition with the number of rows); proved for square matrices or without stored permutation"
  },
  {
   "property": "C13",
   "status": "proved",
   "theorems": [
    "C13_pluq"
   ],
   "note": ""
  },
  {
   "property": "C14",
   "status": "partial",
   "theorems": [
    "C14_l_u_zeroin_partial",
    "C14_l_u_from_compactlu_partial",
    "C14_stale_row_refuted",
    "C14_v33_refuted",
    "C14_v33_ub_refuted"
   ],
   "note": "false of the code in two ways (stale first row of L; separate U with FLINT >= 3.3), refuted; proved in the remaining cases"
  },
  {
   "property": "C49",
   "status": "proved",
   "theorems": [
    "C49_pluq_crout"
   ],
   "note": "dot products modelled by their value"
  },
  {
   "property": "C50",
   "status": "proved",
   "theorems": [
    "C50_permute_rows_by_sorting_vec",
    "C50_permute_columns_by_sorting_vec"
   ],
   "note": ""
  },
  {
   "property": "C33",
   "status": "partial",
   "theorems": [
    "C33_weak_popov_iter_partial",
    "C33_weak_popov_iter_refuted"
   ],
   "note": "proved for ROW_LOWER, for the uniform shift and for full row rank; false for ROW_UPPER with a shift and dependent rows (out of bounds read), refuted"
  },
  {
   "property": "C34",
   "status": "proved",
   "theorems": [
    "C34_weak_popov_iter_terminates",
    "C34_ordered_weak_popov_iter_terminates"
   ],
   "note": "with an explicit bound on the number of iterations"
  },
  {
   "property": "C51",
   "status": "partial",
   "theorems": [
    "C51_weak_popov_submat_partial",
    "C51_zero_row_refuted",
    "C51_cstart_refuted"
   ],
   "note": "proved when cstart = 0 and no zero row is met with ROW_UPPER and a shift; refuted in both other cases"
  },
  {
   "property": "C52",
   "status": "partial",
   "theorems": [
    "C52_ordered_weak_popov_iter_partial"
   ],
   "note": "same exclusion as C33"
  },
  {
   "property": "C35",
   "status": "proved",
   "theorems": [
    "C35_uref_maxdeg_atomic",
    "C35_uref_revlex_xgcd",
    "C35_uref_lex_xgcd"
   ],
   "note": "for every extended gcd returning a monic gcd and cofactors; termination, transformation of determinant 1 or -1 also applied to tsf, echelon shape, rank, column rank profile, untouched entries of pivind"
  },
  {
   "property": "C36",
   "status": "proved",
   "theorems": [
    "C36_normalize_uref",
    "C36_hnf_maxdeg_atomic",
    "C36_hnf_revlex_xgcd",
    "C36_hnf_lex_xgcd"
   ],
   "note": ""
  },
  {
   "property": "C37",
   "status": "proved",
   "theorems": [
    "C37_hermite_unique",
    "C37_same_hermite_form"
   ],
   "note": ""
  },
  {
   "property": "C38",
   "status": "partial",
   "theorems": [
    "C38_delayed_zero_partial",
    "C38_delayed_zero_refuted"
   ],
   "note": "the loop stops as soon as the last column holds a pivot, without eliminating the rows left: [x; x+1] is returned unchanged with rank 1. Proved Hermite when the rank is the number of rows or when the last column is not in the column rank profile; the nonzero part of the output is always in Hermite form"
  },
  {
   "property": "C53",
   "status": "proved",
   "theorems": [
    "C53_mrp_revlex",
    "C53_mrp_lex",
    "C53_mrp_delayed_zero"
   ],
   "note": ""
  },
  {
   "property": "C39",
   "status": "proved",
   "theorems": [
    "C39_det_iter"
   ],
   "note": ""
  },
  {
   "property": "C40",
   "status": "partial",
   "theorems": [
    "C40_is_unimodular",
    "C40_randomized_complete",
    "C40_randomized_partial",
    "C40_randomized_refuted"
   ],
   "note": "the deterministic test is exact; the randomized one never rejects a unimodular matrix, but compares the determinant at the first point with itself, so it accepts every matrix that is invertible at the first point (refuted)"
  },
  {
   "property": "C54",
   "status": "partial",
   "theorems": [
    "C54_uref_matrixgcd_iter_partial",
    "C54_udet_refuted",
    "C54_hnf_matrixgcd_iter"
   ],
   "note": "everything is proved but the update of udet, which misses the row swaps done when a pivot is missing (m > n), refuted"
  },
  {
   "property": "C55",
   "status": "proved",
   "theorems": [
    "C55_power_series_division",
    "C55_quotient_unique",
    "C55_not_invertible"
   ],
   "note": ""
  },
  {
   "property": "C56",
   "status": "partial",
   "theorems": [
    "C56_shift_object",
    "C56_taylor_shift_partial",
    "C56_taylor_shift_zero_refuted"
   ],
   "note": "proved but for f = 0 in odd characteristic, where the constructor writes to an empty vector (refuted)"
  },
  {
   "property": "C57",
   "status": "partial",
   "theorems": [
    "C57_add_left_shift_partial",
    "C57_zero_not_normalised_refuted",
    "C57_alias_b_refuted"
   ],
   "note": "proved but for b = 0 with k larger than the length of a (result not normalised, refuted) and for c the same object as b, which the header allows (refuted)"
  },
  {
   "property": "C58",
   "status": "partial",
   "theorems": [
    "C58_middle_product_partial",
    "C58_karatsuba_memory",
    "C58_long_accumulation",
    "C58_long_overflow_refuted"
   ],
   "note": "value, termination and memory proved with exact residues; the delayed reduction is proved for at most 256 terms and refuted for 257 (the code only bounds the smaller of the two sizes)"
  },
  {
   "property": "C59",
   "status": "proved",
   "theorems": [
    "C59_crt",
    "C59_combine_unique",
    "C59_no_moduli_refuted"
   ],
   "note": "C59_no_moduli_refuted: on an empty vector of moduli the constructor loops for ever"
  },
  {
   "property": "C60",
   "status": "partial",
   "theorems": [
    "C60_general_points",
    "C60_interpolation_unique",
    "C60_vectors_and_matrices",
    "C60_transposed_vectors_and_matrices",
    "C60_dense",
    "C60_default_points",
    "C60_output_size_refuted",
    "C60_no_points_refuted"
   ],
   "note": "everything proved for the default output size; the argument output_size of t_evaluate is ignored, so the statement for other sizes is refuted"
  },
  {
   "property": "C61",
   "status": "partial",
   "theorems": [
    "C61_constructor",
    "C61_history",
    "C61_evaluate",
    "C61_interpolate",
    "C61_t_evaluate",
    "C61_t_interpolate",
    "C61_vector_products",
    "C61_evaluate_nb",
    "C61_vectors_and_matrices",
    "C61_points_partial",
    "C61_evaluate_nb_zero_refuted",
    "C61_one_point_refuted",
    "C61_output_size_refuted",
    "C61_output_size_one_refuted",
    "C61_alias_refuted"
   ],
   "note": "proved except where the code does not satisfy it: get_point, get_s for one point; nb = 0; output_size above the number of points; aliasing in evaluate"
  },
  {
   "property": "C62",
   "status": "proved",
   "theorems": [
    "C62_order",
    "C62_element_of_order",
    "C62_geometric_points"
   ],
   "note": "element_of_order for a prime modulus and strong = true (the default)"
  },
  {
   "property": "C63",
   "status": "partial",
   "theorems": [
    "C63_constructor",
    "C63_operations",
    "C63_roundtrip",
    "C63_get_points",
    "C63_one_point_refuted",
    "C63_get_points_one_refuted",
    "C63_output_size_refuted"
   ],
   "note": "proved except where the code does not satisfy it: n = 1; output_size above the number of points. NTL's TofftRep is specified (values at distinct n-th roots of unity, order unknown)"
  },
  {
   "property": "C64",
   "status": "partial",
   "theorems": [
    "C64_transforms",
    "C64_naive_length",
    "C64_multiply_transform",
    "C64_multiply_transform_auto",
    "C64_bad_dimensions",
    "C64_zero_refuted",
    "C64_too_long_refuted"
   ],
   "note": "proved except where the code does not satisfy it: the product of two zero matrices gets dimensions 0 x 0 (or no error for bad dimensions); the variants for a fixed length ignore further coefficients"
  },
  {
   "property": "C65",
   "status": "partial",
   "theorems": [
    "C65_entrywise",
    "C65_add_sub",
    "C65_add_sub_constant",
    "C65_constant_products",
    "C65_rejected",
    "C65_coefficients",
    "C65_transpose",
    "C65_constructors",
    "C65_tests",
    "C65_shift_row_col",
    "C65_trunc_row_col_partial",
    "C65_trunc_row_refuted",
    "C65_trunc_col_refuted"
   ],
   "note": "proved except for truncRow and truncCol with an output distinct from the input, which do not copy the other entries (refuted)"
  },
  {
   "property": "C66",
   "status": "partial",
   "theorems": [
    "C66_from_constant",
    "C66_from_vector",
    "C66_from_vector_truncated",
    "C66_to_vector_truncated",
    "C66_to_vector_partial",
    "C66_to_vector_refuted",
    "C66_roundtrip",
    "C66_eval",
    "C66_eval_empty",
    "C66_eval_conv"
   ],
   "note": "proved except for conv to Vec<Mat<zz_p>> without a truncation order, which reads out of bounds as soon as two entries have different degrees (refuted; proved when all the degrees are equal)"
  },
  {
   "property": "C67",
   "status": "partial",
   "theorems": [
    "C67_naive",
    "C67_waksman",
    "C67_naive_empty_refuted",
    "C67_waksman_empty_refuted"
   ],
   "note": "proved for matrices with rows and columns; with empty dimensions both functions access entries that do not exist (refuted)"
  },
  {
   "property": "C68",
   "status": "partial",
   "theorems": [
    "C68_dense",
    "C68_dense2",
    "C68_dense_zero_refuted",
    "C68_dense_points",
    "C68_geometric",
    "C68_geometric_zero_refuted",
    "C68_t_multiply"
   ],
   "note": "proved for non-zero operands (dense2: all operands); with a zero operand multiply_evaluate_dense leaves the bounds of vectors and multiply_evaluate_geometric returns a matrix with the wrong number of columns (both refuted)"
  },
  {
   "property": "C69",
   "status": "partial",
   "theorems": [
    "C69_direct",
    "C69_direct_ll",
    "C69_matmul1",
    "C69_matmul2",
    "C69_matmul3",
    "C69_matmul3_refuted",
    "C69_fft",
    "C69_fft_refuted",
    "C69_fft_zero_refuted"
   ],
   "note": "false in two cases. When a has one column and at least two rows and b has 2 to 16 columns, matmul3 dereferences a null pointer (C69_matmul3_refuted, and C69_fft_refuted for the function that chooses the variant). For a prime of less than 25 bits and a zero operand, multiply_evaluate_FFT can call multiply_evaluate_dense, which fails (C69_fft_zero_refuted). Proved in all other cases"
  },
  {
   "property": "C70",
   "status": "proved",
   "theorems": [
    "C70_multiply_3_primes",
    "C70_too_large"
   ],
   "note": "for positive dimensions; excludes the case of the null pointer of C69, and zero operands for FFT primes of less than 25 bits (those of NTL are larger)"
  },
  {
   "property": "C71",
   "status": "proved",
   "theorems": [
    "C71_multiply",
    "C71_multiply_column",
    "C71_multiply_row",
    "C71_alias_ignores_is_prime"
   ],
   "note": "for prime moduli; the thresholds are arbitrary functions. C71_alias_ignores_is_prime records that is_prime = 0 is not passed to the recursive call"
  },
  {
   "property": "C72",
   "status": "partial",
   "theorems": [
    "C72_naive",
    "C72_naive_no_column",
    "C72_direct",
    "C72_direct_ll",
    "C72_matmul",
    "C72_matmul1",
    "C72_matmul2",
    "C72_matmul3",
    "C72_matmul3_refuted",
    "C72_dense",
    "C72_dense_points",
    "C72_dense_degree",
    "C72_evaluate_fft",
    "C72_evaluate_fft_new",
    "C72_evaluate_fft_new_refuted"
   ],
   "note": "false of the code for the third variant by matrix products when a has one column, several rows, and c has 2 to 16 columns (a null pointer, C72_matmul3_refuted, reached by middle_product_evaluate_FFT_new, C72_evaluate_fft_new_refuted). Moduli not set by FFTInit are not modelled"
  },
  {
   "property": "C73",
   "status": "partial",
   "theorems": [
    "C73_3_primes",
    "C73_3_primes_low",
    "C73_3_primes_refuted",
    "C73_middle_product",
    "C73_naive_any_degree",
    "C73_zero_refuted",
    "C73_degree_refuted",
    "C73_bound_refuted"
   ],
   "note": "proved for operands of degrees at most dA and dA + dB, a nonzero, and an FFT modulo p or deg(a) <= dB; false of the code for a = 0 when the naive algorithm is not chosen (C73_zero_refuted), for dB < deg(a) with FFT primes (the number of primes is computed for dB + 1 terms, C73_3_primes_refuted, C73_bound_refuted) and for operands of larger degrees (C73_degree_refuted)"
  },
  {
   "property": "C74",
   "status": "partial",
   "theorems": [
    "C74_plain",
    "C74_plain_rejects",
    "C74_newton_fft",
    "C74_newton_fft_constant_refuted",
    "C74_newton_middle",
    "C74_newton_geometric",
    "C74_newton_geometric_threshold_1_refuted",
    "C74_newton_rejects",
    "C74_inv_trunc",
    "C74_inv_trunc_constant_refuted"
   ],
   "note": "proved when a is not constant, or the memory of x holds only zeros, or m is at most the threshold, or middle products are used; false of the code when a is constant and the entries of x have held polynomials of degree at least 1 (the FFT and geometric versions lengthen the arrays of the entries without clearing them: C74_newton_fft_constant_refuted, C74_inv_trunc_constant_refuted), and for the geometric version with threshold 1; the FFTs and evaluation points are those of C69 and C61; high_order_lift_inverse_odd is not modelled"
  },
  {
   "property": "C75",
   "status": "partial",
   "theorems": [
    "C75_get_lmultiplier",
    "C75_degree_too_large",
    "C75_small_field_refuted",
    "C75_zero_refuted"
   ],
   "note": "proved when the points or the FFT primes are sufficient and a is not zero (or p is an FFT prime); false of the code in fields with at most deg(a) + dB elements when deg(a) <= 150, and for a = 0, without FFT modulo p; the rejection of too large degrees is proved for p at most the first FFT prime of NTL; the FFTs and evaluation points are those of C69 and C61"
  },
  {
   "property": "C76",
   "status": "partial",
   "theorems": [
    "C76_solution_exists",
    "C76_solution_unique",
    "C76_low_precision",
    "C76_high_precision",
    "C76_solve_series",
    "C76_solve_series_vector",
    "C76_not_normalized_refuted",
    "C76_zero_half_refuted"
   ],
   "note": "the coefficients are proved right for high precision; the entries are normalized when their degree is large enough (exactly: for smaller degrees the vectors of coefficients have leading zeros, false of the code); low precision is proved for solutions without large blocks of zeros, it is undefined when the first half of the right-hand side is zero (middle product of a zero matrix); inv_trunc, get_lmultiplier and middle_product are those of C74, C75 and C73"
  },
  {
   "property": "C77",
   "status": "partial",
   "theorems": [
    "C77_unique",
    "C77_quo_rem",
    "C77_empty_refuted",
    "C77_remainder_is_A_refuted",
    "C77_zero_block_refuted"
   ],
   "note": "proved for all row reduced B with at least one row, when the quotient has more than 4 deg(B) coefficients, at most T of them (T the threshold of solve_series), or an entry without large blocks of zeros; false of the code for B with no row, for R the same object as A, and for some quotients divisible by a power of X (all shown)"
  },
  {
   "property": "C78",
   "status": "partial",
   "theorems": [
    "C78_row_degree",
    "C78_col_degree",
    "C78_degree_matrix_shifted",
    "C78_row_pivots",
    "C78_col_pivots",
    "C78_row_leading_matrix",
    "C78_col_leading_matrix",
    "C78_is_row_form",
    "C78_is_col_form",
    "C78_is_col_popov",
    "C78_col_popov_refuted",
    "C78_get_row_form",
    "C78_get_col_form",
    "C78_chain",
    "C78_wrong_length",
    "C78_empty_shift_refuted",
    "C78_amplitude"
   ],
   "note": "proved for all matrices and nonempty shifts, except for two defects: is_col_popov reads outside of a column-wise Popov matrix with more rows than columns (loop to NumRows instead of NumCols), and an empty shift of the right length zero is dereferenced; both are shown"
  },
  {
   "property": "C79",
   "status": "proved",
   "theorems": [
    "C79_appbas_iterative",
    "C79_order0_refuted",
    "C79_appbas_iterative_2x1",
    "C79_popov_appbas_iterative",
    "C79_popov_unique",
    "C79_popov_empty_refuted",
    "C79_approximant_basis",
    "C79_throws"
   ],
   "note": "proved for all matrices, positive orders and shifts; the two refutations show what happens outside of the documented inputs: an order zero is treated as an order one, and popov_appbas_iterative on a matrix without rows reads the first entry of an empty shift"
  },
  {
   "property": "C80",
   "status": "partial",
   "theorems": [
    "C80_complete",
    "C80_sound",
    "C80_total",
    "C80_wrong_dimensions",
    "C80_not_randomized",
    "C80_bad_point",
    "C80_none_refuted"
   ],
   "note": "proved for the forms from REDUCED to POPOV, for a multiply that returns the product (C55 and following); with the form NONE the property is false: the degree of the determinant is then not the sum of the degrees, and a basis that is not reduced is refused for almost all points (C80_none_refuted). C80_bad_point shows that the bound on the number of bad points is reached"
  },
  {
   "property": "C81",
   "status": "proved",
   "theorems": [
    "C81_mbasis1",
    "C81_popov_mbasis1",
    "C81_contracts"
   ],
   "note": "for every kernel and image functions meeting the contracts of SpecKer.v (a left kernel basis, the identity for a null matrix, the identity block announced in the comment of the source for popov_mbasis1 only; an echelon basis of the row space); C81_contracts shows that such functions exist over every field"
  },
  {
   "property": "C82",
   "status": "partial",
   "theorems": [
    "C82_mbasis_plain",
    "C82_mbasis_rescomp",
    "C82_mbasis_resupdate",
    "C82_mbasis",
    "C82_order0_refuted",
    "C82_no_rows_refuted"
   ],
   "note": "proved for every positive order and every matrix with at least one row (mbasis_plain: without these conditions). mbasis_rescomp reads the first coefficient of an empty vector at order 0 (C82_order0_refuted); for a matrix without rows a std::vector of length -1 is built, which throws (C82_no_rows_refuted)"
  },
  {
   "property": "C83",
   "status": "partial",
   "theorems": [
    "C83_popov_mbasis",
    "C83_pmbasis",
    "C83_degree",
    "C83_popov_pmbasis",
    "C83_pmbasis_2x1",
    "C83_pmbasis_code",
    "C83_pmbasis_2x1_code",
    "C83_refuted",
    "C83_threshold0_refuted"
   ],
   "note": "proved for every positive order, at least one row and positive thresholds. The products are parameters with a contract restricted to the sizes and degrees that occur; C83_pmbasis_code and C83_pmbasis_2x1_code discharge it for the models of middle_product (C73), middle_product_evaluate_FFT_new (C72) and multiply (C71) modulo an FFT prime with enough roots. For other primes middle_product uses FFT primes with a bound that is right only for deg(a) <= dB (C73_bound_refuted): at even orders pmbasis calls it with dA = dB + 1, which is why that case is not covered. At order 0 or without rows the functions fail as mbasis does (C83_refuted); pmbasis_2x1 with threshold 0 never returns (C83_threshold0_refuted)"
  },
  {
   "property": "C84",
   "status": "partial",
   "theorems": [
    "C84_via_approximation",
    "C84_rank",
    "C84_via_approximation_code",
    "C84_is_kernel_basis",
    "C84_randomized",
    "C84_refuted"
   ],
   "note": "kernel_basis_via_approximation is proved for every matrix and every shift of the right length, from the contract of pmbasis (C83) at the order that it uses, and with the models of pmbasis and of the products modulo an FFT prime (C84_via_approximation_code). is_kernel_basis is false of the code as stated: it tests the form and the product, not generation (C84_refuted: the matrix X is accepted as a kernel basis of the zero 1 x 1 matrix); C84_is_kernel_basis and C84_randomized say what it does test. Probabilities are not modelled: a matrix which is not in the kernel is refused for some random vectors"
  },
  {
   "property": "C85",
   "status": "partial",
   "theorems": [
    "C85_sound",
    "C85_one_column",
    "C85_kernel_basis_one_column",
    "C85_shift_refuted",
    "C85_early_exit_refuted"
   ],
   "note": "false of the code as stated. For every matrix the function returns, calls the products within their domains and returns vectors of the kernel (C85_sound). With one column the basis is right for every matrix and shift (C85_one_column, C85_kernel_basis_one_column), but the returned degrees are off by the constant that the function subtracts from the shift (C85_shift_refuted: the column (X, X) with the shift 0). With three columns the early exit can be taken although kernel rows are missing (C85_early_exit_refuted: a constant 6 x 3 matrix, two rows returned, kernel of rank three). Not proved: completeness with two or more columns under a condition that excludes the wrong exit"
  },
  {
   "property": "C86",
   "status": "partial",
   "theorems": [
    "C86_expansion",
    "C86_expansion_rec",
    "C86_expansion_refuted",
    "C86_expansion_rec_refuted",
    "C86_verify_accepts",
    "C86_verify_refuses",
    "C86_verify_up_to_constant",
    "C86_verify_zero_refuted",
    "C86_verify_deterministic_refuted",
    "C86_general",
    "C86_general_zero_refuted",
    "C86_geometric",
    "C86_geometric_zero_refuted",
    "C86_fft",
    "C86_generic_small",
    "C86_generic_refuted",
    "C86_generic_zero_columns_refuted"
   ],
   "note": "false of the code as stated. The expansions are right for the dimensions 1 to 4 and from 1 on, and leave det as it was, or fail, otherwise. The three evaluations return the determinant of every nonzero matrix when the points exist (FFT: of every matrix); general and geometric points fail on the zero matrix. The verification accepts every constant multiple, refuses a wrong candidate for one of any d + 1 points, and up to a constant accepts zero for every matrix. determinant_generic_knowing_degree is right for the dimensions 1 to 4; for a 5 x 5 matrix with determinant -(X + 1) it returns true with a multiple of X (C86_generic_refuted), and it fails when the left columns are zero. Not proved: a condition under which it is right for the dimension 5 and above. Not modelled: determinant_via_linsolve (a random right-hand side)"
  },
  {
   "property": "C87",
   "status": "partial",
   "theorems": [
    "C87_join",
    "C87_collapse",
    "C87_collapse_step",
    "C87_collapse_refuted",
    "C87_linearization",
    "C87_linearization_from",
    "C87_short_entry_refuted",
    "C87_zero_column_refuted",
    "C87_multiply",
    "C87_multiply_stale_refuted",
    "C87_middle_product",
    "C87_middle_short_entry_refuted"
   ],
   "note": "false of the code as stated. The join is right. The collapses are right for entries of degree less than d and drop the other coefficients, which the documentation does not say. The linearization and both products are right when every entry reaches the last column of its expansion; a shorter entry, for instance a zero in a column of larger degree, is an error of NTL (negative length), and a last column that is zero with its own degree -1 as the target is written outside of the matrix. right_parlin_multiply adds the product to the previous entries of the result when the dimensions are the same. Every case of the degree bounds is covered: C87_linearization and C87_short_entry_refuted are complementary for true degree bounds"
  },
  {
   "property": "C88",
   "status": "partial",
   "theorems": [
    "C88_hankel_right",
    "C88_hankel_left",
    "C88_toeplitz_right",
    "C88_toeplitz_left",
    "C88_hankel_right_mat",
    "C88_hankel_left_mat",
    "C88_toeplitz_right_mat",
    "C88_toeplitz_left_mat",
    "C88_dense",
    "C88_ltt_right",
    "C88_ltt_left",
    "C88_ltt_dense_partial",
    "C88_ltt_dense_stale_refuted",
    "C88_ltt_matrix_refuted",
    "C88_ltt_matrix_alias",
    "C88_str_errors",
    "C88_ltt_errors",
    "C88_mat_errors"
   ],
   "note": "false of the code as stated for the lower triangular matrices: their products with a matrix do nothing, and to_dense keeps the entries above the diagonal of a previous matrix with the same number of columns. Hankel and Toeplitz matrices are right for n, m > 0, over the transposed Karatsuba product of C58; lower triangular ones are right for vectors"
  },
  {
   "property": "C89",
   "status": "partial",
   "theorems": [
    "C89_column_right",
    "C89_column_left_partial",
    "C89_column_left_refuted",
    "C89_row_right",
    "C89_row_left",
    "C89_dense",
    "C89_matrix_refuted",
    "C89_errors"
   ],
   "note": "false of the code as stated: the products with a matrix are not implemented (an error for one, nothing done for the other three), and the left product of a circulant_column_lzz_p with fewer columns than rows writes outside of its buffer. to_dense and all other products with a vector are right. A matrix built from an empty vector and, for the products that cut the vector into chunks, an empty vector, are undefined"
  },
  {
   "property": "C90",
   "status": "partial",
   "theorems": [
    "C90_plus_right",
    "C90_minus_right",
    "C90_dense_partial",
    "C90_dense_stale_refuted",
    "C90_unimplemented_refuted"
   ],
   "note": "false of the code as stated: the left products and the products with a matrix have an empty body, and to_dense adds to the previous entries of a matrix that has the right number of columns. The right product with a vector and to_dense into a new matrix are those of every matrix A that satisfies the displacement equation with these generators"
  },
  {
   "property": "C91",
   "status": "proved",
   "theorems": [
    "C91_plus_right",
    "C91_minus_right"
   ],
   "note": "the product is that of every matrix A that satisfies the displacement equation with these generators; to_dense and the products with an empty body (see C90) are not modelled for these classes"
  }
 ]
}