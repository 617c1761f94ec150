{"id": "C01", "title": "Unbalanced dot product is exact modulo n", "statement": "For any two word vectors whose entries fit in the bit sizes announced by the caller, nmod_vec_dot_product_unbalanced returns sum(v1[i]*v2[i]) mod n, whatever accumulation strategy (1, 2 or 3 limbs, blocks of 8 or of num_terms) its limb bound selects; no intermediate carry is lost.", "quantifier": "all vectors, all lengths < 2^64, all announced bit sizes 0..64 that bound the entries, all nonzero moduli", "why_tests_cant": "carry loss only shows for specific combinations of length, bit sizes and extreme entries; there are 2^128+ inputs per length", "anchors": ["flint-extras/src/nmod_vec_extra/nmod_vec_dot_product.c: _nmod_vec_dot_bound_limbs_unbalanced, _nmod_vec_dot_product_1, _nmod_vec_dot_product_2, _nmod_vec_dot_product_3, nmod_vec_dot_product_unbalanced"]}
{"id": "C02", "title": "Integer dot product is exact in three limbs", "statement": "nmod_vec_integer_dot_product writes in res[0..2] the exact integer sum(v1[i]*v2[i]) (no wrap-around) for entries within the announced bit sizes.", "quantifier": "all vectors, lengths < 2^64 and announced bit sizes that bound the entries", "why_tests_cant": "overflow of the two-limb inner accumulator only happens at extreme values and lengths", "anchors": ["flint-extras/src/nmod_vec_extra/nmod_vec_integer_dot_product.c: nmod_vec_integer_dot_product"]}
{"id": "C03", "title": "Multi dot product equals vector-matrix product modulo n", "statement": "nmod_vec_dot_product_multi sets uv[j] = sum_i u[i]*v[i][j] mod n for every j < k, for each strategy (0, 1, 2, 3 limbs).", "quantifier": "all vectors u, all len x k word matrices v, all announced bit sizes bounding the entries, all k including 0 and non multiples of the unrolling factors", "why_tests_cant": "each unrolled block/leftover combination times extreme word values is beyond enumeration", "anchors": ["flint-extras/src/nmod_vec_extra/nmod_vec_dot_product_multi.c: _nmod_vec_dot_product_multi_1, _nmod_vec_dot_product_multi_2, _nmod_vec_dot_product_multi_3, nmod_vec_dot_product_multi"]}
{"id": "C04", "title": "32-bit split dot product is exact on its documented domain", "statement": "_nmod32_vec_dot_split returns sum(vec1[i]*vec2[i]) mod n whenever n <= DOT2_ACC8_MAX_MODULUS, len <= DOT2_ACC8_MAX_LEN and entries are reduced; neither the 8-term accumulator, the high accumulator nor the final recombination overflows 64 bits. The two-vector variant _nmod_vec_2dot2_split does the same for both results on a stated domain.", "quantifier": "all reduced vectors up to the documented maximal length and modulus", "why_tests_cant": "the extreme case needs vectors of 380 million entries; margins are a few parts per thousand", "anchors": ["flint-extras/src/nmod32_vec/dot_split.c: _nmod32_vec_dot_split", "flint-extras/src/nmod32_vec.h: DOT2_ACC8_MAX_MODULUS, DOT2_ACC8_MAX_LEN", "flint-extras/src/nmod_vec_extra/nmod_vec_2dot.c: _nmod_vec_2dot2_split"]}
{"id": "C05", "title": "Split-26 dot product does not lose carries", "statement": "_nmod_vec_dot_product_split26 returns the dot product modulo n for inputs of at most 52 bits and few enough terms that its three accumulators do not overflow.", "quantifier": "all vectors with entries < 2^52 and length at most 2^12", "why_tests_cant": "a lost carry in the final recombination depends on the exact value of the low accumulators", "anchors": ["flint-extras/src/nmod_vec_extra/nmod_vec_dot_product.c: _nmod_vec_dot_product_split26"]}
{"id": "C06", "title": "Inverse modulo a power of two", "statement": "inverse_mod_power_of_two(p, k) returns the unique q in [0,2^k) with p*q = 1 mod 2^k for every odd p.", "quantifier": "all odd words p and all k in 1..62 (the C shift is undefined from 63 on)", "why_tests_cant": "Newton iteration count must suffice for all 2^63 odd words", "anchors": ["flint-extras/src/nmod_extra/nmod_extra.c: inverse_mod_power_of_two"]}
{"id": "C07", "title": "next_power_of_two", "statement": "next_power_of_two(x) returns the smallest exponent i such that 2^i >= x, for every word x (as its comment says, without any restriction on x).", "quantifier": "all words x", "why_tests_cant": "the 32-bit truncation is invisible for the small sizes used in tests", "anchors": ["flint-extras/src/nmod_extra/nmod_extra.c: next_power_of_two"]}
{"id": "C08", "title": "nmod_find_root returns an element of large enough order", "statement": "nmod_find_root(n, mod) returns an element q of the prime field such that 1, q, ..., q^(n-1) are pairwise distinct, whenever such an element exists; when the result is nonzero the powers really are distinct.", "quantifier": "all primes p and all n", "why_tests_cant": "depends on the multiplicative structure of every prime field", "anchors": ["flint-extras/src/nmod_extra/nmod_find_root.c: nmod_find_root"]}
{"id": "C09", "title": "CRT of words to a multiprecision integer", "statement": "After fmpz_CRT_naive_init(primes), fmpz_CRT_naive_CRT(A, m) yields the unique A in [0, prod) with A mod primes[j] = m[j] mod primes[j] for all j; fmpz_CRT_naive_combine yields exactly sum m[i] * prod/primes[i], its limb-by-limb accumulation never losing a carry.", "quantifier": "all lists of pairwise coprime moduli, all residue vectors", "why_tests_cant": "limb carries across num_limbs+2 words depend on extreme values for every number of primes", "anchors": ["flint-extras/src/fmpz_extra/fmpz_CRT_naive_init.c", "flint-extras/src/fmpz_extra/fmpz_CRT_naive_combine.c", "flint-extras/src/fmpz_extra/fmpz_CRT_naive_CRT.c"]}
{"id": "C10", "title": "Multimodular reduction of a multiprecision integer", "statement": "fmpz_multimod_naive_reduce(out, A) sets out[i] = A mod primes[i] for every integer A, negative or larger than the product of moduli included, in both the small-moduli (24-bit slices) and the general path.", "quantifier": "all integers A, all lists of moduli", "why_tests_cant": "unbounded integers; slicing and power-of-two tables must agree for every limb count", "anchors": ["flint-extras/src/fmpz_extra/fmpz_multimod_naive_init.c", "flint-extras/src/fmpz_extra/fmpz_multimod_naive_reduce.c: _fmpz_reduce, _fmpz_reduce_small_moduli, fmpz_multimod_naive_reduce"]}
{"id": "C11", "title": "Row and column rotations of nmod matrices", "statement": "_nmod_mat_rotate_rows_downward/upward and _nmod_mat_rotate_columns_rightward/leftward (and the polynomial matrix row rotations) cyclically rotate exactly the rows (columns) i..j by one position in the documented direction, leave all others untouched, and apply the same rotation to the accompanying index vector.", "quantifier": "all matrices, all index pairs i <= j", "why_tests_cant": "must hold for every dimension and index pair", "anchors": ["flint-extras/src/nmod_mat_extra/nmod_mat_rotations.c", "flint-extras/src/nmod_poly_mat_extra/nmod_poly_mat_utils.c: _nmod_poly_mat_rotate_rows_downward, _nmod_poly_mat_rotate_rows_upward"]}
{"id": "C12", "title": "Column permutation with permutation store", "statement": "nmod_mat_permute_columns(mat, perm, store) permutes the columns of mat by perm and replaces store by the composition with perm, on rectangular matrices as well.", "quantifier": "all r x c matrices and all permutations of 0..c-1", "why_tests_cant": "only rectangular shapes exhibit a wrong length", "anchors": ["flint-extras/src/nmod_mat_extra.h: nmod_mat_permute_columns", "flint-extras/src/nmod_mat_extra/nmod_mat_rotations.c"]}
{"id": "C13", "title": "PLUQ factorisation", "statement": "nmod_mat_pluq returns r and overwrites A by a compact LU such that, with the returned permutations, A_input = P L U Q where L is unit lower triangular, U is upper triangular/trapezoidal with r nonzero diagonal entries and zero rows below; r is the rank of A_input and the first r entries of P are its row rank profile.", "quantifier": "all m x n matrices over a field", "why_tests_cant": "pivoting takes different rotations on each rank/zero pattern: exponentially many patterns for every dimension", "anchors": ["flint-extras/src/nmod_mat_extra/nmod_mat_pluq.c"]}
{"id": "C14", "title": "Extraction of L and U from a compact LU", "statement": "nmod_mat_l_u_from_compactlu sets L to unit lower triangular and U to upper triangular factors read from the compact storage, whatever the previous contents of L and U.", "quantifier": "all compact matrices and all previous contents of the outputs", "why_tests_cant": "depends on stale contents of output buffers", "anchors": ["flint-extras/src/nmod_mat_extra/nmod_mat_pluq.c: nmod_mat_l_u_from_compactlu, _nmod_mat_l_u_from_compactlu_zeroin"]}
{"id": "C15", "title": "Left nullspace in compact form", "statement": "nmod_mat_left_nullspace(X, A) returns the nullity and a basis X of the left kernel of A in reduced row echelon-type form; the compact variant returns the non-trivial columns together with a permutation that lists first the row rank profile then the pivot positions, and the full basis is recovered from them.", "quantifier": "all m x n matrices over a field", "why_tests_cant": "holds for each rank profile of each dimension", "anchors": ["flint-extras/src/nmod_mat_extra/left_nullspace.c"]}
{"id": "C16", "title": "Conversions between the two polynomial matrix representations", "statement": "Converting a polynomial matrix to a matrix polynomial (list of coefficient matrices) and back is the identity; truncated conversions keep exactly the coefficients of degree < order; the produced matrix polynomial is normalised.", "quantifier": "all polynomial matrices, all orders", "why_tests_cant": "all dimensions, degrees and truncation orders", "anchors": ["flint-extras/src/nmod_mat_poly_extra/nmod_mat_poly_set_from.c", "flint-extras/src/nmod_poly_mat_extra/nmod_poly_mat_utils.c: nmod_poly_mat_set_trunc_from_mat_poly"]}
{"id": "C17", "title": "Left shift, truncation and constant test of matrix polynomials", "statement": "nmod_mat_poly_shift_left(n) multiplies by x^n with or without aliasing of input and output; truncation keeps the coefficients of degree < order and normalises; nmod_mat_poly_is_constant recognises exactly the matrix polynomials without coefficients of positive degree.", "quantifier": "all matrix polynomials, all n, both aliasing situations", "why_tests_cant": "every length/offset pair and aliasing mode", "anchors": ["flint-extras/src/nmod_mat_poly_extra/nmod_mat_poly_shift.c: nmod_mat_poly_shift_left", "flint-extras/src/nmod_mat_poly.h: nmod_mat_poly_truncate, nmod_mat_poly_is_constant"]}
{"id": "C18", "title": "mbasis: rows are approximants and generate all approximants", "statement": "For a polynomial matrix F, order d and shift s, nmod_mat_poly_mbasis returns a square nonsingular matrix P such that P F = 0 mod x^d and every polynomial row vector v with v F = 0 mod x^d is a polynomial combination of the rows of P.", "quantifier": "all m x n matrices F of any degree, all orders d >= 0, all integer shifts, all fields", "why_tests_cant": "quantifies over all approximants of all instances", "anchors": ["flint-extras/src/nmod_mat_poly_extra/nmod_mat_poly_mbasis.c: nmod_mat_poly_mbasis"]}
{"id": "C19", "title": "mbasis: output is in shifted ordered weak Popov form and the shift is updated to its row degree", "statement": "The basis computed by mbasis is in s-ordered weak Popov form (row-wise, lower: the s-pivot of row i is entry (i,i)), and on return the shift array contains the s-row degree of the basis.", "quantifier": "all inputs, orders and shifts (ties included)", "why_tests_cant": "ties in the shift and simultaneous pivots in every pattern", "anchors": ["flint-extras/src/nmod_mat_poly_extra/nmod_mat_poly_mbasis.c: nmod_mat_poly_mbasis"]}
{"id": "C20", "title": "pmbasis computes the same kind of basis as mbasis at every order", "statement": "nmod_poly_mat_pmbasis returns an s-ordered weak Popov basis of the module of approximants of order d and updates the shift to its s-row degree, independently of the divide-and-conquer threshold.", "quantifier": "all inputs, all orders, all shifts, all thresholds >= 1", "why_tests_cant": "recursion tree depends on order; must hold at any depth", "anchors": ["flint-extras/src/nmod_poly_mat_extra/approximant_basis.c: nmod_poly_mat_pmbasis"]}
{"id": "C21", "title": "Approximant basis verification is sound", "statement": "If nmod_poly_mat_is_approximant_basis accepts (P, F, d, s) then P is indeed a basis of the approximants of F at order d in the requested form.", "quantifier": "all matrices P and F, all orders and shifts", "why_tests_cant": "a false positive needs a specially chosen P", "anchors": ["flint-extras/src/nmod_poly_mat_extra/verification.c: nmod_poly_mat_is_approximant_basis"]}
{"id": "C22", "title": "Truncated inverse", "statement": "nmod_poly_mat_inv_trunc(S, A, order) returns true exactly when A(0) is invertible, and then S has degree < order and S A = A S = I mod x^order.", "quantifier": "all square polynomial matrices and all orders", "why_tests_cant": "all dimensions, degrees and orders", "anchors": ["flint-extras/src/nmod_poly_mat_extra/nmod_poly_mat_dixon.c: nmod_poly_mat_inv_trunc"]}
{"id": "C23", "title": "Dixon X-adic lifting", "statement": "nmod_poly_mat_dixon(X, A, B, order, sigma) returns X with A X = B mod x^sigma when A(0) is invertible, for every lifting order.", "quantifier": "all A, B, order >= 1, sigma", "why_tests_cant": "number of lifting steps is unbounded", "anchors": ["flint-extras/src/nmod_poly_mat_extra/nmod_poly_mat_dixon.c: nmod_poly_mat_dixon"]}
{"id": "C24", "title": "Kernel basis rows are in the kernel", "statement": "Every row returned by nmod_poly_mat_kernel_via_approx satisfies row * pmat = 0.", "quantifier": "all polynomial matrices and shifts", "why_tests_cant": "relies on a degree bound valid for every matrix", "anchors": ["flint-extras/src/nmod_poly_mat_extra/kernel.c: nmod_poly_mat_kernel_via_approx"]}
{"id": "C25", "title": "Kernel basis generates the kernel and is in shifted weak Popov form", "statement": "The rows returned by nmod_poly_mat_kernel_via_approx generate every polynomial vector of the left kernel and form an s-ordered weak Popov matrix whose number of rows is the nullity; the returned pivot indices and degrees are those of the basis.", "quantifier": "all polynomial matrices, all shifts", "why_tests_cant": "needs a bound on the degrees of minimal kernel bases for all inputs", "anchors": ["flint-extras/src/nmod_poly_mat_extra/kernel.c: nmod_poly_mat_kernel_via_approx"]}
{"id": "C26", "title": "Divide-and-conquer kernel", "statement": "nmod_poly_mat_kernel_zls_approx returns a basis of the left kernel, whatever the split of columns and the approximation order choices.", "quantifier": "all polynomial matrices, all shifts, all orders chosen", "why_tests_cant": "recursion on columns and on residuals of unbounded depth", "anchors": ["flint-extras/src/nmod_poly_mat_extra/kernel.c: nmod_poly_mat_kernel_zls_approx"]}
{"id": "C27", "title": "Shifted row and column degrees", "statement": "nmod_poly_mat_row_degree / column_degree (and their _zero variants) return the maximum over the entries of degree plus shift, the documented convention for zero rows or columns, and the number of nonzero rows or columns.", "quantifier": "all polynomial matrices and shifts, negative shifts included", "why_tests_cant": "all shapes and shifts", "anchors": ["flint-extras/src/nmod_poly_mat_extra/degrees_pivots_leadingmatrix.c: nmod_poly_mat_row_degree, nmod_poly_mat_column_degree, nmod_poly_mat_row_degree_zero, nmod_poly_mat_column_degree_zero"]}
{"id": "C28", "title": "Shifted pivot index and degree", "statement": "_nmod_poly_vec_pivot_profile returns the rightmost (ROW_LOWER, COL_UPPER) or leftmost (ROW_UPPER, COL_LOWER) index reaching the shifted degree, the degree of that entry, and the documented values for a zero vector (index -1 or the length, degree -1).", "quantifier": "all polynomial vectors, shifts and the four orientations", "why_tests_cant": "ties and zero entries at arbitrary positions", "anchors": ["flint-extras/src/nmod_poly_mat_extra/degrees_pivots_leadingmatrix.c: _nmod_poly_vec_pivot_profile, nmod_poly_mat_pivot_index, nmod_poly_mat_pivot_profile", "flint-extras/src/nmod_poly_mat_forms.h: pivot documentation"]}
{"id": "C29", "title": "Leading matrix and reducedness test", "statement": "nmod_poly_mat_leading_matrix returns the matrix of coefficients of degree rdeg[i]-shift[j], zero rows giving zero rows; nmod_poly_mat_is_reduced answers whether that matrix has full row (column) rank; a matrix accepted by is_weak_popov is accepted by is_reduced.", "quantifier": "all matrices, shifts, orientations", "why_tests_cant": "all shapes and shifts", "anchors": ["flint-extras/src/nmod_poly_mat_extra/degrees_pivots_leadingmatrix.c: nmod_poly_mat_leading_matrix", "flint-extras/src/nmod_poly_mat_extra/nmod_poly_mat_is_form.c: nmod_poly_mat_is_reduced"]}
{"id": "C30", "title": "Weak Popov and ordered weak Popov tests", "statement": "nmod_poly_mat_is_weak_popov (resp. is_ordered_weak_popov) returns 1 exactly when no row (column) is zero and the shifted pivot indices are pairwise distinct (resp. strictly increasing).", "quantifier": "all matrices, shifts, orientations", "why_tests_cant": "all shapes, ties and zero patterns", "anchors": ["flint-extras/src/nmod_poly_mat_extra/nmod_poly_mat_is_form.c: nmod_poly_mat_is_weak_popov, nmod_poly_mat_is_ordered_weak_popov"]}
{"id": "C31", "title": "Popov test", "statement": "nmod_poly_mat_is_popov returns 1 exactly on matrices in shifted Popov form, for the four orientations.", "quantifier": "all matrices, shifts, orientations", "why_tests_cant": "one wrong orientation branch is only visible on specific matrices", "anchors": ["flint-extras/src/nmod_poly_mat_extra/nmod_poly_mat_is_form.c: nmod_poly_mat_is_popov"]}
{"id": "C32", "title": "Echelon and Hermite tests", "statement": "nmod_poly_mat_is_echelon and nmod_poly_mat_is_hermite return 1 exactly on matrices in (row/column, lower/upper) echelon and Hermite form, and nmod_poly_mat_is_form dispatches to the requested test.", "quantifier": "all matrices and orientations", "why_tests_cant": "all zero patterns", "anchors": ["flint-extras/src/nmod_poly_mat_extra/nmod_poly_mat_is_form.c: nmod_poly_mat_is_echelon, nmod_poly_mat_is_hermite", "flint-extras/src/nmod_poly_mat_forms.h: nmod_poly_mat_is_form"]}
{"id": "C33", "title": "Weak Popov form computation is correct", "statement": "nmod_poly_mat_weak_popov_iter transforms mat by a left unimodular transformation (also applied to tsf) into a shifted weak Popov form followed by zero rows, and the returned pivot index and rank describe that output.", "quantifier": "all polynomial matrices, shifts and orientations ROW_LOWER, ROW_UPPER", "why_tests_cant": "number of elementary steps is unbounded; all pivot collision histories", "anchors": ["flint-extras/src/nmod_poly_mat_extra/nmod_poly_mat_weak_popov.c: _nmod_poly_mat_weak_popov_iter_submat_rowbyrow, _atomic_solve_pivot_collision_rowwise"]}
{"id": "C34", "title": "Weak Popov form computation terminates", "statement": "The row-by-row loop of nmod_poly_mat_weak_popov_iter always terminates.", "quantifier": "all polynomial matrices and shifts", "why_tests_cant": "non-termination cannot be observed by a test", "anchors": ["flint-extras/src/nmod_poly_mat_extra/nmod_poly_mat_weak_popov.c: _nmod_poly_mat_weak_popov_iter_submat_rowbyrow"]}
{"id": "C35", "title": "Echelon forms: unimodular equivalence and echelon shape", "statement": "nmod_poly_mat_uref_maxdeg_atomic, _revlex_xgcd and _lex_xgcd terminate and transform mat, by a left unimodular transformation also applied to tsf, into an upper row echelon form whose pivot columns are the returned pivind, and return the rank.", "quantifier": "all polynomial matrices", "why_tests_cant": "unbounded number of elimination steps and all zero patterns", "anchors": ["flint-extras/src/nmod_poly_mat_extra/nmod_poly_mat_hermite.c: nmod_poly_mat_uref_maxdeg_atomic, nmod_poly_mat_uref_revlex_xgcd, nmod_poly_mat_uref_lex_xgcd"]}
{"id": "C36", "title": "Normalisation of an echelon form into the Hermite form", "statement": "_normalize_uref turns an upper row echelon form into the Hermite normal form (monic pivots, smaller degrees above pivots) by a unimodular transformation that is also applied to the other matrix.", "quantifier": "all upper echelon polynomial matrices", "why_tests_cant": "all dimensions and degrees", "anchors": ["flint-extras/src/nmod_poly_mat_extra/nmod_poly_mat_hermite.c: _normalize_uref, _normalize_pivot_uref, _reduce_against_pivot_uref"]}
{"id": "C37", "title": "The Hermite form is canonical: all HNF algorithms agree", "statement": "Two upper row Hermite forms with unimodularly equivalent rows are equal; hence hnf_ur_maxdeg_atomic, hnf_ur_revlex_xgcd and hnf_ur_lex_xgcd return the same matrix on the same input.", "quantifier": "all polynomial matrices", "why_tests_cant": "equality of results of different algorithms on all inputs", "anchors": ["flint-extras/src/nmod_poly_mat_forms.h: nmod_poly_mat_hnf_ur_maxdeg_atomic, nmod_poly_mat_hnf_ur_revlex_xgcd, nmod_poly_mat_hnf_ur_lex_xgcd"]}
{"id": "C38", "title": "Kannan-Bachem style Hermite form", "statement": "nmod_poly_mat_hnf_ur_revlex_xgcd_delayed_zero returns the Hermite normal form although it only re-normalises the columns where an elimination took place.", "quantifier": "all polynomial matrices", "why_tests_cant": "the missing re-normalisations only matter for degenerate zero patterns", "anchors": ["flint-extras/src/nmod_poly_mat_extra/nmod_poly_mat_hermite.c: nmod_poly_mat_hnf_ur_revlex_xgcd_delayed_zero"]}
{"id": "C39", "title": "Determinant", "statement": "nmod_poly_mat_det_iter returns the determinant of a square polynomial matrix.", "quantifier": "all square polynomial matrices", "why_tests_cant": "sign bookkeeping over unbounded numbers of swaps, rotations and permutations", "anchors": ["flint-extras/src/nmod_poly_mat_extra/nmod_poly_mat_det.c: nmod_poly_mat_det_iter"]}
{"id": "C40", "title": "Unimodularity tests", "statement": "nmod_poly_mat_is_unimodular decides whether the matrix is invertible over the polynomials; nmod_poly_mat_is_unimodular_randomized never rejects a unimodular matrix and rejects a non unimodular matrix as soon as the two sampled points witness different or zero determinants.", "quantifier": "all square matrices, all pairs of random points", "why_tests_cant": "all matrices and random choices", "anchors": ["flint-extras/src/nmod_poly_mat_extra/nmod_poly_mat_is_unimodular.c"]}
{"id": "C41", "title": "Waksman multiplication", "statement": "nmod_poly_mat_mul_waksman computes A*B for every modulus in which 2 is invertible, for even and odd inner dimensions.", "quantifier": "all matrices of any dimensions over any ring where 2 is invertible", "why_tests_cant": "polynomial identity in unboundedly many variables", "anchors": ["flint-extras/src/nmod_poly_mat_extra/mul_waksman.c: nmod_poly_mat_mul_waksman"]}
{"id": "C42", "title": "Middle product", "statement": "nmod_poly_mat_mulmid(res, A, B, nlo, nhi) returns the coefficients nlo..nhi-1 of A*B shifted to start at degree 0, whichever truncations, shifts and operand swaps it decides on.", "quantifier": "all matrices, all 0 <= nlo, nhi", "why_tests_cant": "all relations between lengths and nlo, nhi", "anchors": ["flint-extras/src/nmod_poly_mat_extra/mulmid.c: nmod_poly_mat_mulmid, _nmod_poly_mat_mulmid, _nmod_poly_mat_mulmid_naive"]}
{"id": "C43", "title": "Middle product by evaluation on a geometric progression", "statement": "The geometric middle products compute the same coefficients as the naive one when the points are pairwise distinct (transposition principle).", "quantifier": "all matrices, all nlo < nhi with one operand of length <= nlo+1, all progressions with distinct points", "why_tests_cant": "algebraic identity over all inputs", "anchors": ["flint-extras/src/nmod_poly_mat_extra/mulmid.c: _nmod_poly_mat_mulmid_geometric1_precomp, _nmod_poly_mat_mulmid_geometric2_precomp"]}
{"id": "C44", "title": "Multiplication by evaluation and interpolation", "statement": "nmod_poly_mat_mul_geometric and nmod_poly_mat_mul_vandermonde1/2 compute A*B when the field has enough points as required by their guards.", "quantifier": "all matrices, all admissible moduli", "why_tests_cant": "all dimensions, lengths and moduli", "anchors": ["flint-extras/src/nmod_poly_mat_extra/mul_geometric.c", "flint-extras/src/nmod_poly_mat_extra/mul_vandermonde.c", "flint-extras/src/nmod_poly_mat_multiply.h: NMOD_POLY_CAN_USE_VANDERMONDE1, NMOD_POLY_CAN_USE_VANDERMONDE2"]}
{"id": "C45", "title": "Single coefficient of a product of matrix polynomials", "statement": "nmod_mat_poly_mul_coeff(C, A, B, k) sets C to the coefficient of degree k of A*B (zero when k is beyond the degree).", "quantifier": "all matrix polynomials of compatible dimensions and all k", "why_tests_cant": "summation bounds depend on the three lengths and k", "anchors": ["flint-extras/src/nmod_mat_poly_extra/nmod_mat_poly_arith.c: nmod_mat_poly_mul_coeff"]}
{"id": "C46", "title": "Evaluation of a matrix polynomial", "statement": "nmod_mat_poly_evaluate_nmod(E, A, pt) sets E to the evaluation of A at the point pt.", "quantifier": "all matrix polynomials, all points including 0", "why_tests_cant": "all lengths and points", "anchors": ["flint-extras/src/nmod_mat_poly_extra/nmod_mat_poly_arith.c: nmod_mat_poly_evaluate_nmod"]}
{"id": "C47", "title": "Kernel basis verification", "statement": "nmod_poly_mat_is_kernel accepts ker exactly when its rows (columns) form a basis of the left (right) kernel of mat in the requested form.", "quantifier": "all matrices, forms, shifts and orientations", "why_tests_cant": "a false positive needs a specially chosen matrix", "anchors": ["flint-extras/src/nmod_poly_mat_extra/verification.c: nmod_poly_mat_is_kernel"]}
{"id": "C48", "title": "Kernel basis interface in the four orientations", "statement": "nmod_poly_mat_kernel returns, for ROW_LOWER and ROW_UPPER (resp. COL_LOWER and COL_UPPER), the nullity and a basis of the left (resp. right) kernel in shifted ordered weak Popov form for the pivots of that orientation, with the pivot indices and shifted degrees of that basis; without an input shift the shift is the row (resp. column) degrees of the matrix; forms other than up to ordered weak Popov are refused.", "quantifier": "all polynomial matrices over a field, all shifts or none, all four orientations, all forms", "why_tests_cant": "the mirrored and transposed cases rewrite indices of every pivot and row; an error shows only for particular nullities and orders of pivots", "anchors": ["flint-extras/src/nmod_poly_mat_extra/kernel.c: nmod_poly_mat_kernel"]}
{"id": "C49", "title": "Crout variant of PLUQ", "statement": "nmod_mat_pluq_crout(A, P, Q) terminates and, like nmod_mat_pluq, returns the rank and a PLUQ factorisation in compact form whose row permutation lists the row rank profile first.", "quantifier": "all m x n matrices over a field", "why_tests_cant": "rows are updated lazily, so correctness depends on an invariant over all rank defects and pivot positions; the existing test of this variant is disabled", "anchors": ["flint-extras/src/nmod_mat_extra/nmod_mat_pluq.c: nmod_mat_pluq_crout"]}
{"id": "C50", "title": "Permutation of rows or columns by sorting a vector", "statement": "_nmod_poly_mat_permute_rows_by_sorting_vec(mat, r, vec, perm) (and the column variant) sorts the first r entries of vec, stores in perm the permutation that does so, stable on equal entries and the identity beyond r, and permutes the rows (columns) of mat accordingly.", "quantifier": "all matrices, all vectors, all r", "why_tests_cant": "sorting with ties and partial ranges over all vectors", "anchors": ["flint-extras/src/nmod_poly_mat_extra/nmod_poly_mat_utils.c: _nmod_poly_mat_permute_rows_by_sorting_vec, _nmod_poly_mat_permute_columns_by_sorting_vec, _vec_sort_permutation"]}
{"id": "C51", "title": "Weak Popov form of a block, with early exit, determinant and rank profile", "statement": "_nmod_poly_mat_weak_popov_iter_submat_rowbyrow applied to a block of rows and columns multiplies these rows of mat and tsf by the same matrix of determinant +1 or -1, by which det is multiplied; leaves the other rows unchanged; puts zero rows last and the others in shifted weak Popov form with the returned pivot index; returns the rank, or the opposite of the number of pivots found once early_exit_zr zero rows are met; and fills rrp with the row rank profile of the rows treated.", "quantifier": "all polynomial matrices, blocks, shifts, row orientations and early exit thresholds", "why_tests_cant": "all collision histories; the block form is used by the determinant and Hermite form algorithms", "anchors": ["flint-extras/src/nmod_poly_mat_extra/nmod_poly_mat_weak_popov.c: _nmod_poly_mat_weak_popov_iter_submat_rowbyrow"]}
{"id": "C52", "title": "Ordered weak Popov form", "statement": "nmod_poly_mat_ordered_weak_popov_iter returns the rank and transforms mat by a left unimodular matrix, also applied to tsf, into a shifted ordered weak Popov form followed by zero rows; pivind lists the increasing pivots.", "quantifier": "all polynomial matrices, shifts and row orientations", "why_tests_cant": "all pivot orders and ties of the sort", "anchors": ["flint-extras/src/nmod_poly_mat_extra/nmod_poly_mat_weak_popov.c: nmod_poly_mat_ordered_weak_popov_iter"]}
{"id": "C53", "title": "Matrix rank profile", "statement": "When mrp is not NULL, nmod_poly_mat_uref_revlex_xgcd, nmod_poly_mat_uref_lex_xgcd and nmod_poly_mat_hnf_ur_revlex_xgcd_delayed_zero fill its first mat->r entries with the matrix rank profile of the input: for all i, j the rank of the i x j leading submatrix is the number of k < i with 0 <= mrp[k] < j. The entries beyond mat->r are unchanged.", "quantifier": "all polynomial matrices over a field, all pivots patterns", "why_tests_cant": "an unbounded family of ranks of submatrices of unbounded matrices", "anchors": ["flint-extras/src/nmod_poly_mat_forms.h: EchelonForms", "flint-extras/src/nmod_poly_mat_extra/nmod_poly_mat_hermite.c: nmod_poly_mat_uref_revlex_xgcd, nmod_poly_mat_uref_lex_xgcd, nmod_poly_mat_hnf_ur_revlex_xgcd_delayed_zero"]}
{"id": "C54", "title": "Echelon and Hermite form via matrix gcd (Mulders-Storjohann)", "statement": "nmod_poly_mat_uref_matrixgcd_iter terminates; it multiplies mat and tsf on the left by one and the same polynomial matrix of determinant 1 or -1, and udet by that determinant. It returns a negative value exactly when the column rank profile of mat is not 0,1,...,rank-1; otherwise it returns the rank, pivind is 0,...,rank-1 and mat is in upper row echelon form. nmod_poly_mat_hnf_ur_matrixgcd_iter then leaves the Hermite form of the input.", "quantifier": "all matrices over all fields, all dimensions, with or without tsf, udet", "why_tests_cant": "termination and correctness for all degrees and all rank profiles, not only random matrices, whose rank profile is generic", "anchors": ["flint-extras/src/nmod_poly_mat_extra/nmod_poly_mat_hermite.c: nmod_poly_mat_uref_matrixgcd_iter", "flint-extras/src/nmod_poly_mat_forms.h: nmod_poly_mat_hnf_ur_matrixgcd_iter"]}
{"id": "C55", "title": "Power series division (ntl-extras)", "statement": "InvTruncMul(f, b, a, m) ends and stores in f the only polynomial of degree less than m with a f = b modulo x^m, when the constant coefficient of a is invertible, by the naive algorithm or by Newton iteration with cyclic (FFT) products; otherwise, for m > 0, it raises an error.", "quantifier": "all fields, all polynomials a and b of any degree, all m, all values of NTL's crossover of at least 5", "why_tests_cant": "Newton iteration with wrapped-around cyclic convolutions is right only if every wrap misses the coefficients that are kept, for every combination of m, deg a and deg b", "anchors": ["ntl-extras/lzz_pX_extra/src/lzz_pX_extra.cpp: InvTruncMul, NewtonInvTruncMul, PlainInvTruncMul", "ntl-extras/lzz_pX_extra/lzz_pX_extra.h: PowerSeriesDivision"]}
{"id": "C56", "title": "Taylor shift (ntl-extras)", "statement": "shift(g, f, c) stores f(x+c) in g for every polynomial f; the object returned by get_shift(d, c) does so for every f of degree at most d, whatever the characteristic.", "quantifier": "all fields (all characteristics), all degrees, all c", "why_tests_cant": "two algorithms chosen by the characteristic; table sizes depend on the degree", "anchors": ["ntl-extras/lzz_pX_extra/src/lzz_pX_extra.cpp: zz_pX_shift_DAC, zz_pX_shift_large_characteristic, get_shift, shift", "ntl-extras/lzz_pX_extra/lzz_pX_extra.h"]}
{"id": "C57", "title": "Sum with a shifted polynomial (ntl-extras)", "statement": "add_LeftShift(c, a, b, k) leaves in c the polynomial a + x^k b, stored with a nonzero leading coefficient, whatever c held before, also when c is a or b.", "quantifier": "all fields, all polynomials, all k >= 0, every previous content of c, every aliasing", "why_tests_cant": "cases by the sizes, uninitialised memory and aliasing", "anchors": ["ntl-extras/lzz_pX_extra/src/lzz_pX_extra.cpp: add_LeftShift", "ntl-extras/lzz_pX_extra/lzz_pX_extra.h: add_LeftShift"]}
{"id": "C58", "title": "Middle product (ntl-extras)", "statement": "middle_product(b, a, c, dA, dB) stores trunc(trunc(a, dA+1) c div x^dA, dB+1) in b, whatever the branch taken (naive, naive with delayed reductions, Karatsuba, FFT); the machine integers do not overflow; Karatsuba writes only its result and the Kar_stk_size(n) entries of its scratch space, and does not depend on what the memory holds.", "quantifier": "all fields, all polynomials a and c (also longer than dA+1 and dA+dB+1), all dA, dB >= 0, all thresholds KARX >= 2, every content of the memory", "why_tests_cant": "recursive splitting of unbalanced sizes, overlapping scratch space and cyclic products: an unbounded number of size patterns; overflow depends on the number of terms", "anchors": ["ntl-extras/lzz_pX_middle_product/src/lzz_pX_middle_product.cpp: middle_product, middle_FFT, tKarMul_aux, tPlainMul2, Kar_stk_size, KarFoldSub", "ntl-extras/lzz_pX_middle_product/lzz_pX_middle_product.h"]}
{"id": "C59", "title": "Chinese remaindering (ntl-extras)", "statement": "For pairwise coprime, square-free, non-constant moduli q_0, ..., q_(n-1), n >= 1, the constructor of zz_pX_CRT succeeds; multimod(val, f) stores f mod q_i for every f of any degree and touches no other entry; combine(f, val) gives the only f of degree less than the sum of the degrees with f = val_i mod q_i; master gives the product. (For n = 0 the constructor never ends.)", "quantifier": "all finite fields, all n >= 1, all moduli, all polynomials and remainders (reduced or not), every previous content of the destination", "why_tests_cant": "the loops work in place on a tree whose levels have odd and even lengths in every combination; the cofactors rely on the derivative of the product", "anchors": ["ntl-extras/lzz_pX_CRT/src/lzz_pX_CRT.cpp: build_subproduct_tree, zz_pX_CRT, multimod, combine, master", "ntl-extras/lzz_pX_CRT/lzz_pX_CRT.h"]}
{"id": "C60", "title": "Multipoint evaluation at general points (ntl-extras)", "statement": "For n >= 1 distinct points, zz_pX_Multipoint_General evaluates every polynomial, interpolates (degree < n, unique), and its t_evaluate and t_interpolate are the transposes: t_evaluate gives the sums of val_i x_i^j for j < output_size (n by default), t_interpolate its inverse; the same entrywise for vectors and matrices; to_dense is the Vandermonde matrix and get_point the points.", "quantifier": "all fields, all n >= 1, all distinct points, all polynomials of any degree, all values, all output sizes", "why_tests_cant": "an unbounded number of shapes of the tree; equality of a reversed rational series with power sums for all points", "anchors": ["ntl-extras/lzz_pX_CRT/src/lzz_pX_Multipoint_General.cpp: evaluate, interpolate, t_evaluate, t_interpolate, get_general_points", "ntl-extras/lzz_pX_CRT/src/lzz_pX_Multipoint.cpp", "ntl-extras/lzz_pX_CRT/lzz_pX_CRT.h: zz_pX_Multipoint"]}
{"id": "C61", "title": "Points in geometric progression (ntl-extras)", "statement": "zz_pX_Multipoint_Geometric(r, s, d) succeeds exactly when d >= 1, r and s are nonzero and the points x_i = s r^(2i), i < d, are pairwise distinct. Then, after any sequence of calls to prepare_degree and to the FFT switches, evaluate gives P(x_i) for every P of degree < d and an error for larger degrees, interpolate its inverse, t_evaluate and t_interpolate the transposed maps, mul_right / mul_left / inv_mul_right / inv_mul_left the products by the Vandermonde matrix, its transpose and their inverses; evaluate with nb gives the values at nb points; get_point, get_q, get_s give x_i, r^2, s; val may alias the coefficients of P in evaluate.", "quantifier": "all fields, all r, s, d, all histories of calls, with and without FFT, all polynomials and values, all thresholds of the middle product", "why_tests_cant": "the FFT products wrap around and only some coefficients are right; the interpolation formulas are q-analogue identities that must hold for every d; the table of prepared degrees depends on the history", "anchors": ["ntl-extras/lzz_pX_CRT/src/lzz_pX_Multipoint_Geometric.cpp", "ntl-extras/lzz_pX_CRT/lzz_pX_CRT.h: zz_pX_Multipoint_Geometric", "ntl-extras/lzz_pX_CRT/src/lzz_pX_Multipoint.cpp"]}
{"id": "C62", "title": "Elements of given order (ntl-extras)", "statement": "order(a) modulo any m > 1 returns the multiplicative order of a, or -1 when a is not a unit, within m iterations. Over a prime field, element_of_order(a, ord) raises an error when ord > p - 1; otherwise it returns one of the values drawn, with a^i <> 1 for 0 < i < ord, or 0 when no value drawn is suitable. get_geometric_points(n) builds an object for 1, r^2, .., r^(2(n-1)) when a value of order at least 2n is drawn.", "quantifier": "all moduli, all residues, all outcomes of the random generator, all orders", "why_tests_cant": "every modulus and every random outcome; composite moduli with non-units", "anchors": ["ntl-extras/lzz_p_extra/src/lzz_p_extra.cpp: order, element_of_order", "ntl-extras/lzz_pX_CRT/src/lzz_pX_Multipoint_Geometric.cpp: get_geometric_points"]}
{"id": "C63", "title": "Roots of unity as evaluation points (ntl-extras)", "statement": "zz_pX_Multipoint_FFT(n) succeeds for every power of two n for which the prime field was set up by FFTInit with at least n roots of unity, whatever the order (increasing or bit-reversed exponents) in which NTL stores a transform, and raises an error otherwise. Then evaluate gives the values of a polynomial of any degree at the n points, interpolate is its inverse with at most n coefficients, t_evaluate and t_interpolate are the transposes of the two, the latter whatever val held before. get_FFT_points(n) gives at least n and less than 2n points.", "quantifier": "all fields and tables of n-th roots of unity, all sizes, all polynomials, all values, both storage orders", "why_tests_cant": "the storage order depends on the version of NTL: tests only see one; sizes and values are unbounded", "anchors": ["ntl-extras/lzz_pX_CRT/src/lzz_pX_Multipoint_FFT.cpp", "ntl-extras/lzz_pX_CRT/lzz_pX_CRT.h: zz_pX_Multipoint_FFT"]}
{"id": "C64", "title": "Bilinear transforms and products of matrices of small degree (ntl-extras)", "statement": "For the transforms zz_pX_Transform_naive(d), _karatsuba, _montgomery3, _karatsuba4 and polynomials f, g with at most input_length coefficients, backward applied to the pointwise product of forward_left(f) and forward_right(g) gives f g; the naive transform writes exactly transform_length values. multiply_transform(c, a, b) and multiply_transform(c, a, b, len) with len above the degrees set c to the product of the matrices, with its dimensions, for all a and b whose dimensions agree, and raise an error otherwise; the variants for a fixed length compute c = a b.", "quantifier": "all fields, all lengths d, all polynomials, all matrices of all dimensions and degrees", "why_tests_cant": "identities that must hold for every coefficient and every length; dimensions and degrees are unbounded", "anchors": ["ntl-extras/lzz_pX_CRT/src/lzz_pX_Transform.cpp", "ntl-extras/lzz_pX_CRT/src/lzz_pX_Transform_naive.cpp", "ntl-extras/lzz_pX_CRT/src/lzz_pX_Transform_montgomery.cpp", "ntl-extras/mat_lzz_pX_extra/src/mat_lzz_pX_multiply_transform.cpp"]}
{"id": "C65", "title": "Basic operations on polynomial matrices (ntl-extras)", "statement": "trunc, LeftShift, RightShift (by positive or negative amounts), reverse and its row and column versions, negate, products by a scalar, a polynomial or a constant matrix, sums and differences, transpose, mirror, SetCoeff and GetCoeff set their output to the matrix with the documented entries and dimensions, whatever the output contains before, also when it is one of the inputs; operands whose dimensions do not agree raise an error; ident, clear (of a matrix or of a window, which is intersected with the matrix), IsZero, IsIdent and IsConstant are exact; LeftShiftRow, RightShiftRow, LeftShiftCol, RightShiftCol, truncRow and truncCol change the given row or column and keep all the other entries.", "quantifier": "all fields, all matrices of all dimensions and degrees, all shifts, bounds and windows, all previous contents of the output, all ways to alias it with an input", "why_tests_cant": "dimensions, degrees and previous contents are unbounded, and the loops must visit every entry exactly as stated when input and output overlap", "anchors": ["ntl-extras/mat_lzz_pX_extra/src/mat_lzz_pX_utils.cpp", "ntl-extras/mat_lzz_pX_extra/src/mat_lzz_pX_arith.cpp", "ntl-extras/mat_lzz_pX_extra/mat_lzz_pX_utils.h"]}
{"id": "C66", "title": "The two representations of polynomial matrices (ntl-extras)", "statement": "conv from Vec<Mat<zz_p>> to Mat<zz_pX> (with or without a truncation order) gives the matrix with the coefficients of the vector; conv to Vec<Mat<zz_p>> gives the vector of the coefficients, of length deg + 1 or the given order; converting back and forth gives the (truncated) matrix; the vector of length zero clears the output and keeps its dimensions; eval gives the values of the entries for both representations, and commutes with the conversion.", "quantifier": "all fields, all matrices of all dimensions and degrees, balanced or not, all truncation orders and points, all previous contents of the output", "why_tests_cant": "the loops are blocked by 32 and 8, so that every combination of dimensions and degrees modulo the block sizes and of degrees of the entries matters", "anchors": ["ntl-extras/mat_lzz_pX_extra/src/mat_lzz_pX_utils.cpp", "ntl-extras/mat_lzz_pX_extra/mat_lzz_pX_utils.h"]}
{"id": "C67", "title": "Naive and Waksman products of polynomial matrices (ntl-extras)", "statement": "multiply_naive(c, a, b) and multiply_waksman(c, a, b) set c to the matrix product of a and b, for all matrices whose dimensions agree, in every characteristic, whatever c contains before and also when it is a or b.", "quantifier": "all fields, all matrices of polynomials of all dimensions and degrees", "why_tests_cant": "Waksman's formulas use half as many products and must agree with the product for every entry, parity of the inner dimension and characteristic; dimensions and degrees are unbounded", "anchors": ["ntl-extras/mat_lzz_pX_extra/src/mat_lzz_pX_multiply_naive.cpp", "ntl-extras/mat_lzz_pX_extra/mat_lzz_pX_multiply.h"]}
{"id": "C68", "title": "Products of polynomial matrices by evaluation and interpolation (ntl-extras)", "statement": "multiply_evaluate_dense, multiply_evaluate_dense2 and multiply_evaluate_geometric set c to the matrix product of a and b whenever the field has enough evaluation points for the degrees (and, for the geometric points, an element of sufficient order is found); t_multiply_evaluate_geometric computes, for deg(a) <= dA and deg(c) <= dA+dB, the coefficients dA .. dA+dB of rev(a, dA) c.", "quantifier": "all prime fields, all matrices of all dimensions and degrees, all evaluation points found, all previous contents of the result", "why_tests_cant": "the evaluation, pointwise product and interpolation steps must match for every degree pair and dimension; sizes and degrees are unbounded and the zero matrix has degree -1", "anchors": ["ntl-extras/mat_lzz_pX_extra/src/mat_lzz_pX_multiply_evaluate_dense.cpp", "ntl-extras/mat_lzz_pX_extra/src/mat_lzz_pX_multiply_evaluate_geometric.cpp", "ntl-extras/mat_lzz_pX_extra/src/mat_lzz_pX_t_multiply_evaluate.cpp", "ntl-extras/mat_lzz_pX_extra/mat_lzz_pX_multiply.h"]}
{"id": "C69", "title": "Products of polynomial matrices by FFT (ntl-extras)", "statement": "When the modulus is an FFT prime whose roots of unity are numerous enough for the degrees, multiply_evaluate_FFT and each of its variants (direct, direct_ll_type, matmul1, matmul2, matmul3) set c to the matrix product of a and b, for all positive dimensions and also when a or b is zero; the accumulations in double words never overflow.", "quantifier": "all FFT primes below 2^NTL_SP_NBITS, all matrices of all dimensions and degrees, all numbers of points chosen by the rounding of the truncated FFT", "why_tests_cant": "the variants split the work in slices and cache blocks whose boundaries interact with the dimensions, and share buffers by swapping pointers; dimensions are unbounded", "anchors": ["ntl-extras/mat_lzz_pX_extra/src/mat_lzz_pX_multiply_evaluate_FFT.cpp", "ntl-extras/mat_lzz_pX_extra/mat_lzz_pX_multiply.h"]}
{"id": "C70", "title": "Products of polynomial matrices modulo any integer by three FFT primes (ntl-extras)", "statement": "For every modulus p > 1, prime or not, multiply_3_primes sets c to the product of a and b modulo p, with reduced coefficients and normalized entries, whether one, two or three FFT primes are used, also when p is larger than these primes and whatever their order; sizes for which three primes are not sufficient are rejected.", "quantifier": "all moduli, all matrices of all positive dimensions and degrees whose products are below half the product of the three primes, all triples of distinct FFT primes", "why_tests_cant": "the reconstruction relies on a bound of the integer coefficients for all operands, and the number of primes depends on the sizes; the inputs that reach the limits cannot be enumerated", "anchors": ["ntl-extras/mat_lzz_pX_extra/src/mat_lzz_pX_multiply_3_primes.cpp", "ntl-extras/mat_lzz_pX_extra/mat_lzz_pX_multiply.h (lzz_pX_3_primes)"]}
{"id": "C71", "title": "Product of polynomial matrices and vectors (ntl-extras)", "statement": "For a prime modulus, multiply(c, a, b) sets c to the product of a and b for all dimensions that agree, empty and zero ones included, whatever algorithm is chosen by the thresholds, also when c is a or b; the products by a column and by a row compute the product by this vector.", "quantifier": "all primes, all matrices and vectors whose sizes are not too large for three FFT primes, all thresholds, all previous contents of c, with and without aliasing", "why_tests_cant": "the choice among eight algorithms depends on the dimensions, the degrees, the prime and on tuned thresholds: tests cover the choices for a few sizes on one machine", "anchors": ["ntl-extras/mat_lzz_pX_extra/src/mat_lzz_pX_multiply.cpp", "ntl-extras/mat_lzz_pX_extra/mat_lzz_pX_multiply.h (multiply)", "ntl-extras/mat_lzz_pX_extra/thresholds_matrix_multiply.h"]}
{"id": "C72", "title": "Middle products of polynomial matrices by one algorithm (ntl-extras)", "statement": "For operands of degrees at most dA and dA + dB, the naive middle product, those by FFT (direct, with double words, three variants by matrix products and the functions that choose among them) and the one by a Vandermonde matrix return the matrix trunc(trunc(a, dA + 1) c div x^dA, dB + 1).", "quantifier": "all fields with the required FFT or number of elements, all dimensions, all degrees, all polynomials", "why_tests_cant": "wrap-around in the cyclic convolution and the transposed Vandermonde product must be right for every pair (dA, dB) and every dimension, including those that are not multiples of the blocks", "anchors": ["ntl-extras/mat_lzz_pX_extra/src/mat_lzz_pX_middle_product.cpp (middle_product_naive)", "ntl-extras/mat_lzz_pX_extra/src/mat_lzz_pX_middle_product_evaluate_FFT.cpp", "ntl-extras/mat_lzz_pX_extra/src/mat_lzz_pX_middle_product_evaluate_dense.cpp", "ntl-extras/mat_lzz_pX_extra/mat_lzz_pX_multiply.h"]}
{"id": "C73", "title": "Middle product of polynomial matrices: FFT primes and choice of the algorithm (ntl-extras)", "statement": "middle_product_3_primes and middle_product return trunc(trunc(a, dA + 1) c div x^dA, dB + 1), for every algorithm that the thresholds select, every modulus and every degree of the operands.", "quantifier": "all primes, all dimensions, all pairs (dA, dB), all polynomial matrices, all thresholds", "why_tests_cant": "the number of FFT primes must be enough for the largest coefficients; the reduction of dA to the degree of a must be right for each algorithm", "anchors": ["ntl-extras/mat_lzz_pX_extra/src/mat_lzz_pX_middle_product.cpp", "ntl-extras/mat_lzz_pX_extra/src/mat_lzz_pX_multiply_3_primes.cpp (middle_product_3_primes)", "ntl-extras/mat_lzz_pX_extra/mat_lzz_pX_multiply.h"]}
{"id": "C74", "title": "Truncated inverse of a polynomial matrix (ntl-extras)", "statement": "For a square polynomial matrix a with a(0) invertible and m > 0, plain_inv_trunc, the three versions of Newton iteration and inv_trunc return the matrix x of degree less than m with a x = x a = 1 modulo x^m, whatever x contained before the call and for every threshold; they raise an error when a(0) is not invertible.", "quantifier": "all fields (all primes for inv_trunc), all dimensions, all matrices, all m and thresholds, all previous contents of x", "why_tests_cant": "each step doubles the precision and depends on the one before; the previous contents of the memory of x are not visible to a test that starts from a new matrix", "anchors": ["ntl-extras/mat_lzz_pX_extra/src/mat_lzz_pX_inv_trunc.cpp", "ntl-extras/mat_lzz_pX_extra/mat_lzz_pX_inverse.h"]}
{"id": "C75", "title": "Left multipliers (ntl-extras)", "statement": "get_lmultiplier(a, dB), for a prime modulus, returns an object whose method multiply(c, b) sets c to the product a b for every matrix b with matching dimensions and degree at most dB, as often as it is called, and stops with an error when the degree of b is larger.", "quantifier": "all primes, all matrices a, all bounds dB, all matrices b, all choices of the algorithm (direct FFT with or without double words, FFT and matrix products, dense, geometric points, up to three FFT primes)", "why_tests_cant": "the values of a are computed once for all possible b, whose degree is known later only: the number of points of the transforms of b differs from that of a", "anchors": ["ntl-extras/mat_lzz_pX_extra/src/mat_lzz_pX_lmultiplier.cpp", "ntl-extras/mat_lzz_pX_extra/mat_lzz_pX_multiply.h: get_lmultiplier, mat_lzz_pX_lmultiplier"]}
{"id": "C76", "title": "Solution of linear systems of power series (ntl-extras)", "statement": "solve_series(u, A, b, prec), for a square matrix A invertible modulo X and a matrix or vector b, sets u to the unique solution of A u = b modulo X^prec with entries of degree less than prec, normalized polynomials; so do its two algorithms, for low and for high precision, and any threshold.", "quantifier": "all primes, all square matrices A with A(0) invertible, all right-hand sides, all precisions and thresholds", "why_tests_cant": "the result is assembled from blocks, in an order and with shifts that depend on the precision, on the degree of A and on thresholds; a wrong carry between two blocks is seen only on some right-hand sides", "anchors": ["ntl-extras/mat_lzz_pX_extra/src/mat_lzz_pX_linsolve.cpp", "ntl-extras/mat_lzz_pX_extra/mat_lzz_pX_linsolve.h: solve_series, solve_series_low_precision, solve_series_high_precision"]}
{"id": "C77", "title": "Division of polynomial matrices (ntl-extras)", "statement": "quo_rem(Q, R, A, B), for a square row reduced matrix B and a matrix A with as many rows, sets Q and R to the unique matrices with A = B Q + R such that every row of R has a degree less than the degree of the same row of B, also when R is the same object as A.", "quantifier": "all primes, all row reduced matrices B with at least zero rows, all matrices A with as many rows", "why_tests_cant": "the quotient is computed on reversed matrices with row-dependent degrees, by a linear system of power series; a wrong degree of reversal is seen only when the row degrees differ, and a wrong block only on some quotients", "anchors": ["ntl-extras/mat_lzz_pX_extra/src/mat_lzz_pX_division.cpp", "ntl-extras/mat_lzz_pX_extra/mat_lzz_pX_division.h: quo_rem"]}
{"id": "C78", "title": "Degrees, pivots, leading matrices and forms (ntl-extras)", "statement": "For every matrix and every shift of the right length, the functions on forms give the shifted row and column degrees (minimum of the shift minus one for zero rows), the shifted pivot indices and degrees (the last entry that reaches the degree), the degree and leading matrices, and decide exactly the reduced, weak Popov, ordered weak Popov and Popov forms, row-wise and column-wise; get_row_polmatform and get_col_polmatform give the strongest of these forms; a shift of another length throws.", "quantifier": "all matrices over a field of any dimensions, all shifts", "why_tests_cant": "ties between pivots, zero rows, empty shifts and rectangular matrices are corner cases that each function must treat; the equivalence with the definition quantifies over all matrices", "anchors": ["ntl-extras/mat_lzz_pX_extra/src/mat_lzz_pX_forms.cpp", "ntl-extras/mat_lzz_pX_extra/mat_lzz_pX_forms.h: row_degree, col_degree, row_pivots, col_pivots, row_leading_matrix, is_row_reduced, is_row_popov, is_col_popov, get_row_polmatform, get_col_polmatform, amplitude"]}
{"id": "C79", "title": "Iterative approximant bases (ntl-extras)", "statement": "For every polynomial matrix, every vector of positive orders (one per column) and every shift, appbas_iterative (both ways of choosing the columns) returns a basis of the module of approximants which is in shifted ordered weak Popov form, together with its shifted row degrees; appbas_iterative_2x1 does the same for two polynomials; popov_appbas_iterative returns the unique basis in shifted Popov form with its shifted row degrees; approximant_basis returns a basis in the requested form, and throws for what is not implemented.", "quantifier": "all matrices over a field (of at least one row for the Popov form), all positive orders, all shifts, any previous content of the output", "why_tests_cant": "the generation of the module by the rows quantifies over all approximants of unbounded degree, and the minimality over all shifts and orders", "anchors": ["ntl-extras/mat_lzz_pX_extra/src/mat_lzz_pX_approximant.cpp", "ntl-extras/mat_lzz_pX_extra/mat_lzz_pX_approximant.h: approximant_basis, appbas_iterative, appbas_iterative_2x1, popov_appbas_iterative"]}
{"id": "C80", "title": "Verification of approximant bases (ntl-extras)", "statement": "is_approximant_basis (randomized) accepts every approximant basis in the required form, whatever the random point; what it accepts is made of approximants and is in the form, and a matrix that is not a basis is accepted for at most as many random points as the degree of its determinant; a matrix of wrong dimensions is refused, and the deterministic variant throws.", "quantifier": "all matrices with at least one row, all orders, shifts and forms, all random points", "why_tests_cant": "a Monte Carlo test: the number of bad points is a statement on all points of the field, and completeness quantifies over all bases", "anchors": ["ntl-extras/mat_lzz_pX_extra/src/mat_lzz_pX_approximant.cpp: is_approximant_basis", "ntl-extras/mat_lzz_pX_extra/mat_lzz_pX_approximant.h: is_approximant_basis"]}
{"id": "C81", "title": "Approximant bases at order one from a kernel (ntl-extras)", "statement": "mbasis1 and popov_mbasis1 return a constant matrix and a vector of zeros and ones which together describe an ordered weak Popov basis (for popov_mbasis1 the Popov basis) of the approximants at order one of the constant matrix, for the given shift; its shifted row degrees are the shift plus the vector; and no search of a pivot leaves a row.", "quantifier": "all fields, all constant matrices including those without rows or columns, all shifts, and every left kernel basis NTL may return: whatever its pivots, distinct or colliding", "why_tests_cant": "the usual kernel has the expected pivots: the two other paths, distinct unexpected pivots and colliding ones, are rare on random input, and minimality quantifies over all approximants", "anchors": ["ntl-extras/mat_lzz_pX_extra/src/mat_lzz_pX_pmbasis.cpp: popov_mbasis1, mbasis1", "ntl-extras/mat_lzz_pX_extra/mat_lzz_pX_approximant.h: popov_mbasis1, mbasis1"]}
{"id": "C82", "title": "M-Basis (ntl-extras)", "statement": "mbasis and its three variants mbasis_plain, mbasis_rescomp and mbasis_resupdate return an ordered weak Popov basis of the approximants of the matrix at the given order for the given shift, of the right dimensions, and replace the shift by the shifted row degrees of that basis.", "quantifier": "all fields, all polynomial matrices, all positive orders, all shifts, and every kernel and image functions meeting their contract", "why_tests_cant": "the invariant of the residual must hold at every iteration and for every sequence of kernels; vectors kept from one iteration to the next, and swapped rows, matter only after particular kernels", "anchors": ["ntl-extras/mat_lzz_pX_extra/src/mat_lzz_pX_pmbasis.cpp: mbasis_plain, mbasis_rescomp, mbasis_resupdate", "ntl-extras/mat_lzz_pX_extra/mat_lzz_pX_approximant.h: mbasis"]}
{"id": "C83", "title": "Divide and conquer approximant bases (ntl-extras)", "statement": "pmbasis returns an ordered weak Popov basis of the approximants of the matrix at the given order for the given shift and replaces the shift by its shifted row degrees; popov_mbasis and popov_pmbasis return the Popov basis; pmbasis_2x1 does as pmbasis for two polynomials, for every positive threshold. The recursion ends, and every product that it calls gets operands within the degrees which that product requires.", "quantifier": "all fields, all polynomial matrices with at least one row, all positive orders, all shifts, all positive thresholds, every kernel, image, product and middle product meeting their contract; and modulo FFT primes the products of the code itself", "why_tests_cant": "the recursion depth and the degrees of the intermediate bases are unbounded; tests use orders for which few levels occur and do not check minimality against all approximants", "anchors": ["ntl-extras/mat_lzz_pX_extra/src/mat_lzz_pX_pmbasis.cpp: popov_mbasis, pmbasis, popov_pmbasis, pmbasis_2x1", "ntl-extras/mat_lzz_pX_extra/mat_lzz_pX_approximant.h: pmbasis"]}
{"id": "C84", "title": "Kernel bases by one approximant basis, and their verification (ntl-extras)", "statement": "kernel_basis_via_approximation returns a basis of the left kernel in ordered weak Popov form for the given shift, with its pivot indices and its shifted row degrees; it has as many rows as the number of rows of the matrix minus its rank. is_kernel_basis returns true exactly for the minimal kernel bases of the requested form; the randomized test accepts whatever the deterministic test accepts.", "quantifier": "all fields, all polynomial matrices of any rank, all shifts of the right length, every approximant basis meeting its contract; all candidates, all random vectors", "why_tests_cant": "a kernel basis must generate all the infinitely many kernel vectors, for every shift; tests check random matrices of full rank, with the same incomplete verification", "anchors": ["ntl-extras/mat_lzz_pX_extra/src/mat_lzz_pX_kernel.cpp: is_kernel_basis, kernel_basis_via_approximation", "ntl-extras/mat_lzz_pX_extra/mat_lzz_pX_kernel.h: is_kernel_basis, kernel_basis_via_approximation"]}
{"id": "C85", "title": "Kernel bases by the algorithm of Zhou, Labahn and Storjohann (ntl-extras)", "statement": "kernel_basis and kernel_basis_zls_via_approximation return a basis of the left kernel in ordered weak Popov form for the given shift, and the latter replaces the shift by the shifted row degrees of that basis.", "quantifier": "all fields, all polynomial matrices, all shifts of the right length, every approximant basis and product meeting their contract", "why_tests_cant": "the early exit compares two sums which agree by accident only for special degrees and shifts; tests use random matrices and the uniform shift and do not look at the returned degrees", "anchors": ["ntl-extras/mat_lzz_pX_extra/src/mat_lzz_pX_kernel.cpp: kernel_basis, kernel_basis_zls_via_approximation", "ntl-extras/mat_lzz_pX_extra/mat_lzz_pX_kernel.h: kernel_basis, kernel_basis_zls_via_approximation"]}
{"id": "C86", "title": "Determinants of polynomial matrices (ntl-extras)", "statement": "Each determinant function returns the determinant of its square matrix: expansion by minors and its recursive variant, evaluation at general points, at geometric points and at roots of unity. determinant_generic_knowing_degree, given the degree of the determinant, returns true exactly when its result is the determinant up to a constant. verify_determinant accepts the determinant (and its constant multiples when asked to) and refuses anything else except with small probability.", "quantifier": "all fields, all square polynomial matrices, all points drawn, every approximant basis and product meeting their contract", "why_tests_cant": "tests use random matrices, for which the generic algorithm is right; the matrices for which it returns true with a wrong polynomial, the zero matrix and the zero candidate are special; a test draws one pair of points", "anchors": ["ntl-extras/mat_lzz_pX_extra/src/mat_lzz_pX_determinant.cpp: verify_determinant, determinant_expansion_by_minors, determinant_expansion_by_minors_rec, determinant_generic_knowing_degree, determinant_via_evaluation_general, determinant_via_evaluation_geometric, determinant_via_evaluation_FFT", "ntl-extras/mat_lzz_pX_extra/mat_lzz_pX_determinant.h"]}
{"id": "C87", "title": "Joining, collapsing and partial linearization of columns (ntl-extras)", "statement": "horizontal_join returns [a b]. collapse_consecutive_columns and collapse_nonconsecutive_columns return the documented sums of columns shifted by multiples of d. column_partial_linearization splits each column into columns of degree at most the linearization degree whose sum, shifted back, is the column. right_parlin_multiply returns the product and right_parlin_middle_product the middle product, for every degree bound on the columns.", "quantifier": "all fields, all polynomial matrices, all degree profiles, every multiplication meeting its contract, any previous value of the result", "why_tests_cant": "the experimental functions have no test; random dense matrices never have an entry shorter than the others, and the tests start from an empty result", "anchors": ["ntl-extras/mat_lzz_pX_extra/src/mat_lzz_pX_linearization.cpp: horizontal_join, collapse_consecutive_columns, collapse_nonconsecutive_columns, column_partial_linearization, right_parlin_multiply, right_parlin_middle_product", "ntl-extras/mat_lzz_pX_extra/mat_lzz_pX_linearization.h"]}
{"id": "C88", "title": "Hankel, Toeplitz and lower triangular Toeplitz matrices (ntl-extras)", "statement": "hankel_lzz_p and toeplitz_lzz_p built from a vector of n + m - 1 entries stand for the n x m matrices of entries input[n+m-2-i-j] and input[m-1+i-j]; lower_triangular_toeplitz_lzz_p stands for the n x n matrix of entries input[i-j], zero above the diagonal. to_dense returns this matrix. mul_right and mul_left return its product with a vector or a matrix, whatever the thresholds between the Karatsuba, FFT and dense products, and report an operand of the wrong size.", "quantifier": "all fields, all dimensions, all data and operands, all thresholds, any previous value of the result", "why_tests_cant": "the tests compare a few dimensions on one machine, so that only some thresholds are reached; the matrix products of the lower triangular matrices have no test", "anchors": ["ntl-extras/structured_lzz_p/src/hankel_lzz_p.cpp: hankel_lzz_p, to_dense, mul_right, mul_left", "ntl-extras/structured_lzz_p/src/toeplitz_lzz_p.cpp: toeplitz_lzz_p, to_dense, mul_right, mul_left", "ntl-extras/structured_lzz_p/src/lower_triangular_toeplitz_lzz_p.cpp: to_dense, mul_right, mul_left", "ntl-extras/structured_lzz_p/structured_lzz_p.h"]}
{"id": "C89", "title": "Rectangular circulant matrices (ntl-extras)", "statement": "circulant_column_lzz_p built from the first column and a number of columns stands for the matrix of entries input[(i-j) mod n]; circulant_row_lzz_p built from a vector of length m and a number of rows stands for the matrix of entries input[(i-j-1) mod m]. to_dense returns this matrix; mul_right and mul_left return its product with a vector or a matrix for all dimensions, and report an operand of the wrong size.", "quantifier": "all fields, all numbers of rows and columns, all data and operands", "why_tests_cant": "the tests use a few dimensions; the overflow of a buffer is only visible for shapes and sizes the allocator does not round up", "anchors": ["ntl-extras/structured_lzz_p/src/circulant_column_lzz_p.cpp: circulant_column_lzz_p, to_dense, mul_right, mul_left", "ntl-extras/structured_lzz_p/src/circulant_row_lzz_p.cpp: circulant_row_lzz_p, to_dense, mul_right, mul_left", "ntl-extras/structured_lzz_p/structured_lzz_p.h"]}
{"id": "C90", "title": "Toeplitz-like matrices given by generators (ntl-extras)", "statement": "A toeplitz_like_plus_lzz_p built from G, H stands for the matrix M with Z1 M - M Z0 = G H^t, a toeplitz_like_minus_lzz_p for the one with Z0 M - M Z1 = G H^t. to_dense returns M; mul_right and mul_left return its product with a vector or a matrix, for all dimensions and numbers of generators.", "quantifier": "all fields, all nonzero dimensions, all generators, all operands, any previous value of the result", "why_tests_cant": "the tests compare a product with to_dense of the same object, for random generators and a few shapes; that the object stands for the right matrix is an equation on all entries", "anchors": ["ntl-extras/structured_lzz_p/src/toeplitz_like_plus_lzz_p.cpp: toeplitz_like_plus_lzz_p, mul_right, mul_left, to_dense", "ntl-extras/structured_lzz_p/src/toeplitz_like_minus_lzz_p.cpp: toeplitz_like_minus_lzz_p, mul_right, mul_left, to_dense", "ntl-extras/structured_lzz_p/structured_lzz_p.h"]}
{"id": "C91", "title": "Hankel-like matrices given by generators (ntl-extras)", "statement": "A hankel_like_plus_lzz_p built from G, H stands for the matrix M with Z1 M - M Z0^t = G H^t, a hankel_like_minus_lzz_p for the one with Z0^t M - M Z1 = G H^t. mul_right returns the product of M and a vector, for all dimensions and numbers of generators.", "quantifier": "all fields, all nonzero dimensions, all generators, all vectors", "why_tests_cant": "the tests compare a product with to_dense of the same object, for random generators and a few shapes; that the object stands for the right matrix is an equation on all entries", "anchors": ["ntl-extras/structured_lzz_p/src/hankel_like_plus_lzz_p.cpp: hankel_like_plus_lzz_p, mul_right", "ntl-extras/structured_lzz_p/src/hankel_like_minus_lzz_p.cpp: hankel_like_minus_lzz_p, mul_right", "ntl-extras/structured_lzz_p/structured_lzz_p.h"]}
