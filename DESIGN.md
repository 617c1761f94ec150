# A Rocq model of vneiger/pml: design

Source: `/repo` (read as text, never built). The model lives in `rocq/theories`
(logical name `Verif`), the property list in `properties.jsonl`, the claims in
`MANIFEST.json`, the log of edited ("wrong") models in `seeded/LOG.jsonl`.

## 1. Two layers

**W, the word layer** (files `W_*.v`, Coq standard library only). Machine words
are `Z` with an explicit `mod 2^64` (or `mod 2^32`) after every operation that
can wrap. Two- and three-limb primitives (`umul_ppmm`, `add_ssaaaa`,
`add_sssaaaaaa`) are modelled limb by limb, with carries. Vectors are lists of
words. Used for the dot products, the CRT code and the small word utilities.

**A, the algebra layer** (files `A_*.v`, mathcomp). Everything is stated over an
arbitrary `F : fieldType`, which covers `Z/pZ` for every prime modulus. A FLINT
`nmod_poly_t` is a `{poly F}`; a matrix (`nmod_mat_t`, `nmod_poly_mat_t`) is its
dimensions together with an entry function `nat -> nat -> R`; a C loop is a
recursion on the loop counter (or on explicit fuel with a distinct out-of-fuel
outcome); an in-place update is a function returning the new entry function.
`slong` shifts and degrees are `int` (unbounded; overflow of `slong` degree
arithmetic is not modelled). `deg p = size p - 1`, so the zero polynomial has
degree -1 as in FLINT. Specifications are stated on mathcomp matrices
(`mx_of m n M : 'M_(m,n)`), never on the entry functions' helpers.

`W` and `A` files are organised as
* `*_model.v`: definitions only, each with a comment citing the lines modelled;
* `Spec*.v`: the small independent specifications;
* `*_proof.v`: lemmas;
* `P_*.v`: the property theorems, each `exact lemma`, followed by
  `Print Assumptions` and an `Example` showing the hypotheses are met.

## 2. Trusted base

* Coq 8.16.1's kernel (and `coqchk`).
* FLINT primitives that pml calls and that are not in the repository. They are
  modelled by their mathematical specification: word reduction `NMOD_RED*`,
  `nmod_mul`, ..., polynomial ring operations (`nmod_poly_add`, `mul`, `divrem`,
  `xgcd`, `shift`, `truncate`), constant matrix operations (`nmod_mat_mul`,
  `nmod_mat_nullspace`, `nmod_mat_rank`, `nmod_mat_inv`, ...), `fmpz` arithmetic.
  Where a FLINT function has freedom (which Bezout cofactors, which sort order
  among equals) the model takes it as a parameter with its documented
  specification as an explicit hypothesis of the section, and an instance is
  exhibited.
* The reading of the C text. Not modelled: memory allocation and leaks, SIMD
  variants, timings/tuning thresholds (kept as parameters), I/O, randomness
  (random values are arbitrary parameters), `slong` overflow of degrees/shifts.

`Print Assumptions` output for each property theorem is summarised in section 5.

## 3. Plan, property by property

| id | modelled | proof |
|----|----------|-------|
| C01 | limb bound, the 3 accumulators, dispatch | invariant: accumulators represent the partial sum, bounded by count * max product |
| C02 | integer dot product, both block strategies | same invariant, exact sum |
| C03 | multi dot, row loops with column blocks | reduce each column to the C01 invariant |
| C04 | nmod32 split, 2dot split | invariant dp_hi*2^56+dp_lo = partial sum; numeric bound |
| C05 | split26 scalar code | expected refuted (witness by vm_compute) plus a partial positive result |
| C06 | Newton iteration on words | p*q = 1 mod 2^(2^i) invariant |
| C07 | int-cast code with UB outcome | exact characterisation for x <= 2^30, refutation above |
| C08 | search loop | order argument in the cyclic group; refutation for n = p-1 |
| C09 | init/combine/CRT with limbs | limb array value invariant; CRT uniqueness |
| C10 | both reduce paths | slices represent A; modular sum |
| C11 | four rotations + polynomial row rotations | pointwise; leftward refuted |
| C12 | permute + compose of stored permutation | refutation on rectangular shape, positive for square |
| C13 | PLUQ loop | invariant P L U Q = A on processed part, rank |
| C14 | extraction loops, stale contents as parameter | refutation / partial |
| C15 | transposition, nullspace spec, pivots, permutation | linear algebra |
| C16 | set_from loops | pointwise on coefficients |
| C17 | shifts with and without aliasing | refutation non-aliased shift_left |
| C18, C19 | mbasis loop | invariant (approximants, generation, shifted pivots) |
| C20 | pmbasis recursion | composition of bases and residual |
| C21 | verification algorithm | refuted, P = [x+1] |
| C22, C23 | inv_trunc through pmbasis, dixon loop | consequences of C20; residue invariant |
| C24, C25, C26 | kernel through approximation, recursion | degree bound; minimality of pivot degrees |
| C27-C32 | degree, pivot, leading matrix, form predicates | folds characterised; refutations for the wrong branches |
| C33, C34 | weak Popov row by row loop | invariant of distinct pivots, unimodular steps; termination measure |
| C35, C36 | echelon forms (three algorithms) and their normalisation; nmod_poly_xgcd is a parameter with a specification | unimodular steps, shape invariants |
| C37 | Hermite forms | uniqueness from the two directions of divisibility and degrees |
| C38 | Kannan-Bachem loop | invariant; degree argument with the adjugate for columns without elimination; refuted when the last pivot is in the last column |
| C53 | mrp, permutation of the rows | each row is a combination of input rows up to its own with nonzero last coefficient |
| C39 | det_iter sign bookkeeping | determinant of transformation tracked |
| C40 | unimodularity tests | determinant criterion; refutation of the randomized variant |
| C41 | Waksman loops | polynomial identity |
| C42, C43 | middle products | coefficient identity; transposed Vandermonde |
| C44 | evaluation-interpolation products | interpolation uniqueness |
| C45, C46 | one coefficient of a product; evaluation of a matrix polynomial | loop invariants |
| C47 | is_kernel | completeness; soundness refuted (generation unchecked), partial |
| C48 | nmod_poly_mat_kernel, four orientations | reduction to C26 by mirror and transpose |
| C49 | nmod_mat_pluq_crout | same invariant as C13 with lazily updated rows |
| C50 | sorting permutations | properties of a stable sort |
| C51 | block form of the weak Popov loop, cstart passed as in the code | invariant: transformation of determinant +-1, distinct pivots, row spaces over the fractions; potential for termination |
| C52 | ordered variant | C33 and C50 |
| C55 | InvTruncMul: naive and Newton, products modulo X^(2^k) - 1 | residual invariant; wrapped coefficients are zero or dropped |
| C56 | the two Taylor shift classes | sum of blocks times powers of (x+c)^(4 2^s); binomial coefficients |
| C57 | add_LeftShift on arrays, with aliasing | coefficient by coefficient; two refutations |
| C54 | the two loops of the matrix gcd method | invariant: transformation of determinant +-1, leading block in echelon form; rank of the leading columns |
| C58 | middle product: naive, Karatsuba with pointers into one memory, cyclic FFT; machine integers of the delayed reduction | induction on the sizes with block disjointness; overflow refuted, partial |
| C59 | subproduct tree, multimod, combine with in-place arrays, InvMod and MulMod with their errors | dual numbers as a monoid for the way up, induction over the levels; square-free implies separable over a finite field |
| C60 | multipoint evaluation by the tree, reversed root and its power series inverse, entrywise loops of the base class | power sums times the reversed root; uniqueness by counting roots; output_size refuted, partial |
| C61 | constructor loop by loop, the table of prepared degrees, all operations with both the FFT and the middle product; calls after construction as a list of operations | closed forms by invariants; q-binomial expansion of the Newton basis, q-exponential and its inverse; invariant over histories; partial because of four refuted corners |
| C62 | the loops of order over integers modulo any m; element_of_order over the list of the values drawn | invariant; Euler's theorem for termination before m |
| C63 | bit reversal as the code computes it, the tests of the constructor on NTL's table, the four operations with the permutation | closed form of RevInc; accepted tables are in one of the two orders; sums of powers of roots; reindexing by the involution |
| C64 | the values written and read by each transform in the order of the code; the loops of the base class; the products of matrices | offsets of the segments of the naive transform; ring identities; linearity of backward; partial because of the refuted corners |
| C65 | every function of mat_lzz_pX_utils.cpp and mat_lzz_pX_arith.cpp as loops updating one cell at a time, with flags for aliasing and an arbitrary previous output | one lemma on windows of updates whose value depends on the cell only; inductions for the swaps; partial because of the refuted truncRow and truncCol |
| C66 | conv and eval of mat_lzz_pX_utils.cpp, with the blocked loops and the accesses within the length of each entry | nested loops flattened to lists of indices, characterized by membership; partial because of the refuted conversion |
| C67 | both functions, loop by loop, with the vectors d and e of Waksman's algorithm | closed forms of the loops by induction; ring identities; partial because of the refuted empty dimensions |
| C68 | the four functions with their Vandermonde matrices, tables of values and interpolation loops | closed forms of the nested loops; invertibility of Vandermonde matrices; the theorems of C61/C62 on geometric points; partial because of the refuted zero operands |
| C69 | the five variants, with the cache blocks, the slices of double-word accumulations and the buffers exchanged by swap (null pointers included); fftRep as the list of values at the first points | an observation lemma for nested loops; bounds for the double words; an invariant on which buffers are allocated; partial because of the refuted null pointer |
| C70 | polynomials as vectors of integers, so that p need not be prime; reduction, reconstruction with 2 and 3 primes (sorted by recursive calls), number of primes, product modulo each prime by the model of C69 over Z/q | the integer product bounded by ncols min(dA+1, dB+1) (p-1)^2; mixed-radix digits of the product; C69 at each prime |
| C71 | multiply with all its branches, calling the models of C64, C65, C67, C68, C69, C70; thresholds and cubic root as parameters; products by vectors | case analysis over the branches, with the hypotheses of each algorithm derived from the tests made before it |
| C72 | middle_product_naive, the middle products by FFT (sharing the loops of C69), by Vandermonde, and the functions choosing among the FFT ones | cyclic convolution: the coefficients that wrap around have an index less than dA; transposition: interpolation of x^i times the reversed polynomial |
| C73 | middle_product_3_primes and middle_product | the integer coefficients of the middle product are less than the product of the primes when deg(a) <= dB, then Chinese remainders as for C70; the shift of c by dA - deg(a) |
| C74 | plain_inv_trunc, newton_inv_trunc_FFT, newton_inv_trunc_middle_product, newton_inv_trunc_geometric, inv_trunc; the entries of x with their memory | matrices of polynomials as polynomials over a ring of matrices: one step of Newton's iteration doubles the precision; the wrap-around of the transforms does not touch the coefficients k .. 2k - 1; invariants of the loops |
| C75 | the five classes of multipliers and get_lmultiplier; an object is the function that multiply computes | the invariants of the loops are those of C68, C69 and C70; the transforms of b use a prefix of the points of a (FFTRoundUp is increasing) |
| C76 | solve_series and its two algorithms; the result is a matrix of vectors of coefficients, since they may have leading zeros | induction on the precision (low) and on the blocks (high): residue of the system after the known blocks; exact description of the padding by add_LeftShift |
| C77 | quo_rem with its aliasing of R and A, row_degree, reverse with row-dependent degrees | the reverse of B is invertible at 0 as B is reduced; the reversed solution of C76 is the quotient; uniqueness by the predictable degree property |
| C78 | all functions of mat_lzz_pX_forms.cpp, with exceptions and undefined behaviour | invariants of the loops (largest degree, last entry that reaches it), definitions of SpecForms.v; columns by transposition |
| C79 | the iterative algorithms and the interface of mat_lzz_pX_approximant.cpp: residuals, choice of the pivot, elimination, multiplication by X, second run with the shift minus the degrees for the Popov form | each iteration adds one linear condition on the constant coefficient: abstract step (basis and degrees) of A_mbasis_abs.v; the order is restored by an invariant; Popov form through pivots and invertibility of the leading matrix, uniqueness by reduction |
| C80 | is_approximant_basis, the random point being a parameter | Giorgi-Neiger criterion for one order per column, degree of the determinant of a shifted reduced matrix, number of roots of a polynomial |
| C81 | mbasis1 and popov_mbasis1, NTL's kernel and image being parameters with a contract | pivots distinct for the order (shift, index) give a basis at order one in ordered weak Popov form; the permutations of rows and columns; the three shapes of the kernel |
| C82 | mbasis_plain, mbasis_rescomp, mbasis_resupdate, mbasis: coefficients, residuals and the vectors kept between iterations | induction on the order: composition of bases and of shifted degrees, swapped rows as multiplication by X, residual as a coefficient of the product |
| C83 | pmbasis, popov_mbasis, popov_pmbasis, pmbasis_2x1; middle product and product as parameters, then the models of C71, C72, C73 | induction on the depth: bases depend on the first coefficients only, composition, degrees at most the order; two passes and leading matrix for Popov |
| C84 | is_kernel_basis (random vectors as parameters), kernel_basis_via_approximation over pmbasis | rows of small degree of an approximant basis generate the kernel (degree bound of the kernel by minors); C78 for the forms |
| C85 | kernel_basis, kernel_basis_zls_via_approximation over pmbasis, multiply and middle_product | kernel membership by induction on the columns; one column: degrees of the kernel rows are at most twice the largest entry of the reduced shift; two refutations |
| C86 | the determinant functions over expansion, evaluation and pmbasis | Laplace expansion, uniqueness of the interpolating polynomial, evaluation of the determinant at a point; a 5 x 5 counterexample for the generic function |
| C87 | the functions of mat_lzz_pX_linearization.cpp over multiply | sums of shifted blocks of coefficients, degree of the pieces; exchange of the sums in the products; four refutations |
| C88 | hankel_lzz_p.cpp, toeplitz_lzz_p.cpp, lower_triangular_toeplitz_lzz_p.cpp over the transposed Karatsuba product and cyclic products | reduction to the middle product of C58; absence of wrap-around for the triangular ones; two refutations |
| C89 | circulant_column_lzz_p.cpp, circulant_row_lzz_p.cpp over cyclic products | a product without wrap-around folded modulo X^n - 1; sum over chunks; induction on the copies; two refutations |
| C90 | toeplitz_like_plus_lzz_p.cpp, toeplitz_like_minus_lzz_p.cpp over C88 and C89 | the displacement equation solved by induction on the columns (the rows); the sums of products of blocks rearranged into that solution; two refutations |
| C91 | hankel_like_plus_lzz_p.cpp, hankel_like_minus_lzz_p.cpp, constructor and mul_right | reversing the columns (the rows) turns the displacement equation into that of C90 |

## 4. Findings

Places where the code does not do what its documentation (or the property) says.
"proved" means that a theorem of the model, named in `MANIFEST.json`, refutes the
property; the other ones were found while reading and are not part of a theorem.

| where | what | status |
|-------|------|--------|
| `_nmod_mat_rotate_columns_leftward` | the saved entry is written back to column `i`, not `j` | proved (C11) |
| `nmod_mat_permute_columns` | the stored permutation is composed with length `mat->r`, not `mat->c` | proved (C12), with an undefined read |
| `_nmod_mat_l_u_from_compactlu_zeroin` | FLINT >= 3.3 and U distinct from LU: the rows are copied into L | proved (C14) |
| `nmod_mat_l_u_from_compactlu` | row 0 of L is never cleared | proved (C14) |
| `next_power_of_two` | cast to `int`, shift beyond 31 | proved (C07) |
| `inverse_mod_power_of_two` | undefined shift for k >= 63 | proved (C06) |
| `nmod_find_root` | accepts or misses elements of order exactly n | proved (C08) |
| `nmod_mat_poly_is_constant` | tests `length == 0` | proved |
| `nmod_mat_poly_shift_left` | top coefficients lost when the arguments are not aliased | proved (C17) |
| `nmod_poly_mat_is_approximant_basis` | the determinant test cannot fail: [x+1] is accepted | proved (C21) |
| split26 dot product | a carry is lost | proved (C05) |
| `_nmod_vec_2dot2_split` | accumulator overflow | proved (C04) |
| `nmod_poly_mat_is_kernel` | generation of the kernel is not tested | proved (C47) |
| mbasis / pmbasis, order 0 | behaviour at order 0 | proved |
| `_nmod_poly_vec_pivot_profile` | values of a zero vector with a shift are swapped | proved (C29) |
| `nmod_poly_mat_is_popov` | test written `ROW_LOWER \|\| ROW_LOWER` | proved (C31) |
| `nmod_poly_mat_is_form(HERMITE)` | calls the echelon test | proved (C32) |
| `nmod_poly_mat_is_unimodular_randomized` | second determinant computed from the first evaluation | proved (C40) |
| `nmod_poly_mat_weak_popov_iter_submat` | collision column without `cstart`; zero row with ROW_UPPER and a shift reads `pivot_row[-1]` | proved (C51, C33) |
| `nmod_poly_mat_uref_matrixgcd_iter` | a row swap does not change the sign of `udet` | proved (C54) |
| `nmod_poly_mat_hnf_ur_revlex_xgcd_delayed_zero` | stops when the last column gets a pivot, remaining rows not eliminated | proved (C38) |
| Waksman product | wrong when an argument is aliased; needs an odd modulus | proved (C41) |
| Vandermonde products | wrong when aliased | proved (C44) |
| `nmod_poly_mat_dixon`, order 0 | infinite loop; `inv_trunc` of order 0 always answers true | proved (C22, C23) |
| `nmod_mat_mul_pml` | `(1L < 29)` instead of `(1L << 29)` in a tuning test | read |
| `shift(g, f, c)` (ntl-extras) | f = 0, odd characteristic: write to `fact[0]` of an empty vector | `C56_taylor_shift_zero_refuted` |
| `add_LeftShift` (ntl-extras) | b = 0 and k > length of a: the result is not normalised | `C57_zero_not_normalised_refuted` |
| `add_LeftShift` (ntl-extras) | the header allows c to alias b, the result is then wrong | `C57_alias_b_refuted` |
| `tPlainMul2` (ntl-extras) | `use_long` is chosen for at most KARX terms but `sa` terms are summed: signed overflow from 257 terms on | `C58_long_overflow_refuted` |
| `build_subproduct_tree` (ntl-extras) | an empty vector: `while (len != 1)` never ends (also `zz_pX_CRT`, `zz_pX_Multipoint_General` with no points) | `C59_no_moduli_refuted`, `C60_no_points_refuted` |
| `zz_pX_Multipoint_General::t_evaluate` (ntl-extras) | `output_size` is ignored | `C60_output_size_refuted` |
| `zz_pX_Multipoint_Geometric` (ntl-extras), one point | `get_point` returns s r instead of s; `get_q`, `get_s` return 1 | `C61_one_point_refuted` |
| `zz_pX_Multipoint_Geometric::evaluate(val, f, 0)` | the result has length d instead of 0 | `C61_evaluate_nb_zero_refuted` |
| `zz_pX_Multipoint_Geometric::t_evaluate`, `output_size` > d | reads `xs` out of bounds; for one point coefficients are missing | `C61_output_size_refuted`, `C61_output_size_one_refuted` |
| `zz_pX_Multipoint_Geometric::evaluate`, documented aliasing of `val` and `P.rep` | `SetLength` exposes stale coefficients which are then read | `C61_alias_refuted` |
| `zz_pX_Multipoint_FFT(1)`, `get_FFT_points(1)` | `1L << -1` in `RevInc`, and `wk.tbl[0][1]` is past the end | `C63_one_point_refuted`, `C63_get_points_one_refuted` |
| `zz_pX_Multipoint_FFT::t_evaluate`, `output_size` > n | reads the table past its end | `C63_output_size_refuted` |
| `multiply_transform`, `multiply_transform_naive` (ntl-extras), both matrices zero | the result has dimensions 0 x 0 | `C64_zero_refuted` |
| `multiply_transform_karatsuba` (and the other fixed lengths) for larger degrees | coefficients beyond the input length are ignored silently | `C64_too_long_refuted` |
| `truncRow`, `truncCol` (ntl-extras) with an output distinct from the input, in particular the versions that return the result | the other rows (columns) are not copied: they are zero in the result | `C65_trunc_row_refuted`, `C65_trunc_col_refuted` |
| `conv(Vec<Mat<zz_p>>&, const Mat<zz_pX>&)` (ntl-extras) on a matrix with two entries of different degrees | reads past the end of the coefficients of the entry of smaller degree (null pointer for a zero entry) | `C66_to_vector_refuted` |
| `multiply_naive` (ntl-extras), inner dimension zero | `a[0][0]` and `b[0][0]` are read although they do not exist | `C67_naive_empty_refuted` |
| `multiply_waksman` (ntl-extras), no row or no column | `d[0]`, `c[0][0]` are accessed although they do not exist | `C67_waksman_empty_refuted` |
| `multiply_evaluate_dense` (ntl-extras), zero operand | sizes are computed from the degree -1 and vectors of length 0 are written | `C68_dense_zero_refuted` |
| `multiply_evaluate_geometric` (ntl-extras), zero operand | the result has NumCols(a) columns, not NumCols(b) | `C68_geometric_zero_refuted` |
| `multiply_evaluate_FFT_matmul3` (ntl-extras), one column times one short row | with NumCols(a) = 1, 2 <= NumCols(b) <= 16 and NumRows(a) >= 2 a null buffer is swapped in and dereferenced for the second row | `C69_matmul3_refuted`, `C69_fft_refuted` |
| `multiply_evaluate_FFT` (ntl-extras), zero operand, prime below 2^24 | for more than 512 = 8^3 products of entries and a low degree it calls `multiply_evaluate_dense`, which inverts a matrix of dimension 0 or a singular one | `C69_fft_zero_refuted` |
| `multiply` (ntl-extras), c is a or b, is_prime = 0 | the recursive call `multiply(c2, a, b)` drops is_prime: for a modulus that is not prime the dense evaluation, which divides, may be chosen | `C71_alias_ignores_is_prime` |
| `middle_product_evaluate_FFT_matmul3` and `middle_product_evaluate_FFT_new` (ntl-extras) | a with one column and several rows, c with 2 to 16 columns: null pointer, as for the product | `C72_matmul3_refuted`, `C72_evaluate_fft_new_refuted` |
| `middle_product_naive` (ntl-extras), a with no column | reads a[i][0] | `C72_naive_no_column` |
| `middle_product_3_primes` (ntl-extras) | the number of primes is chosen for min(dA, dB) + 1 terms instead of dA + 1: wrong coefficients for dB < dA | `C73_3_primes_refuted`, `C73_bound_refuted` |
| `middle_product` of polynomial matrices (ntl-extras), a = 0 | calls itself with dA = -1; the FFT and Vandermonde algorithms then access index -1 or an empty matrix | `C73_zero_refuted` |
| `middle_product` of polynomial matrices (ntl-extras), deg(a) > dA or deg(c) > dA + dB | no truncation: the naive algorithm returns the middle product, the FFT ones do not | `C73_degree_refuted`, `C73_naive_any_degree` |
| `newton_inv_trunc_FFT`, `newton_inv_trunc_geometric`, `inv_trunc` (ntl-extras), a constant | the arrays of the entries of x are lengthened by SetLength without being cleared: what x held before is a part of the result | `C74_newton_fft_constant_refuted`, `C74_inv_trunc_constant_refuted` |
| `newton_inv_trunc_geometric` (ntl-extras), thresh = 1 | one point is not enough to evaluate the first two terms of a: error | `C74_newton_geometric_threshold_1_refuted` |
| `get_lmultiplier` (ntl-extras), deg(a) <= 150, p not an FFT prime and p <= deg(a) + dB | the points 0, ..., deg(a) + dB are not distinct: error (with deg(a) > 150 the product is computed) | `C75_small_field_refuted` |
| `get_lmultiplier` (ntl-extras), a = 0, p not an FFT prime | vandermonde writes the entry (0, 0) of a matrix without columns | `C75_zero_refuted` |
| `solve_series` (ntl-extras), solution of small degree (A = 1, b = 1, prec = 5) | add_LeftShift keeps its zeros: the polynomials have leading zeros, wrong degree, comparisons with the same polynomial fail | `C76_not_normalized_refuted` |
| `solve_series_low_precision` (ntl-extras), the first prec/2 coefficients of b are zero | middle_product of a zero matrix (C73) | `C76_zero_half_refuted` |
| `quo_rem` (ntl-extras), B with no row | reads rdegA[0] of an empty vector | `C77_empty_refuted` |
| `quo_rem` (ntl-extras), R the same object as A | R stores the reversed quotient before A is read: the remainder is wrong unless A is the reversed quotient | `C77_remainder_is_A_refuted` |
| `quo_rem` (ntl-extras), quotient of degree 2 T divisible by X^(T+1) (A = X^64 B, deg(B) = 17) | solve_series with a zero first half (C76), middle product of a zero matrix | `C77_zero_block_refuted` |
| `is_col_popov`, `get_col_polmatform` (ntl-extras), matrix in column-wise Popov form with more rows than columns | the loop on the columns stops at NumRows: reads outside of the matrix | `C78_col_popov_refuted` |
| shifted functions of `mat_lzz_pX_forms.cpp` (ntl-extras), no column (row-wise) or no row (column-wise) | std::min_element of an empty shift is dereferenced | `C78_empty_shift_refuted` |
| `appbas_iterative` (ntl-extras), an order equal to zero | treated as an order one: the result is not a basis of the approximants | `C79_order0_refuted` |
| `popov_appbas_iterative` (ntl-extras), matrix without rows | std::min_element of an empty shift is dereferenced | `C79_popov_empty_refuted` |
| `is_approximant_basis` (ntl-extras), form NONE | the degree of the determinant is computed as if the matrix were reduced: bases that are not reduced are refused | `C80_none_refuted` |
| `mbasis_rescomp`, hence `mbasis` (ntl-extras), order 0 | `coeffs_pmat[0]` is read in an empty vector | `C82_order0_refuted` |
| `mbasis_rescomp`, `mbasis_resupdate` (ntl-extras), matrix without rows | a `std::vector` of length -1 is built: `std::length_error` | `C82_no_rows_refuted` |
| `pmbasis_2x1` (ntl-extras), threshold 0 | order 1 is split into 0 and 1: infinite recursion | `C83_threshold0_refuted` |
| `pmbasis`, `popov_mbasis` (ntl-extras), order 0 or matrix without rows | as `mbasis` | `C83_refuted` |
| `is_kernel_basis` (ntl-extras) | generation is not tested: a multiple of a kernel basis is accepted | `C84_refuted` |
| `kernel_basis_zls_via_approximation`, `kernel_basis` (ntl-extras), constant rows with a large shift | the early exit misses rows of the kernel | `C85_early_exit_refuted` |
| `kernel_basis_zls_via_approximation` (ntl-extras), exits before the merge | the returned shift is not the shifted row degree: the constant subtracted from the shift is not added back | `C85_shift_refuted` |
| `determinant_generic_knowing_degree` (ntl-extras), 5 x 5 matrix with a kernel row of degree above the expected one | returns true with a polynomial that is not a multiple of the determinant | `C86_generic_refuted` |
| `determinant_generic_knowing_degree` (ntl-extras), zero left columns | undefined behaviour: the order of the approximation is 0 or -1 | `C86_generic_zero_columns_refuted` |
| `verify_determinant` up to a constant (ntl-extras), candidate 0 | accepted for every matrix | `C86_verify_zero_refuted` |
| `determinant_via_evaluation_general`, `determinant_via_evaluation_geometric` (ntl-extras), zero matrix | an error or an endless loop instead of 0 | `C86_general_zero_refuted`, `C86_geometric_zero_refuted` |
| `determinant_expansion_by_minors` (ntl-extras), dimension 0 or above 4 | the result is left unchanged | `C86_expansion_refuted` |
| `column_partial_linearization`, `right_parlin_multiply`, `right_parlin_middle_product` (ntl-extras), an entry shorter than the others of its column | error: negative length | `C87_short_entry_refuted`, `C87_middle_short_entry_refuted` |
| `column_partial_linearization` (ntl-extras), last column zero, target degree -1 | writes outside of the matrix | `C87_zero_column_refuted` |
| `right_parlin_multiply` (ntl-extras), result of the same dimensions and not zero | the product is added to the previous entries | `C87_multiply_stale_refuted` |
| `collapse_consecutive_columns`, `collapse_nonconsecutive_columns` (ntl-extras), entries of degree d or more | coefficients dropped | `C87_collapse_refuted` |
| `lower_triangular_toeplitz_lzz_p::mul_right`, `mul_left` with a matrix (ntl-extras) | the result is not written | `C88_ltt_matrix_refuted`, `C88_ltt_matrix_alias` |
| `lower_triangular_toeplitz_lzz_p::to_dense` (ntl-extras), into a matrix with as many columns | entries above the diagonal are kept | `C88_ltt_dense_stale_refuted` |
| `circulant_column_lzz_p::mul_left` (ntl-extras), fewer columns than rows | writes outside of the buffer | `C89_column_left_refuted` |
| `circulant_{column,row}_lzz_p`, products with a matrix (ntl-extras) | error or result not written | `C89_matrix_refuted` |
| `toeplitz_like_{plus,minus}_lzz_p::mul_left`, and `mul_right` with a matrix (ntl-extras) | empty body, the result is not written | `C90_unimplemented_refuted` |
| `toeplitz_like_{plus,minus}_lzz_p::to_dense` (ntl-extras), into a matrix with as many columns | added to the previous entries | `C90_dense_stale_refuted` |
| `nmod_multimod_CRT_init`, `fmpz_multimod_CRT_init` | `num_primes == 0` | read |
| `fmpz_multi_CRT_combine` | one modulus: the result is not reduced | read |
| `nmod_poly_mat_mul_vandermonde2` | modulus 2: inverse of 2 modulo 2 | read |
| early returns of `is_*`, `det_iter`, `dixon` | memory leaks | read, memory is not modelled |
| kernel functions | documented as needing `nullity` rows in `ker`, they write m rows | read |
| weak Popov functions | `pivind[rank]` is overwritten although documented as unchanged | read |

## 5. Trusted base in detail

`Print Assumptions` answers "Closed under the global context" for every theorem
listed in `MANIFEST.json`: no axiom is used, neither of our own nor of the
standard library. (`coqchk`, which looks at the whole of the loaded libraries, lists
the sealed definitions of mathcomp such as `BigOp.bigop` and of `Coq.ssr.ssrunder`;
they are module fields with a definition, not assumptions of the theorems.) What remains trusted is Coq's kernel, the reading of the C and
C++ text, and the specification of the external primitives (section 2).

Modelled (all of the control flow, unless the comment on the definition says
otherwise):

* `nmod_vec_extra`: integer and modular dot products, multi dot products, 2dot;
* `nmod32_vec`: split and msolve dot products, scalar code;
* `nmod_extra`, `fmpz_extra`: word utilities, naive multimodular reduction and CRT;
* `nmod_mat_extra`: rotations, permutations, PLUQ (two algorithms), L and U
  extraction, left nullspace;
* `nmod_mat_poly_extra`: conversions, shifts, arithmetic, mbasis;
* `nmod_poly_mat_extra`: degrees, pivots, leading matrices, form tests, weak Popov,
  echelon and Hermite forms, determinant, unimodularity, products (Waksman,
  Vandermonde, geometric), middle products, mbasis/pmbasis, kernels, truncated
  inverse and Dixon lifting, verification.

* `ntl-extras/lzz_pX_extra`: power series division, Taylor shift, shifted addition;
  `ntl-extras/lzz_pX_middle_product`: all of it;
  `ntl-extras/lzz_pX_CRT`: `lzz_pX_CRT.cpp`, `lzz_pX_Multipoint.cpp`, `lzz_pX_Multipoint_General.cpp`, `lzz_pX_Multipoint_Geometric.cpp`, `lzz_pX_Multipoint_FFT.cpp`,
  `lzz_pX_Transform.cpp`, `lzz_pX_Transform_naive.cpp`, `lzz_pX_Transform_montgomery.cpp`;
  `ntl-extras/mat_lzz_pX_extra`: `mat_lzz_pX_multiply_transform.cpp`, `mat_lzz_pX_multiply_naive.cpp`, `mat_lzz_pX_multiply_evaluate_dense.cpp`,
  `mat_lzz_pX_multiply_evaluate_geometric.cpp`, `mat_lzz_pX_t_multiply_evaluate.cpp`, `mat_lzz_pX_multiply_evaluate_FFT.cpp`, `mat_lzz_pX_multiply_3_primes.cpp`, `mat_lzz_pX_inv_trunc.cpp` (all but high_order_lift_inverse_odd), `mat_lzz_pX_lmultiplier.cpp`, `mat_lzz_pX_division.cpp`, `mat_lzz_pX_forms.cpp`, `mat_lzz_pX_approximant.cpp`, `mat_lzz_pX_pmbasis.cpp`, `mat_lzz_pX_kernel.cpp` (`is_kernel_basis`, `kernel_basis_via_approximation`, `kernel_basis_zls_via_approximation`), `structured_lzz_p/src/{hankel,toeplitz,lower_triangular_toeplitz,circulant_column,circulant_row,toeplitz_like_plus,toeplitz_like_minus}_lzz_p.cpp`, `hankel_like_{plus,minus}_lzz_p.cpp` (constructor and `mul_right`), `mat_lzz_pX_determinant.cpp` (but `determinant_via_linsolve`), `mat_lzz_pX_linearization.cpp`, `mat_lzz_pX_linsolve.cpp` (solve_series and its low and high precision algorithms, thresholds of `thresholds_solve_lift.orig`), `mat_lzz_pX_multiply.cpp`,
`mat_lzz_pX_middle_product.cpp`, `mat_lzz_pX_middle_product_evaluate_FFT.cpp`, `mat_lzz_pX_middle_product_evaluate_dense.cpp` (but middle_product_evaluate_dense2),
  `mat_lzz_pX_utils.cpp` (but `random`), `mat_lzz_pX_arith.cpp` (the versions for matrices, but `add_LeftShift`);
  `ntl-extras/lzz_p_extra`: `order`, `element_of_order` (prime modulus, strong).
  NTL's `fftRep` is represented by residues modulo X^(2^k) - 1, as its
  documentation says.

Not modelled: the rest of `ntl-extras`; SIMD variants (AVX2/AVX512 intrinsics) of the dot products, input and
output, random generation, the Maple and Sage bindings, memory management,
timing thresholds, tests and benchmarks.
