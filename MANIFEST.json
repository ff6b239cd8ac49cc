{
 "claims": [
  {
   "property": "C01",
   "status": "proved",
   "theorems": [
    "C01_apply_inverse_cancel"
   ],
   "note": ""
  },
  {
   "property": "C02",
   "status": "proved",
   "theorems": [
    "C02_cref_total_and_01",
    "C02_cref_says_where_elements_go",
    "C02_apply_is_matrix_vector_product",
    "C02_one_per_row_and_column",
    "C02_inverse_is_transpose"
   ],
   "note": ""
  },
  {
   "property": "C03",
   "status": "proved",
   "theorems": [
    "C03_det_inverse",
    "C03_trace",
    "C03_det_is_determinant"
   ],
   "note": "det for every commutative ring, in Claims_PermMx.v"
  },
  {
   "property": "C04",
   "status": "proved",
   "theorems": [
    "C04_eq_extensional"
   ],
   "note": ""
  },
  {
   "property": "C05",
   "status": "partial",
   "theorems": [
    "C05_modifying_copy_changes_nothing_else_partial",
    "C05_copy_keeps_value_while_owner_untouched_partial",
    "C05_original_modified_refuted",
    "C05_original_gone_refuted",
    "C05_self_assignment_refuted",
    "C05_read_into_copy_refuted",
    "C05_operation_effects"
   ],
   "note": "false as stated: C05_*_refuted give histories where the copy changes, dangles or crashes; the _partial theorems prove the half that holds (operations on a copy never change another object; a copy keeps its value while the owner is untouched) for every history"
  },
  {
   "property": "C06",
   "status": "proved",
   "theorems": [
    "C06_left_right_inverse_cancel",
    "C06_permute_rows_by_column",
    "C06_odd_blocksize_refuted",
    "C06_apply_on_left_is_product",
    "C06_apply_on_right_is_product"
   ],
   "note": "proved for TMV_BLOCKSIZE undefined or even; C06_odd_blocksize_refuted shows the unparenthesised PERM_BLOCKSIZE macro breaks permuteRows for odd values"
  },
  {
   "property": "C07",
   "status": "proved",
   "theorems": [
    "C07_sort_with_permutation"
   ],
   "note": ""
  },
  {
   "property": "C08",
   "status": "partial",
   "theorems": [
    "C08_sort_step1_partial",
    "C08_sort_step2_refuted",
    "C08_sort_reversed_refuted"
   ],
   "note": "false as stated for step != 1 (C08_*_refuted: std::sort works on the raw range); C08_sort_step1_partial proves it for every step-1 view, conjugated or not"
  },
  {
   "property": "C09",
   "status": "proved",
   "theorems": [
    "C09_chains_stay_in_bounds",
    "C09_sub_vector_elements",
    "C09_sub_vector_step_elements",
    "C09_reverse_conjugate_elements",
    "C09_real_imag_flatten_elements",
    "C09_imag_of_conjugate_refuted"
   ],
   "note": "elements and bounds of every chain of view operations; C09_imag_of_conjugate_refuted: imagPart of a conjugated view has the wrong sign"
  },
  {
   "property": "C10",
   "status": "partial",
   "theorems": [
    "C10_range_check_exact_partial",
    "C10_fortran_range_check_exact_partial",
    "C10_zero_step_refuted",
    "C10_fortran_single_element_refuted"
   ],
   "note": "exact for every non-zero step (Fortran: and i1<>i2); C10_zero_step_refuted (division by zero) and C10_fortran_single_element_refuted (i1==i2 accepted out of range) cover the rest"
  },
  {
   "property": "C11",
   "status": "partial",
   "theorems": [
    "C11_element",
    "C11_sub_vector_step_partial",
    "C11_sub_vector_partial",
    "C11_ranges_accepted"
   ],
   "note": "partial because the Fortran check accepts i1==i2 out of range, see C10_fortran_single_element_refuted; premise 1<=i1<=size excludes exactly that"
  },
  {
   "property": "C12",
   "status": "partial",
   "theorems": [
    "C12_setZero",
    "C12_setAllTo_partial",
    "C12_setAllTo_conjugate_refuted",
    "C12_empty_step0_refuted",
    "C12_addToAll",
    "C12_clip",
    "C12_conjugateSelf",
    "C12_makeBasis",
    "C12_swap",
    "C12_swap_out_of_range",
    "C12_fortran_swap_last_refuted",
    "C12_permute",
    "C12_reversePermute_undoes_permute",
    "C12_reverseSelf"
   ],
   "note": "setAllTo holds for every view except conjugated ones of step 1 or -1 (C12_setAllTo_conjugate_refuted: std::fill_n ignores conj); further findings: C12_empty_step0_refuted, C12_fortran_swap_last_refuted (FortranStyle Vector::swap asserts on the last element)"
  },
  {
   "property": "C13",
   "status": "partial",
   "theorems": [
    "C13_min_element_partial",
    "C13_max_element_partial",
    "C13_min_abs",
    "C13_max_abs",
    "C13_empty",
    "C13_direction_independent",
    "C13_step0_conjugate_refuted"
   ],
   "note": "min/maxElement hold for every non-zero step; C13_step0_conjugate_refuted for step 0; Abs versions hold for every step"
  },
  {
   "property": "C14",
   "status": "proved",
   "theorems": [
    "C14_assignment_copies_values",
    "C14_assignment_safe_overlap",
    "C14_reversed_alias_refuted"
   ],
   "note": "C14_reversed_alias_refuted shows the documented exclusion (overlapping in a different order) is needed"
  },
  {
   "property": "C15",
   "status": "partial",
   "theorems": [
    "C15_scale_in_place",
    "C15_scaled_copy_partial",
    "C15_add_partial",
    "C15_linear_combination_partial",
    "C15_same_start_refuted"
   ],
   "note": "proved for operands that are disjoint from, or identical in start and step to, the target; C15_same_start_refuted: operands starting at the same address with different steps take the in-place branch and give wrong values"
  },
  {
   "property": "C16",
   "status": "proved",
   "theorems": [
    "C16_round_trip",
    "C16_round_trip_int",
    "C16_view_round_trip",
    "C16_view_wrong_size"
   ],
   "note": "for every element type given by a print/parse pair, every style whose separators cannot continue a number; instance for integers without further premise"
  },
  {
   "property": "C17",
   "status": "partial",
   "theorems": [
    "C17_blank_input_refuted",
    "C17_truncated_refuted",
    "C17_skip_partial",
    "C17_primitives_partial"
   ],
   "note": "false as stated: C17_blank_input_refuted / C17_truncated_refuted (skipWhiteSpace spins forever at end of input, tests an uninitialised char on empty input, negative size accepted); C17_skip_partial characterises exactly when skipping ends"
  },
  {
   "property": "C18",
   "status": "proved",
   "theorems": [
    "C18_default_is_last_set",
    "C18_named_styles",
    "C18_normal_is_original",
    "C18_threshold_leaks_refuted"
   ],
   "note": "C18_threshold_leaks_refuted: threshold and precision of the default leak into NormalIO/CompactIO; everything else the named styles fix is proved for every history"
  },
  {
   "property": "C19",
   "status": "partial",
   "theorems": [
    "C19_array_histories",
    "C19_no_leak",
    "C19_padding_exact",
    "C19_padding_refuted"
   ],
   "note": "holds for every history and allocator without TMV_END_PADDING, and with it when operator new returns 16-byte aligned blocks; C19_padding_refuted / C19_padding_exact: with TMV_END_PADDING the zero fill leaves the block exactly when the block starts >=4 (float) or >=8 (double) bytes before a 16-byte boundary"
  },
  {
   "property": "C20",
   "status": "partial",
   "theorems": [
    "C20_type_used",
    "C20_contents_kept_partial",
    "C20_fresh_uses_partial",
    "C20_saved_reuse",
    "C20_unset_and_reset",
    "C20_stale_after_exception_refuted",
    "C20_stale_after_sym_inverse_refuted",
    "C20_stale_after_resize_refuted"
   ],
   "note": "type used, reuse when saved, unset/reset proved for every history; the manual's 'always recalculate by default' is proved only for histories without exceptions, explicit setDiv/lud() and symmetric makeInverse (C20_fresh_uses_partial) and is false otherwise: C20_stale_after_exception_refuted (doneDiv is skipped when the solve throws Singular), C20_stale_after_sym_inverse_refuted (SymMatrix makeInverse never calls doneDiv), C20_stale_after_resize_refuted (resize keeps a saved decomposition of another size)"
  },
  {
   "property": "C21",
   "status": "partial",
   "theorems": [
    "C21_nonblock",
    "C21_recursive_partial",
    "C21_wide_refuted"
   ],
   "note": "C21_nonblock: the column algorithm, every shape. C21_recursive_partial: the algorithm LU_Decompose actually runs, N <= M. Missing case N > M is false of the code: C21_wide_refuted."
  },
  {
   "property": "C22",
   "status": "proved",
   "theorems": [
    "C22_multipliers",
    "C22_multipliers_nonblock"
   ],
   "note": "LU_Decompose for N <= M and the column algorithm for every shape"
  },
  {
   "property": "C23",
   "status": "proved",
   "theorems": [
    "C23_left_division",
    "C23_right_division",
    "C23_inverse",
    "C23_det",
    "C23_singular",
    "C23_logdet",
    "C23_logdet_complex"
   ],
   "note": "left and right division, inverse, determinant, isSingular, direct and transposed storage; log determinant over the reals in Claims_LogDet.v"
  },
  {
   "property": "C24",
   "status": "partial",
   "theorems": [
    "C24_inplace_partial",
    "C24_inplace_refuted"
   ],
   "note": "holds for row- or column-contiguous matrices (partial theorem); false for views with neither step 1: C24_inplace_refuted"
  },
  {
   "property": "C25",
   "status": "proved",
   "theorems": [
    "C25_integer_det",
    "C25_exact_divisions",
    "C25_subring"
   ],
   "note": "IntegerDet and the Bareiss elimination over a field containing the integers, exact arithmetic (long double range and rounding not modelled). Value = determinant, every intermediate element an integer, for all pivot comparisons."
  },
  {
   "property": "C26",
   "status": "proved",
   "theorems": [
    "C26_vector",
    "C26_matrix",
    "C26_matrix_right",
    "C26_returns",
    "C26_inverse",
    "C26_inverse_lower",
    "C26_result_over_lower",
    "C26_operand_over_upper",
    "C26_disjoint_upper",
    "C26_result_over_upper_refuted"
   ],
   "note": "vector and matrix solves (all storage variants, recursive blocking), right division, both inverses, throwing nothing but Singular and only on a zero diagonal (a division may return although the diagonal has a zero: zeros of the right hand side are skipped; the inverse always throws then); C26_result_over_upper_refuted: v2 = v1/U is wrong when v2 starts at U's first element (doLDiv tests the wrong operand for overlap), C26_result_over_lower shows the lower version is right"
  },
  {
   "property": "C27",
   "status": "partial",
   "theorems": [
    "C27_chains_stay_in_bounds",
    "C27_sub_matrix",
    "C27_sub_matrix_unit",
    "C27_range_check_exact_partial",
    "C27_zero_step_refuted",
    "C27_pairs_and_ranges",
    "C27_transpose_conjugate_adjoint",
    "C27_rows_and_columns",
    "C27_diagonals",
    "C27_diagonal_complete",
    "C27_sub_vector",
    "C27_sub_vector_check_exact",
    "C27_real_imag",
    "C27_linear_view",
    "C27_linear_view_refuted",
    "C27_const_matrix_diag_range_refuted",
    "C27_const_matrix_diag_range_partial",
    "C27_matrix_diag_range_refuted",
    "C27_matrix_diag_range_partial",
    "C27_fortran_row_pair_refuted",
    "C27_fortran_single_row_refuted",
    "C27_fortran_sub_matrix_partial"
   ],
   "note": "Proved for chains of any length of views of dense matrices (bounds, exact element maps, range checks). False of the code in named places, each with a _refuted theorem and a counterexample: Matrix::diag(i,j1,j2) const on column-major matrices, the non-const diag range below the diagonal, the 1-based rowPair/row checks, zero steps, and linearView() of a column range of a row-major matrix whose size is not tested with canLinearize(). The _partial theorems state what does hold there."
  },
  {
   "property": "C28",
   "status": "partial",
   "theorems": [
    "C28_band_injective",
    "C28_band_in_bounds_partial",
    "C28_band_in_bounds_refuted",
    "C28_band_new_accepts",
    "C28_band_count",
    "C28_tri",
    "C28_tri_read",
    "C28_sym_locations",
    "C28_sym_assign",
    "C28_sym_outside_band",
    "C28_sym_views"
   ],
   "note": "Proved for every shape, bandwidth, storage order and for chains of transpose/conjugate/adjoint of symmetric types. Injectivity holds everywhere. The bounds part is false for diagonal-major band matrices with more rows than columns, no subdiagonals and at least one superdiagonal (C28_band_in_bounds_refuted: the block is allocated too small); C28_band_in_bounds_partial covers all other cases."
  },
  {
   "property": "C29",
   "status": "proved",
   "theorems": [
    "C29_real",
    "C29_complex",
    "C29_in_place",
    "C29_bad_alloc_refuted"
   ],
   "note": "Native branch, no OpenMP, all three matrices of one element type (real or complex), exact arithmetic; simple (unrolled, recursive) and blocked algorithms with packing, conjugation, temporaries and aliasing. The SSE/generic inner kernels of TMV_MultMM_Kernel.h are represented by what they compute (a K-long dot product per element). C29_bad_alloc_refuted is a finding: complex C += A*B in which an allocation fails after the first of the four real products counts part of the product twice; C29_complex covers all other allocation outcomes."
  },
  {
   "property": "C30",
   "status": "proved",
   "theorems": [
    "C30_decompose",
    "C30_posdef",
    "C30_divide",
    "C30_inverse_det",
    "C30_unique",
    "C30_blocksize1_refuted"
   ],
   "note": "Model: Chol.v (CH_Decompose with the recursive, column and row algorithms, for all blocking constants >= 1, uplo and conjugation of the view), CholDiv.v (division, inverse, determinant). Exact arithmetic over any numerically closed field (real types are its real elements). A11 -= A10*A10.adjoint() and L.adjoint()*L enter as mathematical products; BlockCH_Decompose (never called) and LAPACK are not modelled. C30_blocksize1_refuted is a finding: TMV_BLOCKSIZE=1 makes the recursion endless."
  },
  {
   "property": "C31",
   "status": "proved",
   "theorems": [
    "C31_decompose",
    "C31_packed",
    "C31_det"
   ],
   "note": "Everything proved for every shape M >= N, contents and rank: the decomposition returns, the unpacked Q is orthonormal, Q R = A, real diagonal of R; the packed Q multiplies as that Q; det. LAPACK versions not modelled. Exact arithmetic."
  },
  {
   "property": "C32",
   "status": "partial",
   "theorems": [
    "C32_rotate_exact",
    "C32_rotate",
    "C32_unit_refuted",
    "C32_rotate_real",
    "C32_undo",
    "C32_matrix",
    "C32_vector_partial",
    "C32_vector_conj_refuted",
    "C32_vector_half_turn_refuted",
    "C32_herm",
    "C32_sym_partial",
    "C32_sym_refuted"
   ],
   "note": "GivensRotate proved for tolerance 0 exactly and for the library's tolerance up to 2 eps (the shortcuts leave the unit circle: C32_unit_refuted). Findings: vector GivensMult is wrong when exactly one view is conjugated, skips c=-1,s=0, and GivensSymMult is wrong for complex s; BLAS variants not modelled."
  },
  {
   "property": "C33",
   "status": "proved",
   "theorems": [
    "C33_decompose",
    "C33_decompose_alpha",
    "C33_det_refuted"
   ],
   "note": "Unblocked and blocked Bunch-Kaufman algorithms (NonBlockLDL, BlockLDL) on every view (triangle, conjugation, storage), every size, any 0<alpha<1: P L D L^T P^T (or dagger) equals the matrix, D has 1x1 and invertible 2x2 blocks, frame. C33_det_refuted: the determinant accumulated for a conjugated complex symmetric view is the conjugate of the right one. LAPACK path not modelled."
  },
  {
   "property": "C34",
   "status": "partial",
   "theorems": [
    "C34_decompose",
    "C34_constructor",
    "C34_constructor_inplace_refuted",
    "C34_full_partial",
    "C34_full_refuted"
   ],
   "note": "Column-major and tridiagonal algorithms; P*L*U, pivot range, multipliers, fill-in confined to the band, whole constructor. Refuted: divideInPlace() when the member flag disagrees with the argument (uninitialised memory is decomposed); LU_Decompose(A,L,U,P) with nlo+nhi >= N accesses elements outside the array (proved for nlo+nhi < N: C34_full_partial)."
  },
  {
   "property": "C35",
   "status": "partial",
   "theorems": [
    "C35_rank1",
    "C35_rank1_alias_refuted",
    "C35_sym_rank1_partial",
    "C35_sym_rank1_hermitian",
    "C35_sym_zero_refuted",
    "C35_sym_alias_refuted",
    "C35_sym_rankk_partial",
    "C35_sym_wide_refuted",
    "C35_sym_blocksize_refuted"
   ],
   "note": "General rank-1 update proved for operands that do not overlap A (C35_rank1); the native branch has no alias test, so A += A.col(0)^y is wrong (C35_rank1_alias_refuted). Symmetric and hermitian rank-1 and rank-k updates proved at memory level for every size, layout, triangle, conjugation and block size, for x off the stored triangle, copied, or on the first row or column (C35_sym_rank1_partial, C35_sym_rank1_hermitian, C35_sym_rankk_partial, including the in-place recursion). Findings: a zero factor leaves S unchanged instead of zeroing it (C35_sym_zero_refuted); another column of the underlying memory as x (C35_sym_alias_refuted); X wider than S in S's own memory (C35_sym_wide_refuted); TMV_BLOCKSIZE with a column-major X (C35_sym_blocksize_refuted). Rank-2 and rank-2k updates: not modelled."
  },
  {
   "property": "C36",
   "status": "proved",
   "theorems": [
    "C36_divide",
    "C36_abs",
    "C36_sign",
    "C36_abs2",
    "C36_maxabs"
   ],
   "note": "exact arithmetic over any numClosedFieldType; real types are its real elements. Overflow protection, int specialisations and TMV_ARG not modelled."
  },
  {
   "property": "C37",
   "status": "partial",
   "theorems": [
    "C37_sum_elements_partial",
    "C37_sum_of_keys",
    "C37_step0_conjugate_refuted"
   ],
   "note": "sumElements partial: C37_step0_conjugate_refuted; the other sums hold at every step"
  },
  {
   "property": "C38",
   "status": "proved",
   "theorems": [
    "C38_swap",
    "C38_swap_sizes",
    "C38_equality"
   ],
   "note": ""
  },
  {
   "property": "C39",
   "status": "partial",
   "theorems": [
    "C39_elem_prod_partial",
    "C39_elem_prod_add_partial",
    "C39_zero_factor_refuted",
    "C39_same_start_refuted"
   ],
   "note": "C39_zero_factor_refuted: z = 0*ElemProd(x,y) leaves z unchanged; C39_same_start_refuted: the SameStorage/step test is the wrong way round; proved for alpha != 0 and operands disjoint from z or identical to it"
  },
  {
   "property": "C40",
   "status": "proved",
   "theorems": [
    "C40_round_trip",
    "C40_view_wrong_size"
   ],
   "note": ""
  },
  {
   "property": "C41",
   "status": "partial",
   "theorems": [
    "C41_upper_round_trip",
    "C41_lower_round_trip",
    "C41_diag_round_trip",
    "C41_sym_round_trip",
    "C41_band_round_trip_partial",
    "C41_tall_band_refuted",
    "C41_view_wrong_size"
   ],
   "note": "false for full-style band matrices with rows wholly below the band (colsize > rowsize + nlo) and a non-blank separator: C41_tall_band_refuted (writer omits the separator after the last leading zero, reader demands it); all other cases proved; codes of real Sym/Herm (two accepted codes) not modelled"
  },
  {
   "property": "C42",
   "status": "proved",
   "theorems": [
    "C42_left_division",
    "C42_right_division",
    "C42_inverse",
    "C42_inverse_ATA",
    "C42_singular"
   ],
   "note": "Proved for the divider built with inplace = false and no row dependency on LAPACK. makeInverseATA for M < N, where the manual makes no promise, gives the inverse of conj(A) A^T, the conjugate of the SVD divider's (A A^dagger)^-1 (C42_inverse_ATA states it). The converse, that division throws on every rank deficient matrix, is false by design: zeros of the right hand side are skipped."
  },
  {
   "property": "C43",
   "status": "proved",
   "theorems": [
    "C43_mult_mv",
    "C43_in_place",
    "C43_into_first_column",
    "C43_into_first_row",
    "C43_same_start_refuted"
   ],
   "note": "Native branch, all operands of one element type; exact arithmetic. C43_same_start_refuted is a finding: with y contiguous and A neither row nor column major, a common first element is not enough (the column kernel overwrites A); C43_mult_mv states the exact condition."
  },
  {
   "property": "C44",
   "status": "proved",
   "theorems": [
    "C44_left_division",
    "C44_right_division",
    "C44_inverse",
    "C44_det"
   ],
   "note": "Whole path from BandLUDiv's constructor to the answer, for both orientations and all storages of the right-hand side; exact arithmetic, code without LAPACK."
  },
  {
   "property": "C45",
   "status": "partial",
   "theorems": [
    "C45_dense",
    "C45_band_partial",
    "C45_band_refuted"
   ],
   "note": "Dense: proved. Band: proved when the transpose is decomposed or no rows are exchanged; otherwise false (C45_band_refuted): the unit lower triangle of (P L)^-1 is used in place of L^-1."
  },
  {
   "property": "C46",
   "status": "partial",
   "theorems": [
    "C46_construct",
    "C46_divide",
    "C46_inverse",
    "C46_det",
    "C46_singular_partial",
    "C46_singular_refuted",
    "C46_inplace_storage_refuted",
    "C46_inplace_conj_refuted"
   ],
   "note": "C46_divide, C46_det: the in-place divider of a conjugated complex symmetric view is excluded, and C46_inplace_conj_refuted shows it gives wrong quotients; C46_inverse has no such exclusion. In place with storage neither row nor column major, the matrix is never read (C46_inplace_storage_refuted). isSingular is true of every singular matrix (C46_singular_partial) but also of [[0,1],[1,0]] (C46_singular_refuted)."
  },
  {
   "property": "C47",
   "status": "partial",
   "theorems": [
    "C47_square",
    "C47_empty_refuted",
    "C47_ata_partial",
    "C47_ata_chol_partial",
    "C47_ata_refuted",
    "C47_ata_chol_refuted",
    "C47_ata_symmetric_refuted"
   ],
   "note": "C47_square: SymSquare on a matrix with both triangles present gives the square for every size but 0. C47_ata_partial / C47_ata_chol_partial: right for sizes 1 and 2 (hermitian, or real symmetric). The claim is false of the code elsewhere: C47_ata_refuted and C47_ata_chol_refuted (size 3: the inverse is written only into the lower triangle and SymSquare reads both, so the answer depends on stale contents), C47_ata_symmetric_refuted (complex symmetric: A^-1 A^-1 is computed), C47_empty_refuted (endless recursion for size 0)."
  },
  {
   "property": "C48",
   "status": "proved",
   "theorems": [
    "C48_update",
    "C48_update_rows",
    "C48_downdate",
    "C48_downdate_total",
    "C48_downdate_throw",
    "C48_roundtrip",
    "C48_downdate_singular_refuted"
   ],
   "note": "QR_Update and QR_Downdate for every size; the refutation records that a downdate whose answer is singular (it exists, but R^dagger R - A^dagger A is only positive semidefinite) divides by zero instead of throwing NonPosDef. For a downdate of an R with a non-real diagonal element nothing is claimed."
  },
  {
   "property": "C49",
   "status": "partial",
   "theorems": [
    "C49_decompose_partial",
    "C49_loose_terminates_refuted"
   ],
   "note": "Proved in exact arithmetic for the unblocked, strict and loose algorithms. Partial because the loose (default) algorithm does not terminate when N sqrt(eps) > 1 (proved in C49_loose_terminates_refuted: float from N = 2897, double beyond 2^26), and in the loose algorithm the diagonal elements before the final zeros are not claimed to be nonzero (the comment at TMV_QRPDecompose.cpp:462 promises it; a low column brought in by an exchange is not checked again). Rounding is not modelled."
  },
  {
   "property": "C50",
   "status": "partial",
   "theorems": [
    "C50_division_partial",
    "C50_inverse_ATA",
    "C50_det",
    "C50_singular",
    "C50_loose_least_squares_refuted",
    "C50_svd_solution_refuted"
   ],
   "note": "Division through QRP: C50_division_partial proves that no exception is thrown and that results are least squares / shortest solutions / three of the four pseudo-inverse equations for a matrix A' within eps of A (A itself if no column is dropped), for strict pivoting, at most one block of columns, or full rank. C50_loose_least_squares_refuted: with the default algorithm, more columns than a block and rank deficient, a column the solution needs is lost silently (residual 1 instead of 0). C50_svd_solution_refuted: on singular matrices the answer is not the SVD (shortest) one. makeInverseATA, det and isSingular hold for every algorithm. Missing from the partial theorem: the default algorithm below full rank on more than a block of columns, where the property is false."
  },
  {
   "property": "C51",
   "status": "partial",
   "theorems": [
    "C51_factors",
    "C51_left_division",
    "C51_right_division",
    "C51_inverse",
    "C51_inverse_ATA",
    "C51_truncation",
    "C51_norms",
    "C51_singular",
    "C51_top",
    "C51_check_decomp_partial",
    "C51_check_decomp_refuted"
   ],
   "note": "Proved for every decomposition the constructor can hold (U S Vt = A or its transpose with orthonormal factors and descending non-negative S): factors, left and right division, inverse, inverse of A^dagger A, truncation bound, norm2/condition, isSingular, top. Missing: that the iterative SV_Decompose produces such factors (C52 covers the deflation steps). Refuted: checkDecomp() of a zero matrix reads S(-1) because kmax is 0."
  },
  {
   "property": "C52",
   "status": "partial",
   "theorems": [
    "C52_bidiagonalize",
    "C52_bidiagonal_determinant",
    "C52_sv_decompose",
    "C52_sv_decompose_large_partial",
    "C52_workspace_refuted",
    "C52_result_unique",
    "C52_svd_solve"
   ],
   "note": "Proved in exact arithmetic (epsilon 0, underflow only of 0) with the unblocked bidiagonalization (used for N <= 16) and the QR iteration (used up to DC_LIMIT rows): whenever the iteration ends the result is the singular value decomposition, and the result does not depend on how long it is run. The out-of-bounds half is refuted: BidiagonalZeroFirstRow touches the element after the end of E when the last block is deflated, e.g. for [[0,1],[0,1]] (C52_workspace_refuted); with one spare element in E there is no outside access. Not proved: that the iteration ends, and the divide and conquer algorithm (a contract in C52_sv_decompose_large_partial)."
  },
  {
   "property": "C53",
   "status": "partial",
   "theorems": [
    "C53_decompose",
    "C53_det",
    "C53_left_division",
    "C53_right_division",
    "C53_inverse",
    "C53_singular",
    "C53_inverse_ATA_partial",
    "C53_inverse_ATA_complex_refuted",
    "C53_inverse_ATA_square_refuted",
    "C53_full",
    "C53_inplace_partial",
    "C53_inplace_refuted"
   ],
   "note": "Proved for every shape and bandwidth, except makeInverseATA and divideInPlace, of which the claim is false: makeInverseATA multiplies by the transpose instead of the adjoint (C53_inverse_ATA_complex_refuted), for a square matrix decomposed as its transpose it gives the inverse of A A^T even when real (C53_inverse_ATA_square_refuted; C53_inverse_ATA_partial says exactly what is computed for real matrices), and in place the nlo outermost superdiagonals of the matrix itself are cleared before it is decomposed (C53_inplace_refuted, C53_inplace_partial)."
  },
  {
   "property": "C54",
   "status": "partial",
   "theorems": [
    "C54_decompose",
    "C54_ldl_partial",
    "C54_object",
    "C54_left_division",
    "C54_right_division",
    "C54_inverse",
    "C54_det_partial",
    "C54_ata_partial",
    "C54_posdef_tridiagonal_refuted",
    "C54_det_refuted",
    "C54_ldl_sym_diagmajor_refuted",
    "C54_inplace_refuted",
    "C54_ata_refuted"
   ],
   "note": "Full for CH_Decompose, the divisions, the inverse and getL/getD. Partial because the property is false of the code in five places, each refuted: for nlo = 1 the object accepts matrices that are not positive definite (only D == 0 is tested); det() is then |det| and the sign always 1; LDL_Decompose of a symmetric DiagMajor matrix handles the first column only; with the argument inplace true and a storage that cannot be used in place the new memory is never filled; makeInverseATA squares a matrix of which only one triangle was written, wrong from size 3 on. C54_ata_partial (sizes 1 and 2), C54_ldl_partial and C54_det_partial exclude those cases. Not modelled: isSingular, checkDecomp."
  },
  {
   "property": "C55",
   "status": "partial",
   "theorems": [
    "C55_eigen",
    "C55_eigen_large_partial",
    "C55_herm_sv_decompose",
    "C55_two_by_two",
    "C55_spectrum",
    "C55_unique",
    "C55_accuracy_refuted"
   ],
   "note": "C55_eigen, C55_herm_sv_decompose: exact arithmetic, below 2*SYM_TRIDIAG_BLOCKSIZE (128) rows and up to DC_LIMIT rows, whenever the iteration ends; C55_two_by_two: it ends for one or two rows; C55_spectrum, C55_unique: the eigenvalues are those of A with multiplicity, and depend on A only. The accuracy part is false of the code: C55_accuracy_refuted. Missing: BlockTridiagonalize, the divide and conquer algorithm (C55_eigen_large_partial assumes its contract), ending from three rows on."
  },
  {
   "property": "C56",
   "status": "partial",
   "theorems": [
    "C56_factors",
    "C56_division",
    "C56_inverse",
    "C56_sym_inverse",
    "C56_zero_debug_refuted",
    "C56_inverse_ATA",
    "C56_truncation",
    "C56_norms",
    "C56_singular",
    "C56_det",
    "C56_top",
    "C56_solve",
    "C56_sv_decompose",
    "C56_sv_decompose_parts"
   ],
   "note": "Given the decomposition (C55). C56_solve goes from the matrix to the solution for the sizes where the decomposition itself is modelled (below the block and divide-and-conquer limits), when the QR iteration ends. False of the code in one case: with TMV_DEBUG, the inverse of a zero matrix fails an assertion (C56_zero_debug_refuted). Exact arithmetic. SymSVDiv (complex symmetric) and checkDecomp are not modelled."
  },
  {
   "property": "C57",
   "status": "partial",
   "theorems": [
    "C57_square_root",
    "C57_polar",
    "C57_polar_threshold",
    "C57_polar_empty_refuted",
    "C57_polar_symmetric_refuted"
   ],
   "note": "Proved for the sizes where the decompositions are modelled (below the block and divide-and-conquer limits), when their QR iterations end, in exact arithmetic. False of the code: PolarDecompose of a matrix without columns reads S(0) of an empty S (C57_polar_empty_refuted), accepts a complex SymMatrix for P and then U P is not A (C57_polar_symmetric_refuted), and may access memory outside E as in C52. C57_polar_threshold bounds the effect of the dropped singular values for a positive epsilon. The band versions are not modelled."
  }
 ]
}