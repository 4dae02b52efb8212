{
 "claims": [
  {
   "property": "C01",
   "status": "proved",
   "theorems": [
    "C01_permute_layout_and_roundtrip",
    "C01_permute_t_roundtrip"
   ],
   "note": ""
  },
  {
   "property": "C02",
   "status": "proved",
   "theorems": [
    "C02_permute_sph_roundtrip",
    "C02_permute_t_sph_roundtrip",
    "C02_permute_tri_roundtrip",
    "C02_permute_t_tri_roundtrip"
   ],
   "note": ""
  },
  {
   "property": "C03",
   "status": "proved",
   "theorems": [
    "C03_old_permute_tri_roundtrip",
    "C03_old_permute_t_tri_roundtrip"
   ],
   "note": ""
  },
  {
   "property": "C04",
   "status": "proved",
   "theorems": [
    "C04_warp_roundtrip",
    "C04_warp_t_roundtrip"
   ],
   "note": ""
  },
  {
   "property": "C05",
   "status": "proved",
   "theorems": [
    "C05_swap_warp_exchanges",
    "C05_swap_warp_AVX512Ff_refuted"
   ],
   "note": "Proved for every kernel instantiated with equal vector width and step; C05_swap_warp_AVX512Ff_refuted shows the single-precision AVX-512 instance (16 lanes, step 8) is wrong."
  },
  {
   "property": "C06",
   "status": "proved",
   "theorems": [
    "C06_planned_pairs_are_rotations"
   ],
   "note": ""
  },
  {
   "property": "C07",
   "status": "proved",
   "theorems": [
    "C07_packed_indices"
   ],
   "note": ""
  },
  {
   "property": "C08",
   "status": "proved",
   "theorems": [
    "C08_sph_kernels_inverse",
    "C08_tri_kernels_inverse",
    "C08_disk_kernels_inverse",
    "C08_tet_kernels_inverse",
    "C08_spinsph_kernels_inverse"
   ],
   "note": ""
  },
  {
   "property": "C09",
   "status": "proved",
   "theorems": [
    "C09_sph_kernels_isometry",
    "C09_tri_kernels_isometry",
    "C09_disk_kernels_isometry",
    "C09_tet_kernels_isometry",
    "C09_spinsph_kernels_isometry"
   ],
   "note": ""
  },
  {
   "property": "C10",
   "status": "proved",
   "theorems": [
    "C10_simd_sph_hi2lo",
    "C10_simd_sph_lo2hi",
    "C10_simd_tri_hi2lo",
    "C10_simd_tri_lo2hi",
    "C10_simd_disk_hi2lo",
    "C10_simd_disk_lo2hi",
    "C10_simd_tet",
    "C10_tet_scalar_is_default",
    "C10_simd_spinsph",
    "C10_simd_sph_lo2hi_beyond_range_refuted"
   ],
   "note": "lo2hi kernels need m2 <= n+2*VS-4 (sphere), n+VS-2 (triangle), 2n-2 (disk); C10_simd_sph_lo2hi_beyond_range_refuted shows an out-of-bounds access beyond."
  },
  {
   "property": "C11",
   "status": "proved",
   "theorems": [
    "C11_sph_hi2lo_simd_is_default",
    "C11_sph_lo2hi_simd_is_default",
    "C11_sphv_hi2lo_simd_is_default",
    "C11_sphv_lo2hi_simd_is_default",
    "C11_disk_hi2lo_simd_is_default",
    "C11_disk_lo2hi_simd_is_default",
    "C11_tri_hi2lo_simd_is_default",
    "C11_tri_lo2hi_simd_is_default",
    "C11_even_column_count_refuted"
   ],
   "note": ""
  },
  {
   "property": "C12",
   "status": "proved",
   "theorems": [
    "C12_strided_partition",
    "C12_sph_any_schedule",
    "C12_sphv_any_schedule",
    "C12_disk_any_schedule",
    "C12_tri_any_schedule",
    "C12_rectdisk_any_schedule",
    "C12_tet_any_schedule",
    "C12_spinsph_any_schedule",
    "C12_sph_simd_any_schedule",
    "C12_disk_simd_any_schedule",
    "C12_tri_simd_any_schedule",
    "C12_trmm_trsm_any_schedule"
   ],
   "note": ""
  },
  {
   "property": "C13",
   "status": "proved",
   "theorems": [
    "C13_sph_roundtrip",
    "C13_sphv_roundtrip",
    "C13_disk_roundtrip",
    "C13_tri_roundtrip",
    "C13_rectdisk_roundtrip",
    "C13_tet_roundtrip",
    "C13_spinsph_roundtrip",
    "C13_sph_simd_roundtrip",
    "C13_disk_simd_roundtrip",
    "C13_tri_simd_roundtrip"
   ],
   "note": ""
  },
  {
   "property": "C14",
   "status": "proved",
   "theorems": [
    "C14_horner",
    "C14_horner_simd_is_scalar"
   ],
   "note": ""
  },
  {
   "property": "C15",
   "status": "proved",
   "theorems": [
    "C15_clenshaw",
    "C15_clenshaw_simd"
   ],
   "note": ""
  },
  {
   "property": "C16",
   "status": "proved",
   "theorems": [
    "C16_orthogonal_polynomial_clenshaw",
    "C16_orthogonal_polynomial_clenshaw_simd",
    "C16_needs_extra_entry_refuted"
   ],
   "note": ""
  },
  {
   "property": "C17",
   "status": "proved",
   "theorems": [
    "C17_triangular_banded_multiply",
    "C17_triangular_banded_solve",
    "C17_solve_inverts_multiply",
    "C17_shifted_solve",
    "C17_banded_upper_factor",
    "C17_banded_lower_factor"
   ],
   "note": ""
  },
  {
   "property": "C18",
   "status": "proved",
   "theorems": [
    "C18_dense_triangular_multiply",
    "C18_dense_triangular_solve",
    "C18_solve_inverts_multiply",
    "C18_columnwise"
   ],
   "note": ""
  },
  {
   "property": "C19",
   "status": "proved",
   "theorems": [
    "C19_banded_get_set",
    "C19_triangular_banded_get_set",
    "C19_reads_defined",
    "C19_fresh",
    "C19_conversions"
   ],
   "note": ""
  },
  {
   "property": "C20",
   "status": "proved",
   "theorems": [
    "C20_banded_matrix_vector",
    "C20_banded_matrix_matrix",
    "C20_banded_add",
    "C20_banded_uniform_scaling_add",
    "C20_tridiagonal_times_banded"
   ],
   "note": ""
  },
  {
   "property": "C21",
   "status": "proved",
   "theorems": [
    "C21_realloc_grow",
    "C21_realloc_shrink",
    "C21_realloc_same_bandwidth_refuted",
    "C21_realloc_same_bandwidth_zeroes"
   ],
   "note": ""
  },
  {
   "property": "C22",
   "status": "proved",
   "theorems": [
    "C22_lu",
    "C22_cholesky"
   ],
   "note": ""
  },
  {
   "property": "C23",
   "status": "proved",
   "theorems": [
    "C23_reflector",
    "C23_ql_reflector",
    "C23_qr",
    "C23_ql",
    "C23_transpose_inverts"
   ],
   "note": ""
  },
  {
   "property": "C24",
   "status": "proved",
   "theorems": [
    "C24_cholesky",
    "C24_bidiagonal_multiply",
    "C24_bidiagonal_solve",
    "C24_bidiagonal_inverse",
    "C24_symmetric_multiply",
    "C24_skew_multiply",
    "C24_order_one_refuted",
    "C24_skew_square_splits"
   ],
   "note": ""
  },
  {
   "property": "C25",
   "status": "proved",
   "theorems": [
    "C25_perm",
    "C25_perm_inverse"
   ],
   "note": ""
  },
  {
   "property": "C26",
   "status": "proved",
   "theorems": [
    "C26_safe_consistent",
    "C26_sorts",
    "C26_reported_permutation",
    "C26_library_orders",
    "C26_le_refuted"
   ],
   "note": ""
  },
  {
   "property": "C27",
   "status": "proved",
   "theorems": [
    "C27_indsplit",
    "C27_binarysearch",
    "C27_strict_bound_refuted"
   ],
   "note": ""
  },
  {
   "property": "C28",
   "status": "proved",
   "theorems": [
    "C28_gemv",
    "C28_gemm",
    "C28_demv",
    "C28_lrmv",
    "C28_lrmm"
   ],
   "note": ""
  },
  {
   "property": "C29",
   "status": "proved",
   "theorems": [
    "C29_ghmv",
    "C29_ghmm",
    "C29_flattened_is_block_matrix",
    "C29_scale_rows",
    "C29_scale_columns",
    "C29_sample"
   ],
   "note": ""
  },
  {
   "property": "C30",
   "status": "proved",
   "theorems": [
    "C30_multiply",
    "C30_solve",
    "C30_inverse",
    "C30_columns",
    "C30_multiply_ADI",
    "C30_solve_ADI",
    "C30_inverse_ADI",
    "C30_columns_ADI",
    "C30_scale_rows",
    "C30_scale_columns",
    "C30_scale_columns_sparse_refuted",
    "C30_scale_rows_ADI",
    "C30_scale_columns_ADI"
   ],
   "note": "Trees of any shape, thread number and scratch contents; also scaling of rows and columns. Column scaling is wrong when the sparse correction is not empty: C30_scale_columns_sparse_refuted."
  },
  {
   "property": "C31",
   "status": "proved",
   "theorems": [
    "C31_count",
    "C31_exactly"
   ],
   "note": "C31_count for every arithmetic; C31_exactly for sorted sequences and tolerance at most 1."
  },
  {
   "property": "C32",
   "status": "proved",
   "theorems": [
    "C32_multiply",
    "C32_multiply_identity",
    "C32_inverse_identity",
    "C32_inverse",
    "C32_square_root"
   ],
   "note": "Over the reals."
  },
  {
   "property": "C33",
   "status": "proved",
   "theorems": [
    "C33_halves",
    "C33_tearing",
    "C33_tearing_refuted",
    "C33_definiteness_refuted",
    "C33_eig",
    "C33_eig_FMM",
    "C33_tdmv",
    "C33_tfmv",
    "C33_reusable",
    "C33_sht_nonpositive",
    "C33_sht_definite",
    "C33_sht_factor"
   ],
   "note": "The leaf eigensolver is a parameter with the contract leaf_solved and the rank-one problems must be simple with an exact root finder (simple_merge); C33_nonvacuous meets all hypotheses. C33_tearing_refuted: fails whenever the torn off-diagonal is positive; C33_definiteness_refuted: a torn block of a definite S can be indefinite."
  },
  {
   "property": "C34",
   "status": "proved",
   "theorems": [
    "C34_chebyshev_scaling_values",
    "C34_chebyshev_scalings_inverse"
   ],
   "note": ""
  },
  {
   "property": "C35",
   "status": "proved",
   "theorems": [
    "C35_blas_contract_met",
    "C35_sph2fourier_columns",
    "C35_sphv2fourier_columns",
    "C35_tri2cheb_rows_columns",
    "C35_rectdisk2cheb_rows_columns",
    "C35_ann2cxf_columns",
    "C35_tet2cheb_dimensions",
    "C35_spinsph2fourier_columns",
    "C35_tet_third_dimension_refuted",
    "C35_tet_third_dimension_bounds_refuted"
   ],
   "note": "BLAS is a parameter with the contract blas_ok (met by a checked reference implementation). The third dimension of tet2cheb applies the transposed table and touches lines of length N: C35_tet_third_dimension_refuted, C35_tet_third_dimension_bounds_refuted."
  },
  {
   "property": "C36",
   "status": "proved",
   "theorems": [
    "C36_sph_inverse",
    "C36_sphv_inverse",
    "C36_disk_inverse",
    "C36_tri_inverse",
    "C36_rectdisk_inverse",
    "C36_ann_inverse",
    "C36_tet_inverse",
    "C36_spinsph_inverse"
   ],
   "note": "Connection tables are arguments (inverse to each other); tetrahedron for M = N, triangle and rectangularised disk for M <= N (outside these the BLAS calls leave the arrays)."
  },
  {
   "property": "C37",
   "status": "proved",
   "theorems": [
    "C37_colswap_roundtrip",
    "C37_colswap_orders",
    "C37_halfcomplex_roundtrip",
    "C37_halfcomplex_back",
    "C37_halfcomplex_layout",
    "C37_even_column_count_refuted"
   ],
   "note": "Any element type and arithmetic with opp (opp x) = x. C37_even_column_count_refuted for even M."
  },
  {
   "property": "C38",
   "status": "proved",
   "theorems": [
    "C38_fftw_contract_met",
    "C38_sphere",
    "C38_vector_sphere",
    "C38_disk",
    "C38_annulus",
    "C38_rectdisk",
    "C38_triangle",
    "C38_tetrahedron",
    "C38_spin",
    "C38_even_column_count_refuted"
   ],
   "note": "FFTW is a parameter with the contract fftw_ok (met by a checked reference implementation); constants exact. Even column counts leave the array (C38_even_column_count_refuted)."
  },
  {
   "property": "C39",
   "status": "proved",
   "theorems": [
    "C39_sphere",
    "C39_vector_sphere",
    "C39_disk",
    "C39_annulus",
    "C39_rectdisk",
    "C39_triangle_square",
    "C39_tetrahedron_cube",
    "C39_triangle_rectangular_refuted",
    "C39_tetrahedron_rectangular_refuted",
    "C39_spin"
   ],
   "note": "All eight geometries; triangle for N = M and tetrahedron for N = L = M, refuted otherwise (C39_triangle_rectangular_refuted, C39_tetrahedron_rectangular_refuted)."
  },
  {
   "property": "C40",
   "status": "proved",
   "theorems": [
    "C40_zyzr",
    "C40_zyzr_every_orthogonal_refuted",
    "C40_reflection",
    "C40_zyzr_reflection",
    "C40_zyzr_reflection_x_axis_refuted"
   ],
   "note": "Over the reals with exact hypot. The two theorems together give the exact set of orthogonal matrices that survive the factorisation."
  },
  {
   "property": "C41",
   "status": "proved",
   "theorems": [
    "C41_polar_rotation_turns",
    "C41_polar_rotations_compose",
    "C41_polar_rotation_undone",
    "C41_polar_rotation_norm",
    "C41_polar_rotation_keeps",
    "C41_polar_reflection_involution",
    "C41_polar_reflection_reflects",
    "C41_isometries_keep_degrees_apart",
    "C41_exchange_frame",
    "C41_exchange_involution",
    "C41_exchange_norm",
    "C41_orthogonal_transformation_norm",
    "C41_rotation_norm",
    "C41_rotation_undone",
    "C41_exchange_single_coefficient_refuted"
   ],
   "note": "Over the reals. The exchange is an involution and preserves the norm of every degree because its blocks are matrices of Krawtchouk polynomials."
  },
  {
   "property": "C42",
   "status": "proved",
   "theorems": [
    "C42_jacobi_recurrence",
    "C42_laguerre_recurrence",
    "C42_hermite_recurrence",
    "C42_jacobi_multiplication",
    "C42_laguerre_multiplication",
    "C42_hermite_multiplication",
    "C42_jacobi_raising",
    "C42_laguerre_raising",
    "C42_jacobi_lowering",
    "C42_laguerre_lowering",
    "C42_jacobi_derivative",
    "C42_laguerre_derivative",
    "C42_hermite_derivative"
   ],
   "note": "Over the reals, for parameters greater than -1. The squared norms are any sequence with the textbook ratio and a positive first term; raised families are tied by the ratio of their masses."
  },
  {
   "property": "C43",
   "status": "proved",
   "theorems": [
    "C43_eigenvalues",
    "C43_exact",
    "C43_residual",
    "C43_quadratic_eigenvalues",
    "C43_quadratic"
   ],
   "note": "Exact with distinct eigenvalues and eps = 0; with eps > 0 the residual bound of C43_residual. Also the quadratic problem."
  },
  {
   "property": "C44",
   "status": "proved",
   "theorems": [
    "C44_modified_multiply",
    "C44_solve_inverts_multiply",
    "C44_columnwise"
   ],
   "note": ""
  },
  {
   "property": "C45",
   "status": "proved",
   "theorems": [
    "C45_create",
    "C45_create_rejects",
    "C45_store",
    "C45_convert",
    "C45_multiply",
    "C45_solve",
    "C45_inverse",
    "C45_eigenvalues",
    "C45_no_real_eigenvalues",
    "C45_eigenvectors",
    "C45_dense_multiply",
    "C45_dense_solve",
    "C45_dense_inverse",
    "C45_dense_columns",
    "C45_plan_multiply",
    "C45_plan_solve",
    "C45_plan_inverse",
    "C45_plan_columns",
    "C45_half_multiply",
    "C45_half_columns",
    "C45_half_solve"
   ],
   "note": "Over the reals. Eigenvalues need det B_jj <> 0 and a nonzero real root for each diagonal block (a double root at zero makes the code divide 0 by 0); without a real root the routine stops (C45_no_real_eigenvalues). The construction of plans (btb_eig_FMM) is not modelled."
  },
  {
   "property": "C46",
   "status": "proved",
   "theorems": [
    "C46_public_plans",
    "C46_histories",
    "C46_banded_eigen_FMM",
    "C46_divide_and_conquer",
    "C46_divide_and_conquer_FMM",
    "C46_rank_one",
    "C46_rank_one_FMM",
    "C46_adi_small",
    "C46_isometry_leaks",
    "C46_adi_leaks",
    "C46_associated_hermite_leaks",
    "C46_associated_hermite_fast_leaks"
   ],
   "note": "Blocks of memory only: the model records malloc, calloc, free and the reads of struct fields and pointer arrays; data-dependent sizes and tree shapes are arbitrary. malloc succeeds except for negative sizes. The leaks of the isometry, ADI and associated Hermite plans are theorems (C46_*_leaks); the other planners are covered by C46_public_plans and C46_histories."
  },
  {
   "property": "C47",
   "status": "proved",
   "theorems": [
    "C47_int_is_Z",
    "C47_plan_rotsphere",
    "C47_plan_rottriangle",
    "C47_plan_rotdisk",
    "C47_plan_rotrectdisk",
    "C47_plan_rotspinsphere",
    "C47_execute_sph",
    "C47_execute_disk",
    "C47_execute_tri",
    "C47_execute_rectdisk",
    "C47_execute_sph_overflow",
    "C47_permute",
    "C47_permute_sph",
    "C47_permute_tri",
    "C47_permute_overflow",
    "C47_normalization_2d",
    "C47_normalization_3d",
    "C47_dense_plan",
    "C47_plan_sph_fftw",
    "C47_plan_sph_gradient",
    "C47_plan_sph_helmholtzhodge",
    "C47_execute_sph_gradient",
    "C47_execute_sph_helmholtzhodge",
    "C47_polar_isometries"
   ],
   "note": "int expressions of the listed functions, with their loops, in 32-bit arithmetic (MInt.v, MInt2.v). Conversions to double and size_t end an expression. The SIMD kernels' own index expressions are not included."
  },
  {
   "property": "C48",
   "status": "proved",
   "theorems": [
    "C48_operator_clenshaw"
   ],
   "note": ""
  },
  {
   "property": "C49",
   "status": "proved",
   "theorems": [
    "C49_eigen_eval",
    "C49_eigen_eval_scalar"
   ],
   "note": ""
  },
  {
   "property": "C50",
   "status": "proved",
   "theorems": [
    "C50_sph_transposed",
    "C50_sphv_transposed",
    "C50_disk_transposed",
    "C50_tri_transposed",
    "C50_rectdisk_transposed",
    "C50_ann_transposed",
    "C50_tet_transposed",
    "C50_spinsph_transposed"
   ],
   "note": "All eight geometries, both directions."
  },
  {
   "property": "C51",
   "status": "proved",
   "theorems": [
    "C51_sphere",
    "C51_vector_sphere",
    "C51_disk",
    "C51_annulus",
    "C51_rectdisk",
    "C51_triangle_square",
    "C51_triangle_rectangular_refuted",
    "C51_tetrahedron_cube",
    "C51_spin"
   ],
   "note": "All eight geometries; triangle for N = M and tetrahedron for N = L = M; refuted for the 2 by 3 triangle."
  },
  {
   "property": "C52",
   "status": "proved",
   "theorems": [
    "C52_secular",
    "C52_generalized_secular",
    "C52_derivative",
    "C52_generalized_derivative",
    "C52_second_derivative_refuted",
    "C52_interlacing"
   ],
   "note": "C52_second_derivative_refuted: the sum stops at n-1."
  },
  {
   "property": "C53",
   "status": "proved",
   "theorems": [
    "C53_eigenvectors",
    "C53_pencil_eigenvectors",
    "C53_hierarchical_eigenvectors",
    "C53_hierarchical_pencil_eigenvectors",
    "C53_synthesize",
    "C53_synthesize_general",
    "C53_synthesize_pencil"
   ],
   "note": "Over the reals, for exact roots; the hierarchical versions for exact kernel samples."
  },
  {
   "property": "C54",
   "status": "proved",
   "theorems": [
    "C54_eig",
    "C54_definite_eig",
    "C54_eig_FMM",
    "C54_definite_eig_FMM",
    "C54_root_finder_exists",
    "C54_kernels_exist",
    "C54_small_offset_refuted"
   ],
   "note": "The root finder is a parameter with the contract exact_roots (met: C54_root_finder_exists); its contract excludes lambdalo <= sqrt(floatmin), where symmetric_dpr1_eig is wrong (C54_small_offset_refuted)."
  },
  {
   "property": "C55",
   "status": "proved",
   "theorems": [
    "C55_dense_vectors",
    "C55_hierarchical_vectors"
   ],
   "note": ""
  },
  {
   "property": "C56",
   "status": "proved",
   "theorems": [
    "C56_one_connection_jacobi",
    "C56_one_connection_laguerre",
    "C56_one_connection_ultraspherical",
    "C56_one_connection_legendre_chebyshev",
    "C56_jacobi_diagonal",
    "C56_laguerre_diagonal",
    "C56_ultraspherical_diagonal",
    "C56_legendre_to_chebyshev_diagonal",
    "C56_chebyshev_to_legendre_diagonal"
   ],
   "note": "Over the reals; tgamma and pow are arguments, positive, tied to the families only through the mass of each weight. Associated and half-range families are not modelled."
  },
  {
   "property": "C57",
   "status": "proved",
   "theorems": [
    "C57_jacobi_pencil",
    "C57_laguerre_pencil",
    "C57_ultraspherical_pencil",
    "C57_legendre_to_chebyshev_pencil",
    "C57_chebyshev_to_legendre_pencil"
   ],
   "note": "Over the reals. Jacobi and Laguerre parameters greater than -1; ultraspherical parameters greater than -1/2 and not 0. The pencils of associated families are not modelled."
  },
  {
   "property": "C58",
   "status": "proved",
   "theorems": [
    "C58_plan_holds_the_eigenvectors",
    "C58_adi_plan_holds_the_eigenvectors",
    "C58_drop_precision_keeps_the_matrix",
    "C58_wider_B_refuted",
    "C58_wide_band_refuted"
   ],
   "note": "Over the reals. Rounding is not modelled (eps = 0) and the low-rank compression of admissible blocks (FMM) and the factored ADI iteration are hypotheses (exact_lowrank, exact_sylvester), for which instances are given. Bandwidth of A at most half the block size and at least that of B; both conditions are shown to be needed."
  },
  {
   "property": "C59",
   "status": "proved",
   "theorems": [
    "C59_legendre_to_chebyshev",
    "C59_chebyshev_to_legendre",
    "C59_ultraspherical_to_ultraspherical",
    "C59_jacobi_to_jacobi",
    "C59_laguerre_to_laguerre",
    "C59_jacobi_to_ultraspherical",
    "C59_ultraspherical_to_jacobi",
    "C59_jacobi_to_chebyshev",
    "C59_chebyshev_to_jacobi",
    "C59_ultraspherical_to_chebyshev",
    "C59_chebyshev_to_ultraspherical",
    "C59_ultraspherical_sign_refuted"
   ],
   "note": "Over the reals, without rounding; low-rank compression of admissible blocks is assumed exact (as in C58); tgamma and pow(2,.) are arguments with positivity and the values at 1 and 0. Planners that scale columns need n*tol <= 1 (tol is the relative tolerance 16*sqrt(eps) of the planner), because of finding 16."
  },
  {
   "property": "C60",
   "status": "proved",
   "theorems": [
    "C60_function_on_the_sphere",
    "C60_exchange",
    "C60_isometry",
    "C60_rotation",
    "C60_orthogonal_transformation",
    "C60_orthogonal_transformation_every_matrix_refuted",
    "C60_reflection"
   ],
   "note": "Over the reals with exact sin, cos, hypot; coefficients of degree n and above must be zero (the plan has bandlimit n)."
  },
  {
   "property": "C61",
   "status": "proved",
   "theorems": [
    "C61_gradient",
    "C61_curl"
   ],
   "note": "MGrad.v models the planner, gbmv and tbsv on columns and the loops; theorems over R for N >= 1 and M = 2h+1 with h <= N; the coefficients of degree N that the array can hold for order m must be zero."
  },
  {
   "property": "C62",
   "status": "proved",
   "theorems": [
    "C62_recovers",
    "C62_wide_refuted"
   ],
   "note": "exact recovery over R for M/2 <= N-1; for fields outside the range of the conversion matrix the call solves a least-squares problem, which is not characterised."
  },
  {
   "property": "C63",
   "status": "proved",
   "theorems": [
    "C63_kernel",
    "C63_driver"
   ],
   "note": "Over the reals; the coefficients outside the triangular truncation must be zero. The converse direction is the inverse (C08, C13 and C64)."
  },
  {
   "property": "C64",
   "status": "proved",
   "theorems": [
    "C64_plan",
    "C64_values"
   ],
   "note": "Over the reals with eps = 0; BLAS, FFTW and tgamma enter through contracts (blas_ok, fftw_ok, gamma_function), each shown satisfiable. TRANS='N'; the default (not SIMD) driver, which C10 and C11 relate to the SIMD ones."
  },
  {
   "property": "C65",
   "status": "proved",
   "theorems": [
    "C65_legendre_to_chebyshev",
    "C65_chebyshev_to_legendre",
    "C65_ultraspherical_to_ultraspherical",
    "C65_jacobi_to_jacobi",
    "C65_laguerre_to_laguerre",
    "C65_jacobi_to_ultraspherical",
    "C65_ultraspherical_to_jacobi",
    "C65_jacobi_to_chebyshev",
    "C65_chebyshev_to_jacobi",
    "C65_ultraspherical_to_chebyshev",
    "C65_chebyshev_to_ultraspherical"
   ],
   "note": "Over the reals with eps = 0. For orthonormal ultraspherical polynomials in the planners through Jacobi polynomials, lambda > 0 is required: see C59_ultraspherical_sign_refuted."
  },
  {
   "property": "C66",
   "status": "proved",
   "theorems": [
    "C66_triangle_kernel",
    "C66_disk_kernel",
    "C66_triangle_driver",
    "C66_disk_driver"
   ],
   "note": "Over the reals, for any functions with the functional equations of the gamma function and of powers of 2; the coefficients outside the truncation must be zero. The converse direction is the inverse (C08, C13 and C67)."
  },
  {
   "property": "C67",
   "status": "proved",
   "theorems": [
    "C67_triangle_plan",
    "C67_triangle",
    "C67_triangle_values",
    "C67_disk_plan",
    "C67_disk_values"
   ],
   "note": "Over the reals; BLAS, FFTW, tgamma and pow by their contracts. Values on the triangle for square arrays (rectangular grids are refuted in C39). The default rotation drivers are used; the SIMD ones agree with them (C10, C11)."
  },
  {
   "property": "C68",
   "status": "proved",
   "theorems": [
    "C68_values",
    "C68_gradient",
    "C68_curl",
    "C68_padding_kept"
   ],
   "note": "Over the reals; BLAS, FFTW and tgamma are arguments with their contracts. Entries outside the truncation must be zero; C68_padding_kept shows that the gradient does not clear them."
  },
  {
   "property": "C69",
   "status": "proved",
   "theorems": [
    "C69_potentials"
   ],
   "note": "Over the reals; BLAS, FFTW and tgamma are arguments with their contracts. The field is described by the derivatives of its potentials at the grid points."
  },
  {
   "property": "C70",
   "status": "proved",
   "theorems": [
    "C70_kernel",
    "C70_driver",
    "C70_plan",
    "C70_conversion",
    "C70_values"
   ],
   "note": "Over the reals; BLAS, FFTW, tgamma (with the duplication formula at beta+1 and beta+1/2) and pow by their contracts. For -1 < beta < -1/2 the planner's third table uses C^(lambda) with lambda < 0, see finding 24; for beta = -1/2 lambda is 0. The library has only the default rotation driver for this transform."
  },
  {
   "property": "C71",
   "status": "proved",
   "theorems": [
    "C71_kernel",
    "C71_driver",
    "C71_plan",
    "C71_conversion",
    "C71_values",
    "C71_conversion_all_parameters_refuted"
   ],
   "note": "Over the reals; BLAS, FFTW, tgamma and pow by their contracts. For other gamma, delta the conversion to Chebyshev polynomials does not keep the function: the third dimension is multiplied by the transposed table (finding 9, C35_tet_third_dimension_refuted, C71_conversion_all_parameters_refuted). The default rotation drivers are used; the SIMD kernels agree with them (C10, C11)."
  }
 ]
}