# Print Assumptions for every property theorem

Generated by tools/assumptions.py.  Axioms are those of the standard library only.

* **A**: closed under the global context
* **B**: `ClassicalDedekindReals.sig_forall_dec`
* **C**: `ClassicalDedekindReals.sig_forall_dec`, `FunctionalExtensionality.functional_extensionality_dep`
* **D**: `ClassicalDedekindReals.sig_forall_dec`, `ClassicalDedekindReals.sig_not_dec`, `FunctionalExtensionality.functional_extensionality_dep`
* **E**: `ClassicalDedekindReals.sig_forall_dec`, `ClassicalDedekindReals.sig_not_dec`, `Classical_Prop.classic`, `FunctionalExtensionality.functional_extensionality_dep`

| file | theorem | assumptions |
|---|---|---|
| Properties_Banded.v | C17_triangular_banded_multiply | D |
| Properties_Banded.v | C17_triangular_banded_solve | D |
| Properties_Banded.v | C17_solve_inverts_multiply | D |
| Properties_Banded.v | C17_shifted_solve | D |
| Properties_Banded.v | C17_banded_upper_factor | D |
| Properties_Banded.v | C17_banded_lower_factor | D |
| Properties_Banded.v | C18_dense_triangular_multiply | D |
| Properties_Banded.v | C18_dense_triangular_solve | D |
| Properties_Banded.v | C18_solve_inverts_multiply | D |
| Properties_Banded.v | C18_columnwise | D |
| Properties_Banded.v | C19_banded_get_set | A |
| Properties_Banded.v | C19_triangular_banded_get_set | A |
| Properties_Banded.v | C19_reads_defined | A |
| Properties_Banded.v | C19_fresh | A |
| Properties_Banded.v | C19_conversions | A |
| Properties_Banded.v | C20_banded_matrix_vector | D |
| Properties_Banded.v | C20_banded_matrix_matrix | D |
| Properties_Banded.v | C20_banded_add | D |
| Properties_Banded.v | C20_banded_uniform_scaling_add | D |
| Properties_Banded.v | C20_tridiagonal_times_banded | D |
| Properties_Banded.v | C21_realloc_grow | A |
| Properties_Banded.v | C21_realloc_shrink | A |
| Properties_Banded.v | C21_realloc_same_bandwidth_refuted | A |
| Properties_Banded.v | C21_realloc_same_bandwidth_zeroes | A |
| Properties_Banded.v | C44_modified_multiply | D |
| Properties_Banded.v | C44_solve_inverts_multiply | D |
| Properties_Banded.v | C44_columnwise | D |
| Properties_Banded.v | C48_operator_clenshaw | D |
| Properties_Block.v | C45_create | D |
| Properties_Block.v | C45_create_rejects | D |
| Properties_Block.v | C45_store | D |
| Properties_Block.v | C45_convert | D |
| Properties_Block.v | C45_multiply | D |
| Properties_Block.v | C45_solve | D |
| Properties_Block.v | C45_inverse | D |
| Properties_Block.v | C45_eigenvalues | D |
| Properties_Block.v | C45_no_real_eigenvalues | D |
| Properties_Block.v | C45_eigenvectors | D |
| Properties_Block.v | C45_dense_multiply | D |
| Properties_Block.v | C45_dense_solve | D |
| Properties_Block.v | C45_dense_inverse | D |
| Properties_Block.v | C45_dense_columns | D |
| Properties_Block.v | C45_plan_multiply | D |
| Properties_Block.v | C45_plan_solve | D |
| Properties_Block.v | C45_plan_inverse | D |
| Properties_Block.v | C45_plan_columns | D |
| Properties_Block.v | C45_half_multiply | D |
| Properties_Block.v | C45_half_columns | D |
| Properties_Block.v | C45_half_solve | D |
| Properties_Butter.v | C30_multiply | D |
| Properties_Butter.v | C30_solve | D |
| Properties_Butter.v | C30_inverse | D |
| Properties_Butter.v | C30_columns | D |
| Properties_Butter.v | C30_multiply_ADI | D |
| Properties_Butter.v | C30_solve_ADI | D |
| Properties_Butter.v | C30_inverse_ADI | D |
| Properties_Butter.v | C30_columns_ADI | D |
| Properties_Butter.v | C30_scale_rows | D |
| Properties_Butter.v | C30_scale_columns | D |
| Properties_Butter.v | C30_scale_columns_sparse_refuted | D |
| Properties_Butter.v | C30_scale_rows_ADI | D |
| Properties_Butter.v | C30_scale_columns_ADI | D |
| Properties_Classical.v | C42_jacobi_recurrence | D |
| Properties_Classical.v | C42_laguerre_recurrence | D |
| Properties_Classical.v | C42_hermite_recurrence | D |
| Properties_Classical.v | C42_jacobi_multiplication | D |
| Properties_Classical.v | C42_laguerre_multiplication | D |
| Properties_Classical.v | C42_hermite_multiplication | D |
| Properties_Classical.v | C42_jacobi_raising | D |
| Properties_Classical.v | C42_laguerre_raising | D |
| Properties_Classical.v | C42_jacobi_lowering | D |
| Properties_Classical.v | C42_laguerre_lowering | D |
| Properties_Classical.v | C42_jacobi_derivative | D |
| Properties_Classical.v | C42_laguerre_derivative | D |
| Properties_Classical.v | C42_hermite_derivative | D |
| Properties_Conn.v | C56_one_connection_jacobi | D |
| Properties_Conn.v | C56_one_connection_laguerre | D |
| Properties_Conn.v | C56_one_connection_ultraspherical | D |
| Properties_Conn.v | C56_one_connection_legendre_chebyshev | D |
| Properties_Conn.v | C56_jacobi_diagonal | D |
| Properties_Conn.v | C56_laguerre_diagonal | D |
| Properties_Conn.v | C56_ultraspherical_diagonal | D |
| Properties_Conn.v | C56_legendre_to_chebyshev_diagonal | D |
| Properties_Conn.v | C56_chebyshev_to_legendre_diagonal | D |
| Properties_Conn.v | C57_jacobi_pencil | D |
| Properties_Conn.v | C57_laguerre_pencil | D |
| Properties_Conn.v | C57_ultraspherical_pencil | D |
| Properties_Conn.v | C57_legendre_to_chebyshev_pencil | D |
| Properties_Conn.v | C57_chebyshev_to_legendre_pencil | D |
| Properties_Convert.v | C63_kernel | E |
| Properties_Convert.v | C63_driver | E |
| Properties_Convert.v | C64_plan | D |
| Properties_Convert.v | C64_values | E |
| Properties_Convert.v | C65_legendre_to_chebyshev | D |
| Properties_Convert.v | C65_chebyshev_to_legendre | D |
| Properties_Convert.v | C65_ultraspherical_to_ultraspherical | D |
| Properties_Convert.v | C65_jacobi_to_jacobi | D |
| Properties_Convert.v | C65_laguerre_to_laguerre | D |
| Properties_Convert.v | C65_jacobi_to_ultraspherical | D |
| Properties_Convert.v | C65_ultraspherical_to_jacobi | D |
| Properties_Convert.v | C65_jacobi_to_chebyshev | D |
| Properties_Convert.v | C65_chebyshev_to_jacobi | D |
| Properties_Convert.v | C65_ultraspherical_to_chebyshev | D |
| Properties_Convert.v | C65_chebyshev_to_ultraspherical | D |
| Properties_Convert2.v | C66_triangle_kernel | D |
| Properties_Convert2.v | C66_disk_kernel | D |
| Properties_Convert2.v | C66_triangle_driver | D |
| Properties_Convert2.v | C66_disk_driver | D |
| Properties_Convert2.v | C67_triangle_plan | E |
| Properties_Convert2.v | C67_triangle | E |
| Properties_Convert2.v | C67_triangle_values | E |
| Properties_Convert2.v | C67_disk_plan | E |
| Properties_Convert2.v | C67_disk_values | E |
| Properties_Convert3.v | C68_values | E |
| Properties_Convert3.v | C68_gradient | E |
| Properties_Convert3.v | C68_curl | E |
| Properties_Convert3.v | C68_padding_kept | D |
| Properties_Convert3.v | C69_potentials | E |
| Properties_Convert4.v | C70_kernel | E |
| Properties_Convert4.v | C70_driver | E |
| Properties_Convert4.v | C70_plan | E |
| Properties_Convert4.v | C70_conversion | E |
| Properties_Convert4.v | C70_values | E |
| Properties_Convert5.v | C71_kernel | D |
| Properties_Convert5.v | C71_driver | D |
| Properties_Convert5.v | C71_plan | E |
| Properties_Convert5.v | C71_conversion | E |
| Properties_Convert5.v | C71_values | E |
| Properties_Convert5.v | C71_conversion_all_parameters_refuted | E |
| Properties_Dprk.v | C32_multiply | D |
| Properties_Dprk.v | C32_multiply_identity | D |
| Properties_Dprk.v | C32_inverse_identity | D |
| Properties_Dprk.v | C32_inverse | D |
| Properties_Dprk.v | C32_square_root | D |
| Properties_Dprk.v | C52_secular | D |
| Properties_Dprk.v | C52_generalized_secular | D |
| Properties_Dprk.v | C52_derivative | D |
| Properties_Dprk.v | C52_generalized_derivative | D |
| Properties_Dprk.v | C52_second_derivative_refuted | D |
| Properties_Dprk.v | C52_interlacing | D |
| Properties_Dprk.v | C53_eigenvectors | D |
| Properties_Dprk.v | C53_pencil_eigenvectors | D |
| Properties_Dprk.v | C53_hierarchical_eigenvectors | D |
| Properties_Dprk.v | C53_hierarchical_pencil_eigenvectors | D |
| Properties_Dprk.v | C53_synthesize | D |
| Properties_Dprk.v | C53_synthesize_general | D |
| Properties_Dprk.v | C53_synthesize_pencil | D |
| Properties_Dprk.v | C54_eig | D |
| Properties_Dprk.v | C54_definite_eig | D |
| Properties_Dprk.v | C54_eig_FMM | D |
| Properties_Dprk.v | C54_definite_eig_FMM | D |
| Properties_Dprk.v | C54_root_finder_exists | D |
| Properties_Dprk.v | C54_kernels_exist | C |
| Properties_Dprk.v | C54_small_offset_refuted | D |
| Properties_Dprk.v | C55_dense_vectors | D |
| Properties_Dprk.v | C55_hierarchical_vectors | D |
| Properties_Drivers.v | C11_sph_hi2lo_simd_is_default | A |
| Properties_Drivers.v | C11_sph_lo2hi_simd_is_default | A |
| Properties_Drivers.v | C11_sphv_hi2lo_simd_is_default | A |
| Properties_Drivers.v | C11_sphv_lo2hi_simd_is_default | A |
| Properties_Drivers.v | C11_disk_hi2lo_simd_is_default | A |
| Properties_Drivers.v | C11_disk_lo2hi_simd_is_default | A |
| Properties_Drivers.v | C11_tri_hi2lo_simd_is_default | A |
| Properties_Drivers.v | C11_tri_lo2hi_simd_is_default | A |
| Properties_Drivers.v | C11_even_column_count_refuted | A |
| Properties_Drivers.v | C13_sph_roundtrip | D |
| Properties_Drivers.v | C13_sphv_roundtrip | D |
| Properties_Drivers.v | C13_disk_roundtrip | D |
| Properties_Drivers.v | C13_tri_roundtrip | D |
| Properties_Drivers.v | C13_rectdisk_roundtrip | D |
| Properties_Drivers.v | C13_tet_roundtrip | D |
| Properties_Drivers.v | C13_spinsph_roundtrip | D |
| Properties_Drivers.v | C13_sph_simd_roundtrip | D |
| Properties_Drivers.v | C13_disk_simd_roundtrip | D |
| Properties_Drivers.v | C13_tri_simd_roundtrip | D |
| Properties_Drivers.v | C34_chebyshev_scaling_values | A |
| Properties_Drivers.v | C34_chebyshev_scalings_inverse | D |
| Properties_Eig.v | C31_count | A |
| Properties_Eig.v | C31_exactly | D |
| Properties_Eig.v | C43_eigenvalues | D |
| Properties_Eig.v | C43_exact | D |
| Properties_Eig.v | C43_residual | D |
| Properties_Eig.v | C43_quadratic_eigenvalues | D |
| Properties_Eig.v | C43_quadratic | D |
| Properties_EigPlan.v | C58_plan_holds_the_eigenvectors | D |
| Properties_EigPlan.v | C58_adi_plan_holds_the_eigenvectors | D |
| Properties_EigPlan.v | C58_drop_precision_keeps_the_matrix | D |
| Properties_EigPlan.v | C58_wider_B_refuted | A |
| Properties_EigPlan.v | C58_wide_band_refuted | A |
| Properties_Factor.v | C22_lu | D |
| Properties_Factor.v | C22_cholesky | D |
| Properties_Factor.v | C23_reflector | D |
| Properties_Factor.v | C23_ql_reflector | D |
| Properties_Factor.v | C23_qr | D |
| Properties_Factor.v | C23_ql | D |
| Properties_Factor.v | C23_transpose_inverts | D |
| Properties_Factor.v | C24_cholesky | D |
| Properties_Factor.v | C24_bidiagonal_multiply | D |
| Properties_Factor.v | C24_bidiagonal_solve | D |
| Properties_Factor.v | C24_bidiagonal_inverse | D |
| Properties_Factor.v | C24_symmetric_multiply | D |
| Properties_Factor.v | C24_skew_multiply | D |
| Properties_Factor.v | C24_order_one_refuted | D |
| Properties_Factor.v | C24_skew_square_splits | D |
| Properties_Fftw.v | C38_fftw_contract_met | D |
| Properties_Fftw.v | C37_colswap_roundtrip | A |
| Properties_Fftw.v | C37_colswap_orders | A |
| Properties_Fftw.v | C37_halfcomplex_roundtrip | A |
| Properties_Fftw.v | C37_halfcomplex_back | A |
| Properties_Fftw.v | C37_halfcomplex_layout | A |
| Properties_Fftw.v | C37_even_column_count_refuted | A |
| Properties_Fftw.v | C38_sphere | D |
| Properties_Fftw.v | C38_vector_sphere | D |
| Properties_Fftw.v | C38_disk | D |
| Properties_Fftw.v | C38_annulus | D |
| Properties_Fftw.v | C38_rectdisk | D |
| Properties_Fftw.v | C38_triangle | D |
| Properties_Fftw.v | C38_tetrahedron | D |
| Properties_Fftw.v | C38_spin | D |
| Properties_Fftw.v | C38_even_column_count_refuted | A |
| Properties_Fftw.v | C39_sphere | D |
| Properties_Fftw.v | C39_vector_sphere | D |
| Properties_Fftw.v | C39_disk | D |
| Properties_Fftw.v | C39_annulus | D |
| Properties_Fftw.v | C39_rectdisk | D |
| Properties_Fftw.v | C39_triangle_square | D |
| Properties_Fftw.v | C39_tetrahedron_cube | D |
| Properties_Fftw.v | C39_triangle_rectangular_refuted | D |
| Properties_Fftw.v | C39_tetrahedron_rectangular_refuted | D |
| Properties_Fftw.v | C39_spin | D |
| Properties_Fftw.v | C51_sphere | D |
| Properties_Fftw.v | C51_vector_sphere | D |
| Properties_Fftw.v | C51_disk | D |
| Properties_Fftw.v | C51_annulus | D |
| Properties_Fftw.v | C51_rectdisk | D |
| Properties_Fftw.v | C51_triangle_square | D |
| Properties_Fftw.v | C51_triangle_rectangular_refuted | D |
| Properties_Fftw.v | C51_tetrahedron_cube | D |
| Properties_Fftw.v | C51_spin | D |
| Properties_Grad.v | C61_gradient | E |
| Properties_Grad.v | C61_curl | E |
| Properties_Grad.v | C62_recovers | D |
| Properties_Grad.v | C62_wide_refuted | D |
| Properties_Harmonic.v | C35_blas_contract_met | D |
| Properties_Harmonic.v | C35_sph2fourier_columns | B |
| Properties_Harmonic.v | C35_sphv2fourier_columns | B |
| Properties_Harmonic.v | C35_tri2cheb_rows_columns | D |
| Properties_Harmonic.v | C35_rectdisk2cheb_rows_columns | B |
| Properties_Harmonic.v | C35_ann2cxf_columns | D |
| Properties_Harmonic.v | C35_tet2cheb_dimensions | D |
| Properties_Harmonic.v | C35_spinsph2fourier_columns | D |
| Properties_Harmonic.v | C35_tet_third_dimension_refuted | D |
| Properties_Harmonic.v | C35_tet_third_dimension_bounds_refuted | A |
| Properties_Harmonic.v | C36_sph_inverse | D |
| Properties_Harmonic.v | C36_sphv_inverse | D |
| Properties_Harmonic.v | C36_disk_inverse | D |
| Properties_Harmonic.v | C36_tri_inverse | D |
| Properties_Harmonic.v | C36_rectdisk_inverse | D |
| Properties_Harmonic.v | C36_ann_inverse | D |
| Properties_Harmonic.v | C36_tet_inverse | D |
| Properties_Harmonic.v | C36_spinsph_inverse | D |
| Properties_Harmonic.v | C50_sph_transposed | D |
| Properties_Harmonic.v | C50_sphv_transposed | D |
| Properties_Harmonic.v | C50_disk_transposed | D |
| Properties_Harmonic.v | C50_tri_transposed | D |
| Properties_Harmonic.v | C50_rectdisk_transposed | D |
| Properties_Harmonic.v | C50_ann_transposed | D |
| Properties_Harmonic.v | C50_tet_transposed | D |
| Properties_Harmonic.v | C50_spinsph_transposed | D |
| Properties_Hier.v | C28_gemv | D |
| Properties_Hier.v | C28_gemm | D |
| Properties_Hier.v | C28_demv | D |
| Properties_Hier.v | C28_lrmv | D |
| Properties_Hier.v | C28_lrmm | D |
| Properties_Hier.v | C29_ghmv | D |
| Properties_Hier.v | C29_ghmm | D |
| Properties_Hier.v | C29_flattened_is_block_matrix | C |
| Properties_Hier.v | C29_scale_rows | D |
| Properties_Hier.v | C29_scale_columns | D |
| Properties_Hier.v | C29_sample | D |
| Properties_Int.v | C47_int_is_Z | A |
| Properties_Int.v | C47_plan_rotsphere | A |
| Properties_Int.v | C47_plan_rottriangle | A |
| Properties_Int.v | C47_plan_rotdisk | A |
| Properties_Int.v | C47_plan_rotrectdisk | A |
| Properties_Int.v | C47_plan_rotspinsphere | A |
| Properties_Int.v | C47_execute_sph | A |
| Properties_Int.v | C47_execute_disk | A |
| Properties_Int.v | C47_execute_tri | A |
| Properties_Int.v | C47_execute_rectdisk | A |
| Properties_Int.v | C47_execute_sph_overflow | A |
| Properties_Int.v | C47_permute | A |
| Properties_Int.v | C47_permute_sph | A |
| Properties_Int.v | C47_permute_tri | A |
| Properties_Int.v | C47_permute_overflow | A |
| Properties_Int.v | C47_normalization_2d | A |
| Properties_Int.v | C47_normalization_3d | A |
| Properties_Int.v | C47_dense_plan | A |
| Properties_Int.v | C47_plan_sph_fftw | A |
| Properties_Int2.v | C47_plan_sph_gradient | A |
| Properties_Int2.v | C47_plan_sph_helmholtzhodge | A |
| Properties_Int2.v | C47_execute_sph_gradient | A |
| Properties_Int2.v | C47_execute_sph_helmholtzhodge | A |
| Properties_Int2.v | C47_polar_isometries | A |
| Properties_Iso.v | C40_zyzr | D |
| Properties_Iso.v | C40_zyzr_every_orthogonal_refuted | D |
| Properties_Iso.v | C40_reflection | D |
| Properties_Iso.v | C40_zyzr_reflection | D |
| Properties_Iso.v | C40_zyzr_reflection_x_axis_refuted | D |
| Properties_Iso.v | C41_polar_rotation_turns | D |
| Properties_Iso.v | C41_polar_rotations_compose | D |
| Properties_Iso.v | C41_polar_rotation_undone | D |
| Properties_Iso.v | C41_polar_rotation_norm | D |
| Properties_Iso.v | C41_polar_rotation_keeps | D |
| Properties_Iso.v | C41_polar_reflection_involution | A |
| Properties_Iso.v | C41_polar_reflection_reflects | D |
| Properties_Iso.v | C41_isometries_keep_degrees_apart | A |
| Properties_Iso.v | C41_exchange_frame | A |
| Properties_Iso.v | C41_exchange_involution | D |
| Properties_Iso.v | C41_exchange_norm | D |
| Properties_Iso.v | C41_orthogonal_transformation_norm | E |
| Properties_Iso.v | C41_rotation_norm | E |
| Properties_Iso.v | C41_rotation_undone | D |
| Properties_Iso.v | C41_exchange_single_coefficient_refuted | A |
| Properties_Lifecycle.v | C46_public_plans | A |
| Properties_Lifecycle.v | C46_histories | A |
| Properties_Lifecycle.v | C46_banded_eigen_FMM | A |
| Properties_Lifecycle.v | C46_divide_and_conquer | A |
| Properties_Lifecycle.v | C46_divide_and_conquer_FMM | A |
| Properties_Lifecycle.v | C46_rank_one | A |
| Properties_Lifecycle.v | C46_rank_one_FMM | A |
| Properties_Lifecycle.v | C46_adi_small | A |
| Properties_Lifecycle.v | C46_isometry_leaks | A |
| Properties_Lifecycle.v | C46_adi_leaks | A |
| Properties_Lifecycle.v | C46_associated_hermite_leaks | A |
| Properties_Lifecycle.v | C46_associated_hermite_fast_leaks | A |
| Properties_Permute.v | C01_permute_layout_and_roundtrip | A |
| Properties_Permute.v | C01_permute_t_roundtrip | A |
| Properties_Permute.v | C02_permute_sph_roundtrip | A |
| Properties_Permute.v | C02_permute_t_sph_roundtrip | A |
| Properties_Permute.v | C02_permute_tri_roundtrip | A |
| Properties_Permute.v | C02_permute_t_tri_roundtrip | A |
| Properties_Permute.v | C03_old_permute_tri_roundtrip | A |
| Properties_Permute.v | C03_old_permute_t_tri_roundtrip | A |
| Properties_Permute.v | C04_warp_roundtrip | A |
| Properties_Permute.v | C04_warp_t_roundtrip | A |
| Properties_Permute.v | C05_swap_warp_exchanges | A |
| Properties_Permute.v | C05_swap_warp_AVX512Ff_refuted | A |
| Properties_Recurrence.v | C14_horner | D |
| Properties_Recurrence.v | C14_horner_simd_is_scalar | A |
| Properties_Recurrence.v | C15_clenshaw | D |
| Properties_Recurrence.v | C15_clenshaw_simd | D |
| Properties_Recurrence.v | C16_orthogonal_polynomial_clenshaw | D |
| Properties_Recurrence.v | C16_orthogonal_polynomial_clenshaw_simd | D |
| Properties_Recurrence.v | C16_needs_extra_entry_refuted | A |
| Properties_Recurrence.v | C49_eigen_eval | D |
| Properties_Recurrence.v | C49_eigen_eval_scalar | D |
| Properties_Rot.v | C60_function_on_the_sphere | E |
| Properties_Rot.v | C60_exchange | E |
| Properties_Rot.v | C60_isometry | E |
| Properties_Rot.v | C60_rotation | E |
| Properties_Rot.v | C60_orthogonal_transformation | E |
| Properties_Rot.v | C60_orthogonal_transformation_every_matrix_refuted | E |
| Properties_Rot.v | C60_reflection | E |
| Properties_Rotations.v | C06_planned_pairs_are_rotations | D |
| Properties_Rotations.v | C07_packed_indices | A |
| Properties_Rotations.v | C08_sph_kernels_inverse | D |
| Properties_Rotations.v | C08_tri_kernels_inverse | D |
| Properties_Rotations.v | C08_disk_kernels_inverse | D |
| Properties_Rotations.v | C08_tet_kernels_inverse | D |
| Properties_Rotations.v | C08_spinsph_kernels_inverse | D |
| Properties_Rotations.v | C09_sph_kernels_isometry | D |
| Properties_Rotations.v | C09_tri_kernels_isometry | D |
| Properties_Rotations.v | C09_disk_kernels_isometry | D |
| Properties_Rotations.v | C09_tet_kernels_isometry | D |
| Properties_Rotations.v | C09_spinsph_kernels_isometry | D |
| Properties_Rotations.v | C10_simd_sph_hi2lo | A |
| Properties_Rotations.v | C10_simd_sph_lo2hi | A |
| Properties_Rotations.v | C10_simd_tri_hi2lo | A |
| Properties_Rotations.v | C10_simd_tri_lo2hi | A |
| Properties_Rotations.v | C10_simd_disk_hi2lo | A |
| Properties_Rotations.v | C10_simd_disk_lo2hi | A |
| Properties_Rotations.v | C10_simd_tet | A |
| Properties_Rotations.v | C10_tet_scalar_is_default | A |
| Properties_Rotations.v | C10_simd_spinsph | A |
| Properties_Rotations.v | C10_simd_sph_lo2hi_beyond_range_refuted | A |
| Properties_Sched.v | C12_strided_partition | A |
| Properties_Sched.v | C12_sph_any_schedule | A |
| Properties_Sched.v | C12_sphv_any_schedule | A |
| Properties_Sched.v | C12_disk_any_schedule | A |
| Properties_Sched.v | C12_tri_any_schedule | A |
| Properties_Sched.v | C12_rectdisk_any_schedule | A |
| Properties_Sched.v | C12_tet_any_schedule | A |
| Properties_Sched.v | C12_spinsph_any_schedule | A |
| Properties_Sched.v | C12_sph_simd_any_schedule | A |
| Properties_Sched.v | C12_disk_simd_any_schedule | A |
| Properties_Sched.v | C12_tri_simd_any_schedule | A |
| Properties_Sched.v | C12_trmm_trsm_any_schedule | A |
| Properties_Sort.v | C25_perm | A |
| Properties_Sort.v | C25_perm_inverse | A |
| Properties_Sort.v | C26_safe_consistent | A |
| Properties_Sort.v | C26_sorts | A |
| Properties_Sort.v | C26_reported_permutation | A |
| Properties_Sort.v | C26_library_orders | C |
| Properties_Sort.v | C26_le_refuted | A |
| Properties_Sort.v | C27_indsplit | D |
| Properties_Sort.v | C27_binarysearch | D |
| Properties_Sort.v | C27_strict_bound_refuted | D |
| Properties_Tdc.v | C33_halves | D |
| Properties_Tdc.v | C33_tearing | D |
| Properties_Tdc.v | C33_tearing_refuted | D |
| Properties_Tdc.v | C33_definiteness_refuted | D |
| Properties_Tdc.v | C33_eig | D |
| Properties_Tdc.v | C33_eig_FMM | D |
| Properties_Tdc.v | C33_tdmv | D |
| Properties_Tdc.v | C33_tfmv | D |
| Properties_Tdc.v | C33_reusable | B |
| Properties_Tdc.v | C33_sht_nonpositive | D |
| Properties_Tdc.v | C33_sht_definite | D |
| Properties_Tdc.v | C33_sht_factor | D |
| Properties_Transforms.v | C59_legendre_to_chebyshev | D |
| Properties_Transforms.v | C59_chebyshev_to_legendre | D |
| Properties_Transforms.v | C59_ultraspherical_to_ultraspherical | D |
| Properties_Transforms.v | C59_jacobi_to_jacobi | D |
| Properties_Transforms.v | C59_laguerre_to_laguerre | D |
| Properties_Transforms.v | C59_jacobi_to_ultraspherical | D |
| Properties_Transforms.v | C59_ultraspherical_to_jacobi | D |
| Properties_Transforms.v | C59_jacobi_to_chebyshev | D |
| Properties_Transforms.v | C59_chebyshev_to_jacobi | D |
| Properties_Transforms.v | C59_ultraspherical_to_chebyshev | D |
| Properties_Transforms.v | C59_chebyshev_to_ultraspherical | D |
| Properties_Transforms.v | C59_ultraspherical_sign_refuted | D |
