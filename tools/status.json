{
 "C05": {
  "note": "Proved for every kernel instantiated with equal vector width and step; C05_swap_warp_AVX512Ff_refuted shows the single-precision AVX-512 instance (16 lanes, step 8) is wrong."
 },
 "C10": {
  "note": "lo2hi kernels need m2 <= n+2*VS-4 (sphere), n+VS-2 (triangle), 2n-2 (disk); C10_simd_sph_lo2hi_beyond_range_refuted shows an out-of-bounds access beyond."
 },
 "C35": {
  "note": "BLAS is a parameter with the contract blas_ok (met by a checked reference implementation). The third dimension of tet2cheb applies the transposed table and touches lines of length N: C35_tet_third_dimension_refuted, C35_tet_third_dimension_bounds_refuted."
 },
 "C36": {
  "note": "Connection tables are arguments (inverse to each other); tetrahedron for M = N, triangle and rectangularised disk for M <= N (outside these the BLAS calls leave the arrays)."
 },
 "C50": {
  "note": "All eight geometries, both directions."
 },
 "C37": {
  "note": "Any element type and arithmetic with opp (opp x) = x. C37_even_column_count_refuted for even M."
 },
 "C38": {
  "note": "FFTW is a parameter with the contract fftw_ok (met by a checked reference implementation); constants exact. Even column counts leave the array (C38_even_column_count_refuted)."
 },
 "C39": {
  "note": "All eight geometries; triangle for N = M and tetrahedron for N = L = M, refuted otherwise (C39_triangle_rectangular_refuted, C39_tetrahedron_rectangular_refuted)."
 },
 "C51": {
  "note": "All eight geometries; triangle for N = M and tetrahedron for N = L = M; refuted for the 2 by 3 triangle."
 },
 "C40": {
  "note": "Over the reals with exact hypot. The two theorems together give the exact set of orthogonal matrices that survive the factorisation."
 },
 "C41": {
  "note": "Over the reals. The exchange is an involution and preserves the norm of every degree because its blocks are matrices of Krawtchouk polynomials."
 },
 "C30": {
  "note": "Trees of any shape, thread number and scratch contents; also scaling of rows and columns. Column scaling is wrong when the sparse correction is not empty: C30_scale_columns_sparse_refuted."
 },
 "C31": {
  "note": "C31_count for every arithmetic; C31_exactly for sorted sequences and tolerance at most 1."
 },
 "C43": {
  "note": "Exact with distinct eigenvalues and eps = 0; with eps > 0 the residual bound of C43_residual. Also the quadratic problem."
 },
 "C32": {
  "note": "Over the reals."
 },
 "C52": {
  "note": "C52_second_derivative_refuted: the sum stops at n-1."
 },
 "C53": {
  "note": "Over the reals, for exact roots; the hierarchical versions for exact kernel samples."
 },
 "C54": {
  "note": "The root finder is a parameter with the contract exact_roots (met: C54_root_finder_exists); its contract excludes lambdalo <= sqrt(floatmin), where symmetric_dpr1_eig is wrong (C54_small_offset_refuted)."
 },
 "C33": {
  "note": "The leaf eigensolver is a parameter with the contract leaf_solved and the rank-one problems must be simple with an exact root finder (simple_merge); C33_nonvacuous meets all hypotheses. C33_tearing_refuted: fails whenever the torn off-diagonal is positive; C33_definiteness_refuted: a torn block of a definite S can be indefinite."
 },
 "C45": {
  "note": "Over the reals. Eigenvalues need det B_jj <> 0 and a nonzero real root for each diagonal block (a double root at zero makes the code divide 0 by 0); without a real root the routine stops (C45_no_real_eigenvalues). The construction of plans (btb_eig_FMM) is not modelled."
 },
 "C42": {
  "note": "Over the reals, for parameters greater than -1. The squared norms are any sequence with the textbook ratio and a positive first term; raised families are tied by the ratio of their masses."
 },
 "C56": {
  "note": "Over the reals; tgamma and pow are arguments, positive, tied to the families only through the mass of each weight. Associated and half-range families are not modelled."
 },
 "C57": {
  "note": "Over the reals. Jacobi and Laguerre parameters greater than -1; ultraspherical parameters greater than -1/2 and not 0. The pencils of associated families are not modelled."
 },
 "C58": {
  "note": "Over the reals. Rounding is not modelled (eps = 0) and the low-rank compression of admissible blocks (FMM) and the factored ADI iteration are hypotheses (exact_lowrank, exact_sylvester), for which instances are given. Bandwidth of A at most half the block size and at least that of B; both conditions are shown to be needed."
 },
 "C59": {
  "note": "Over the reals, without rounding; low-rank compression of admissible blocks is assumed exact (as in C58); tgamma and pow(2,.) are arguments with positivity and the values at 1 and 0. Planners that scale columns need n*tol <= 1 (tol is the relative tolerance 16*sqrt(eps) of the planner), because of finding 16."
 },
 "C46": {
  "note": "Blocks of memory only: the model records malloc, calloc, free and the reads of struct fields and pointer arrays; data-dependent sizes and tree shapes are arbitrary. malloc succeeds except for negative sizes. The leaks of the isometry, ADI and associated Hermite plans are theorems (C46_*_leaks); the other planners are covered by C46_public_plans and C46_histories."
 },
 "C60": {
  "note": "Over the reals with exact sin, cos, hypot; coefficients of degree n and above must be zero (the plan has bandlimit n)."
 },
 "C47": {
  "note": "int expressions of the listed functions, with their loops, in 32-bit arithmetic (MInt.v, MInt2.v). Conversions to double and size_t end an expression. The SIMD kernels' own index expressions are not included."
 },
 "C61": {
  "note": "MGrad.v models the planner, gbmv and tbsv on columns and the loops; theorems over R for N >= 1 and M = 2h+1 with h <= N; the coefficients of degree N that the array can hold for order m must be zero."
 },
 "C62": {
  "note": "exact recovery over R for M/2 <= N-1; for fields outside the range of the conversion matrix the call solves a least-squares problem, which is not characterised."
 },
 "C63": {
  "note": "Over the reals; the coefficients outside the triangular truncation must be zero. The converse direction is the inverse (C08, C13 and C64)."
 },
 "C64": {
  "note": "Over the reals with eps = 0; BLAS, FFTW and tgamma enter through contracts (blas_ok, fftw_ok, gamma_function), each shown satisfiable. TRANS='N'; the default (not SIMD) driver, which C10 and C11 relate to the SIMD ones."
 },
 "C65": {
  "note": "Over the reals with eps = 0. For orthonormal ultraspherical polynomials in the planners through Jacobi polynomials, lambda > 0 is required: see C59_ultraspherical_sign_refuted."
 },
 "C66": {
  "note": "Over the reals, for any functions with the functional equations of the gamma function and of powers of 2; the coefficients outside the truncation must be zero. The converse direction is the inverse (C08, C13 and C67)."
 },
 "C67": {
  "note": "Over the reals; BLAS, FFTW, tgamma and pow by their contracts. Values on the triangle for square arrays (rectangular grids are refuted in C39). The default rotation drivers are used; the SIMD ones agree with them (C10, C11)."
 },
 "C68": {
  "note": "Over the reals; BLAS, FFTW and tgamma are arguments with their contracts. Entries outside the truncation must be zero; C68_padding_kept shows that the gradient does not clear them."
 },
 "C69": {
  "note": "Over the reals; BLAS, FFTW and tgamma are arguments with their contracts. The field is described by the derivatives of its potentials at the grid points."
 },
 "C70": {
  "note": "Over the reals; BLAS, FFTW, tgamma (with the duplication formula at beta+1 and beta+1/2) and pow by their contracts. For -1 < beta < -1/2 the planner's third table uses C^(lambda) with lambda < 0, see finding 24; for beta = -1/2 lambda is 0. The library has only the default rotation driver for this transform."
 },
 "C71": {
  "note": "Over the reals; BLAS, FFTW, tgamma and pow by their contracts. For other gamma, delta the conversion to Chebyshev polynomials does not keep the function: the third dimension is multiplied by the transposed table (finding 9, C35_tet_third_dimension_refuted, C71_conversion_all_parameters_refuted). The default rotation drivers are used; the SIMD kernels agree with them (C10, C11)."
 }
}
