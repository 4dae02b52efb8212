{"id": "C01", "title": "permute / permute_t are mutually inverse data movements", "statement": "permute(A,B,N,M,L) followed by permute_t(B',A',N,M,L) returns every entry of A bit for bit (and vice versa); both stay inside the two N*M buffers and move every entry exactly once, entry (row i, column j) of a group of L columns going to position i*L+j of the group.", "quantifier": "every N, M >= 0, every lane count L >= 1 dividing M, every element type and content", "why_tests_cant": "the index map is modular arithmetic over two unbounded dimensions; a test fixes N, M, L", "anchors": ["src/permute.c: permute, permute_t"]}
{"id": "C02", "title": "Ragged permutations permute_sph and permute_tri are mutually inverse", "statement": "permute_sph/permute_t_sph and permute_tri/permute_t_tri are inverse to each other for every column count, including column counts that are not a multiple of the lane count: the leftover leading columns are copied verbatim, the others are interleaved.", "quantifier": "every N, M >= 0 and lane count L >= 1, every content", "why_tests_cant": "the remainder M mod 2L (resp. M mod L) takes every value; each is a different boundary", "anchors": ["src/permute.c: permute_sph, permute_t_sph, permute_tri, permute_t_tri"]}
{"id": "C03", "title": "The recursive triangular permutation is invertible", "statement": "old_permute_tri followed by old_permute_t_tri is the identity on the data for every power-of-two lane count and column count; both stay in bounds and terminate.", "quantifier": "every N, M >= 0, L = 2^k, k >= 1", "why_tests_cant": "recursion depth depends on L, remainders on M", "anchors": ["src/permute.c: old_permute_tri, old_permute_t_tri"]}
{"id": "C04", "title": "warp and warp_t are mutually inverse column permutations", "statement": "warp(A,N,M,L) only moves whole columns of A, stays in bounds, and warp_t undoes it exactly.", "quantifier": "every N, every M, L = 2^k with the column-count precondition used by the drivers, every content", "why_tests_cant": "the number of nested passes depends on L and the start column on M mod 4L", "anchors": ["src/permute.c: warp, warp_t, swap_warp"]}
{"id": "C05", "title": "Every SIMD version of the column exchange swaps exactly the two ranges", "statement": "swap_warp_{default,SSE,SSE2,AVX,AVX512F,NEON} exchange A[0..N) and B[0..N) for every N, touch nothing else and agree with the scalar version bit for bit. (Refuted for the single-precision AVX512F instance, whose block step is 8 while its vectors hold 16 lanes.)", "quantifier": "every N >= 0, every content, every vector width and unroll factor", "why_tests_cant": "tail lengths depend on N modulo the unrolled width; most hosts cannot even execute the widest version", "anchors": ["src/permute/permute.h: SWAP_WARP_KERNEL", "src/permute/permute_*.c"]}
{"id": "C06", "title": "Planned Givens rotations are rotations", "statement": "Every (sine, cosine) pair produced by the planners of the sphere, triangle, disk, rectangularized disk and spin-weighted sphere satisfies s^2+c^2=1 with both real, for every degree and order stored in the plan.", "quantifier": "every n, every stored (l,m), every admissible parameter (alpha,beta,gamma or spin s)", "why_tests_cant": "rational functions of unbounded integer and real parameters", "anchors": ["src/rotations.c: ft_plan_rotsphere, ft_plan_rottriangle, ft_plan_rotdisk, ft_plan_rotrectdisk, ft_plan_rotspinsphere"]}
{"id": "C07", "title": "Packed rotation-table indices are in bounds and collision free", "statement": "The packed index used for (l,m) in rotation plans is inside the allocation and different pairs never share a slot, so no table entry is overwritten while planning and none is read outside while executing.", "quantifier": "every n and all (l,m) visited", "why_tests_cant": "triangular packing formulas over unbounded n", "anchors": ["src/rotations.c, src/rotations/rotations.h: macros s(l,m), sd(l,m), s1, s2"]}
{"id": "C08", "title": "Low-to-high kernels invert high-to-low kernels", "statement": "Applying kernel_X_hi2lo and then kernel_X_lo2hi (or in the opposite order) with the same plan to a column returns the column, for X in sphere, triangle, disk, rectdisk, tetrahedron, spin-sphere.", "quantifier": "every n, order range m1..m2, stride, column content", "why_tests_cant": "number of rotations grows quadratically, every order pair is a separate product of rotations", "anchors": ["src/rotations/rotations_default.c: kernel_*_hi2lo_default, kernel_*_lo2hi_default"]}
{"id": "C09", "title": "Kernels preserve the Euclidean norm of a column and touch only that column", "statement": "Each rotation kernel preserves the sum of squares of the column it is applied to and leaves every entry that is not on the strided column bit-identical.", "quantifier": "every n, m1, m2, stride, offset and content", "why_tests_cant": "norm preservation is a universally quantified algebraic identity", "anchors": ["src/rotations/rotations_default.c"]}
{"id": "C10", "title": "Blocked SIMD rotation kernels agree with the scalar kernel lane by lane", "statement": "The cache-blocked, vectorised sphere/triangle/disk kernels compute, in every lane, bit for bit what the default kernel computes for the column in that lane, for the same elementary operations.", "quantifier": "every n, m1, m2 in the range used by drivers, every vector width and block size L, every content and every elementwise arithmetic", "why_tests_cant": "reordering of a quadratic number of dependent rotations; blocking remainders depend on n, m1, m2", "anchors": ["src/rotations/rotations.h: KERNEL_SPH_HI2LO, KERNEL_SPH_LO2HI, KERNEL_TRI_*, KERNEL_DISK_*"]}
{"id": "C11", "title": "SIMD drivers agree with the default drivers", "statement": "execute_{sph,tri,disk}_{hi2lo,lo2hi}_{SSE2,AVX,AVX512F} give the same array as the default execution for every supported array size.", "quantifier": "every n, every supported M, every content, every vector width", "why_tests_cant": "composition of warp, permute, blocked kernels; column groupings depend on M modulo 2*width", "anchors": ["src/drivers.c: execute_sph_*, execute_tri_*, execute_disk_*"]}
{"id": "C12", "title": "Results do not depend on the number of threads or their schedule", "statement": "The parallel regions of the drivers and of the matrix routines give the same memory as the sequential loop, bit for bit, for every number of threads and every interleaving of the individual loads and stores.", "quantifier": "every thread count, every assignment of iterations to threads, every interleaving", "why_tests_cant": "schedules cannot be enumerated by tests", "anchors": ["src/drivers.c: execute_*", "src/banded_source.c: trmm, trsm, bfmm, bfsm", "FT_GET_NUM_THREADS"]}
{"id": "C13", "title": "Executing hi2lo then lo2hi returns the coefficients", "statement": "ft_execute_sph_hi2lo followed by ft_execute_sph_lo2hi (and the tri/disk/rectdisk/tet/spinsph analogues) is the identity on the coefficient array, and each preserves its Frobenius norm.", "quantifier": "every n, every array shape accepted, every content", "why_tests_cant": "needs all columns and all rotation sequences at once", "anchors": ["src/drivers.c: ft_execute_sph_hi2lo, ft_execute_sph_lo2hi, ..."]}
{"id": "C14", "title": "Horner's rule evaluates the polynomial", "statement": "ft_horner(n,c,incc,m,x,f) sets f[j] = sum_{k<n} c[k*incc] x[j]^k for all j<m, f=0 when n<1, reads c and x only in range, leaves x unchanged; every SIMD version equals the scalar one bit for bit.", "quantifier": "every n, m, incc, content, vector width", "why_tests_cant": "degree and number of points are unbounded, tails depend on m", "anchors": ["src/recurrence.c, src/recurrence/recurrence.h: HORNER_KERNEL"]}
{"id": "C15", "title": "Clenshaw's algorithm evaluates the Chebyshev series", "statement": "ft_clenshaw sets f[j] = sum_{k<n} c[k*incc] T_k(x[j]) in the scalar and in every SIMD version (whose rounding order differs); x is restored.", "quantifier": "every n, m, incc, content, vector width", "why_tests_cant": "unbounded recurrence, remainder handling of unrolled loops", "anchors": ["src/recurrence.c, src/recurrence/recurrence.h: CLENSHAW_KERNEL"]}
{"id": "C16", "title": "The orthogonal-polynomial Clenshaw algorithm evaluates the series of any three-term family", "statement": "ft_orthogonal_polynomial_clenshaw sets f[j] = phi0[j] * sum_{k<n} c[k*incc] p_k(x[j]) where p_0=1, p_{k+1}=(A_k x+B_k)p_k - C_k p_{k-1}; it needs n+1 entries of C.", "quantifier": "every n, m, incc, recurrence coefficients and content", "why_tests_cant": "unbounded recurrence", "anchors": ["src/recurrence.c, src/recurrence/recurrence.h: ORTHOGONAL_POLYNOMIAL_CLENSHAW_KERNEL"]}
{"id": "C17", "title": "Triangular banded multiply and solve are inverse and in bounds", "statement": "tbsv('N') inverts tbmv('N') and tbsv('T') inverts tbmv('T') when the diagonal is non-zero; tbmv computes the product with the stored banded matrix (resp. its transpose).", "quantifier": "every size n, bandwidth b, matrix, vector", "why_tests_cant": "bandwidth clipping at both corners for every n,b", "anchors": ["src/banded_source.c: tbmv, tbsv, get_triangular_banded_index"]}
{"id": "C18", "title": "Dense triangular multiply and solve are inverse", "statement": "trmv computes U x (resp. U^T x) for the upper triangle of the array and trsv undoes it, also for the MPFR versions; trmm/trsm act column by column.", "quantifier": "every n, leading dimension, matrix, vector, number of columns", "why_tests_cant": "unbounded nested loops with in-place update order", "anchors": ["src/banded_source.c: trmv, trsv, trmm, trsm", "src/transforms_mpfr.c: ft_mpfr_trmv, ft_mpfr_trsv"]}
{"id": "C19", "title": "Banded storage behaves as the matrix it stores", "statement": "reading an entry after writing it returns the written value, writes do not disturb other entries, entries outside the band read as zero, no access leaves the allocation.", "quantifier": "every m, n, l, u and every pair of positions", "why_tests_cant": "packed index arithmetic", "anchors": ["src/banded_source.c: get_banded_index, set_banded_index, get_triangular_banded_index, set_triangular_banded_index"]}
{"id": "C20", "title": "Banded matrix-vector and matrix-matrix products are the mathematical products", "statement": "gbmv gives alpha*A*x+beta*y; gbmm gives alpha*A*B+beta*C restricted to C's band; banded_add and banded_uniform_scaling_add give entrywise sums.", "quantifier": "every shape and bandwidth combination", "why_tests_cant": "clipping at the matrix boundary for every bandwidth", "anchors": ["src/banded_source.c: gbmv, gbmm, banded_add, banded_uniform_scaling_add"]}
{"id": "C21", "title": "Growing a triangular banded matrix keeps its entries", "statement": "realloc_triangular_banded(A,b) keeps every entry inside both bands and zero-fills the rest. (Refuted when b equals the current bandwidth: all entries are lost.)", "quantifier": "every n, old and new bandwidth", "why_tests_cant": "the failing case is one diagonal of the (old,new) plane", "anchors": ["src/banded_source.c: realloc_triangular_banded"]}
{"id": "C22", "title": "Banded Cholesky and LU factor the matrix", "statement": "banded_cholfact returns R upper triangular banded with R^T R = A for every symmetric positive definite A for which the pivots are positive; banded_lufact returns L, U with LU = A when the pivots are non-zero.", "quantifier": "every n, bandwidth, matrix", "why_tests_cant": "in-place elimination of unbounded length", "anchors": ["src/banded_source.c: banded_cholfact, banded_lufact"]}
{"id": "C23", "title": "Householder reflectors of the banded QR/QL are orthogonal involutions and Q^T undoes Q", "statement": "compute_reflector/apply_reflector produce a reflection that maps the pivot vector to a multiple of a unit vector; banded_qrfact (banded_qlfact, square only) returns factors with QR = A (QL = A) for the orthogonal Q that bqmv applies; bqmv('T') inverts bqmv('N') and both preserve the norm.", "quantifier": "every n, bandwidth, matrix, vector", "why_tests_cant": "product of n reflections with clipped supports", "anchors": ["src/banded_source.c: compute_reflector, apply_reflector, banded_qrfact, bqmv"]}
{"id": "C24", "title": "Bidiagonal and symmetric tridiagonal kernels are correct", "statement": "cholesky gives B with B^T B = T; bdsv inverts bdmv; stmv/ktmv compute alpha*op(T)*x + beta*y; the squared skew matrix splits into two symmetric tridiagonal ones; in bounds for n >= 2. (Refuted for n = 1: stmv/ktmv read and write outside.)", "quantifier": "every n, matrix, vector", "why_tests_cant": "boundary rows for every n", "anchors": ["src/tridiagonal_source.c: symmetric_tridiagonal_cholesky, bdmv, bdsv, stmv, ktmv"]}
{"id": "C25", "title": "perm permutes and its transpose undoes it", "statement": "perm('N',x,p,n) replaces x by x[p[i]], perm('T',x,p,n) by the inverse rearrangement; p is restored; every index stays in range; both terminate.", "quantifier": "every n, every permutation p, every content", "why_tests_cant": "cycle structures are unbounded", "anchors": ["src/dprk_source.c: perm"]}
{"id": "C26", "title": "The sorting routines sort and report the permutation", "statement": "quicksort_1arg..4arg leave a in the order of the comparison, return the same multiset, and move the companion arrays and the index array p consistently; all accesses are in [lo,hi].", "quantifier": "every length, content (including duplicates) and every total preorder comparison", "why_tests_cant": "inputs unbounded; Hoare partition boundary conditions", "anchors": ["src/dprk_source.c: quicksort_1arg, partition_1arg, selectpivot_1arg, ..."]}
{"id": "C27", "title": "Interval bisection of sorted nodes", "statement": "binarysearch/indsplit split an increasing sequence at the interval midpoint: the two index ranges partition the given one and every node left (right) of the midpoint goes left (right).", "quantifier": "every sorted sequence and sub-range", "why_tests_cant": "off-by-one at every possible position", "anchors": ["src/hierarchical_source.c: binarysearch, indsplit"]}
{"id": "C28", "title": "Low-rank and dense leaves multiply correctly", "statement": "gemv/demv/lrmv with 'N' and 'T' compute y <- beta*y + alpha*op(A)*x for the matrix the leaf represents.", "quantifier": "every size, rank, scalar and content", "why_tests_cant": "unbounded loops", "anchors": ["src/hierarchical_source.c: gemv, demv, lrmv, gemm, lrmm"]}
{"id": "C29", "title": "Hierarchical matrix products equal the dense product of the matrix they represent", "statement": "ghmv('N'/'T') equals the product with the dense matrix obtained by flattening the tree; scaling rows/columns of the tree scales the flattened matrix.", "quantifier": "every tree shape, depth and block sizes, every x, y, alpha, beta", "why_tests_cant": "trees are unbounded", "anchors": ["src/hierarchical_source.c: ghmv, ghmm, scale_rows_hierarchicalmatrix, scale_columns_hierarchicalmatrix, blocksize_hierarchicalmatrix"]}
{"id": "C30", "title": "Butterfly eigenvector plans: solve inverts multiply", "statement": "bfsv inverts bfmv and bfsv('T') inverts bfmv('T') for every plan tree whose leaves are invertible; the ADI variants as well.", "quantifier": "every tree depth/shape, every vector", "why_tests_cant": "recursion over unbounded trees", "anchors": ["src/banded_source.c: bfmv, bfsv, bfmv_ADI, bfsv_ADI"]}
{"id": "C31", "title": "count_intersections matches produce_intersection_indices", "statement": "The number of index pairs counted is exactly the number written, so the caller-allocated arrays never overflow, and the pairs are exactly those within the tolerance.", "quantifier": "every pair of sorted sequences and tolerance", "why_tests_cant": "two-pointer sweep over unbounded data", "anchors": ["src/banded_source.c: count_intersections, produce_intersection_indices"]}
{"id": "C32", "title": "Diagonal-plus-rank-one inversion and factorisation", "statement": "symmetric_idpr1_inv, symmetric_dpr1_inv return the inverse of I+sigma z z^T and D+sigma z z^T, symmetric_idpr1_factorize returns a square root; drmv/irmv multiply by them.", "quantifier": "every n, D, z, sigma with non-singular result", "why_tests_cant": "algebraic identity over unbounded n", "anchors": ["src/dprk_source.c: symmetric_idpr1_factorize, symmetric_idpr1_inv, symmetric_dpr1_inv, drmv, irmv"]}
{"id": "C33", "title": "Divide and conquer solves symmetric-definite tridiagonal pencils", "statement": "For tridiagonal T, S with no positive off-diagonal entry, tearing gives T = diag(T1, T2) + rho y y^T (and the same for S), sdtdc_eig returns V, Lambda with T V = S V Lambda and V^T S V = I when the leaf eigensolver and the rank-one root finder are exact, and the products tdmv/tfmv apply that V or its transpose, any number of times. The library's own spherical-harmonic pencils meet the hypotheses. (Refuted: with a positive torn entry the tearing identity fails; tearing a definite S can give an indefinite block.)", "quantifier": "every n, block size, scalar, and every tridiagonal pencil with non-positive off-diagonals", "why_tests_cant": "an identity along a recursion of unbounded depth over all real pencils", "anchors": ["src/tdc_source.c: sdtdc_eig, sdtdc_eig_FMM, tdmv, tfmv", "src/tridiagonal_source.c: create_A_shtsdtev, create_B_shtsdtev, create_R_shtsdtev"]}
{"id": "C34", "title": "Chebyshev normalisation factors of the 2D/3D drivers cancel", "statement": "The row/column scalings done by sph2fourier/tri2cheb/disk2cxf/tet2cheb are undone by the reverse transforms, entry by entry.", "quantifier": "every array size", "why_tests_cant": "index sets depend on parity and size", "anchors": ["src/drivers.c: chebyshev_normalization_2d, chebyshev_normalization_2d_t, chebyshev_normalization_3d, ..."]}
{"id": "C35", "title": "Every column (row, line) is multiplied by the table of its class, exactly once", "statement": "The column groups of stride 2 or 4 handed to the triangular multiplies in sph2fourier/disk2cxf/rectdisk2cheb/ann2cxf/spinsph2fourier partition the M columns and each group gets the table for its parity class; tri2cheb/rectdisk2cheb/tet2cheb multiply each further dimension by its own table, and nothing else is changed. (Refuted for the third dimension of the tetrahedron: the transposed table is applied, and lines of length N are used where the array has M.)", "quantifier": "every N, L, M, table and array", "why_tests_cant": "residues mod 4", "anchors": ["src/drivers.c: ft_execute_sph2fourier, ft_execute_fourier2sph, ft_execute_disk2cxf"]}
{"id": "C36", "title": "Forward and backward harmonic transforms are inverse", "statement": "Given plans whose connection matrices are inverse to each other, executing sph2fourier then fourier2sph (and the vector-sphere, disk, triangle, rectangularised-disk, annulus, tetrahedron and spin-weighted analogues), in either order and with either TRANS, returns the coefficients.", "quantifier": "every size and content", "why_tests_cant": "composition of all of the above", "anchors": ["src/drivers.c: ft_execute_sph2fourier, ft_execute_fourier2sph, ft_execute_tri2cheb, ft_execute_cheb2tri"]}
{"id": "C37", "title": "Column reorderings around the FFT are inverse, in bounds and put each order in its bin", "statement": "colswap/colswap_t and data_r2c/data_c2r are mutually inverse for every odd column count and stay in bounds; the column of order m goes to bin m mod M, cosine columns to real parts and sine columns to negated imaginary parts. (Refuted for even M: they run past the array or drop a column.)", "quantifier": "every N, every odd M, every content", "why_tests_cant": "boundary at M/2", "anchors": ["src/fftw.c: colswap, colswap_t, data_r2c, data_c2r"]}
{"id": "C38", "title": "Analysis inverts synthesis", "statement": "With FFTW's documented unnormalised transforms, ft_execute_*_analysis after ft_execute_*_synthesis is the identity and conversely, for the sphere, vector sphere, disk, annulus, rectangularised disk, triangle, tetrahedron and spin-weighted sphere. (Refuted for an even number of columns on the sphere.)", "quantifier": "every size (odd column count where the geometry is periodic), every coefficient array, every scratch content, every FFT meeting the contract", "why_tests_cant": "all parity classes of scalings", "anchors": ["src/fftw.c: ft_execute_tri_synthesis, ft_execute_tri_analysis, ft_execute_sph_synthesis, ft_execute_sph_analysis, ft_execute_annulus_synthesis, ft_execute_spinsph_synthesis"]}
{"id": "C39", "title": "Synthesis evaluates the series on the grid", "statement": "ft_execute_*_synthesis returns the values at the documented tensor grid of the bivariate (trivariate) Fourier/Chebyshev series with the given coefficients. (Refuted for triangles with N<>M, for one-row triangles and for non-cubic tetrahedra: the FFT is planned with the dimensions exchanged, or skipped.)", "quantifier": "every size, coefficients, every FFT meeting the contract", "why_tests_cant": "needs the rectangular case", "anchors": ["src/fftw.c: ft_plan_tri_with_kind, ft_execute_tri_synthesis, ft_execute_sph_synthesis, ft_execute_disk_synthesis, ft_execute_tet_synthesis"]}
{"id": "C40", "title": "ZYZR factorisation of an orthogonal matrix", "statement": "ft_create_ZYZR(Q) followed by ft_apply_ZYZR reproduces Q x for every rotation Q, and for every improper orthogonal Q with Q[2] != 0, or with Q[6] = Q[7] = 0 and Q[4] != 0. (It reproduces no other improper Q: every reflection in a plane through the x axis other than a coordinate plane comes back as something else.) ft_apply_reflection multiplies by the Householder reflection.", "quantifier": "every 3x3 orthogonal matrix, every reflection vector", "why_tests_cant": "a test tries a few matrices; the failing set has measure zero", "anchors": ["src/isometries.c: ft_create_ZYZR, ft_apply_ZYZR, ft_apply_reflection, ft_execute_sph_reflection"]}
{"id": "C41", "title": "Plane rotations and reflections of spherical-harmonic coefficients act as a group", "statement": "Polar rotations turn the function by the angle, compose by adding angles, are undone by the opposite angle, preserve the norm; the polar reflection and the yz exchange are involutions; every isometry acts on each degree separately, preserves the norm of each degree, and a rotation is undone by the opposite angles in reverse order. (The yz exchange with one coefficient leaves the array.)", "quantifier": "every n, angle, content", "why_tests_cant": "holds for all sizes, angles and coefficients", "anchors": ["src/isometries.c: ft_execute_sph_polar_rotation, ft_execute_sph_polar_reflection, ft_execute_sph_yz_axis_exchange, ft_execute_sph_isometry"]}
{"id": "C42", "title": "Operators of classical families are consistent with their recurrences", "statement": "The multiplication, raising, lowering and derivative operators created for Jacobi, Laguerre and Hermite families satisfy the polynomial identities they stand for, for polynomials defined by the library's own three-term recurrences.", "quantifier": "every degree and parameter", "why_tests_cant": "identities in unbounded degree", "anchors": ["src/banded_source.c: rec_A_jacobi..., create_jacobi_multiplication, create_laguerre_raising, create_hermite_derivative, ..."]}
{"id": "C43", "title": "Upper-triangular eigenvectors are eigenvectors", "statement": "triangular_banded_eigenvectors returns V with A V = B V Lambda when the eigenvalues are separated; V keeps the given diagonal.", "quantifier": "every n, bandwidths, A, B", "why_tests_cant": "backward recurrence of unbounded length", "anchors": ["src/banded_source.c: triangular_banded_eigenvalues, triangular_banded_eigenvectors"]}
{"id": "C44", "title": "Modified-weight plans: solve inverts multiply and matrices act column-wise", "statement": "mpsv inverts mpmv for each of the polynomial and rational modification plans.", "quantifier": "every n, bandwidth, content", "why_tests_cant": "composition of triangular banded and QR factors", "anchors": ["src/banded_source.c: mpmv, mpsv, mpmm, mpsm"]}
{"id": "C45", "title": "2x2-block triangular matrices: products, solves, eigenvectors and plans", "statement": "Assembling four blocks interleaves them; conversion keeps the upper triangle; banded and dense block multiply and solve (plain and transposed, single and many columns) are products with the matrix and inverse to each other; the eigenvalues are the ordered roots of the 2x2 pencils and A V = B V Lambda; eigenvector plans multiply by the rotated eigenvector matrix, solve with it, and act on every second row and column of it.", "quantifier": "every n, bandwidth, content, thread number", "why_tests_cant": "2x2 coupling at every row", "anchors": ["src/blockbanded_source.c: create_block_2x2_triangular_banded, convert_block_2x2_triangular_banded_to_triangular_banded, btbmv, btbsv, block_2x2_triangular_banded_eigenvalues, block_2x2_triangular_banded_eigenvectors, btrmv, btrsv, btrmm, btrsm, bbfmv, bbfsv, bbfmm, bbfsm, bbbfmv, bbbfsv, bbbfmm"]}
{"id": "C46", "title": "Plans are released exactly once", "statement": "Creating a plan with any of the public planners and passing it to its destructor frees every block that the planner allocated and kept, exactly once, reads no freed block, and leaves no other block behind; any interleaving of creations and destructions of plans is safe and, once all plans are destroyed, leaves the heap as it was. (False for three planners: the isometry plan leaks its array of pointers, tb_eig_ADI leaks at least two arrays once it splits, and the associated Hermite planners leak a banded matrix; each leak is proved.)", "quantifier": "every plan kind, size and parameter, every history of creations and destructions, every outcome of the floating-point decisions that determine allocation sizes and tree shapes", "why_tests_cant": "allocation depends on sizes, on data (eigenvalues that coincide, splittings of point sets) and on the history of other plans", "anchors": ["src/drivers.c, src/isometries.c, src/rotations.c, src/fftw.c, src/helmholtzhodge.c, src/transforms.c, src/transforms_source.c, src/banded_source.c, src/blockbanded_source.c, src/tdc_source.c, src/dprk_source.c, src/hierarchical_source.c: ft_plan_*, ft_destroy_*"]}
{"id": "C47", "title": "Index arithmetic does not overflow int", "statement": "ft_plan_rotsphere evaluates all its int expressions in range iff n <= 23169, ft_plan_rotdisk iff n <= 32768, ft_plan_rottriangle, ft_plan_rotrectdisk and the dense connection planners iff n <= 46340, ft_plan_rotspinsphere iff n <= 23169 and |s| n^2 < 2^31, ft_plan_sph_gradient iff n <= 23170, ft_plan_sph_helmholtzhodge iff n <= 23169 (banded QR factorization not included). The scalar drivers stay in range for arrays of fewer than 2^31 entries, and the spherical ones overflow beyond. The permutations stay in range if also L^2 N < 2^31; the Chebyshev normalizations iff the array has at most 2^31 entries; gradient, curl, Helmholtz-Hodge decomposition, polar rotation and polar reflection of spherical coefficients (M odd) stay in range for arrays of fewer than 2^31 entries.", "quantifier": "every n, N, M, L, spin, thread", "why_tests_cant": "sizes too large to allocate in a test", "anchors": ["src/rotations.c: ft_plan_rotsphere, ft_plan_rottriangle, ft_plan_rotdisk, ft_plan_rotrectdisk, ft_plan_rotspinsphere; src/rotations/rotations_default.c; src/drivers.c; src/permute.c; src/transforms.c; src/fftw.c: ft_plan_sph_with_kind; src/helmholtzhodge.c; src/isometries.c: ft_execute_sph_polar_rotation, ft_execute_sph_polar_reflection"]}
{"id": "C48", "title": "Operator Clenshaw evaluates the matrix polynomial", "statement": "operator_orthogonal_polynomial_clenshaw returns sum_k c_k p_k(X) for the banded operator X.", "quantifier": "every n, degree, recurrence coefficients", "why_tests_cant": "matrix recurrence of unbounded length", "anchors": ["src/banded_source.c: operator_orthogonal_polynomial_clenshaw"]}
{"id": "C49", "title": "Eigenfunction evaluation by downward recurrence is normalised and guard-independent", "statement": "ft_eigen_eval(n,c,incc,A,B,C,m,x,sign,f) sets f[j] to the expansion sum_k c[k*incc] v_k, where v is the solution of the downward three-term recurrence v_{n-1}=1, v_{k-1}=A_k((x+B_k)v_k+C_k v_{k+1}), scaled to unit 2-norm and sign*v_0 >= 0; the result does not depend on when the overflow guard rescales, nor on the vector width.", "quantifier": "every n, m, incc, sign, recurrence coefficients, points and guard threshold", "why_tests_cant": "the rescaling decision depends on data of all lanes of a block, at any step", "anchors": ["src/recurrence.c: ft_eigen_eval", "src/recurrence/recurrence.h: EIGEN_EVAL_KERNEL", "src/recurrence/recurrence_default.c: eigen_eval_default"]}
{"id": "C50", "title": "TRANS='T' is the transpose of TRANS='N' and every harmonic transform is linear", "statement": "For each of the sixteen ft_execute_*2fourier/2cheb/2cxf and reverse routines, the map computed with TRANS='T' is the adjoint of the one computed with TRANS='N' for the Euclidean inner product of coefficient arrays, and both are linear.", "quantifier": "every size, table, pair of arrays and scalar", "why_tests_cant": "an identity between all pairs of inputs; a transposed table in one of six or eight steps is invisible to round-trip tests", "anchors": ["src/drivers.c: ft_execute_sph2fourier, ft_execute_fourier2sph, ft_execute_tri2cheb, ft_execute_cheb2tri, ft_execute_rectdisk2cheb, ft_execute_ann2cxf, ft_execute_tet2cheb, ft_execute_spinsph2fourier, ..."]}
{"id": "C51", "title": "TRANS makes synthesis and analysis the adjoint operators", "statement": "ft_execute_*_synthesis with TRANS='T' (or 'C') and the plan of the opposite direction is the adjoint of synthesis with 'N', and the same for analysis: the inner products <S x, y> and <x, S' y> agree. (Refuted for triangles with N<>M.)", "quantifier": "every size, every pair of arrays, every FFT meeting the contract", "why_tests_cant": "bilinear identity over all arrays", "anchors": ["src/fftw.c: ft_execute_sph_synthesis, ft_execute_sph_analysis, ft_execute_disk_synthesis, ft_execute_annulus_synthesis, ft_execute_spinsph_synthesis, ft_execute_tri_synthesis, ft_execute_tet_synthesis"]}
{"id": "C52", "title": "Secular functions, their derivatives and their roots", "statement": "secular / generalized_secular return the value of the secular function of D+rho z z^T / of the pencil with I+sigma z z^T at lambdahi+lambdalo, and the _derivative functions its derivative there; with rho>0 the function has exactly one root in each gap. (The second derivative omits the last term: refuted.)", "quantifier": "every n, D, z, rho, sigma and evaluation point off the poles", "why_tests_cant": "identities over sums of unbounded length", "anchors": ["src/dprk_source.c: secular, generalized_secular, secular_derivative, generalized_secular_derivative, secular_second_derivative"]}
{"id": "C53", "title": "Rank-one eigenvectors are orthonormal eigenvectors", "statement": "symmetric_dpr1_eigvecs and its definite and hierarchical versions return, for roots of the secular function, columns with A V = B V Lambda and V^T B V = I; the synthesize functions replace z so that given interlacing numbers become exact roots.", "quantifier": "every n, m, D, z, rho, sigma", "why_tests_cant": "Cauchy-matrix identities in unbounded dimension", "anchors": ["src/dprk_source.c: symmetric_dpr1_eigvecs, symmetric_definite_dpr1_eigvecs, symmetric_dpr1_eigvecs_FMM, symmetric_definite_dpr1_eigvecs_FMM, symmetric_dpr1_synthesize, symmetric_definite_dpr1_synthesize"]}
{"id": "C54", "title": "Rank-one eigensolvers return a complete sorted eigensystem", "statement": "symmetric_dpr1_eig, symmetric_definite_dpr1_eig and their FMM versions return all eigenvalues in nondecreasing order and an eigenvector matrix V with A V = B V Lambda, V^T B V = I, for every order of D, zeros in z and repeated diagonal entries where z vanishes. (Refuted for symmetric_dpr1_eig when some lambdalo is at most sqrt(floatmin).)", "quantifier": "every n, D, z, rho, sigma >= 0, deflation pattern", "why_tests_cant": "deflation and three sorts compose permutations of unbounded size", "anchors": ["src/dprk_source.c: symmetric_dpr1_eig, symmetric_dpr1_eig_FMM, symmetric_definite_dpr1_eig, symmetric_definite_dpr1_eig_FMM, symmetric_dpr1_deflate, symmetric_dpr1_deflate2"]}
{"id": "C55", "title": "Applying rank-one eigenvectors", "statement": "dvmv and dfmv compute y <- alpha op(V) x + beta y with the permuted, deflated eigenvector matrix and leave x and the permutations unchanged.", "quantifier": "every size, deflation counts, permutations, content", "why_tests_cant": "composition of two permutations and a partitioned matrix", "anchors": ["src/dprk_source.c: dvmv, dfmv"]}
{"id": "C56", "title": "Diagonal connection coefficients", "statement": "For two families of Jacobi, Laguerre, ultraspherical, or Legendre and Chebyshev polynomials (orthonormal or not) there is exactly one upper-triangular matrix U with P_j = sum_i U_ij Q_i; the create_*_diagonal_connection_coefficient functions write U_ii to D[i*INCD], i<n, and nothing else.", "quantifier": "every n, stride, pair of parameters, pair of normalisations and previous content of D", "why_tests_cant": "identities between polynomials of every degree and with real parameters", "anchors": ["src/banded_source.c: create_legendre_to_chebyshev_diagonal_connection_coefficient, create_chebyshev_to_legendre_diagonal_connection_coefficient, create_ultraspherical_to_ultraspherical_diagonal_connection_coefficient, create_jacobi_to_jacobi_diagonal_connection_coefficient, create_laguerre_to_laguerre_diagonal_connection_coefficient"]}
{"id": "C57", "title": "Connection coefficients are eigenvectors of banded pencils", "statement": "The triangular banded matrices built by create_A_* and create_B_* for a pair of classical families satisfy A U = B U Lambda, where U is the matrix of connection coefficients and Lambda the eigenvalues of the source family's differential operator; B is invertible.", "quantifier": "every n, pair of parameters, pair of normalisations", "why_tests_cant": "identities between polynomials of every degree and with real parameters", "anchors": ["src/banded_source.c: create_A_legendre_to_chebyshev, create_B_legendre_to_chebyshev, create_A_chebyshev_to_legendre, create_B_chebyshev_to_legendre, create_A_ultraspherical_to_ultraspherical, create_B_ultraspherical_to_ultraspherical, create_A_jacobi_to_jacobi, create_B_jacobi_to_jacobi, create_A_laguerre_to_laguerre, create_B_laguerre_to_laguerre"]}
{"id": "C58", "title": "Planning an eigenvector transform yields the eigenvectors", "statement": "tb_eig_FMM and tb_eig_ADI, given an upper-triangular banded pencil (A,B) with distinct eigenvalues and a diagonal D, return a plan whose multiply and solve apply the unique upper-triangular V with A V = B V Lambda and diag(V)=D; drop_precision_tb_eigen_FMM returns a plan of the same matrix. (Refuted when B is stored with a larger bandwidth than A, and when the bandwidth exceeds half the order of a split block.)", "quantifier": "every order, bandwidth up to half the block size, pencil, diagonal, offset, thread, tolerance up to 1", "why_tests_cant": "recursion of unbounded depth whose correctness rests on an algebraic identity between the halves", "anchors": ["src/banded_source.c: tb_eig_FMM, tb_eig_ADI; src/drop_precision.c: drop_precision_tb_eigen_FMM, drop_precision_sparse"]}
{"id": "C59", "title": "Connection transforms convert expansions between classical bases", "statement": "A plan made by ft_plan_legendre_to_chebyshev, chebyshev_to_legendre, ultraspherical_to_ultraspherical, jacobi_to_jacobi, laguerre_to_laguerre, jacobi_to_ultraspherical, ultraspherical_to_jacobi, jacobi_to_chebyshev, chebyshev_to_jacobi, ultraspherical_to_chebyshev or chebyshev_to_ultraspherical turns (ft_bfmv) the first n coefficients of a polynomial in the source basis into those in the target basis, ft_bfsv turns them back, and nothing else changes. (Refuted for orthonormal ultraspherical polynomials with -1/2<lambda<0 in the planners that go through Jacobi polynomials.)", "quantifier": "every n, parameters in the classical ranges, normalisation flags, thread, coefficient vector, offset", "why_tests_cant": "equality of polynomials of unbounded degree, for real parameters", "anchors": ["src/transforms_source.c: plan_legendre_to_chebyshev, plan_chebyshev_to_legendre, plan_ultraspherical_to_ultraspherical, plan_jacobi_to_jacobi, plan_laguerre_to_laguerre, plan_jacobi_to_ultraspherical, plan_ultraspherical_to_jacobi, plan_jacobi_to_chebyshev, plan_chebyshev_to_jacobi, plan_ultraspherical_to_chebyshev, plan_chebyshev_to_ultraspherical"]}
{"id": "C60", "title": "Isometries of spherical-harmonic coefficients are isometries of the function", "statement": "After ft_execute_sph_rotation, ft_execute_sph_orthogonal_transformation, ft_execute_sph_reflection or the yz exchange, the function with the new coefficients at the point T v equals the function with the old coefficients at v, for every point v of the sphere, where T is the documented matrix. (For the improper matrices that C40 does not factor, already a function of degree one is moved elsewhere.)", "quantifier": "every bandlimit, coefficient array, point of the sphere, Euler angles, orthogonal matrix, reflection vector", "why_tests_cant": "an identity of functions at all points for all matrices; tests compare a few values", "anchors": ["src/isometries.c: ft_plan_sph_isometry, ft_execute_sph_isometry, ft_execute_sph_yz_axis_exchange, ft_execute_sph_rotation, ft_execute_sph_orthogonal_transformation, ft_execute_sph_reflection"]}
{"id": "C61", "title": "Spherical gradient and curl differentiate the function", "statement": "ft_execute_sph_gradient and ft_execute_sph_curl, given the spherical-harmonic coefficients of u, return the vector coefficients (the format of sphv2fourier) whose components are du/dtheta, (1/sin theta) du/dphi, respectively -(1/sin theta) du/dphi, du/dtheta, at every point of the sphere, poles included, whatever the output arrays held.", "quantifier": "every bandlimit N >= 1, every number of orders up to N, coefficient array, previous content of the outputs, point of the sphere", "why_tests_cant": "an identity of functions at all points; each coefficient is the solution of a banded triangular system whose size grows with N", "anchors": ["src/helmholtzhodge.c: ft_plan_sph_gradient, ft_execute_sph_gradient, ft_execute_sph_curl, sph_theta_derivative, sph_sine_multiplication"]}
{"id": "C62", "title": "Helmholtz-Hodge decomposition recovers the potentials", "statement": "ft_execute_sph_helmholtzhodge applied to the coefficients of grad u1 + e_r x grad u2 returns exactly the coefficients of u1 and u2 (for potentials of mean zero), whatever the workspace and the output arrays held. (With as many orders as degrees the call reads before its workspace: proved.)", "quantifier": "every bandlimit, number of orders below it, pair of potentials, content of the workspace", "why_tests_cant": "a least-squares problem per order whose solvability needs full rank at every size", "anchors": ["src/helmholtzhodge.c: ft_plan_sph_helmholtzhodge, ft_execute_sph_helmholtzhodge, sph_helmholtz_hodge_conversion, sph_hh_readin1, sph_hh_readin2, sph_hh_writeout1, sph_hh_writeout2"]}
{"id": "C63", "title": "Conversion of orders on the sphere preserves the function", "statement": "The high-to-low rotations of a plan made by ft_plan_rotsphere turn a column of coefficients of orthonormal associated Legendre functions of order m2 into the coefficients of the same function of the polar angle in those of order m1 (same parity); ft_execute_sph_hi2lo does this for every column, ending at order 0 or 1.", "quantifier": "every bandlimit, pair of orders of the same parity, stride, position in a larger array, number of orders, coefficient array, polar angle", "why_tests_cant": "an equality of functions at all angles for every bandlimit and order; the rotations are products of unboundedly many Givens matrices", "anchors": ["src/rotations.c: ft_plan_rotsphere, ft_kernel_sph_hi2lo", "src/drivers.c: ft_execute_sph_hi2lo"]}
{"id": "C64", "title": "Spherical-harmonic transform evaluates the function on the grid", "statement": "With a plan of ft_plan_sph2fourier, ft_execute_sph2fourier turns spherical-harmonic coefficients into the bivariate Fourier coefficients of the same function on the sphere; ft_execute_sph_synthesis then returns its values at theta_k = pi(k+1/2)/N, phi_j = 2 pi j/M; ft_execute_sph_analysis followed by ft_execute_fourier2sph returns the original coefficients.", "quantifier": "every bandlimit N, odd M, coefficient array of degree below N, point of the sphere; every BLAS, FFTW and gamma function meeting their contracts", "why_tests_cant": "an equality of functions at all points and sizes, through planner, rotations, triangular products and FFT", "anchors": ["src/drivers.c: ft_plan_sph2fourier, ft_execute_sph2fourier, ft_execute_fourier2sph", "src/fftw.c: ft_execute_sph_synthesis, ft_execute_sph_analysis", "src/transforms.c: plan_legendre_to_chebyshev, plan_chebyshev_to_legendre, plan_ultraspherical_to_ultraspherical"]}
{"id": "C65", "title": "Dense planners return the connection matrix", "statement": "plan_legendre_to_chebyshev, chebyshev_to_legendre, ultraspherical_to_ultraspherical, jacobi_to_jacobi, laguerre_to_laguerre, jacobi_to_ultraspherical, ultraspherical_to_jacobi, jacobi_to_chebyshev, chebyshev_to_jacobi, ultraspherical_to_chebyshev, chebyshev_to_ultraspherical (dense versions) return the n by n upper-triangular array V, by columns, with P_j = sum_i V[i+j*n] Q_i.", "quantifier": "every n, parameters in the classical ranges, normalisation flags", "why_tests_cant": "identities between polynomials of every degree, for real parameters", "anchors": ["src/transforms.c: plan_legendre_to_chebyshev, plan_chebyshev_to_legendre, plan_ultraspherical_to_ultraspherical, plan_jacobi_to_jacobi, plan_laguerre_to_laguerre, plan_jacobi_to_ultraspherical, plan_ultraspherical_to_jacobi, plan_jacobi_to_chebyshev, plan_chebyshev_to_jacobi, plan_ultraspherical_to_chebyshev, plan_chebyshev_to_ultraspherical"]}
{"id": "C66", "title": "Conversion of orders on the triangle and the disk preserves the function", "statement": "The high-to-low kernels of the triangle and the disk rewrite the coefficients of an expansion of order m2 as coefficients, of order m1, of the same function of x (or of the radius), change nothing outside the column, and the drivers do so with every column of the array: order 0 on the triangle, order 0 or 1 (of the same parity) on the disk.", "quantifier": "every n, parameters greater than -1, orders, strides, columns, coefficients and points", "why_tests_cant": "identities between Jacobi polynomials of all degrees with real parameters, composed over the sequence of rotations", "anchors": ["src/rotations.c: ft_plan_rottriangle, ft_plan_rotdisk, ft_kernel_tri_hi2lo, ft_kernel_disk_hi2lo; src/drivers.c: ft_execute_tri_hi2lo, ft_execute_disk_hi2lo"]}
{"id": "C67", "title": "Triangle and disk transforms evaluate the polynomial on the grid", "statement": "With the plans of ft_plan_tri2cheb and ft_plan_disk2cxf, the conversion maps coefficients in the orthonormal bases (Jacobi products on the triangle, Zernike polynomials on the disk) to coefficients of the same function in products of Chebyshev polynomials, or in Chebyshev--Fourier series; synthesis then gives its values at every grid point; analysis and the inverse conversion return the coefficients.", "quantifier": "every N, M, parameters greater than -1 and coefficients", "why_tests_cant": "identities between polynomials of every degree at real points, composed over planner, rotations, triangular products and FFTs", "anchors": ["src/drivers.c: ft_plan_tri2cheb, ft_execute_tri2cheb, ft_execute_cheb2tri, ft_plan_disk2cxf, ft_execute_disk2cxf, ft_execute_cxf2disk; src/fftw.c: ft_execute_tri_synthesis, ft_execute_tri_analysis, ft_execute_disk_synthesis, ft_execute_disk_analysis"]}
{"id": "C68", "title": "Vector transforms on the sphere evaluate the field, and gradients and curls, on the grid", "statement": "ft_execute_sphv2fourier maps the coefficients of a component of a vector field to the Fourier coefficients of the same function, ft_execute_sphv_synthesis gives its values at every grid point, and analysis and ft_execute_fourier2sphv return the coefficients. Applied to the output of ft_execute_sph_gradient or ft_execute_sph_curl (into cleared arrays) the values are the partial derivatives of the scalar function at the grid points.", "quantifier": "every N, every odd M with M/2 <= N, all coefficients of degree less than N", "why_tests_cant": "identities between derivatives of functions of every degree at real points, composed over two planners, banded solves, rotations, triangular products and FFTs", "anchors": ["src/drivers.c: ft_plan_sph2fourier, ft_execute_sphv2fourier, ft_execute_fourier2sphv, execute_sphv_hi2lo_default; src/fftw.c: ft_execute_sphv_synthesis, ft_execute_sphv_analysis; src/helmholtzhodge.c: ft_plan_sph_gradient, ft_execute_sph_gradient, ft_execute_sph_curl"]}
{"id": "C69", "title": "The Helmholtz-Hodge decomposition recovers the potentials from values on the grid", "statement": "From the values at the grid points of the tangential field grad u1 + e_r x grad u2, ft_execute_sphv_analysis, ft_execute_fourier2sphv and ft_execute_sph_helmholtzhodge return the spherical-harmonic coefficients of u1 and u2 (both of mean zero).", "quantifier": "every N, every odd M with M/2 <= N-1, all potentials of degree less than N, any contents of the output arrays and workspaces", "why_tests_cant": "the values are derivatives of functions of every degree at real points; the computation composes FFTs, triangular products, rotations, banded QR and banded products", "anchors": ["src/fftw.c: ft_execute_sphv_analysis; src/drivers.c: ft_plan_sph2fourier, ft_execute_fourier2sphv; src/helmholtzhodge.c: ft_plan_sph_helmholtzhodge, ft_execute_sph_helmholtzhodge"]}
{"id": "C70", "title": "Rectangularised disk transforms evaluate the polynomial on the grid", "statement": "With the plan of ft_plan_rectdisk2cheb, ft_execute_rectdisk2cheb maps coefficients in the orthonormal products of ultraspherical polynomials (1-x^2)^(m/2) C_l^(m+beta+1)(x) C_m^(beta+1/2)(y/sqrt(1-x^2)) to coefficients of the same function on the disk in products of Chebyshev polynomials; ft_execute_rectdisk_synthesis then gives its values at every grid point (cos theta_k, sin theta_k cos theta_j); analysis and ft_execute_cheb2rectdisk return the coefficients.", "quantifier": "every N, every M <= N, every beta > -1/2 (beta > -1 for the rotations), all coefficients of degree less than N, all points of the disk", "why_tests_cant": "identities between ultraspherical polynomials of every degree with real parameters, composed over planner, rotations, triangular products in both directions and FFTs", "anchors": ["src/drivers.c: ft_plan_rectdisk2cheb, ft_execute_rectdisk2cheb, ft_execute_cheb2rectdisk, execute_rectdisk_hi2lo_default; src/rotations.c: ft_plan_rotrectdisk, kernel_rectdisk_hi2lo_default; src/fftw.c: ft_execute_rectdisk_synthesis, ft_execute_rectdisk_analysis"]}
{"id": "C71", "title": "Tetrahedral transforms preserve the polynomial", "statement": "With the rotation plans of ft_plan_tet2cheb, ft_execute_tet_hi2lo maps coefficients in the orthonormal polynomials of the tetrahedron to coefficients of the same function in products of univariate orthonormal Jacobi polynomials of x, y/(1-x) and z/(1-x-y). For gamma = delta = -1/2, ft_execute_tet2cheb continues to coefficients of the same function in products of Chebyshev polynomials, ft_execute_tet_synthesis gives its values at every grid point of a cube N = L = M, and analysis and ft_execute_cheb2tet return the coefficients.", "quantifier": "rotations: every N, L <= N, M and every alpha, beta, gamma, delta > -1; conversion: every N = M, L <= N, every alpha, beta > -1; all coefficients of degree less than L in y and z, all points", "why_tests_cant": "identities between Jacobi polynomials of every degree with real parameters, composed over planner, two layers of rotations, triangular products in each dimension and FFTs", "anchors": ["src/drivers.c: ft_plan_tet2cheb, ft_execute_tet2cheb, ft_execute_cheb2tet, ft_execute_tet_hi2lo; src/rotations.c: ft_plan_rottriangle, ft_kernel_tet_hi2lo, kernel_tri_hi2lo_default; src/fftw.c: ft_execute_tet_synthesis, ft_execute_tet_analysis"]}
