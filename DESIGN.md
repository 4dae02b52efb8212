# Formal model of FastTransforms in Rocq (Coq 8.16.1)

## 1. Approach

* **Memory.** C arrays are Coq lists indexed by `Z` with *checked* reads and writes in
  the option monad (`Base.v`): `None` is undefined behaviour (an access outside the
  allocation).  A pointer argument `A + off` is an array together with an offset.
  Loops are structural iterations (`for_up`, `for_dn`, `for_step`), while loops carry
  explicit fuel with a proof that it suffices.  Every functional-correctness theorem has
  the form "the run is `Some r` and `r` is ...", so memory safety is included.
* **Arithmetic.** Models are polymorphic in a class `Arith F` of operations
  (`Arith.v`).  Three levels of theorem:
  1. for *any* `Arith` instance (no laws): bit-for-bit statements (data movement,
     SIMD = scalar, schedule independence).  These hold in particular for IEEE doubles;
  2. for the instance over Coq's reals `R`: algebraic statements
     (inverse, norm, evaluation).  Rounding is **not** modelled there;
  3. concrete instances (`Z`, `Q`, `R`) for examples and refutations.
* **Concurrency.** OpenMP loops are sets of per-thread sequences of atomic loads and
  stores; theorems quantify over all interleavings.
* **External libraries** (BLAS `trmm`, FFTW, libm, MPFR arithmetic) are not modelled as
  code; where a theorem needs them they are arguments constrained by hypotheses that are
  written in the theorem statement.
* **Statements.** `Spec*.v` holds the small independent vocabulary (sums, dense products,
  Chebyshev polynomials ...).  `Properties_*.v` contain only the property theorems, closed
  by `exact`, each with a non-vacuity `Example` and `Print Assumptions`.

## 2. Plan per property

| id | what is modelled | how proved |
|----|------------------|-----------|
| C01-C03 | `permute*`, as index loops over checked arrays | loop invariants, div/mod bijection |
| C04 | `warp`, `warp_t` as nested step loops of `swap_warp` | involution + reversal of a sequence |
| C05 | `SWAP_WARP_KERNEL` for every width S and unroll L | loop invariant; refuted for 16 lanes with S=8 |
| C06 | `ft_plan_rot*` formulas over R | field identities + positivity |
| C07 | packed index macros | nonlinear integer arithmetic |
| C08,C09 | `kernel_*_default` | kernels as sequences of Givens operations; induction |
| C10 | `KERNEL_{SPH,TRI,DISK}_{HI2LO,LO2HI}` macros | trace (Mazurkiewicz) equivalence of the two operation orders |
| C11,C13 | drivers | composition with C01-C05 and C08-C10 |
| C12 | parallel-for regions as interleavings of loads/stores | commutation of disjoint footprints |
| C14-C16 | recurrence kernels, scalar and SIMD | induction on degree, loop invariants |
| C17-C24 | banded, tridiagonal, dense triangular routines | loop invariants against dense sums |
| C25,C26 | `perm`, quicksort family | cycle-following invariant; Hoare partition invariant |
| C27 | `binarysearch`, `indsplit` | strong induction on range |
| C28,C29 | leaves and trees of hierarchical matrices | structural induction on trees |
| C30 | butterfly plans | structural induction on trees |
| C31 | two-pointer sweeps | joint loop invariant |
| C32,C33 | dpr1 algebra; divide and conquer: tearing, the recursion, products with the tree | sums over R; induction on the tree |
| C52-C55 | secular functions, eigenvectors, deflation, drivers of the rank-one eigensolvers | Cauchy-matrix identities, intermediate value theorem, permutation algebra |
| C34-C36 | driver scalings and strided multiplies | index partition, loop invariants |
| C37-C39 | fftw.c data movement and scaling, FFTW as hypothesis | loop invariants |
| C40,C41 | isometries over R | real algebra / trigonometry; the exchange: eigenvectors of the folded pentadiagonal matrices are Krawtchouk polynomials, which are self-dual and orthogonal |
| C42 | operators of classical families | induction on degree |
| C56 | diagonal connection coefficients | leading coefficients of the two families; existence and uniqueness by grading |
| C57 | pencils of the connection problems | differential equation of the source family written in the target family; linear independence of a graded family |
| C58 | tb_eig_FMM, tb_eig_ADI, drop_precision of a plan | induction on the recursion: the coupling block of eigenvectors solves a Sylvester equation whose right-hand side is X Y^T; uniqueness of triangular eigenvectors; sorting permutations cancel; split of the kernel at the tolerance between F0 and the sparse part |
| C59 | planners of the connection transforms | composition of C30, C56, C57 and C58; eigenvalues j(j+s) are distinct; uniqueness of triangular eigenvectors; ultraspherical and Chebyshev polynomials as multiples of Jacobi polynomials |
| C60 | the same routines as C41, against the documented spherical harmonics (SpecGeo.v) | generating functions: sums of the harmonics of one degree as powers of a null vector; the folded Krawtchouk matrices are the change of null vectors under the exchange; composition with polar rotations and reflections; every point has polar coordinates |
| C43-C45,C48 | banded eigenvectors, modified plans, block routines | loop invariants |
| C46 | allocations, frees and field reads of the planners and destructors, over a heap of live blocks (MHeap, MLife-MLife4) | a Hoare logic that counts the blocks an object owns; induction on recursive plans and on histories |
| C61 | helmholtzhodge.c: banded matrices of sin(theta) d/dtheta and of multiplication by sin(theta), planner, gradient and curl (MGrad.v) | normalised Legendre recurrences turn the matrices into identities of functions; triangular solve; at the poles by continuity |
| C62 | the conversion matrix, its QR factorisation, the interleaving loops of ft_execute_sph_helmholtzhodge (MGrad.v) | the matrix has full column rank, hence the triangular factor is nonsingular and Q^T A x = R x determines x |
| C63 | rotations.c planner and kernels (MRotations.v), driver (MDrivers.v) | each Givens rotation is an identity between associated Legendre functions of mixed order; induction on the sequence of rotations |
| C64 | planner of drivers.c 816-831 (MDense.v), triangular products (MHarmonic.v), FFT stage (MFftw.v) | C63, then the tables hold connection coefficients (C65), T_l(cos t) = cos(l t), sin t U_l(cos t) = sin((l+1)t), then C38/C39 |
| C65 | transforms.c 48-211: the eleven dense planners (MDense.v) | C56, C57 and uniqueness of a triangular eigenvector with given diagonal entry; loop invariants of the scalings |
| C66 | rotations.c planners and kernels (MRotations.v), drivers (MDrivers.v) | each Givens rotation is an identity between Jacobi polynomials with shifted parameters (DLMF 18.9.5, 18.9.6) and their norms; induction on the sequence of rotations and on the columns |
| C67 | planners of drivers.c 901-919 and 959-987 (MDense2.v), triangular products (MHarmonic.v), FFT stage (MFftw.v) | C66, then the tables hold connection coefficients (C65), P^(-1/2,1/2) as cosines of half-integer multiples, then C38/C39 |
| C68 | vector transforms of drivers.c 206-222, 867-899 (MDrivers.v, MHarmonic.v), gradient and curl (MGrad.v), FFT stage (MFftw.v) | as C64 with the orders 1, 0, 0, 1, 1, ..; then C61; a frame lemma for the entries that the gradient does not write |
| C69 | analysis (MFftw.v), fourier2sphv (MHarmonic.v), Helmholtz-Hodge decomposition (MGrad.v) | the values determine the coefficients (C68), uniqueness of derivatives, then C62 |
| C70 | rotations.c 270-288 (MRotations.v), driver (MDrivers.v), planner of drivers.c 1123-1141 (MDense3.v), triangular products (MHarmonic.v), FFT stage (MFftw.v) | each Givens rotation is an identity between ultraspherical polynomials of parameters lambda and lambda+2 and their norms; C65; the third table has zeros where row + column is odd (uniqueness of connection coefficients), so it commutes with the change of basis in x; C38/C39 |
| C71 | kernels (MRotations.v), driver of drivers.c 510-518 (MDrivers.v), planner of 1173-1195 (MDense4.v), triangular products (MHarmonic.v), FFT stage (MFftw.v) | the identities of C66 applied first along x at order l+m, then along y at order m; loop invariants over the columns of a slice and over the slices; C65 for the tables; C38/C39 |
| C47 | int expressions and loops of planners, scalar kernels and drivers, permutations, normalizations, gradient, curl, Helmholtz-Hodge and polar isometries in 32-bit arithmetic (MInt.v, MInt2.v) | loop invariants; loops with a non-zero step end or overflow; nonlinear integer arithmetic |

Sections 3-6 are kept up to date as the development grows.

## 3. What is modelled

Every definition cites its C lines.  Properties and the theorems that carry them are in
`MANIFEST.json`; the statements are in `rocq/theories/Properties_*.v`.

| source | model | not modelled |
|--------|-------|--------------|
| `permute.c`, `permute/` | `MPermute.v`: all functions, the vector kernel for any lane count and step | - |
| `rotations.c`, `rotations/` | `MRotations.v`: planners, default kernels, the SIMD macros for any lane count and block, tetrahedron and spin kernels | CPU dispatch; intrinsics (lanewise meaning assumed) |
| `recurrence.c`, `recurrence/` | `MRecur.v`: Horner, Clenshaw, OP-Clenshaw, eigenfunction evaluation, scalar and macro versions | CPU dispatch |
| `drivers.c` | `MDrivers.v`: all default drivers, SIMD drivers for sphere, vector sphere, disk, triangle, Chebyshev normalisation; `MHarmonic.v`: the sixteen harmonic transforms; `MSched.v`: the OpenMP loops as interleavings; `MDense.v`, `MDense2.v`, `MDense3.v`, `MDense4.v`: the plan constructors of sphere, triangle, disk, rectangularised disk and tetrahedron with the contents of their tables | contents of the tables of the other plan constructors (they are arguments) |
| `fftw.c` | `MFftw.v`: everything; FFTW itself is a parameter with a contract | planner flags, alignment, FFTW threads |
| `banded_source.c` | `MBanded.v`, `MFactor.v`: storage, products, solves, LU, Cholesky, QR, QL, operator Clenshaw, modified plans; `MEig.v`: triangular eigenvalues and eigenvectors, nearly equal pairs; `MButter.v`: products, solves and scaling with the divide-and-conquer eigenvector plans; `MClassical.v`: recurrence coefficients, multiplication, raising, lowering and derivative operators of Jacobi, Laguerre and Hermite families, diagonal connection coefficients (1684-2198); `MConn.v`: pencils of the connection problems (2315-2478); `MEigPlan.v`: the divide-and-conquer planners tb_eig_FMM and tb_eig_ADI and the precision drop of their plans (drop_precision.c 132-191) | see MANIFEST |
| `tridiagonal_source.c` | `MTridiag.v`: Cholesky, products, solves, skew splitting; `MSht.v`: the spherical-harmonic pencils | see MANIFEST |
| `blockbanded_source.c` | `MBlock.v`: storage, products, solves, eigenvalues and eigenvectors, plans | `btb_eig_FMM`, Givens application |
| `tdc_source.c` | `MTdc.v`: tearing, the divide-and-conquer recursion, products with the tree | the leaf eigensolver (a parameter with a contract); `drop_precision` copies |
| `hierarchical_source.c` | `MHier.v`: leaves, trees, products, scaling, sampling; `MSort.v`: bisection, index splitting | Chebyshev interpolation coefficients' accuracy, norms |
| `dprk_source.c` | `MSort.v`: permutation and the quicksort family; `MDprk.v`, `MDprk2.v`: inverses, square root, products, secular functions, pick-zero updates, synthesis, eigenvectors, deflation, the four eigensolver drivers | the iteration of the root finders (a parameter of the drivers); warnings |
| `transforms_source.c` | `MTransforms.v`: the eleven planners of 1-165 | associated and modified families |
| `transforms.c` | `MDense.v`: the eleven dense planners of 48-211; the wrappers of 1-47 only choose a precision | associated and half-range Chebyshev planners |
| `isometries.c` | `MIso.v`: everything | - |
| memory of all planners and destructors | `MHeap.v`, `MLife.v`, `MLife2.v`, `MLife3.v`, `MLife4.v`: which blocks are allocated, read and freed | MPFR planners; elliptic, FMM and `test/` code |
| `transforms_mpfr.c` | dense triangular multiply/solve (same text as `trmv`/`trsv`) | MPFR rounding |
| `helmholtzhodge.c` | `MGrad.v`: everything | - |
| `fmm_source.c`, `elliptic_source.c`, `ftutilities.c`, `drop_precision.c` (other than 132-191) | - | not modelled |

## 4. Simplifications

* Numbers: over `R` there is no rounding, overflow or NaN.  Statements for every `Arith`
  instance are about the exact sequence of operations, so they hold for IEEE arithmetic,
  provided the compiler neither contracts `a*b+c` differently in the two versions compared
  nor reassociates.
* `int` is `Z` (C47 states when this is justified for the rotation and driver code).
* Pointers are arrays with offsets; two array arguments never overlap unless the model says so.
* `malloc` always succeeds; the contents of fresh blocks are arbitrary (`junk` arguments) or,
  where nothing is read before it is written, zero.
* Threads: sequentially consistent interleavings of single loads and stores.  The theorems
  show the absence of conflicting accesses, hence the absence of data races.
* `TRANS` is a boolean; the C code ignores other characters.
* SIMD instructions act lane by lane; alignment is not modelled.
* BLAS and FFTW are records of functions; the theorems hold for every implementation that
  satisfies `blas_ok` (SpecHarm.v) or `fftw_ok` (SpecFftw.v), and both contracts are shown to be
  satisfiable by reference implementations.
* `exit_failure` ends the program: `None`.

## 5. Findings

Claims that turned out false.  "(proved)" means that a `_refuted` theorem shows it in the model.

1. `swap_warp_AVX512Ff` moves 8-float steps with 16-lane registers and mixes columns (proved, C05).
2. The SIMD `lo2hi` kernels leave the array when `m2` is too large for `n` (sphere: beyond `n+2VS-4`;
   proved, C10); through the drivers `M <= 2N+1` (sphere), `2N+3` (vector sphere), `4N-3` (disk),
   `N+2S-2` (triangle) is safe.
3. All periodic drivers and the grid transforms need an odd column count; with an even one they
   leave the array or drop a column (proved, C11, C37, C38).
4. Orthogonal-polynomial Clenshaw reads `C[n]`, one entry past a length-`n` recurrence table (proved, C16).
5. `realloc_triangular_banded` to the same bandwidth returns a zero matrix (proved, C21).
6. `stmv`, `ktmv` read out of bounds for `n = 1` (proved, C24); `skew_to_symmetric` also for small `n`.
7. `quicksort` with a non-strict comparator leaves the array on equal keys (proved, C26).
8. `indsplit` does not give a strict bound when keys repeat (proved, C27).
9. `tet2cheb`/`cheb2tet`: the third dimension uses the transposed table and lines of length `N`
   instead of `M` (proved, C35); the conversion therefore does not keep the
   function for all gamma, delta (counterexample proved at gamma = -1/2, delta = 0, C71).
10. `ft_plan_tri_with_kind`/`tet` pass the dimensions to FFTW in the wrong order: for `N <> M` the
    round trip is still the identity but the grid values and the adjoint are wrong; nothing at all is
    done when a dimension is 1 (proved, C39, C51).
11. The last sine coefficient (row `N-1` of the sine columns) is synthesised with half weight, a
    consequence of FFTW's RODFT01 convention (visible in the definition of `sine` in SpecFftw.v).
12. `data_r2c` leaves the imaginary parts of the zero frequency as they were (uninitialised at first
    use); FFTW's c2r ignores them, which is part of the contract used here.
13. `chebyshev_normalization` writes out of bounds for `N = 0`.
14. `ft_create_ZYZR` loses the reflection for improper matrices with `Q[2] = 0` unless `Q[6] = Q[7] = 0`
    and `Q[4] != 0`; `ft_execute_sph_reflection` with `w = (0, w1, w2)`, `w1 w2 != 0` applies a rotation (proved, C40).
15. `ft_execute_sph_yz_axis_exchange` with `n = 1` accesses `A[1]` of a one-element array (proved, C41).
16. `scale_columns_tb_eigen_FMM` scales X and Y but not the sparse part S, so a column-scaled plan of a
    pencil with nearly equal eigenvalues is wrong (proved, C30).
17. `secular_second_derivative` (and the generalized version) leaves out the last term (proved, C52).
18. `symmetric_dpr1_eig` and `symmetric_dpr1_eig_FMM` hand `lambda+iz` instead of `lambda+iz+id` to the
    eigenvector routine: with a tiny `lambdalo` (`id > 0`) eigenvectors belong to the wrong eigenvalues
    (proved, C54; the definite versions are right).
19. `symmetric_definite_dpr1_eigvals` with `sigma < 0` prints a message and leaves `lambda` unset.
20. `sdtdc_eig` tears with `rho = |b[s-1]|` and a fixed direction `y`; with a positive `b[s-1]` the torn pieces do
    not add up to `T` (or `S`), for every such matrix (proved, C33).
21. Tearing a positive definite `S` can give an indefinite block, on which the leaf solver's Cholesky
    factorisation takes the square root of a negative number (proved by example, C33).
22. `tb_eig_FMM` and `tb_eig_ADI` shift the columns of Y that come from A by `b1-b2` only when `b1 >= b2`: when B is
    stored with a larger bandwidth than A the plan does not hold eigenvectors (proved by example, C58).
23. `tb_eig_FMM` with a bandwidth larger than `n/2` of a split block indexes `A` and `B` at negative rows (proved by
    example, C58); with the bandwidths 1 and 2 used by the transforms this cannot happen.
24. `plan_jacobi_to_ultraspherical` and `plan_ultraspherical_to_jacobi` (and the planners that call them) with `normultra = 1` and
    `-1/2 < lambda < 0` use orthonormal polynomials with positive leading coefficients, `plan_ultraspherical_to_ultraspherical`
    the normalised `C_n^(lambda)`, whose leading coefficients are negative for n >= 1: the planners disagree (proved, C59).
25. `create_B_associated_hermite_to_hermite` does not destroy `D2`: the associated Hermite planners leak two blocks (proved, C46).
26. `tb_eig_ADI` does not free `X` and `Y` of a split (proved, C46).
27. `destroy_sph_isometry_plan` does not free the array `F->F` (proved, C46).
28. `ft_plan_rotsphere` and `ft_plan_rotspinsphere` form `(l+2*m+3)*(l+2*m+4)` in int: overflow, hence undefined coefficients, from n = 23170 on;
    `ft_plan_rotdisk` overflows in an index from n = 32769 on, the other planners of rotations and the dense planners from n = 46341 on, `ft_plan_sph_gradient` from n = 23171 on and `ft_plan_sph_helmholtzhodge` from n = 23170 on (proved, C47).
29. `ft_execute_sph_helmholtzhodge` with `M/2 >= N` (which the gradient accepts) reads `X[2*N-2*m-1] = X[-1]` for `m = N` (proved, C62).
30. `ft_execute_sph_gradient` multiplies the previous contents of `Ut` by 0 (`ft_gbmv` with `beta = 0`): harmless over R, but a NaN in an
    uninitialised output array survives. It also leaves the entries of `Ut` and `Up` outside the truncation as they are, and
    `ft_execute_sphv2fourier` reads them: the output arrays must be cleared first (proved, C68). `ft_execute_sph_helmholtzhodge` overwrites its inputs `V1` and `V2`.

## 6. Trusted base

* Coq 8.16.1's kernel (checked again by `coqchk` in the gate) and the OCaml toolchain below it.
* No axioms are declared in this development.  `Print Assumptions` is printed under every property
  theorem; `ASSUMPTIONS.md` lists the result for each.  The theorems over any arithmetic are closed
  under the global context; those over `R` use the axioms of Coq's standard library of real numbers:
  `ClassicalDedekindReals.sig_forall_dec`, `ClassicalDedekindReals.sig_not_dec`,
  `FunctionalExtensionality.functional_extensionality_dep`, and for some `Classical_Prop.classic`.
* The correspondence between the C text and the model, which is by reading, definition by definition.
