(** * Conversions of expansions on the tetrahedron (C71)

    [tet_series] is the expansion on the tetrahedron and [product_series3] an expansion in products of univariate
    polynomials (SpecConvert5.v).  The rotations are treated for all parameters, the conversion to Chebyshev
    polynomials for gamma = delta = -1/2: for other parameters the third dimension is multiplied by the transposed
    table and the function is not kept. *)
From Coq Require Import ZArith List Reals.
From Verif Require Import Base Arith SpecSum SpecLin MRotations SpecRot MDrivers MHarmonic SpecHarm MRefBlas PRefFftw SpecConn SpecClassical SpecTransforms MFftw SpecFftw
  SpecConvert SpecConvert2 SpecConvert5 MTransforms MDense MDense4 PConv16 PConv25 PConv26.
Import ListNotations.
Open Scope Z_scope.

(** the kernel: every row of an n by L slice of order m becomes one of order 0 with the same function *)
Theorem C71_kernel : forall (tg p : R -> R) (al be ga : R) (P : Z -> Z -> R -> R) (h : Z -> Z -> R),
  gamma_function tg -> power_of_two p -> (-1 < al)%R -> (-1 < be)%R -> (-1 < ga)%R -> triangle_family tg p al be ga P h ->
  forall (n : Z) (junk : R) (RP : rotplan R) (A : list R) (oA L m : Z), plan_rottriangle junk n al be ga = Some RP -> 0 <= L <= n -> 0 <= m ->
  columns_fit A oA n L n -> (forall k, 0 <= k < n -> zero_from (L - m) L A (oA + k) n) ->
  exists A', kernel_tet_hi2lo givens RP L m A oA = Some A' /\ only_columns_changed A A' oA n L n /\
    forall k x, 0 <= k < n -> column_series (tri_factor P h) L 0 A' (oA + k) n x = column_series (tri_factor P h) L m A (oA + k) n x.
Proof. exact T_C71_kernel. Qed.
Print Assumptions C71_kernel.
(** the driver: products of the polynomials of order 0 of each variable, with the same sum at every point *)
Theorem C71_driver : forall (tg p : R -> R) (al be ga de : R) (P : Z -> Z -> R -> R) (h : Z -> Z -> R) (Q : Z -> Z -> R -> R) (g : Z -> Z -> R),
  gamma_function tg -> power_of_two p -> (-1 < al)%R -> (-1 < be)%R -> (-1 < ga)%R -> (-1 < de)%R ->
  triangle_family tg p al be (ga + de + 1) P h -> triangle_family tg p be ga de Q g ->
  forall (W : Z -> R -> R) (e : Z -> R) (j1 j2 : R) (N L M : Z) (RP1 RP2 : rotplan R) (A : list R), 0 <= L <= N -> 0 <= M -> plan_rottriangle j1 N al be (ga + de + 1)%R = Some RP1 -> plan_rottriangle j2 N be ga de = Some RP2 -> tet_array N L M A ->
  exists A', execute_tet_hi2lo (kernel_tri_hi2lo givens RP1) (kernel_tet_hi2lo givens RP2) N L M A = Some A' /\ zlen A' = N * (L * M) /\
    forall x y z, product_series3 (fam true (P 0) (h 0)) (fam true (Q 0) (g 0)) (fam true W e) N L M A' x y z = tet_series P h Q g W e N L M A x y z.
Proof. exact T_C71_driver. Qed.
Print Assumptions C71_driver.
(** the planner succeeds, for all parameters *)
Theorem C71_plan : forall (tg : R -> R) (d1 d2 : list R) (jk : R) (N : Z) (al be ga de : R),
  gamma_function tg -> (tg (1/2) * tg (1/2) = PI)%R -> 0 < N -> (-1 < al)%R -> (-1 < be)%R -> (-1 < ga)%R -> (-1 < de)%R -> N <= zlen d1 -> N <= zlen d2 ->
  exists RP0 RP1 P0 P1 P2 Q0 Q1 Q2, plan_tet2cheb_tables 0%R (fun x => x) tg (Rpower 2) d1 d2 jk N al be ga de = Some (RP0, RP1, (P0, P1, P2), (Q0, Q1, Q2)).
Proof. exact T_C71_plan. Qed.
Print Assumptions C71_plan.
(** the conversion keeps the function, and the inverse conversion recovers the coefficients *)
Theorem C71_conversion : forall (BL : blas R) (tg : R -> R) (d1 d2 : list R) (jk : R) (N L : Z) (al be : R),
  blas_ok BL -> gamma_function tg -> (tg (1/2) * tg (1/2) = PI)%R -> 0 < L <= N -> (-1 < al)%R -> (-1 < be)%R -> N <= zlen d1 -> N <= zlen d2 ->
  forall (P : Z -> Z -> R -> R) (h : Z -> Z -> R) (Q : Z -> Z -> R -> R) (g : Z -> Z -> R) (W : Z -> R -> R) (e : Z -> R) (T : Z -> R -> R),
  triangle_family tg (Rpower 2) al be (-1/2 + -1/2 + 1) P h -> triangle_family tg (Rpower 2) be (-1/2) (-1/2) Q g -> jacobi_family tg (Rpower 2) (-1/2) (-1/2) W e -> is_chebyshev T ->
  forall (RP0 RP1 : rotplan R) (P0 P1 P2 Q0 Q1 Q2 : list R), plan_tet2cheb_tables 0%R (fun x => x) tg (Rpower 2) d1 d2 jk N al be (-1/2)%R (-1/2)%R = Some (RP0, RP1, (P0, P1, P2), (Q0, Q1, Q2)) ->
  let hi := execute_tet_hi2lo (kernel_tri_hi2lo givens RP0) (kernel_tet_hi2lo givens RP1) N L N in
  let lo := execute_tet_lo2hi (kernel_tri_lo2hi givens_t RP0) (kernel_tet_lo2hi givens_t RP1) N L N in
  let c0 := tet_flag0 al be (-1/2)%R (-1/2)%R in let c1 := tet_flag1 be (-1/2)%R (-1/2)%R in let c2 := tet_flag2 (-1/2)%R (-1/2)%R in
  forall A, tet_array N L N A -> exists A',
    tet2cheb BL hi lo (chebyshev_normalization_3d (/ sqrt 2)%R (2 / PI * sqrt (2 / PI))%R N L N) c0 c1 c2 P0 P1 P2 false N L N A = Some A' /\
    (forall x y z, product_series3 T T T N L N A' x y z = tet_series P h Q g W e N L N A x y z) /\
    cheb2tet BL hi lo (chebyshev_normalization_3d (sqrt 2) (PI / 2 * sqrt (PI / 2))%R N L N) c0 c1 c2 Q0 Q1 Q2 false N L N A' = Some A.
Proof. exact T_C71_conversion. Qed.
Print Assumptions C71_conversion.
(** followed by synthesis it gives the values on the grid; analysis and the inverse conversion undo it *)
Theorem C71_values : forall (BL : blas R) (tg : R -> R) (d1 d2 : list R) (jk : R) (N : Z) (al be : R),
  blas_ok BL -> gamma_function tg -> (tg (1/2) * tg (1/2) = PI)%R -> 0 < N -> (-1 < al)%R -> (-1 < be)%R -> N <= zlen d1 -> N <= zlen d2 ->
  forall (P : Z -> Z -> R -> R) (h : Z -> Z -> R) (Q : Z -> Z -> R -> R) (g : Z -> Z -> R) (W : Z -> R -> R) (e : Z -> R),
  triangle_family tg (Rpower 2) al be (-1/2 + -1/2 + 1) P h -> triangle_family tg (Rpower 2) be (-1/2) (-1/2) Q g -> jacobi_family tg (Rpower 2) (-1/2) (-1/2) W e -> forall FT : fftw R, fftw_ok FT ->
  forall (RP0 RP1 : rotplan R) (P0 P1 P2 Q0 Q1 Q2 : list R), plan_tet2cheb_tables 0%R (fun x => x) tg (Rpower 2) d1 d2 jk N al be (-1/2)%R (-1/2)%R = Some (RP0, RP1, (P0, P1, P2), (Q0, Q1, Q2)) ->
  let hi := execute_tet_hi2lo (kernel_tri_hi2lo givens RP0) (kernel_tet_hi2lo givens RP1) N N N in
  let lo := execute_tet_lo2hi (kernel_tri_lo2hi givens_t RP0) (kernel_tet_lo2hi givens_t RP1) N N N in
  let c0 := tet_flag0 al be (-1/2)%R (-1/2)%R in let c1 := tet_flag1 be (-1/2)%R (-1/2)%R in let c2 := tet_flag2 (-1/2)%R (-1/2)%R in
  forall A, tet_array N N N A -> exists A' V,
    tet2cheb BL hi lo (chebyshev_normalization_3d (/ sqrt 2)%R (2 / PI * sqrt (2 / PI))%R N N N) c0 c1 c2 P0 P1 P2 false N N N A = Some A' /\
    tet_synthesis FT false true N N N A' = Some V /\ zlen V = N * N * N /\
    (forall k j i, 0 <= k < N -> 0 <= j < N -> 0 <= i < N -> nthZ 0%R V (k + (j + i * N) * N) = tet_series P h Q g W e N N N A (tri_x N k) (tri_y N k j) (tet_z N k j i)) /\
    tet_analysis FT false false N N N V = Some A' /\
    cheb2tet BL hi lo (chebyshev_normalization_3d (sqrt 2) (PI / 2 * sqrt (PI / 2))%R N N N) c0 c1 c2 Q0 Q1 Q2 false N N N A' = Some A.
Proof. exact T_C71_values. Qed.
Print Assumptions C71_values.
(** the hypotheses can be met: with alpha = beta = 0, gamma = delta = -1/2 the first coefficient alone gives a constant *)
Example C71_constant : forall N, 0 < N -> exists RP0 RP1 P0 P1 P2 Q0 Q1 Q2 A' V,
  plan_tet2cheb_tables 0%R (fun x => x) ex_gamma2 (Rpower 2) (zmake N 0%R) (zmake N 0%R) 0%R N 0%R 0%R (-1/2)%R (-1/2)%R = Some (RP0, RP1, (P0, P1, P2), (Q0, Q1, Q2)) /\
  tet2cheb ref_blas (execute_tet_hi2lo (kernel_tri_hi2lo givens RP0) (kernel_tet_hi2lo givens RP1) N N N) (execute_tet_lo2hi (kernel_tri_lo2hi givens_t RP0) (kernel_tet_lo2hi givens_t RP1) N N N)
    (chebyshev_normalization_3d (/ sqrt 2)%R (2 / PI * sqrt (2 / PI))%R N N N) (tet_flag0 0%R 0%R (-1/2)%R (-1/2)%R) (tet_flag1 0%R (-1/2)%R (-1/2)%R) (tet_flag2 (-1/2)%R (-1/2)%R) P0 P1 P2 false N N N (one_coefficient N (N * N)) = Some A' /\
  tet_synthesis ref_fftw false true N N N A' = Some V /\ forall k j i, 0 <= k < N -> 0 <= j < N -> 0 <= i < N -> nthZ 0%R V (k + (j + i * N) * N) = (1 / (2 * sqrt PI))%R.
Proof. exact T_C71_example. Qed.

(** FINDING: the same statement with gamma and delta unrestricted is false (the constant 1, N = 2, L = 1,
    alpha = beta = delta = 0, gamma = -1/2) *)
Theorem C71_conversion_all_parameters_refuted :
  ~ (forall (BL : blas R) (tg : R -> R) (d1 d2 : list R) (jk : R) (N L : Z) (al be ga de : R),
  blas_ok BL -> gamma_function tg -> (tg (1/2) * tg (1/2) = PI)%R -> 0 < L <= N -> (-1 < al)%R -> (-1 < be)%R -> (-1 < ga)%R -> (-1 < de)%R -> N <= zlen d1 -> N <= zlen d2 ->
  forall (P : Z -> Z -> R -> R) (h : Z -> Z -> R) (Q : Z -> Z -> R -> R) (g : Z -> Z -> R) (W : Z -> R -> R) (e : Z -> R) (T : Z -> R -> R),
  triangle_family tg (Rpower 2) al be (ga + de + 1) P h -> triangle_family tg (Rpower 2) be ga de Q g -> jacobi_family tg (Rpower 2) de ga W e -> is_chebyshev T ->
  forall (RP0 RP1 : rotplan R) (P0 P1 P2 Q0 Q1 Q2 : list R), plan_tet2cheb_tables 0%R (fun x => x) tg (Rpower 2) d1 d2 jk N al be ga de = Some (RP0, RP1, (P0, P1, P2), (Q0, Q1, Q2)) ->
  let hi := execute_tet_hi2lo (kernel_tri_hi2lo givens RP0) (kernel_tet_hi2lo givens RP1) N L N in
  let lo := execute_tet_lo2hi (kernel_tri_lo2hi givens_t RP0) (kernel_tet_lo2hi givens_t RP1) N L N in
  forall A, tet_array N L N A -> exists A',
    tet2cheb BL hi lo (chebyshev_normalization_3d (/ sqrt 2)%R (2 / PI * sqrt (2 / PI))%R N L N) (tet_flag0 al be ga de) (tet_flag1 be ga de) (tet_flag2 ga de) P0 P1 P2 false N L N A = Some A' /\
    (forall x y z, product_series3 T T T N L N A' x y z = tet_series P h Q g W e N L N A x y z)).
Proof. exact T_C71_refuted. Qed.
Print Assumptions C71_conversion_all_parameters_refuted.
