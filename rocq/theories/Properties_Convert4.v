(** * Conversions of expansions on the disk in products of ultraspherical polynomials (C70)

    [rectdisk_series] is the expansion on the disk, [rect_cheb_series] the expansion in Chebyshev polynomials
    (SpecConvert4.v).  The planner calls tgamma: what is used of it is [gamma_function], Gamma(1/2)^2 = pi and
    the duplication formula at be+1 and be+1/2. *)
From Coq Require Import ZArith List Reals.
From Verif Require Import Base Arith SpecSum SpecLin MRotations SpecRot MDrivers MHarmonic SpecHarm MRefBlas PRefFftw SpecConn SpecClassical SpecTransforms MFftw SpecFftw
  SpecConvert SpecConvert2 SpecConvert4 MTransforms MDense MDense3 PConv16 PConv22.
Import ListNotations.
Open Scope Z_scope.

(** the kernel, any stride: a column of order m2 becomes one of order m1 with the same function on [-1,1] *)
Theorem C70_kernel : forall (tg : R -> R) (be : R) (C : Z -> Z -> R -> R) (h : Z -> Z -> R),
  gamma_function tg -> (-1 < be)%R -> rect_family tg be C h ->
  forall (n : Z) (junk : R) (RP : rotplan R) (A : list R) (oA S m1 m2 : Z), plan_rotrectdisk junk n be = Some RP -> 0 <= n -> 1 <= S -> 0 <= m1 <= m2 -> (m2 - m1) mod 2 = 0 ->
  columns_fit A oA S n 1 -> zero_from (n - m2) n A oA S ->
  exists A', kernel_sph_hi2lo givens RP m1 m2 A oA S = Some A' /\ only_columns_changed A A' oA S n 1 /\ zero_from (n - m1) n A' oA S /\
    forall x, (-1 <= x <= 1)%R -> column_series (rect_factor C h) n m1 A' oA S x = column_series (rect_factor C h) n m2 A oA S x.
Proof. exact T_C70_kernel. Qed.
Print Assumptions C70_kernel.
(** the driver brings column q to order q mod 2 *)
Theorem C70_driver : forall (tg : R -> R) (be : R) (C : Z -> Z -> R -> R) (h : Z -> Z -> R),
  gamma_function tg -> (-1 < be)%R -> rect_family tg be C h ->
  forall (junk : R) (N M : Z) (RP : rotplan R) (A : list R), 0 <= N -> plan_rotrectdisk junk N be = Some RP -> triangular N M A ->
  exists A', execute_rectdisk_default (kernel_sph_hi2lo givens RP) N M A = Some A' /\ zlen A' = N * M /\
    forall q, 0 <= q < M -> zero_from (N - q mod 2) N A' (N * q) 1 /\
      forall x, (-1 <= x <= 1)%R -> column_series (rect_factor C h) N (q mod 2) A' (N * q) 1 x = column_series (rect_factor C h) N q A (N * q) 1 x.
Proof. exact T_C70_driver. Qed.
Print Assumptions C70_driver.
(** the planner succeeds *)
Theorem C70_plan : forall (tg : R -> R) (d1 d2 junk : list R) (jk : R) (N : Z) (be : R),
  gamma_function tg -> (tg (1/2) * tg (1/2) = PI)%R -> 0 < N -> (-1 / 2 < be)%R -> gamma_duplication tg (be + 1) -> gamma_duplication tg (be + 1 / 2) ->
  N <= zlen d1 -> N <= zlen d2 -> N <= zlen junk ->
  exists RP P0 P1 P2 Q0 Q1 Q2, plan_rectdisk2cheb_tables 0%R (fun x => x) tg (Rpower 2) PI d1 d2 junk jk N be = Some (RP, (P0, P1, P2), (Q0, Q1, Q2)).
Proof. exact T_C70_plan. Qed.
Print Assumptions C70_plan.
(** the conversion keeps the function on the disk, and the inverse conversion recovers the coefficients *)
Theorem C70_conversion : forall (BL : blas R) (tg : R -> R) (d1 d2 junk : list R) (jk : R) (N M : Z) (be : R),
  blas_ok BL -> gamma_function tg -> (tg (1/2) * tg (1/2) = PI)%R -> 0 < M <= N -> (-1 / 2 < be)%R ->
  gamma_duplication tg (be + 1) -> gamma_duplication tg (be + 1 / 2) -> N <= zlen d1 -> N <= zlen d2 -> N <= zlen junk ->
  forall (C : Z -> Z -> R -> R) (h : Z -> Z -> R) (Cv : Z -> R -> R) (hv : Z -> R) (T U : Z -> R -> R), rect_family tg be C h -> ultraspherical_family tg (be + 1 / 2) Cv hv -> is_chebyshev T -> is_ultraspherical 1 U ->
  forall (RP : rotplan R) (P0 P1 P2 Q0 Q1 Q2 : list R), plan_rectdisk2cheb_tables 0%R (fun x => x) tg (Rpower 2) PI d1 d2 junk jk N be = Some (RP, (P0, P1, P2), (Q0, Q1, Q2)) ->
  let hi := execute_rectdisk_default (kernel_sph_hi2lo givens RP) N M in let lo := execute_rectdisk_default (kernel_sph_lo2hi givens_t RP) N M in
  forall A, triangular N M A -> exists A',
    rectdisk2cheb BL hi lo P0 P1 P2 false N M A = Some A' /\
    (forall x y, (-1 <= x <= 1)%R -> rect_cheb_series T U N M A' x y = rectdisk_series C h Cv hv N M A x y) /\
    cheb2rectdisk BL hi lo Q0 Q1 Q2 false N M A' = Some A.
Proof. exact T_C70_cheb. Qed.
Print Assumptions C70_conversion.
(** followed by synthesis it gives the values on the grid; analysis and the inverse conversion undo it *)
Theorem C70_values : forall (BL : blas R) (tg : R -> R) (d1 d2 junk : list R) (jk : R) (N M : Z) (be : R),
  blas_ok BL -> gamma_function tg -> (tg (1/2) * tg (1/2) = PI)%R -> 0 < M <= N -> (-1 / 2 < be)%R ->
  gamma_duplication tg (be + 1) -> gamma_duplication tg (be + 1 / 2) -> N <= zlen d1 -> N <= zlen d2 -> N <= zlen junk ->
  forall (C : Z -> Z -> R -> R) (h : Z -> Z -> R) (Cv : Z -> R -> R) (hv : Z -> R), rect_family tg be C h -> ultraspherical_family tg (be + 1 / 2) Cv hv -> forall FT : fftw R, fftw_ok FT ->
  forall (RP : rotplan R) (P0 P1 P2 Q0 Q1 Q2 : list R), plan_rectdisk2cheb_tables 0%R (fun x => x) tg (Rpower 2) PI d1 d2 junk jk N be = Some (RP, (P0, P1, P2), (Q0, Q1, Q2)) ->
  let hi := execute_rectdisk_default (kernel_sph_hi2lo givens RP) N M in let lo := execute_rectdisk_default (kernel_sph_lo2hi givens_t RP) N M in
  forall A, triangular N M A -> exists A' V,
    rectdisk2cheb BL hi lo P0 P1 P2 false N M A = Some A' /\
    rectdisk_synthesis FT false (plan_rectdisk_synthesis N M) N M A' = Some V /\ zlen V = N * M /\
    (forall k j, 0 <= k < N -> 0 <= j < M -> nthZ 0%R V (k + j * N) = rectdisk_series C h Cv hv N M A (rect_x N k) (rect_y N M k j)) /\
    rectdisk_analysis FT false (plan_rectdisk_analysis N M) N M V = Some A' /\
    cheb2rectdisk BL hi lo Q0 Q1 Q2 false N M A' = Some A.
Proof. exact T_C70_values. Qed.
Print Assumptions C70_values.
(** with reference BLAS and FFTW, be = 0: the first coefficient gives the constant 1/sqrt(pi) *)
Example C70_constant : forall N M,
  0 < M <= N -> exists RP P0 P1 P2 Q0 Q1 Q2 A' V,
  plan_rectdisk2cheb_tables 0%R (fun x => x) ex_gamma2 (Rpower 2) PI (zmake N 0%R) (zmake N 0%R) (zmake N 0%R) 0%R N 0%R = Some (RP, (P0, P1, P2), (Q0, Q1, Q2)) /\
  rectdisk2cheb ref_blas (execute_rectdisk_default (kernel_sph_hi2lo givens RP) N M) (execute_rectdisk_default (kernel_sph_lo2hi givens_t RP) N M) P0 P1 P2 false N M (one_coefficient N M) = Some A' /\
  rectdisk_synthesis ref_fftw false (plan_rectdisk_synthesis N M) N M A' = Some V /\
  forall k j, 0 <= k < N -> 0 <= j < M -> nthZ 0%R V (k + j * N) = (/ sqrt PI)%R.
Proof. exact T_C70_example. Qed.
