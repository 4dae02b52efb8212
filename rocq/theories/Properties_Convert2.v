(** * Conversions on triangles and disks preserve the function (C66, C67)

    [tri_factor], [disk_factor] are the factors of one order in the bases of the triangle and the disk, [triangle_series] and
    [zernike_series] the whole expansions, [chebyshev_series2] and [disk_fourier_series] the products of Chebyshev polynomials
    and the Chebyshev--Fourier series they are converted to ([SpecConvert2]).  BLAS, FFTW and tgamma are arguments with
    their documented contracts; pow(2.0, .) is [Rpower 2]. *)
From Coq Require Import ZArith List Bool Reals Lra Lia.
From Verif Require Import Arith Base SpecLin MRotations SpecRot MDrivers MHarmonic SpecHarm MFftw SpecFftw SpecClassical SpecConn SpecTransforms
  SpecConvert SpecConvert2 MDense MDense2 MRefBlas PRefFftw PConv11 PConv13 PConv15 PConv16.
Import ListNotations.
Open Scope Z_scope.

(** ** C66: high-to-low conversion rewrites an expansion of order m2 as one of order m1 of the same function *)
Theorem C66_triangle_kernel : forall (tg p : R -> R) (al be ga : R) (P : Z -> Z -> R -> R) (h : Z -> Z -> R),
  gamma_function tg -> power_of_two p -> (-1 < al)%R -> (-1 < be)%R -> (-1 < ga)%R -> triangle_family tg p al be ga P h ->
  forall (n : Z) (junk : R) (RP : rotplan R) (A : list R) (oA S m1 m2 : Z),
  plan_rottriangle junk n al be ga = Some RP -> 0 <= n -> 1 <= S -> 0 <= m1 <= m2 -> columns_fit A oA S n 1 -> zero_from (n - m2) n A oA S ->
  exists A', kernel_tri_hi2lo givens RP m1 m2 A oA S = Some A' /\ only_columns_changed A A' oA S n 1 /\ zero_from (n - m1) n A' oA S /\
    forall x, column_series (tri_factor P h) n m1 A' oA S x = column_series (tri_factor P h) n m2 A oA S x.
Proof. exact tri_conv. Qed.
Print Assumptions C66_triangle_kernel.
Theorem C66_disk_kernel : forall (tg p : R -> R) (al be : R) (P : Z -> Z -> R -> R) (h : Z -> Z -> R),
  gamma_function tg -> power_of_two p -> (-1 < al)%R -> (-1 < be)%R -> disk_family tg p al be P h ->
  forall (n : Z) (junk : R) (RP : rotplan R) (A : list R) (oA S m1 m2 : Z),
  plan_rotdisk junk n al be = Some RP -> 0 < n -> 1 <= S -> 0 <= m1 <= m2 -> (m2 - m1) mod 2 = 0 -> columns_fit A oA S n 1 -> zero_from (n - (m2 + 1) / 2) n A oA S ->
  exists A', kernel_disk_hi2lo givens RP m1 m2 A oA S = Some A' /\ only_columns_changed A A' oA S n 1 /\ zero_from (n - (m1 + 1) / 2) n A' oA S /\
    forall r, column_series (disk_factor P h) n m1 A' oA S r = column_series (disk_factor P h) n m2 A oA S r.
Proof. exact disk_conv. Qed.
Print Assumptions C66_disk_kernel.
Theorem C66_triangle_driver : forall (tg p : R -> R) (al be ga : R) (P : Z -> Z -> R -> R) (h : Z -> Z -> R),
  gamma_function tg -> power_of_two p -> (-1 < al)%R -> (-1 < be)%R -> (-1 < ga)%R -> triangle_family tg p al be ga P h ->
  forall (junk : R) (N M : Z) (RP : rotplan R) (A : list R), 0 <= N -> plan_rottriangle junk N al be ga = Some RP -> triangular N M A ->
  exists A', execute_tri_default (kernel_tri_hi2lo givens RP) N M A = Some A' /\ zlen A' = N * M /\
    forall q, 0 <= q < M -> forall x, column_series (tri_factor P h) N 0 A' (N * q) 1 x = column_series (tri_factor P h) N q A (N * q) 1 x.
Proof. exact T_C66_tri_driver. Qed.
Print Assumptions C66_triangle_driver.
Theorem C66_disk_driver : forall (tg p : R -> R) (al be : R) (P : Z -> Z -> R -> R) (h : Z -> Z -> R),
  gamma_function tg -> power_of_two p -> (-1 < al)%R -> (-1 < be)%R -> disk_family tg p al be P h ->
  forall (junk : R) (N M : Z) (RP : rotplan R) (A : list R), 0 < N -> plan_rotdisk junk N al be = Some RP -> M mod 2 = 1 -> disk_array N M A ->
  exists A', execute_sph_default (kernel_disk_hi2lo givens RP) N M A = Some A' /\ zlen A' = N * M /\
    forall q, 0 <= q < M -> zero_from (N - ((q + 1) / 2) mod 2) N A' (N * q) 1 /\
      forall r, column_series (disk_factor P h) N (((q + 1) / 2) mod 2) A' (N * q) 1 r = column_series (disk_factor P h) N ((q + 1) / 2) A (N * q) 1 r.
Proof. exact T_C66_disk_driver. Qed.
Print Assumptions C66_disk_driver.
(** functions with the properties used of the gamma function and of powers of 2, and the families of polynomials, exist *)
Example C66_nonvacuous : exists tg : R -> R, gamma_function tg /\ (tg (1 / 2) * tg (1 / 2) = PI)%R /\ power_of_two (Rpower 2) /\
  (forall al be ga, (-1 < al)%R -> (-1 < be)%R -> (-1 < ga)%R -> exists P h, triangle_family tg (Rpower 2) al be ga P h) /\
  (forall al be, (-1 < al)%R -> (-1 < be)%R -> exists P h, disk_family tg (Rpower 2) al be P h).
Proof.
  exists ex_gamma2. split; [apply ex_gamma2_ok|]. split; [apply ex_gamma2_ok|]. split; [apply pow2_ok|].
  split; intros; eexists; eexists; [apply tri_family_exists | apply disk_family_exists]; auto; apply ex_gamma2_ok.
Qed.

(** ** C67: from coefficients on the triangle and the disk to Chebyshev and Fourier series and to values on the grid, and back *)
Theorem C67_triangle_plan : forall (tg : R -> R) (d1 d2 : list R) (jk : R) (N : Z) (al be ga : R), gamma_function tg -> (tg (1/2) * tg (1/2) = PI)%R -> 0 < N ->
  (-1 < al)%R -> (-1 < be)%R -> (-1 < ga)%R -> N <= zlen d1 -> N <= zlen d2 ->
  exists RP P0 P1 Q0 Q1, plan_tri2cheb_tables 0%R (fun x => x) tg (Rpower 2) d1 d2 jk N al be ga = Some (RP, (P0, P1), (Q0, Q1)).
Proof. exact T_C67_tri_plan. Qed.
Print Assumptions C67_triangle_plan.
Theorem C67_triangle : forall (BL : blas R) (tg : R -> R) (d1 d2 : list R) (jk : R) (N M : Z) (al be ga : R),
  blas_ok BL -> gamma_function tg -> (tg (1/2) * tg (1/2) = PI)%R -> 0 < M <= N -> (-1 < al)%R -> (-1 < be)%R -> (-1 < ga)%R -> N <= zlen d1 -> N <= zlen d2 ->
  forall (P : Z -> Z -> R -> R) (h : Z -> Z -> R) (Pv : Z -> R -> R) (hv : Z -> R) (T : Z -> R -> R),
  triangle_family tg (Rpower 2) al be ga P h -> jacobi_family tg (Rpower 2) ga be Pv hv -> is_chebyshev T ->
  forall (RP : rotplan R) (P0 P1 Q0 Q1 : list R), plan_tri2cheb_tables 0%R (fun x => x) tg (Rpower 2) d1 d2 jk N al be ga = Some (RP, (P0, P1), (Q0, Q1)) ->
  forall A, triangular N M A -> exists A',
    tri2cheb BL (execute_tri_default (kernel_tri_hi2lo givens RP) N M) (execute_tri_default (kernel_tri_lo2hi givens_t RP) N M)
      (chebyshev_normalization_2d (/ sqrt 2)%R (2 / PI)%R N M) (tri_flag0 al be ga) (tri_flag1 be ga) P0 P1 false N M A = Some A' /\
    (forall x y, chebyshev_series2 T N M A' x y = triangle_series P h Pv hv N M A x y) /\
    cheb2tri BL (execute_tri_default (kernel_tri_hi2lo givens RP) N M) (execute_tri_default (kernel_tri_lo2hi givens_t RP) N M)
      (chebyshev_normalization_2d (sqrt 2) (PI / 2)%R N M) (tri_flag0 al be ga) (tri_flag1 be ga) Q0 Q1 false N M A' = Some A.
Proof. exact T_C67_tri. Qed.
Print Assumptions C67_triangle.
Theorem C67_triangle_values : forall (BL : blas R) (tg : R -> R) (d1 d2 : list R) (jk : R) (N : Z) (al be ga : R),
  blas_ok BL -> gamma_function tg -> (tg (1/2) * tg (1/2) = PI)%R -> 0 < N -> (-1 < al)%R -> (-1 < be)%R -> (-1 < ga)%R -> N <= zlen d1 -> N <= zlen d2 ->
  forall (P : Z -> Z -> R -> R) (h : Z -> Z -> R) (Pv : Z -> R -> R) (hv : Z -> R),
  triangle_family tg (Rpower 2) al be ga P h -> jacobi_family tg (Rpower 2) ga be Pv hv -> forall FT : fftw R, fftw_ok FT ->
  forall (RP : rotplan R) (P0 P1 Q0 Q1 : list R), plan_tri2cheb_tables 0%R (fun x => x) tg (Rpower 2) d1 d2 jk N al be ga = Some (RP, (P0, P1), (Q0, Q1)) ->
  let hi := execute_tri_default (kernel_tri_hi2lo givens RP) N N in let lo := execute_tri_default (kernel_tri_lo2hi givens_t RP) N N in
  forall A, triangular N N A -> exists A' V,
    tri2cheb BL hi lo (chebyshev_normalization_2d (/ sqrt 2)%R (2 / PI)%R N N) (tri_flag0 al be ga) (tri_flag1 be ga) P0 P1 false N N A = Some A' /\
    tri_synthesis FT false true N N A' = Some V /\ zlen V = N * N /\
    (forall k j, 0 <= k < N -> 0 <= j < N -> nthZ 0%R V (k + j * N) = triangle_series P h Pv hv N N A (tri_x N k) (tri_y N k j)) /\
    tri_analysis FT false false N N V = Some A' /\
    cheb2tri BL hi lo (chebyshev_normalization_2d (sqrt 2) (PI / 2)%R N N) (tri_flag0 al be ga) (tri_flag1 be ga) Q0 Q1 false N N A' = Some A.
Proof. exact T_C67_tri_values. Qed.
Print Assumptions C67_triangle_values.
Theorem C67_disk_plan : forall (tg : R -> R) (d1 d2 junk : list R) (jk : R) (N : Z) (al be : R), gamma_function tg -> (tg (1/2) * tg (1/2) = PI)%R -> 0 < N ->
  (-1 < al)%R -> (-1 < be)%R -> N <= zlen d1 -> N <= zlen d2 -> N <= zlen junk ->
  exists RP P0 P1 Q0 Q1, plan_disk2cxf_tables 0%R (fun x => x) tg (Rpower 2) PI d1 d2 junk jk N al be = Some (RP, (P0, P1), (Q0, Q1)).
Proof. exact T_C67_disk_plan. Qed.
Print Assumptions C67_disk_plan.
Theorem C67_disk_values : forall (BL : blas R) (tg : R -> R) (d1 d2 junk : list R) (jk : R) (N M : Z) (al be : R),
  blas_ok BL -> gamma_function tg -> (tg (1/2) * tg (1/2) = PI)%R -> 0 < N -> 0 <= M -> M mod 2 = 1 -> (-1 < al)%R -> (-1 < be)%R ->
  N <= zlen d1 -> N <= zlen d2 -> N <= zlen junk ->
  forall (P : Z -> Z -> R -> R) (h : Z -> Z -> R), disk_family tg (Rpower 2) al be P h ->
  forall (FT : fftw R) (Y : list R), fftw_ok FT -> zlen Y = 2 * (N * (M / 2 + 1)) ->
  forall (RP : rotplan R) (P0 P1 Q0 Q1 : list R), plan_disk2cxf_tables 0%R (fun x => x) tg (Rpower 2) PI d1 d2 junk jk N al be = Some (RP, (P0, P1), (Q0, Q1)) ->
  let hi := execute_sph_default (kernel_disk_hi2lo givens RP) N M in let lo := execute_sph_default (kernel_disk_lo2hi givens_t RP) N M in
  forall A, disk_array N M A -> exists A' V,
    sph2fourier BL hi lo P0 P1 false N M A = Some A' /\ (forall t p, disk_fourier_series N M A' t p = zernike_series al be P h N M A (cos (t / 2)) p) /\
    disk_synthesis FT real_const false (plan_disk_synthesis N M) Y N M A' = Some V /\ zlen V = N * M /\
    (forall k j, 0 <= k < N -> 0 <= j < M -> nthZ 0%R V (k + j * N) = zernike_series al be P h N M A (cos (theta N k / 2)) (phi M j)) /\
    disk_analysis FT real_const false (plan_disk_analysis N M) Y N M V = Some A' /\
    fourier2sph BL hi lo Q0 Q1 false N M A' = Some A.
Proof. exact disk_values. Qed.
Print Assumptions C67_disk_values.
(** with reference BLAS and FFTW: the first coefficient gives the values of the constant polynomial, 1/2 on the triangle
    (parameters 0) and 1/sqrt(pi) on the disk *)
Example C67_triangle_constant : forall N, 0 < N -> exists RP P0 P1 Q0 Q1 A' V,
  plan_tri2cheb_tables 0%R (fun x => x) ex_gamma2 (Rpower 2) (zmake N 0%R) (zmake N 0%R) 0%R N 0%R 0%R 0%R = Some (RP, (P0, P1), (Q0, Q1)) /\
  tri2cheb ref_blas (execute_tri_default (kernel_tri_hi2lo givens RP) N N) (execute_tri_default (kernel_tri_lo2hi givens_t RP) N N)
    (chebyshev_normalization_2d (/ sqrt 2)%R (2 / PI)%R N N) (tri_flag0 0%R 0%R 0%R) (tri_flag1 0%R 0%R) P0 P1 false N N (one_coefficient N N) = Some A' /\
  tri_synthesis ref_fftw false true N N A' = Some V /\ forall k j, 0 <= k < N -> 0 <= j < N -> nthZ 0%R V (k + j * N) = (1 / 2)%R.
Proof. exact T_C67_tri_example. Qed.
Example C67_disk_constant : forall N M, 0 < N -> 0 < M -> M mod 2 = 1 -> exists RP P0 P1 Q0 Q1 A' V,
  plan_disk2cxf_tables 0%R (fun x => x) ex_gamma2 (Rpower 2) PI (zmake N 0%R) (zmake N 0%R) (zmake N 0%R) 0%R N 0%R 0%R = Some (RP, (P0, P1), (Q0, Q1)) /\
  sph2fourier ref_blas (execute_sph_default (kernel_disk_hi2lo givens RP) N M) (execute_sph_default (kernel_disk_lo2hi givens_t RP) N M) P0 P1 false N M (one_coefficient N M) = Some A' /\
  disk_synthesis ref_fftw real_const false (plan_disk_synthesis N M) (zmake (2 * (N * (M / 2 + 1))) 0%R) N M A' = Some V /\
  forall k j, 0 <= k < N -> 0 <= j < M -> nthZ 0%R V (k + j * N) = (/ sqrt PI)%R.
Proof. exact T_C67_disk_example. Qed.
