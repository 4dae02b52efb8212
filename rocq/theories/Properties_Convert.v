(** * Conversions on the sphere preserve the function (C63, C64); the dense planners (C65)

    [polar m i] is the orthonormal associated Legendre function of order m and degree m+i, [harmonic_series sphP] the
    expansion in real orthonormal spherical harmonics, [fourier_series] the bivariate Fourier series ([SpecConvert],
    [SpecIso], [SpecGeo], [SpecFftw]).  BLAS, FFTW and tgamma are arguments with their documented contracts. *)
From Coq Require Import ZArith QArith List Bool Reals Lra Lia.
From Verif Require Import Arith Base SpecLin MRotations SpecRot MDrivers MHarmonic SpecHarm SpecIso SpecGeo MFftw SpecFftw SpecClassical SpecConn SpecTransforms
  SpecConvert MDense PEigPlan8 MRefBlas PRefFftw PConv3 PConv6 PConv7 PConv8 PDense PDense2.
Import ListNotations.
Open Scope Z_scope.

(** ** C63: high-to-low conversion rewrites an expansion of order m2 as one of order m1 of the same function *)
Theorem C63_kernel : forall (n : Z) (junk : R) (RP : rotplan R) (A : list R) (oA S m1 m2 : Z),
  plan_rotsphere junk n = Some RP -> 0 <= n -> 1 <= S -> 0 <= m1 <= m2 -> (m2 - m1) mod 2 = 0 ->
  columns_fit A oA S n 1 -> zero_from (n - m2) n A oA S ->
  exists A', kernel_sph_hi2lo givens RP m1 m2 A oA S = Some A' /\ only_columns_changed A A' oA S n 1 /\ zero_from (n - m1) n A' oA S /\
    forall t, column_series polar n m1 A' oA S t = column_series polar n m2 A oA S t.
Proof. exact sph_conv. Qed.
Print Assumptions C63_kernel.
Theorem C63_driver : forall (junk : R) (N M : Z) (RP : rotplan R) (A : list R), 0 <= N -> plan_rotsphere junk N = Some RP -> M mod 2 = 1 -> spherical N M A ->
  exists A', execute_sph_default (kernel_sph_hi2lo givens RP) N M A = Some A' /\ zlen A' = N * M /\
    forall q, 0 <= q < M -> zero_from (N - ((q + 1) / 2) mod 2) N A' (N * q) 1 /\
      forall t, column_series polar N (((q + 1) / 2) mod 2) A' (N * q) 1 t = column_series polar N ((q + 1) / 2) A (N * q) 1 t.
Proof. exact T_C63_driver. Qed.
Print Assumptions C63_driver.
(** a plan of order 3 and coefficients of order 2 in column 3 of a 3 by 5 array *)
Example C63_nonvacuous : exists RP, plan_rotsphere 0%R 3 = Some RP /\ columns_fit [0; 0; 0; 0; 0; 0; 0; 0; 0; 7; 0; 0; 5; 0; 0]%R 9 1 3 1 /\
  zero_from (3 - 2) 3 [0; 0; 0; 0; 0; 0; 0; 0; 0; 7; 0; 0; 5; 0; 0]%R 9 1 /\ spherical 3 5 [0; 0; 0; 0; 0; 0; 0; 0; 0; 7; 0; 0; 5; 0; 0]%R.
Proof. exact T_C63_example. Qed.

(** ** C64: from spherical harmonic coefficients to a Fourier series and to values on the grid, and back *)
Theorem C64_plan : forall (tgamma : R -> R) (jk : R) (N : Z), gamma_function tgamma -> 0 < N ->
  exists RP P0 P1 Q0 Q1, plan_sph2fourier_tables 0%R (fun x => x) tgamma jk N = Some (RP, (P0, P1), (Q0, Q1)).
Proof. exact T_C64_plan. Qed.
Print Assumptions C64_plan.
Theorem C64_values : forall (BL : blas R) (tgamma : R -> R) (jk : R) (N M : Z), blas_ok BL -> gamma_function tgamma -> 0 < N -> 0 <= M -> M mod 2 = 1 ->
  forall (FT : fftw R) (Y : list R), fftw_ok FT -> zlen Y = 2 * (N * (M / 2 + 1)) ->
  forall (RP : rotplan R) (P0 P1 Q0 Q1 : list R), plan_sph2fourier_tables 0%R (fun x => x) tgamma jk N = Some (RP, (P0, P1), (Q0, Q1)) ->
  let hi := execute_sph_default (kernel_sph_hi2lo givens RP) N M in let lo := execute_sph_default (kernel_sph_lo2hi givens_t RP) N M in
  forall A, spherical N M A -> exists A' V,
    sph2fourier BL hi lo P0 P1 false N M A = Some A' /\ (forall t p, fourier_series N M A' t p = harmonic_series sphP N (M / 2) A t p) /\
    sph_synthesis FT real_const false (plan_sph_synthesis N M) Y N M A' = Some V /\ zlen V = N * M /\
    (forall k j, 0 <= k < N -> 0 <= j < M -> nthZ 0%R V (k + j * N) = harmonic_series sphP N (M / 2) A (theta N k) (phi M j)) /\
    sph_analysis FT real_const false (plan_sph_analysis N M) Y N M V = Some A' /\
    fourier2sph BL hi lo Q0 Q1 false N M A' = Some A.
Proof. exact sphere_values. Qed.
Print Assumptions C64_values.
(** with reference BLAS and FFTW: the coefficients of the constant harmonic give the value 1/sqrt(4 pi) at every grid point *)
Example C64_constant : forall N M, 0 < N -> 0 < M -> M mod 2 = 1 -> exists RP P0 P1 Q0 Q1 A' V,
  plan_sph2fourier_tables 0%R (fun x => x) ex_gamma 0%R N = Some (RP, (P0, P1), (Q0, Q1)) /\
  sph2fourier ref_blas (execute_sph_default (kernel_sph_hi2lo givens RP) N M) (execute_sph_default (kernel_sph_lo2hi givens_t RP) N M) P0 P1 false N M
    (1%R :: zmake (N * M - 1) 0%R) = Some A' /\
  sph_synthesis ref_fftw real_const false (plan_sph_synthesis N M) (zmake (2 * (N * (M / 2 + 1))) 0%R) N M A' = Some V /\
  forall k j, 0 <= k < N -> 0 <= j < M -> nthZ 0%R V (k + j * N) = sqrt (/ (4 * PI)).
Proof. exact T_C64_example. Qed.

(** ** C65: the dense planners return the matrix of connection coefficients *)
Theorem C65_legendre_to_chebyshev : forall tgamma pow2 : R -> R, special tgamma pow2 -> forall n : Z, 0 <= n ->
  forall (nl nc : bool) (P Q : Z -> R -> R) (hP hQ : Z -> R), is_jacobi 0 0 P -> is_chebyshev Q -> jacobi_norms 0 0 hP -> chebyshev_norms hQ -> hP 0 = 2%R -> hQ 0 = (tgamma (1 / 2) * tgamma (1 / 2))%R ->
  exists V, dense_legendre_to_chebyshev 0%R (fun x => x) tgamma nl nc n = Some V /\ table n V (fam nl P hP) (fam nc Q hQ).
Proof. exact leg2cheb_dense. Qed.
Print Assumptions C65_legendre_to_chebyshev.
Theorem C65_chebyshev_to_legendre : forall tgamma pow2 : R -> R, special tgamma pow2 -> forall n : Z, 0 <= n ->
  forall (nl nc : bool) (P Q : Z -> R -> R) (hP hQ : Z -> R), is_jacobi 0 0 P -> is_chebyshev Q -> jacobi_norms 0 0 hP -> chebyshev_norms hQ -> hP 0 = 2%R -> hQ 0 = (tgamma (1 / 2) * tgamma (1 / 2))%R ->
  exists V, dense_chebyshev_to_legendre 0%R (fun x => x) tgamma nc nl n = Some V /\ table n V (fam nc Q hQ) (fam nl P hP).
Proof. exact cheb2leg_dense. Qed.
Print Assumptions C65_chebyshev_to_legendre.
Theorem C65_ultraspherical_to_ultraspherical : forall tgamma pow2 : R -> R, special tgamma pow2 -> forall n : Z, 0 <= n ->
  forall (n1 n2 : bool) (la mu : R) (P Q : Z -> R -> R) (hP hQ : Z -> R), (- 1 / 2 < la)%R -> la <> 0%R -> (- 1 / 2 < mu)%R -> mu <> 0%R ->
  is_ultraspherical la P -> is_ultraspherical mu Q -> ultraspherical_norms la hP -> ultraspherical_norms mu hQ ->
  hP 0 = (tgamma (1 / 2) * tgamma (la + 1 / 2) / tgamma (la + 1))%R -> hQ 0 = (tgamma (1 / 2) * tgamma (mu + 1 / 2) / tgamma (mu + 1))%R ->
  exists V, dense_ultraspherical_to_ultraspherical 0%R (fun x => x) tgamma n1 n2 n la mu = Some V /\ table n V (fam n1 P hP) (fam n2 Q hQ).
Proof. exact ult_dense. Qed.
Print Assumptions C65_ultraspherical_to_ultraspherical.
Theorem C65_jacobi_to_jacobi : forall tgamma pow2 : R -> R, special tgamma pow2 -> forall (d1 d2 : list R) (n : Z), 0 <= n -> n <= zlen d1 -> n <= zlen d2 ->
  forall (n1 n2 : bool) (a b c e : R) (P Q : Z -> R -> R) (hP hQ : Z -> R), (-1 < a)%R -> (-1 < b)%R -> (-1 < c)%R -> (-1 < e)%R ->
  is_jacobi a b P -> is_jacobi c e Q -> jacobi_norms a b hP -> jacobi_norms c e hQ -> hP 0 = jacobi_mass tgamma pow2 a b -> hQ 0 = jacobi_mass tgamma pow2 c e ->
  exists V, dense_jacobi_to_jacobi 0%R (fun x => x) tgamma pow2 d1 d2 n1 n2 n a b c e = Some V /\ table n V (fam n1 P hP) (fam n2 Q hQ).
Proof. exact jac_dense. Qed.
Print Assumptions C65_jacobi_to_jacobi.
Theorem C65_laguerre_to_laguerre : forall tgamma pow2 : R -> R, special tgamma pow2 -> forall (data : list R) (n : Z), 0 <= n -> 2 * n <= zlen data ->
  forall (n1 n2 : bool) (a b : R) (P Q : Z -> R -> R) (hP hQ : Z -> R), (-1 < a)%R -> (-1 < b)%R ->
  is_laguerre a P -> is_laguerre b Q -> laguerre_norms a hP -> laguerre_norms b hQ -> hP 0 = tgamma (a + 1)%R -> hQ 0 = tgamma (b + 1)%R ->
  exists V, dense_laguerre_to_laguerre 0%R (fun x => x) tgamma data n1 n2 n a b = Some V /\ table n V (fam n1 P hP) (fam n2 Q hQ).
Proof. exact lag_dense. Qed.
Print Assumptions C65_laguerre_to_laguerre.
(** normalised ultraspherical polynomials with negative parameter: the sign of finding C59_ultraspherical_sign_refuted applies *)
Theorem C65_jacobi_to_ultraspherical : forall tgamma pow2 : R -> R, special tgamma pow2 -> forall (d1 d2 junk : list R) (n : Z), 0 <= n -> n <= zlen d1 -> n <= zlen d2 -> n <= zlen junk ->
  forall (n1 n2 : bool) (a b la : R) (P Q : Z -> R -> R) (hP hQ : Z -> R), (-1 < a)%R -> (-1 < b)%R -> (- 1 / 2 < la)%R -> la <> 0%R -> (n2 = true -> 0 < la)%R ->
  is_jacobi a b P -> is_ultraspherical la Q -> jacobi_norms a b hP -> ultraspherical_norms la hQ -> hP 0 = jacobi_mass tgamma pow2 a b -> hQ 0 = jacobi_mass tgamma pow2 (la - 1 / 2) (la - 1 / 2) ->
  exists V, dense_jacobi_to_ultraspherical 0%R (fun x => x) tgamma pow2 d1 d2 junk n1 n2 n a b la = Some V /\ table n V (fam n1 P hP) (fam n2 Q hQ).
Proof. exact jac2ult_dense. Qed.
Print Assumptions C65_jacobi_to_ultraspherical.
Theorem C65_ultraspherical_to_jacobi : forall tgamma pow2 : R -> R, special tgamma pow2 -> forall (d1 d2 junk : list R) (n : Z), 0 <= n -> n <= zlen d1 -> n <= zlen d2 -> n <= zlen junk ->
  forall (n1 n2 : bool) (a b la : R) (P Q : Z -> R -> R) (hP hQ : Z -> R), (-1 < a)%R -> (-1 < b)%R -> (- 1 / 2 < la)%R -> la <> 0%R -> (n1 = true -> 0 < la)%R ->
  is_ultraspherical la P -> is_jacobi a b Q -> ultraspherical_norms la hP -> jacobi_norms a b hQ -> hP 0 = jacobi_mass tgamma pow2 (la - 1 / 2) (la - 1 / 2) -> hQ 0 = jacobi_mass tgamma pow2 a b ->
  exists V, dense_ultraspherical_to_jacobi 0%R (fun x => x) tgamma pow2 d1 d2 junk n1 n2 n la a b = Some V /\ table n V (fam n1 P hP) (fam n2 Q hQ).
Proof. exact ult2jac_dense. Qed.
Print Assumptions C65_ultraspherical_to_jacobi.
Theorem C65_jacobi_to_chebyshev : forall tgamma pow2 : R -> R, special tgamma pow2 -> forall (pi : R) (d1 d2 junk : list R) (n : Z), 0 <= n -> n <= zlen d1 -> n <= zlen d2 -> n <= zlen junk -> pi = (tgamma (1 / 2) * tgamma (1 / 2))%R ->
  forall (n1 n2 : bool) (a b : R) (P Q : Z -> R -> R) (hP hQ : Z -> R), (-1 < a)%R -> (-1 < b)%R ->
  is_jacobi a b P -> is_chebyshev Q -> jacobi_norms a b hP -> chebyshev_norms hQ -> hP 0 = jacobi_mass tgamma pow2 a b -> hQ 0 = (tgamma (1 / 2) * tgamma (1 / 2))%R ->
  exists V, dense_jacobi_to_chebyshev 0%R (fun x => x) tgamma pow2 pi d1 d2 junk n1 n2 n a b = Some V /\ table n V (fam n1 P hP) (fam n2 Q hQ).
Proof. exact jac2che_dense. Qed.
Print Assumptions C65_jacobi_to_chebyshev.
Theorem C65_chebyshev_to_jacobi : forall tgamma pow2 : R -> R, special tgamma pow2 -> forall (pi : R) (d1 d2 junk : list R) (n : Z), 0 <= n -> n <= zlen d1 -> n <= zlen d2 -> n <= zlen junk -> pi = (tgamma (1 / 2) * tgamma (1 / 2))%R ->
  forall (n1 n2 : bool) (a b : R) (P Q : Z -> R -> R) (hP hQ : Z -> R), (-1 < a)%R -> (-1 < b)%R ->
  is_chebyshev P -> is_jacobi a b Q -> chebyshev_norms hP -> jacobi_norms a b hQ -> hP 0 = (tgamma (1 / 2) * tgamma (1 / 2))%R -> hQ 0 = jacobi_mass tgamma pow2 a b ->
  exists V, dense_chebyshev_to_jacobi 0%R (fun x => x) tgamma pow2 pi d1 d2 junk n1 n2 n a b = Some V /\ table n V (fam n1 P hP) (fam n2 Q hQ).
Proof. exact che2jac_dense. Qed.
Print Assumptions C65_chebyshev_to_jacobi.
Theorem C65_ultraspherical_to_chebyshev : forall tgamma pow2 : R -> R, special tgamma pow2 -> forall (pi : R) (d1 d2 junk : list R) (n : Z), 0 <= n -> n <= zlen d1 -> n <= zlen d2 -> n <= zlen junk -> pi = (tgamma (1 / 2) * tgamma (1 / 2))%R ->
  forall (n1 n2 : bool) (la : R) (P Q : Z -> R -> R) (hP hQ : Z -> R), (- 1 / 2 < la)%R -> la <> 0%R -> (n1 = true -> 0 < la)%R ->
  is_ultraspherical la P -> is_chebyshev Q -> ultraspherical_norms la hP -> chebyshev_norms hQ -> hP 0 = jacobi_mass tgamma pow2 (la - 1 / 2) (la - 1 / 2) -> hQ 0 = (tgamma (1 / 2) * tgamma (1 / 2))%R ->
  exists V, dense_ultraspherical_to_chebyshev 0%R (fun x => x) tgamma pow2 pi d1 d2 junk n1 n2 n la = Some V /\ table n V (fam n1 P hP) (fam n2 Q hQ).
Proof. exact ult2che_dense. Qed.
Print Assumptions C65_ultraspherical_to_chebyshev.
Theorem C65_chebyshev_to_ultraspherical : forall tgamma pow2 : R -> R, special tgamma pow2 -> forall (pi : R) (d1 d2 junk : list R) (n : Z), 0 <= n -> n <= zlen d1 -> n <= zlen d2 -> n <= zlen junk -> pi = (tgamma (1 / 2) * tgamma (1 / 2))%R ->
  forall (n1 n2 : bool) (la : R) (P Q : Z -> R -> R) (hP hQ : Z -> R), (- 1 / 2 < la)%R -> la <> 0%R -> (n2 = true -> 0 < la)%R ->
  is_chebyshev P -> is_ultraspherical la Q -> chebyshev_norms hP -> ultraspherical_norms la hQ -> hP 0 = (tgamma (1 / 2) * tgamma (1 / 2))%R -> hQ 0 = jacobi_mass tgamma pow2 (la - 1 / 2) (la - 1 / 2) ->
  exists V, dense_chebyshev_to_ultraspherical 0%R (fun x => x) tgamma pow2 pi d1 d2 junk n1 n2 n la = Some V /\ table n V (fam n1 P hP) (fam n2 Q hQ).
Proof. exact che2ult_dense. Qed.
Print Assumptions C65_chebyshev_to_ultraspherical.
(** in rational arithmetic, n = 4: the columns are P_0 = T_0, P_1 = T_1, P_2 = (T_0 + 3 T_2)/4, P_3 = (3 T_1 + 5 T_3)/8, and the inverse *)
Example C65_computed :
  option_map (map Qred) (@dense_legendre_to_chebyshev Q Q_arith 0%Q (fun x => x) (fun _ => 1%Q) false false 4) = Some [1; 0; 0; 0; 0; 1; 0; 0; 1#4; 0; 3#4; 0; 0; 3#8; 0; 5#8]%Q /\
  option_map (map Qred) (@dense_chebyshev_to_legendre Q Q_arith 0%Q (fun x => x) (fun _ => 1%Q) false false 4) = Some [1; 0; 0; 0; 0; 1; 0; 0; -1#3; 0; 4#3; 0; 0; -3#5; 0; 8#5]%Q.
Proof. vm_compute. split; reflexivity. Qed.
