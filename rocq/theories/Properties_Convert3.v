(** * Conversions of vector fields on the sphere; values of gradients and curls on the grid (C68); potentials from values (C69)

    [vector_series] is the component of a vector field with given "sphv" coefficients (SpecGrad.v), [vectorial] the arrays that
    hold such coefficients of degree less than N, [vector_fourier_series] the bivariate Fourier series, [vector_grid] the two calls
    from coefficients to values and [vector_coefficients] the two calls back (SpecConvert3.v); [harmonic_series sphP] is the expansion in real orthonormal spherical
    harmonics, [theta], [phi] are the grid (SpecFftw.v).  BLAS, FFTW and tgamma are arguments with their documented contracts. *)
From Coq Require Import ZArith List Bool Reals Lra Lia.
From Verif Require Import Arith Base SpecLin MRotations SpecRot MDrivers MHarmonic SpecHarm SpecIso SpecGeo SpecGrad MBanded MGrad MFftw SpecFftw
  SpecConvert SpecConvert3 MDense MRefBlas PRefFftw PConv7 PConv17 PConv18 PConv19.
Import ListNotations.
Open Scope Z_scope.

(** ** C68 *)
(** coefficients to a Fourier series of the same function, to values on the grid, and back *)
Theorem C68_values : forall (BL : blas R) (tgamma : R -> R) (jk : R) (N M : Z), blas_ok BL -> gamma_function tgamma -> 0 < N -> 0 <= M -> M mod 2 = 1 ->
  forall (FT : fftw R) (Y : list R), fftw_ok FT -> zlen Y = 2 * (N * (M / 2 + 1)) ->
  forall (RP : rotplan R) (P0 P1 Q0 Q1 : list R), plan_sph2fourier_tables 0%R (fun x => x) tgamma jk N = Some (RP, (P0, P1), (Q0, Q1)) ->
  let hi := execute_sphv_default (kernel_sph_hi2lo givens RP) N M in let lo := execute_sphv_default (kernel_sph_lo2hi givens_t RP) N M in
  forall A, vectorial N M A -> exists A' V,
    sphv2fourier BL hi lo P0 P1 false N M A = Some A' /\ (forall t p, vector_fourier_series N M A' t p = vector_series N (M / 2) A t p) /\
    sphv_synthesis FT real_const false (plan_sphv_synthesis N M) Y N M A' = Some V /\ zlen V = N * M /\
    (forall k j, 0 <= k < N -> 0 <= j < M -> nthZ 0%R V (k + j * N) = vector_series N (M / 2) A (theta N k) (phi M j)) /\
    sphv_analysis FT real_const false (plan_sphv_analysis N M) Y N M V = Some A' /\
    fourier2sphv BL hi lo Q0 Q1 false N M A' = Some A.
Proof. exact vector_values. Qed.
Print Assumptions C68_values.
(** the gradient followed by the two transforms: the values at the grid points are the partial derivatives of the function *)
Theorem C68_gradient : forall (BL : blas R) (tgamma : R -> R) (jk : R) (N M : Z), blas_ok BL -> gamma_function tgamma -> 0 < N -> 0 <= M -> M mod 2 = 1 ->
  forall (FT : fftw R) (Y : list R), fftw_ok FT -> zlen Y = 2 * (N * (M / 2 + 1)) ->
  forall (RP : rotplan R) (P0 P1 Q0 Q1 U Ut Up : list R), plan_sph2fourier_tables 0%R (fun x => x) tgamma jk N = Some (RP, (P0, P1), (Q0, Q1)) ->
  M / 2 <= N -> spherical N M U -> vectorial N M Ut -> vectorial N M Up ->
  exists P Ut' Up' Vt Vp, plan_sph_gradient N = Some P /\ execute_sph_gradient P U Ut Up N M = Some (Ut', Up') /\
    vector_grid BL FT Y RP P0 P1 N M Ut' = Some Vt /\ vector_grid BL FT Y RP P0 P1 N M Up' = Some Vp /\ zlen Vt = N * M /\ zlen Vp = N * M /\
    forall k j, 0 <= k < N -> 0 <= j < M ->
      derivable_pt_lim (fun t => harmonic_series sphP N (M / 2) U t (phi M j)) (theta N k) (nthZ 0%R Vt (k + j * N)) /\
      derivable_pt_lim (fun p => harmonic_series sphP N (M / 2) U (theta N k) p) (phi M j) (sin (theta N k) * nthZ 0 Vp (k + j * N)%Z)%R.
Proof. exact gradient_grid. Qed.
Print Assumptions C68_gradient.
Theorem C68_curl : forall (BL : blas R) (tgamma : R -> R) (jk : R) (N M : Z), blas_ok BL -> gamma_function tgamma -> 0 < N -> 0 <= M -> M mod 2 = 1 ->
  forall (FT : fftw R) (Y : list R), fftw_ok FT -> zlen Y = 2 * (N * (M / 2 + 1)) ->
  forall (RP : rotplan R) (P0 P1 Q0 Q1 U Ut Up : list R), plan_sph2fourier_tables 0%R (fun x => x) tgamma jk N = Some (RP, (P0, P1), (Q0, Q1)) ->
  M / 2 <= N -> spherical N M U -> vectorial N M Ut -> vectorial N M Up ->
  exists P Ut' Up' Vt Vp, plan_sph_gradient N = Some P /\ execute_sph_curl P U Ut Up N M = Some (Ut', Up') /\
    vector_grid BL FT Y RP P0 P1 N M Ut' = Some Vt /\ vector_grid BL FT Y RP P0 P1 N M Up' = Some Vp /\ zlen Vt = N * M /\ zlen Vp = N * M /\
    forall k j, 0 <= k < N -> 0 <= j < M ->
      derivable_pt_lim (fun p => harmonic_series sphP N (M / 2) U (theta N k) p) (phi M j) (- (sin (theta N k) * nthZ 0 Vt (k + j * N)%Z))%R /\
      derivable_pt_lim (fun t => harmonic_series sphP N (M / 2) U t (phi M j)) (theta N k) (nthZ 0%R Vp (k + j * N)).
Proof. exact curl_grid. Qed.
Print Assumptions C68_curl.
(** the output arrays must be cleared first: the gradient leaves the entries outside the truncation as they are, and the
    conversion reads them as coefficients of degree N and more *)
Theorem C68_padding_kept : forall N M U Ut Up, 1 <= N -> Z.odd M = true -> 0 <= M / 2 <= N -> zlen U = N * M -> zlen Ut = N * M -> zlen Up = N * M ->
  exists P Ut' Up', plan_sph_gradient N = Some P /\ execute_sph_gradient P U Ut Up N M = Some (Ut', Up') /\
    forall q i, 0 < q < M -> N - vorder q <= i < N -> nthZ 0%R Ut' (N * q + i) = nthZ 0%R Ut (N * q + i) /\ nthZ 0%R Up' (N * q + i) = nthZ 0%R Up (N * q + i).
Proof. exact T_C68_padding. Qed.
Print Assumptions C68_padding_kept.
(** with reference BLAS and FFTW and cleared output arrays: the gradient of sqrt(3/(4 pi)) cos t, for every size *)
Example C68_zonal : forall N M, 2 <= N -> 0 <= M / 2 <= N -> M mod 2 = 1 -> 0 <= M -> exists RP P0 P1 Q0 Q1 P Ut Up Vt Vp,
  plan_sph2fourier_tables 0%R (fun x => x) ex_gamma 0%R N = Some (RP, (P0, P1), (Q0, Q1)) /\ plan_sph_gradient N = Some P /\
  execute_sph_gradient P (0%R :: 1%R :: zmake (N * M - 2) 0%R) (zmake (N * M) 0%R) (zmake (N * M) 0%R) N M = Some (Ut, Up) /\
  let grid := vector_grid ref_blas ref_fftw (zmake (2 * (N * (M / 2 + 1))) 0%R) RP P0 P1 N M in
  grid Ut = Some Vt /\ grid Up = Some Vp /\
  forall k j, 0 <= k < N -> 0 <= j < M -> nthZ 0%R Vt (k + j * N) = (- sqrt (3 / (4 * PI)) * sin (theta N k))%R /\ (sin (theta N k) * nthZ 0 Vp (k + j * N)%Z)%R = 0%R.
Proof. exact T_C68_example. Qed.

(** ** C69 *)
(** the values on the grid of the field grad u1 + e_r x grad u2: its components are a - d / sin t and b / sin t + c, where a, b are the
    derivatives of u1 in t and phi, and c, d those of u2.  Analysis, conversion and decomposition return the coefficients of u1 and u2
    (of mean zero) of every degree less than N; S1 and S2 are the previous contents of the output arrays *)
Theorem C69_potentials : forall (BL : blas R) (tgamma : R -> R) (jk : R) (N M : Z), blas_ok BL -> gamma_function tgamma -> 0 < N -> 0 <= M -> M mod 2 = 1 ->
  forall (FT : fftw R) (Y : list R), fftw_ok FT -> zlen Y = 2 * (N * (M / 2 + 1)) ->
  forall (RP : rotplan R) (P0 P1 Q0 Q1 : list R) (jk' : R) (U1 U2 S1 S2 Wt Wp : list R), plan_sph2fourier_tables 0%R (fun x => x) tgamma jk N = Some (RP, (P0, P1), (Q0, Q1)) ->
  M / 2 <= N - 1 -> spherical N M U1 -> spherical N M U2 -> nthZ 0%R U1 0 = 0%R -> nthZ 0%R U2 0 = 0%R -> zlen S1 = N * M -> zlen S2 = N * M -> zlen Wt = N * M -> zlen Wp = N * M ->
  (forall k j a b c d, 0 <= k < N -> 0 <= j < M ->
    derivable_pt_lim (fun t => harmonic_series sphP N (M / 2) U1 t (phi M j)) (theta N k) a -> derivable_pt_lim (fun p => harmonic_series sphP N (M / 2) U1 (theta N k) p) (phi M j) b ->
    derivable_pt_lim (fun t => harmonic_series sphP N (M / 2) U2 t (phi M j)) (theta N k) c -> derivable_pt_lim (fun p => harmonic_series sphP N (M / 2) U2 (theta N k) p) (phi M j) d ->
    nthZ 0%R Wt (k + j * N) = (a - d / sin (theta N k))%R /\ nthZ 0%R Wp (k + j * N) = (b / sin (theta N k) + c)%R) ->
  exists Vt Vp H st, vector_coefficients BL FT Y RP Q0 Q1 N M Wt = Some Vt /\ vector_coefficients BL FT Y RP Q0 Q1 N M Wp = Some Vp /\
    plan_sph_helmholtzhodge jk' N = Some H /\ execute_sph_helmholtzhodge H S1 S2 Vt Vp N M = Some st /\ zlen (h_U1 st) = N * M /\ zlen (h_U2 st) = N * M /\
    forall i q, 0 <= i -> 0 <= q < M -> i + (q + 1) / 2 < N -> nthZ 0%R (h_U1 st) (i + N * q) = nthZ 0%R U1 (i + N * q) /\ nthZ 0%R (h_U2 st) (i + N * q) = nthZ 0%R U2 (i + N * q).
Proof. exact potentials. Qed.
Print Assumptions C69_potentials.
(** with reference BLAS and FFTW: the values of grad (sqrt(3/(4 pi)) cos t) give the potential back, for every size *)
Example C69_zonal : forall N M, 2 <= N -> 0 <= M / 2 <= N - 1 -> M mod 2 = 1 -> 0 <= M -> exists RP P0 P1 Q0 Q1 Vt Vp H st,
  plan_sph2fourier_tables 0%R (fun x => x) ex_gamma 0%R N = Some (RP, (P0, P1), (Q0, Q1)) /\
  let coefficients := vector_coefficients ref_blas ref_fftw (zmake (2 * (N * (M / 2 + 1))) 0%R) RP Q0 Q1 N M in
  coefficients (ztab (N * M) (fun p => - sqrt (3 / (4 * PI)) * sin (theta N (p mod N)))%R) = Some Vt /\
  coefficients (zmake (N * M) 0%R) = Some Vp /\
  plan_sph_helmholtzhodge 7%R N = Some H /\ execute_sph_helmholtzhodge H (zmake (N * M) 7%R) (zmake (N * M) 7%R) Vt Vp N M = Some st /\
  forall i q, 0 <= i -> 0 <= q < M -> i + (q + 1) / 2 < N -> nthZ 0%R (h_U1 st) (i + N * q) = (if i + N * q =? 1 then 1%R else 0%R) /\ nthZ 0%R (h_U2 st) (i + N * q) = 0%R.
Proof. exact T_C69_example. Qed.
