(** * Vocabulary: arrays of the "sphv" transforms *)
From Coq Require Import ZArith List Reals.
From Verif Require Import Base Arith SpecSum MRotations MDrivers MHarmonic MFftw SpecGeo SpecFftw SpecConvert.
Open Scope R_scope.

(** the order of the associated Legendre functions in column q of a "sphv" array (see [vsphP], SpecGrad.v): 1, 0, 0, 1, 1, 2, 2, .. *)
Definition vorder (q : Z) : Z := (if q =? 0 then 1 else (q + 1) / 2 - 1)%Z.
(** the array holds the coefficients of a component of a vector field, of degree less than N *)
Definition vectorial (N M : Z) (A : list R) : Prop :=
  (zlen A = N * M /\ forall q, 0 <= q < M -> zero_from (N - vorder q) N A (N * q) 1)%Z.
(** the bivariate Fourier series with the N by M coefficients A: sines of t in the columns of even azimuthal order, cosines in
    the columns of odd order, and the functions of phi of [azimuth] (SpecFftw.v) *)
Definition vector_fourier_series (N M : Z) (A : list R) (t phi : R) : R :=
  sumZ M (fun z => sumZ N (fun l => nthZ 0 A (l + z * N)%Z * (sphv_polar N z l t * azimuth z phi))).
(** ft_execute_sphv2fourier followed by ft_execute_sphv_synthesis, with the tables P0, P1 and the rotations RP of ft_plan_sph2fourier *)
Definition vector_grid (BL : blas R) (FT : fftw R) (Y : list R) (RP : rotplan R) (P0 P1 : list R) (N M : Z) (A : list R) : option (list R) :=
  do A <- sphv2fourier BL (execute_sphv_default (kernel_sph_hi2lo givens RP) N M) (execute_sphv_default (kernel_sph_lo2hi givens_t RP) N M) P0 P1 false N M A;
  sphv_synthesis FT real_const false (plan_sphv_synthesis N M) Y N M A.
(** ft_execute_sphv_analysis followed by ft_execute_fourier2sphv *)
Definition vector_coefficients (BL : blas R) (FT : fftw R) (Y : list R) (RP : rotplan R) (Q0 Q1 : list R) (N M : Z) (V : list R) : option (list R) :=
  do A <- sphv_analysis FT real_const false (plan_sphv_analysis N M) Y N M V;
  fourier2sphv BL (execute_sphv_default (kernel_sph_hi2lo givens RP) N M) (execute_sphv_default (kernel_sph_lo2hi givens_t RP) N M) Q0 Q1 false N M A.
