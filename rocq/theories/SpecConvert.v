(** * Vocabulary: expansions of one order in one column *)
From Coq Require Import ZArith List Reals Factorial.
From Verif Require Import Base SpecSum SpecLin SpecConn SpecGeo SpecFftw.
Open Scope R_scope.

(** the orthonormal associated Legendre function of order m and degree l = m+i at cos t:
    sqrt((l+1/2) (l-m)!/(l+m)!) P_l^m(cos t) *)
Definition polar (m i : Z) (t : R) : R :=
  sqrt ((IZR (m + i) + 1 / 2) * (INR (fact (Z.to_nat i)) / INR (fact (Z.to_nat (2 * m + i))))) * fst (legendre2 (Z.to_nat m) t (Z.to_nat i)).

(** the function with the coefficients in the column of n entries of stride S starting at oA *)
Definition column_series (f : Z -> Z -> R -> R) (n m : Z) (A : list R) (oA S : Z) (t : R) : R :=
  sumZ n (fun i => nthZ 0 A (oA + i * S)%Z * f m i t).
(** the entries k, .., n-1 of the column are zero *)
Definition zero_from (k n : Z) (A : list R) (oA S : Z) : Prop := (forall i, k <= i < n -> 0 <= i -> nthZ 0%R A (oA + i * S) = 0%R)%Z.

(** the bivariate Fourier series with the N by M coefficients A: cosines of t in the columns of even order, sines in the
    columns of odd order, and the functions of phi of [azimuth] (SpecFftw.v) *)
Definition fourier_series (N M : Z) (A : list R) (t phi : R) : R :=
  sumZ M (fun z => sumZ N (fun l => nthZ 0 A (l + z * N)%Z * (sph_polar N z l t * azimuth z phi))).
(** the array holds the coefficients of a function of degree less than N: order (q+1)/2 of column q has N - (q+1)/2 of them *)
Definition spherical (N M : Z) (A : list R) : Prop :=
  (zlen A = N * M /\ forall q, 0 <= q < M -> zero_from (N - (q + 1) / 2) N A (N * q) 1)%Z.
(** what is used of the gamma function *)
Record gamma_function (g : R -> R) : Prop := {
  gam_pos : forall x, 0 < x -> 0 < g x; gam_1 : g 1 = 1; gam_S : forall x, 0 < x -> g (x + 1) = x * g x }.
(** the n by n table, stored by columns, holds the connection coefficients from P to Q: it is upper triangular and
    column j expands P j in the polynomials Q i *)
Definition table (n : Z) (V : list R) (P Q : Z -> R -> R) : Prop := (zlen V = n * n /\ connects n (mat 0 n V) P Q)%Z.
