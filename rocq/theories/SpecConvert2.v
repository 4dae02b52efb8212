(** * Vocabulary: the functions of one order on triangles and disks *)
From Coq Require Import ZArith List Reals.
From Verif Require Import Base SpecSum SpecClassical SpecTransforms SpecFftw SpecConvert.
Open Scope R_scope.

(** what is used of x -> 2^x *)
Definition power_of_two (p : R -> R) : Prop := (forall x, 0 < p x) /\ forall x, p (x + 1) = 2 * p x.
(** the Jacobi polynomials P with parameters (a,b) and their squared norms h for the weight (1-x)^a (1+x)^b *)
Definition jacobi_family (tgamma pow2 : R -> R) (a b : R) (P : Z -> R -> R) (h : Z -> R) : Prop :=
  is_jacobi a b P /\ jacobi_norms a b h /\ h 0%Z = jacobi_mass tgamma pow2 a b.

(** on the triangle, order m: the factor in x of the orthonormal polynomial,
    (1-x)^m P_i^{(2m+be+ga+1, al)}(x) / sqrt(h_i) for x in [-1,1] *)
Definition tri_factor (P : Z -> Z -> R -> R) (h : Z -> Z -> R) (m i : Z) (x : R) : R :=
  (1 - x) ^ Z.to_nat m * fam true (P m) (h m) i x.
Definition triangle_family (tgamma pow2 : R -> R) (al be ga : R) (P : Z -> Z -> R -> R) (h : Z -> Z -> R) : Prop :=
  forall m, (0 <= m)%Z -> jacobi_family tgamma pow2 (2 * IZR m + be + ga + 1) al (P m) (h m).

(** on the disk, order m: the radial factor of the orthonormal Zernike polynomial (up to a constant that does
    not depend on m and i), (sqrt 2 r)^m P_i^{(be, m+al)}(2 r^2 - 1) / sqrt(h_i) *)
Definition disk_factor (P : Z -> Z -> R -> R) (h : Z -> Z -> R) (m i : Z) (r : R) : R :=
  (sqrt 2 * r) ^ Z.to_nat m * fam true (P m) (h m) i (2 * (r * r) - 1).
Definition disk_family (tgamma pow2 : R -> R) (al be : R) (P : Z -> Z -> R -> R) (h : Z -> Z -> R) : Prop :=
  forall m, (0 <= m)%Z -> jacobi_family tgamma pow2 be (IZR m + al) (P m) (h m).

(** ** whole expansions *)
(** coefficients of a polynomial of degree less than N on the triangle: column q (order q) has N - q of them *)
Definition triangular (N M : Z) (A : list R) : Prop :=
  (zlen A = N * M /\ forall q, 0 <= q < M -> zero_from (N - q) N A (N * q) 1)%Z.
(** the expansion with coefficients A in the polynomials
    (2(1-x))^q P_i^{(2q+be+ga+1,al)}(2x-1) P_q^{(ga,be)}(2y/(1-x)-1), the Jacobi polynomials orthonormal;
    [P], [h] are those of the first factor, [Pv], [hv] those of the second *)
Definition triangle_series (P : Z -> Z -> R -> R) (h : Z -> Z -> R) (Pv : Z -> R -> R) (hv : Z -> R) (N M : Z) (A : list R) (x y : R) : R :=
  sumZ M (fun q => sumZ N (fun i => nthZ 0 A (i + q * N)%Z * (tri_factor P h q i (2 * x - 1) * fam true Pv hv q (2 * y / (1 - x) - 1)))).
(** the expansion with coefficients A in the products of Chebyshev polynomials T_i(2x-1) T_q(2y/(1-x)-1) *)
Definition chebyshev_series2 (T : Z -> R -> R) (N M : Z) (A : list R) (x y : R) : R :=
  sumZ M (fun q => sumZ N (fun i => nthZ 0 A (i + q * N)%Z * (T i (2 * x - 1) * T q (2 * y / (1 - x) - 1)))).
(** coefficients of a polynomial on the disk: column q (order (q+1)/2) has N - ((q+1)/2+1)/2 of them *)
Definition disk_array (N M : Z) (A : list R) : Prop :=
  (zlen A = N * M /\ forall q, 0 <= q < M -> zero_from (N - ((q + 1) / 2 + 1) / 2) N A (N * q) 1)%Z.
(** the expansion with coefficients A in the Zernike polynomials
    sqrt(2^(m+al+be+2)) r^m P_i^{(be,m+al)}(2r^2-1), m = (q+1)/2, times the functions of phi of [azimuth] *)
Definition zernike_series (al be : R) (P : Z -> Z -> R -> R) (h : Z -> Z -> R) (N M : Z) (A : list R) (r phi : R) : R :=
  sumZ M (fun q => sumZ N (fun i => nthZ 0 A (i + q * N)%Z *
    (Rpower 2 ((al + be + 2) / 2) * disk_factor P h ((q + 1) / 2)%Z i r * azimuth q phi))).
(** the Chebyshev--Fourier series with coefficients A at the radius r = cos(t/2): T_{2l}(r) in the columns of even order,
    T_{2l+1}(r) in the columns of odd order *)
Definition disk_fourier_series (N M : Z) (A : list R) (t phi : R) : R :=
  sumZ M (fun z => sumZ N (fun l => nthZ 0 A (l + z * N)%Z * (disk_radial N z l t * azimuth z phi))).
(** the grid on the triangle: x = (1 + cos theta_k)/2, y = (1 - x)(1 + cos theta_j)/2 *)
Definition tri_x (N k : Z) : R := (1 + cos (theta N k)) / 2.
Definition tri_y (N k j : Z) : R := (1 - tri_x N k) * (1 + cos (theta N j)) / 2.
