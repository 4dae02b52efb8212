(** * Vocabulary: expansions on the disk in products of ultraspherical polynomials *)
From Coq Require Import ZArith List Reals.
From Verif Require Import Base SpecSum SpecClassical SpecConn SpecTransforms SpecFftw SpecConvert SpecConvert2.
Open Scope R_scope.

(** the ultraspherical polynomials C^(la) and their squared norms for the weight (1-x^2)^(la-1/2) *)
Definition ultraspherical_family (tgamma : R -> R) (la : R) (C : Z -> R -> R) (h : Z -> R) : Prop :=
  is_ultraspherical la C /\ ultraspherical_norms la h /\ h 0%Z = tgamma (1 / 2) * tgamma (la + 1 / 2) / tgamma (la + 1).
(** Legendre's duplication formula at x: 2^(2x) Gamma(x) Gamma(x+1/2) = 2 Gamma(1/2) Gamma(2x) *)
Definition gamma_duplication (tgamma : R -> R) (x : R) : Prop :=
  Rpower 2 (2 * x) * tgamma x * tgamma (x + 1 / 2) = 2 * tgamma (1 / 2) * tgamma (2 * x).

(** order m: the factor in x, (1-x^2)^(m/2) C_i^(m+be+1)(x) / sqrt(h_i) *)
Definition rect_family (tgamma : R -> R) (be : R) (C : Z -> Z -> R -> R) (h : Z -> Z -> R) : Prop :=
  forall m, (0 <= m)%Z -> ultraspherical_family tgamma (IZR m + be + 1) (C m) (h m).
Definition rect_factor (C : Z -> Z -> R -> R) (h : Z -> Z -> R) (m i : Z) (x : R) : R :=
  sqrt (1 - x * x) ^ Z.to_nat m * fam true (C m) (h m) i x.
(** the expansion with coefficients A in the polynomials
    (1-x^2)^(q/2) C_i^(q+be+1)(x) C_q^(be+1/2)(y/sqrt(1-x^2)), the ultraspherical polynomials orthonormal;
    [C], [h] are those of the first factor, [Cv], [hv] those of the second *)
Definition rectdisk_series (C : Z -> Z -> R -> R) (h : Z -> Z -> R) (Cv : Z -> R -> R) (hv : Z -> R) (N M : Z) (A : list R) (x y : R) : R :=
  sumZ M (fun q => sumZ N (fun i => nthZ 0 A (i + q * N)%Z * (rect_factor C h q i x * fam true Cv hv q (y / sqrt (1 - x * x))))).
(** the expansion with coefficients A in products of Chebyshev polynomials: T_i(x) T_q(y/sqrt(1-x^2)) in the columns
    of even index q, sqrt(1-x^2) U_i(x) T_q(y/sqrt(1-x^2)) in the columns of odd index *)
Definition rect_cheb_series (T U : Z -> R -> R) (N M : Z) (A : list R) (x y : R) : R :=
  sumZ M (fun q => sumZ N (fun i => nthZ 0 A (i + q * N)%Z *
    ((if Z.even q then T i x else sqrt (1 - x * x) * U i x) * T q (y / sqrt (1 - x * x))))).
(** the grid: x = cos theta_k, y = sin theta_k cos theta_j *)
Definition rect_x (N k : Z) : R := cos (theta N k).
Definition rect_y (N M k j : Z) : R := sin (theta N k) * cos (theta M j).
