(** * Vocabulary: the spherical harmonics of the documentation and orthogonal maps of the sphere *)
From Coq Require Import ZArith List Reals Lra Factorial.
From Verif Require Import Base Arith SpecSum MIso SpecIso.
Open Scope R_scope.

(** the point of the sphere with colatitude t and longitude phi *)
Definition xyz (t phi : R) : R * R * R := (sin t * cos phi, sin t * sin phi, cos t).
(** the matrix [A], stored by columns, times a vector *)
Definition act3 (A : o3 R) (v : R * R * R) : R * R * R :=
  let '(x, y, z) := v in (q0 A * x + q3 A * y + q6 A * z, q1 A * x + q4 A * y + q7 A * z, q2 A * x + q5 A * y + q8 A * z).

(** the z-axis and y-axis rotations of fasttransforms.h 658-665, stored by columns *)
Definition rotz (a : R) : o3 R := O3 (cos a) (sin a) 0 (- sin a) (cos a) 0 0 0 1.
Definition roty (a : R) : o3 R := O3 (cos a) 0 (sin a) 0 1 0 (- sin a) 0 (cos a).

(** 1 3 5 .. (2m-1) *)
Fixpoint oddfact (m : nat) : R := match m with O => 1 | S m' => (2 * INR m' + 1) * oddfact m' end.
(** associated Legendre functions of cos t with positive phase, (P_{m+i}^m, P_{m+i-1}^m):
    P_m^m = (2m-1)!! sin^m t,  (l-m+1) P_{l+1}^m = (2l+1) cos t P_l^m - (l+m) P_{l-1}^m *)
Fixpoint legendre2 (m : nat) (t : R) (i : nat) : R * R :=
  match i with
  | O => (oddfact m * sin t ^ m, 0)
  | S i' => let '(p, q) := legendre2 m t i' in (((2 * INR (m + i') + 1) * cos t * p - INR (2 * m + i') * q) / (INR i' + 1), p)
  end.
(** the polar factor of the orthonormal real spherical harmonic of order m and degree l = m+i:
    sqrt((l+1/2) (l-m)!/(l+m)!) P_l^m(cos t) sqrt((2-delta_{m,0})/(2 pi)) *)
Definition sphP (m i : Z) (t : R) : R :=
  sqrt ((IZR (m + i) + 1 / 2) * (INR (fact (Z.to_nat i)) / INR (fact (Z.to_nat (2 * m + i))))) * fst (legendre2 (Z.to_nat m) t (Z.to_nat i)) *
  sqrt ((if (m =? 0)%Z then 1 else 2) / (2 * PI)).

(** [A'] is the function of [A] moved by the map [T] of the sphere: its value at [T v] is the value of [A] at [v] *)
Definition moved (N M : Z) (T : R * R * R -> R * R * R) (A A' : list R) : Prop :=
  forall t phi t' phi', xyz t phi = T (xyz t' phi') ->
    harmonic_series sphP N (M / 2)%Z A' t phi = harmonic_series sphP N (M / 2)%Z A t' phi'.
(** the coefficients of degree n and above (below N) are zero *)
Definition degrees_below (n N M : Z) (A : list R) : Prop :=
  forall i q, (0 <= i < N -> 0 <= q < M -> n <= i + (q + 1) / 2 < N -> nthZ 0%R A (i + N * q) = 0%R)%Z.
