(** * Vocabulary for the rotations of the tetrahedron (C71) *)
From Coq Require Import ZArith List Reals.
From Verif Require Import Base Arith SpecSum SpecConn SpecClassical SpecFftw SpecConvert SpecConvert2.
Import ListNotations.
Open Scope R_scope.

(** an N by L by M array with the coefficients of a polynomial of degree less than L in y and z together, and less than N in all:
    the column (l, m) has N - l - m coefficients when l + m < L, and none otherwise *)
Definition tet_array (N L M : Z) (A : list R) : Prop :=
  (zlen A = N * (L * M) /\ forall l m, 0 <= l < L -> 0 <= m < M -> zero_from (if l + m <? L then N - (l + m) else 0) N A (N * (l + L * m)) 1)%Z.
(** the expansion with coefficients A in the polynomials of the tetrahedron, of degree k + l + m:
    (2(1-x))^(l+m) P_k^{(2(l+m)+be+ga+de+2,al)}(2x-1) (2(1-v))^m P_l^{(2m+ga+de+1,be)}(2v-1) P_m^{(de,ga)}(2w-1),
    v = y/(1-x), w = z/(1-x-y), the Jacobi polynomials orthonormal; [P], [h], [Q], [g], [W], [e] are those of the three factors *)
Definition tet_series (P : Z -> Z -> R -> R) (h : Z -> Z -> R) (Q : Z -> Z -> R -> R) (g : Z -> Z -> R) (W : Z -> R -> R) (e : Z -> R)
    (N L M : Z) (A : list R) (x y z : R) : R :=
  sumZ M (fun m => sumZ L (fun l => sumZ N (fun k => nthZ 0 A (k + N * (l + L * m))%Z *
    (tri_factor P h (l + m)%Z k (2 * x - 1) * tri_factor Q g m l (2 * (y / (1 - x)) - 1) * fam true W e m (2 * (z / (1 - x - y)) - 1))))).
(** the expansion in the products P_k(2x-1) Q_l(2y/(1-x)-1) W_m(2z/(1-x-y)-1) *)
Definition product_series3 (P Q W : Z -> R -> R) (N L M : Z) (A : list R) (x y z : R) : R :=
  sumZ M (fun m => sumZ L (fun l => sumZ N (fun k => nthZ 0 A (k + N * (l + L * m))%Z *
    (P k (2 * x - 1) * Q l (2 * (y / (1 - x)) - 1) * W m (2 * (z / (1 - x - y)) - 1))))).
(** the third coordinate of the grid point (k, j, i); the first two are those of the triangle *)
Definition tet_z (N k j i : Z) : R := (1 - tri_x N k - tri_y N k j) * (1 + cos (SpecFftw.theta N i)) / 2.
