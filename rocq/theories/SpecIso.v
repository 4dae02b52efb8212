(** * Vocabulary for the isometries: 3 by 3 matrices and harmonic series *)
From Coq Require Import ZArith List Reals Lra.
From Verif Require Import Base Arith SpecSum MIso.
Import ListNotations.
Open Scope R_scope.

(** matrices stored by columns: entry (i, j) is q_{i+3j} *)
Definition id3 : o3 R := O3 1 0 0 0 1 0 0 0 1.
Definition mul3 (A B : o3 R) : o3 R :=
  O3 (q0 A * q0 B + q3 A * q1 B + q6 A * q2 B) (q1 A * q0 B + q4 A * q1 B + q7 A * q2 B) (q2 A * q0 B + q5 A * q1 B + q8 A * q2 B)
     (q0 A * q3 B + q3 A * q4 B + q6 A * q5 B) (q1 A * q3 B + q4 A * q4 B + q7 A * q5 B) (q2 A * q3 B + q5 A * q4 B + q8 A * q5 B)
     (q0 A * q6 B + q3 A * q7 B + q6 A * q8 B) (q1 A * q6 B + q4 A * q7 B + q7 A * q8 B) (q2 A * q6 B + q5 A * q7 B + q8 A * q8 B).
Definition tr3 (A : o3 R) : o3 R := O3 (q0 A) (q3 A) (q6 A) (q1 A) (q4 A) (q7 A) (q2 A) (q5 A) (q8 A).
Definition orthogonal3 (A : o3 R) : Prop := mul3 (tr3 A) A = id3.
Definition det3 (A : o3 R) : R :=
  q0 A * (q4 A * q8 A - q5 A * q7 A) - q3 A * (q1 A * q8 A - q2 A * q7 A) + q6 A * (q1 A * q5 A - q2 A * q4 A).
(** hypot of the C library *)
Definition hyp (x y : R) : R := sqrt (x * x + y * y).
(** the reflection I - 2 w w^T / (w^T w) *)
Definition reflection (w0 w1 w2 : R) : o3 R :=
  let n := w0 * w0 + w1 * w1 + w2 * w2 in
  O3 (1 - 2 * w0 * w0 / n) (- 2 * w1 * w0 / n) (- 2 * w2 * w0 / n)
     (- 2 * w0 * w1 / n) (1 - 2 * w1 * w1 / n) (- 2 * w2 * w1 / n)
     (- 2 * w0 * w2 / n) (- 2 * w1 * w2 / n) (1 - 2 * w2 * w2 / n).

(** The function on the sphere with the coefficients [A], an [N] by [2h+1] array:
    [P m i t] is the polar factor of order m and degree m+i at colatitude t *)
Definition harmonic_series (P : Z -> Z -> R -> R) (N h : Z) (A : list R) (t phi : R) : R :=
  sumZ N (fun i => P 0%Z i t * nthZ 0 A i) +
  sumZ h (fun k => let m := (k + 1)%Z in
    sumZ (N - m) (fun i => P m i t * (nthZ 0 A (i + N * (2 * m - 1))%Z * sin (IZR m * phi) + nthZ 0 A (i + N * (2 * m))%Z * cos (IZR m * phi)))).

(** two N by M arrays hold the same coefficients of degree l: entry (i, q) is the coefficient of order (q+1)/2 and degree i + (q+1)/2 *)
Definition same_degree {F} {AF : Arith F} (N M l : Z) (A B : list F) : Prop :=
  (forall i q, 0 <= i < N -> 0 <= q < M -> i + (q + 1) / 2 = l -> nthZ zero A (i + N * q) = nthZ zero B (i + N * q))%Z.

(** sum of the squares of the 2l+1 coefficients of degree l of an array with N rows *)
Definition degree_norm (N l : Z) (A : list R) : R :=
  sumZ (2 * l + 1) (fun q => nthZ 0 A (l - (q + 1) / 2 + N * q)%Z * nthZ 0 A (l - (q + 1) / 2 + N * q)%Z).
