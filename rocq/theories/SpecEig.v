(** * Vocabulary for eigenvectors of triangular pencils and nearly equal pairs *)
From Coq Require Import ZArith List Reals.
From Verif Require Import Base SpecSum SpecLin MBanded SpecBanded.
Open Scope Z_scope.

(** x and y agree to relative accuracy tol *)
Definition close (tol x y : R) : Prop := (Rabs (x - y) < tol * Rmax (Rabs x) (Rabs y))%R.
(** the pair (i,j) comes before the pair (i',j'): by second component, then by first *)
Definition comes_before (i j i' j' : Z) : Prop := j < j' \/ (j = j' /\ i < i').

(** the eigenvalue of the upper-triangular pencil A v = lambda B v that belongs to column j *)
Definition pencil_eig (A B : tbanded R) (j : Z) : R := (tb_mat A j j / tb_mat B j j)%R.
(** V is zero strictly below its diagonal *)
Definition no_lower (n : Z) (V : list R) : Prop := forall i j, 0 <= j < i -> i < n -> mat 0 n V i j = 0%R.
(** V' is V except for the entries strictly above the diagonal of the leading n by n matrix *)
Definition keeps_lower (n : Z) (V V' : list R) : Prop :=
  zlen V' = zlen V /\ (forall i j, 0 <= i < n -> 0 <= j <= i -> mat 0 n V' i j = mat 0 n V i j) /\ (forall p, n * n <= p -> zget V' p = zget V p).
(** the root (b + sqrt(b^2+4ac))/(2c) of a + b l = c l^2 *)
Definition quad_eig (A B C : tbanded R) (j : Z) : R :=
  let a := tb_mat A j j in let b := tb_mat B j j in let c := tb_mat C j j in ((b + sqrt (b * b + 4 * a * c)) / (2 * c))%R.
