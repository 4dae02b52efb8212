(** * C31, C43: nearly equal pairs; eigenvectors of upper-triangular banded pencils *)
From Coq Require Import ZArith List Reals.
From Verif Require Import Arith Base SpecSum SpecLin MBanded SpecBanded SpecSort MEig SpecEig PInter PEigThms.
Import ListNotations.
Open Scope Z_scope.

(** C31: the number counted is the number written, for every arithmetic: with arrays that long the
    pairs are written to the first [c] places and nothing else changes; the indices are in range and
    no pair occurs twice.  With a shorter array the writing routine runs past its end. *)
Theorem C31_count : forall (F : Type) (AF : Arith F) (eps : F) m x n y, 0 <= m <= zlen x -> 0 <= n <= zlen y ->
  exists c, count_intersections eps m x n y = Some c /\ 0 <= c /\ forall p q,
    (c <= zlen p -> c <= zlen q ->
     exists p' q', produce_intersection_indices eps m x n y p q = Some (p', q') /\ zlen p' = zlen p /\ zlen q' = zlen q /\
       (forall k, c <= k -> zget p' k = zget p k /\ zget q' k = zget q k) /\
       (forall k, 0 <= k < c -> 0 <= nthZ 0 p' k < m /\ 0 <= nthZ 0 q' k < n) /\
       (forall k k', 0 <= k < k' -> k' < c -> comes_before (nthZ 0 p' k) (nthZ 0 q' k) (nthZ 0 p' k') (nthZ 0 q' k'))) /\
    (zlen p < c \/ zlen q < c -> produce_intersection_indices eps m x n y p q = None).
Proof. exact C31_count_proof. Qed.
Print Assumptions C31_count.
(** C31: for sorted sequences the pairs are exactly the close ones *)
Theorem C31_exactly : forall eps m x n y p q, (eps <= 1)%R -> 0 <= m <= zlen x -> 0 <= n <= zlen y ->
  nondecreasing x 0 (m - 1) -> nondecreasing y 0 (n - 1) ->
  exists c, count_intersections eps m x n y = Some c /\ (c <= zlen p -> c <= zlen q ->
    exists p' q', produce_intersection_indices eps m x n y p q = Some (p', q') /\
    forall i j, 0 <= i < m -> 0 <= j < n ->
      ((exists k, 0 <= k < c /\ nthZ 0 p' k = i /\ nthZ 0 q' k = j) <-> close eps (nthZ 0%R x i) (nthZ 0%R y j))).
Proof. exact C31_exactly_proof. Qed.
Print Assumptions C31_exactly.
Example C31_example :
  @count_intersections Z Z_arith 1 4 [-9; 1; 5; 9] 3 [-9; 1; 8] = Some 7 /\
  @produce_intersection_indices Z Z_arith 1 4 [-9; 1; 5; 9] 3 [-9; 1; 8] [7; 7; 7; 7; 7; 7; 7; 7] [8; 8; 8; 8; 8; 8; 8; 8] =
    Some ([0; 1; 2; 3; 1; 2; 3; 7], [0; 1; 1; 1; 2; 2; 2; 8]) /\
  @produce_intersection_indices Z Z_arith 1 4 [-9; 1; 5; 9] 3 [-9; 1; 8] [7; 7; 7] [8; 8; 8; 8; 8; 8; 8] = None.
Proof. exact C31_example_proof. Qed.
Example C31_sorted : (1 / 2 <= 1)%R /\ nondecreasing [1; 2; 3]%R 0 (3 - 1) /\ nondecreasing [2; 5]%R 0 (2 - 1).
Proof. exact C31_sorted_proof. Qed.

(** C43: the eigenvalues are the quotients of the diagonals *)
Theorem C43_eigenvalues : forall A B lambda, tb_ok A -> tb_ok B -> tb_n B = tb_n A -> tb_n A <= zlen lambda ->
  exists lambda', triangular_banded_eigenvalues A B lambda = Some lambda' /\ writes 0 (tb_n A) lambda lambda' (pencil_eig A B).
Proof. exact C43_eigenvalues_proof. Qed.
Print Assumptions C43_eigenvalues.
(** C43: with distinct eigenvalues and no rounding, A V' = B V' Lambda; the diagonal of V is kept *)
Theorem C43_exact : forall A B V, tb_ok A -> tb_ok B -> tb_n B = tb_n A -> nonzero_diag (tb_n A) (tb_mat B) ->
  (forall i j, 0 <= i < j -> j < tb_n A -> pencil_eig A B i <> pencil_eig A B j) ->
  tb_n A * tb_n A <= zlen V -> no_lower (tb_n A) V ->
  exists V', triangular_banded_eigenvectors 0%R A B V = Some V' /\ keeps_lower (tb_n A) V V' /\
    forall i j, 0 <= i < tb_n A -> 0 <= j < tb_n A ->
      matmul (tb_n A) (tb_mat A) (mat 0 (tb_n A) V') i j = (matmul (tb_n A) (tb_mat B) (mat 0 (tb_n A) V') i j * pencil_eig A B j)%R.
Proof. exact C43_exact_proof. Qed.
Print Assumptions C43_exact.
(** C43: with a positive [eps] entries below the noise level are set to zero; the residual stays
    within that level as long as no eigenvalue is taken for equal to an earlier one *)
Theorem C43_residual : forall eps A B V, tb_ok A -> tb_ok B -> tb_n B = tb_n A -> (0 <= eps)%R -> nonzero_diag (tb_n A) (tb_mat B) ->
  (forall i j, 0 <= i < j -> j < tb_n A -> (tb_mat A i i <> pencil_eig A B j * tb_mat B i i)%R /\
     (4 * (Rabs (pencil_eig A B j * tb_mat B i i) + Rabs (tb_mat A i i)) * eps <= Rabs (pencil_eig A B j * tb_mat B i i - tb_mat A i i))%R) ->
  tb_n A * tb_n A <= zlen V -> no_lower (tb_n A) V ->
  exists V', triangular_banded_eigenvectors eps A B V = Some V' /\ keeps_lower (tb_n A) V V' /\
    forall i j, 0 <= i < tb_n A -> 0 <= j < tb_n A ->
      (Rabs (matmul (tb_n A) (tb_mat A) (mat 0 (tb_n A) V') i j - matmul (tb_n A) (tb_mat B) (mat 0 (tb_n A) V') i j * pencil_eig A B j)
       <= 4 * eps * sumZ (tb_n A) (fun k => (Rabs (tb_mat A i k) + Rabs (pencil_eig A B j * tb_mat B i k)) * Rabs (mat 0 (tb_n A) V' k j)))%R.
Proof. exact C43_residual_proof. Qed.
Print Assumptions C43_residual.
(** C43: the quadratic problem A V + B V Lambda = C V Lambda^2 *)
Theorem C43_quadratic_eigenvalues : forall A B C lambda, tb_ok A -> tb_ok B -> tb_ok C -> tb_n B = tb_n A -> tb_n C = tb_n A -> tb_n A <= zlen lambda ->
  (exists lambda', triangular_banded_quadratic_eigenvalues A B C lambda = Some lambda' /\ writes 0 (tb_n A) lambda lambda' (quad_eig A B C)) /\
  forall j, 0 <= j < tb_n A -> tb_mat C j j <> 0%R -> (0 <= tb_mat B j j * tb_mat B j j + 4 * tb_mat A j j * tb_mat C j j)%R ->
    (tb_mat A j j + tb_mat B j j * quad_eig A B C j = tb_mat C j j * (quad_eig A B C j * quad_eig A B C j))%R.
Proof. exact C43_quadratic_eigenvalues_proof. Qed.
Print Assumptions C43_quadratic_eigenvalues.
Theorem C43_quadratic : forall eps A B C V, tb_ok A -> tb_ok B -> tb_ok C -> tb_n B = tb_n A -> tb_n C = tb_n A -> (0 <= eps)%R ->
  (forall j, 0 <= j < tb_n A -> tb_mat C j j <> 0%R /\ (0 <= tb_mat B j j * tb_mat B j j + 4 * tb_mat A j j * tb_mat C j j)%R) ->
  (forall i j, 0 <= i < j -> j < tb_n A ->
     (tb_mat A i i + quad_eig A B C j * tb_mat B i i - quad_eig A B C j * quad_eig A B C j * tb_mat C i i)%R <> 0%R) ->
  tb_n A * tb_n A <= zlen V -> no_lower (tb_n A) V ->
  exists V', triangular_banded_quadratic_eigenvectors eps A B C V = Some V' /\ keeps_lower (tb_n A) V V' /\
    forall i j, 0 <= i < tb_n A -> 0 <= j < tb_n A ->
      (Rabs (matmul (tb_n A) (tb_mat A) (mat 0 (tb_n A) V') i j + matmul (tb_n A) (tb_mat B) (mat 0 (tb_n A) V') i j * quad_eig A B C j
             - matmul (tb_n A) (tb_mat C) (mat 0 (tb_n A) V') i j * (quad_eig A B C j * quad_eig A B C j))
       <= 4 * eps * sumZ (tb_n A) (fun k => (Rabs (tb_mat A i k) + Rabs (quad_eig A B C j) * (Rabs (tb_mat B i k) + Rabs (quad_eig A B C j) * Rabs (tb_mat C i k))) * Rabs (mat 0 (tb_n A) V' k j)))%R.
Proof. exact C43_quadratic_proof. Qed.
Print Assumptions C43_quadratic.
(** a pencil that meets the hypotheses, and the same one computed with integers *)
Example C43_example :
  let A := TBanded [0; 1; 1; 2]%R 2 1 in let B := TBanded [0; 1; 3; 1]%R 2 1 in let V := [1; 0; 0; 1]%R in
  tb_ok A /\ tb_ok B /\ tb_n B = tb_n A /\ nonzero_diag 2 (tb_mat B) /\ (forall i j, 0 <= i < j -> j < 2 -> pencil_eig A B i <> pencil_eig A B j) /\ 2 * 2 <= zlen V /\ no_lower 2 V.
Proof. exact C43_example_proof. Qed.
Example C43_computed :
  @triangular_banded_eigenvectors Z Z_arith 0 (TBanded [0; 1; 1; 2] 2 1) (TBanded [0; 1; 3; 1] 2 1) [1; 0; 0; 1] = Some [1; 0; -5; 1].
Proof. exact C43_computed_proof. Qed.
