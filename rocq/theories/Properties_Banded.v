(** * Property theorems: banded and triangular linear algebra (C17-C21, C44, C48)

    Source: src/banded_source.c, src/transforms_mpfr.c.  Vocabulary: SpecLin.v ([vec], [mat],
    [matvec], [matmul], [acts], [isprod], [fits], [fits_mat]) and SpecBanded.v ([bd_mat],
    [tb_mat]: the dense matrices that the storage represents). *)
From Coq Require Import ZArith List Reals Lra Lia Bool.
From Verif Require Import Arith Base BaseFacts SpecSum SpecLin MBanded SpecBanded PTri PTri2 PBand PClen PBandedThms.
Import ListNotations.
Open Scope Z_scope.

(** ** C17 *)
(** tbmv replaces x by A x or A^T x and touches nothing else *)
Theorem C17_triangular_banded_multiply : forall (A : tbanded R) trans x o,
  tb_ok A -> fits o (tb_n A) x ->
  exists x', tbmv trans A x o = Some x' /\
    acts o (tb_n A) x x' (isprod (tb_n A) (op trans (tb_mat A))).
Proof. exact (fun A t x o => tbmv_proof A t x o). Qed.
Print Assumptions C17_triangular_banded_multiply.
(** tbsv replaces x by the solution of A x' = x or A^T x' = x *)
Theorem C17_triangular_banded_solve : forall (A : tbanded R) trans x o,
  tb_ok A -> nonzero_diag (tb_n A) (tb_mat A) -> fits o (tb_n A) x ->
  exists x', tbsv trans A x o = Some x' /\
    acts o (tb_n A) x x' (fun v w => isprod (tb_n A) (op trans (tb_mat A)) w v).
Proof. exact (fun A t x o => tbsv_proof A t x o). Qed.
Print Assumptions C17_triangular_banded_solve.
Theorem C17_solve_inverts_multiply : forall (A : tbanded R) trans x o,
  tb_ok A -> nonzero_diag (tb_n A) (tb_mat A) -> fits o (tb_n A) x ->
  (do y <- tbmv trans A x o; tbsv trans A y o) = Some x /\
  (do y <- tbsv trans A x o; tbmv trans A y o) = Some x.
Proof. exact (fun A t x o => tb_inverse_proof A t x o). Qed.
Print Assumptions C17_solve_inverts_multiply.
(** tssv solves (A - gamma B) x' = x or its transpose *)
Theorem C17_shifted_solve : forall (A B : tbanded R) gamma trans x o,
  tb_ok A -> tb_ok B -> tb_n B = tb_n A ->
  nonzero_diag (tb_n A) (fun i j => (tb_mat A i j - gamma * tb_mat B i j)%R) -> fits o (tb_n A) x ->
  exists x', tssv trans A B gamma x o = Some x' /\
    acts o (tb_n A) x x' (fun v w =>
      isprod (tb_n A) (op trans (fun i j => (tb_mat A i j - gamma * tb_mat B i j)%R)) w v).
Proof. exact (fun A B g t x o => tssv_proof A B g t x o). Qed.
Print Assumptions C17_shifted_solve.
(** brmv and brsv: the upper triangle of a banded factor *)
Theorem C17_banded_upper_factor : forall (A : banded R) trans x o,
  bd_ok A -> 0 <= bd_l A -> 0 <= bd_u A -> nonzero_diag (bd_n A) (bd_mat A) -> fits o (bd_n A) x ->
  (exists x', brmv trans A x o = Some x' /\ acts o (bd_n A) x x' (isprod (bd_n A) (op trans (upper (bd_mat A))))) /\
  (exists x', brsv trans A x o = Some x' /\
     acts o (bd_n A) x x' (fun v w => isprod (bd_n A) (op trans (upper (bd_mat A))) w v)) /\
  (do y <- brmv trans A x o; brsv trans A y o) = Some x /\
  (do y <- brsv trans A x o; brmv trans A y o) = Some x.
Proof. exact C17_upper_factor_proof. Qed.
Print Assumptions C17_banded_upper_factor.
(** blmv and blsv: the lower triangle of a banded factor *)
Theorem C17_banded_lower_factor : forall (A : banded R) trans x o,
  bd_ok A -> 0 <= bd_l A -> 0 <= bd_u A -> nonzero_diag (bd_n A) (bd_mat A) -> fits o (bd_n A) x ->
  (exists x', blmv trans A x o = Some x' /\ acts o (bd_n A) x x' (isprod (bd_n A) (op trans (lower (bd_mat A))))) /\
  (exists x', blsv trans A x o = Some x' /\
     acts o (bd_n A) x x' (fun v w => isprod (bd_n A) (op trans (lower (bd_mat A))) w v)) /\
  (do y <- blmv trans A x o; blsv trans A y o) = Some x /\
  (do y <- blsv trans A x o; blmv trans A y o) = Some x.
Proof. exact C17_lower_factor_proof. Qed.
Print Assumptions C17_banded_lower_factor.

(** A = [2 1 0; 0 3 4; 0 0 5] in banded storage *)
Example C17_nonvacuous :
  let A := TBanded [0; 2; 1; 3; 4; 5]%R 3 1 in
  tb_ok A /\ nonzero_diag (tb_n A) (tb_mat A) /\ fits 1 (tb_n A) [9; 1; 1; 1; 9]%R.
Proof. exact C17_example_proof. Qed.
Example C17_computed :
  @tbmv Z Z_arith false (TBanded [0; 2; 1; 3; 4; 5] 3 1) [9; 1; 1; 1; 9] 1 = Some [9; 3; 7; 5; 9] /\
  @tbmv Z Z_arith true (TBanded [0; 2; 1; 3; 4; 5] 3 1) [9; 1; 1; 1; 9] 1 = Some [9; 2; 4; 9; 9] /\
  @tbsv Z Z_arith false (TBanded [0; 2; 1; 3; 4; 5] 3 1) [9; 3; 7; 5; 9] 1 = Some [9; 1; 1; 1; 9].
Proof. vm_compute. repeat split. Qed.
Example C17_factor_nonvacuous :
  let A := Banded [0; 2; 7; 1; 3; 8; 4; 5; 0]%R 3 3 1 1 in
  bd_ok A /\ nonzero_diag (bd_n A) (bd_mat A).
Proof. exact C17_factor_example_proof. Qed.

(** ** C18 *)
(** trmv: x <- U x or U^T x for the upper triangle U of a dense array; the same for the MPFR
    routine, whose fused updates are exact over R *)
Theorem C18_dense_triangular_multiply : forall trans n A oA LDA x o,
  0 <= n -> fits_mat oA n n LDA A -> fits o n x ->
  exists x', trmv trans n A oA LDA x o = Some x' /\
    acts o n x x' (isprod n (op trans (upper (mat oA LDA A)))).
Proof. exact C18_mul_proof. Qed.
Print Assumptions C18_dense_triangular_multiply.
Theorem C18_dense_triangular_solve : forall trans n A oA LDA x o,
  0 <= n -> fits_mat oA n n LDA A -> nonzero_diag n (mat oA LDA A) -> fits o n x ->
  exists x', trsv trans n A oA LDA x o = Some x' /\
    acts o n x x' (fun v w => isprod n (op trans (upper (mat oA LDA A))) w v).
Proof. exact C18_solve_proof. Qed.
Print Assumptions C18_dense_triangular_solve.
Theorem C18_solve_inverts_multiply : forall trans n A oA LDA x o,
  0 <= n -> fits_mat oA n n LDA A -> nonzero_diag n (mat oA LDA A) -> fits o n x ->
  (do y <- trmv trans n A oA LDA x o; trsv trans n A oA LDA y o) = Some x /\
  (do y <- trsv trans n A oA LDA x o; trmv trans n A oA LDA y o) = Some x.
Proof. exact C18_inverse_proof. Qed.
Print Assumptions C18_solve_inverts_multiply.
(** trmm and trsm do this to every column of B and touch nothing between the columns *)
Theorem C18_columnwise : forall trans n A LDA B LDB N,
  0 <= n -> 0 <= N -> fits_mat 0 n n LDA A -> nonzero_diag n (mat 0 LDA A) -> fits_mat 0 n N LDB B ->
  (exists B', trmm trans n A LDA B LDB N = Some B' /\
     acts_columns n N LDB B B' (isprod n (op trans (upper (mat 0 LDA A))))) /\
  (exists B', trsm trans n A LDA B LDB N = Some B' /\
     acts_columns n N LDB B B' (fun v w => isprod n (op trans (upper (mat 0 LDA A))) w v)) /\
  (do C <- trmm trans n A LDA B LDB N; trsm trans n A LDA C LDB N) = Some B /\
  (do C <- trsm trans n A LDA B LDB N; trmm trans n A LDA C LDB N) = Some B.
Proof. exact C18_columnwise_proof. Qed.
Print Assumptions C18_columnwise.
Example C18_nonvacuous :
  let A := [2; 0; 0; 1; 3; 0; 7; 4; 5; 0]%R in
  fits_mat 0 3 3 3 A /\ nonzero_diag 3 (mat 0 3 A) /\ fits_mat 0 3 2 4 [1; 1; 1; 9; 1; 2; 3]%R.
Proof. exact C18_example_proof. Qed.
Example C18_computed :
  @trmm Z Z_arith false 3 [2; 0; 0; 1; 3; 0; 7; 4; 5] 3 [1; 1; 1; 9; 1; 2; 3] 4 2 = Some [10; 7; 5; 9; 25; 18; 15] /\
  @trsm Z Z_arith false 3 [2; 0; 0; 1; 3; 0; 7; 4; 5] 3 [10; 7; 5; 9; 25; 18; 15] 4 2 = Some [1; 1; 1; 9; 1; 2; 3].
Proof. vm_compute. repeat split. Qed.

(** ** C19 (any element type, so bit-exact) *)
Theorem C19_banded_get_set : forall (F : Type) (AF : Arith F) (A : banded F) v i j,
  bd_ok A ->
  exists A', bd_set A v i j = Some A' /\ bd_ok A' /\ same_shape A' A /\
    (bd_stored A i j -> bd_get A' i j = Some v) /\
    (forall p q, p <> i \/ q <> j -> bd_get A' p q = bd_get A p q) /\
    (~ bd_stored A i j -> A' = A).
Proof. exact C19_bd_proof. Qed.
Print Assumptions C19_banded_get_set.
Theorem C19_triangular_banded_get_set : forall (F : Type) (AF : Arith F) (A : tbanded F) v i j,
  tb_ok A ->
  exists A', tb_set A v i j = Some A' /\ tb_ok A' /\ tb_n A' = tb_n A /\ tb_b A' = tb_b A /\
    (tb_stored A i j -> tb_get A' i j = Some v) /\
    (forall p q, p <> i \/ q <> j -> tb_get A' p q = tb_get A p q) /\
    (~ tb_stored A i j -> A' = A).
Proof. exact C19_tb_proof. Qed.
Print Assumptions C19_triangular_banded_get_set.
(** reads anywhere are defined, and give zero outside the band or the matrix *)
Theorem C19_reads_defined : forall (F : Type) (AF : Arith F),
  (forall (A : banded F) i j, bd_ok A -> (exists v, bd_get A i j = Some v) /\ (~ bd_stored A i j -> bd_get A i j = Some zero)) /\
  (forall (A : tbanded F) i j, tb_ok A -> (exists v, tb_get A i j = Some v) /\ (~ tb_stored A i j -> tb_get A i j = Some zero)).
Proof. exact C19_reads_proof. Qed.
Print Assumptions C19_reads_defined.
(** fresh matrices are zero; the identity constructor gives the identity *)
Theorem C19_fresh : forall (F : Type) (AF : Arith F),
  (forall m n l u i j, 0 <= m -> 0 <= n -> 0 <= l + u + 1 ->
     bd_ok (calloc_banded (F:=F) m n l u) /\ bd_get (calloc_banded (F:=F) m n l u) i j = Some zero) /\
  (forall n b i j, 0 <= n -> 0 <= b ->
     tb_ok (calloc_tbanded (F:=F) n b) /\ tb_get (calloc_tbanded (F:=F) n b) i j = Some zero) /\
  (forall n b, 0 <= n -> 0 <= b ->
     exists A, create_I_tbanded (F:=F) n b = Some A /\ tb_ok A /\ tb_n A = n /\ tb_b A = b /\
       forall i j, 0 <= i < n -> 0 <= j < n -> tb_get A i j = Some (if i =? j then one else zero)).
Proof. exact C19_fresh_proof. Qed.
Print Assumptions C19_fresh.
(** conversion keeps every entry; a view [start, stop) is the diagonal block *)
Theorem C19_conversions : forall (F : Type) (AF : Arith F),
  (forall A : tbanded F, tb_ok A -> bd_ok (tb_to_banded A) /\ forall i j, bd_get (tb_to_banded A) i j = tb_get A i j) /\
  (forall A : banded F, bd_ok A -> bd_m A = bd_n A -> 0 <= bd_u A -> bd_l A <= 0 -> 0 <= bd_l A + bd_u A + 1 ->
     exists A', banded_to_tb A = Some A' /\ tb_ok A' /\ tb_n A' = bd_n A /\ tb_b A' = bd_u A /\
       forall i j, tb_get A' i j = bd_get A i j) /\
  (forall (A : tbanded F) start stop, tb_ok A -> 0 <= start <= stop -> stop <= tb_n A ->
     tb_ok (view_tbanded A start stop) /\ tb_n (view_tbanded A start stop) = stop - start /\
     forall i j, 0 <= i < stop - start -> 0 <= j < stop - start ->
       tb_get (view_tbanded A start stop) i j = tb_get A (start + i) (start + j)).
Proof. exact C19_conversions_proof. Qed.
Print Assumptions C19_conversions.
Example C19_nonvacuous :
  let A := @calloc_banded Z Z_arith 3 4 1 2 in
  bd_ok A /\ bd_stored A 1 2 /\ ~ bd_stored A 2 0 /\ (do B <- @bd_set Z A 7 1 2; @bd_get Z Z_arith B 1 2) = Some 7.
Proof. exact C19_example_proof. Qed.

(** ** C20 *)
Theorem C20_banded_matrix_vector : forall alpha (A : banded R) x beta y,
  bd_ok A -> bd_n A <= zlen x -> bd_m A <= zlen y ->
  exists y', gbmv alpha A x beta y = Some y' /\
    writes 0 (bd_m A) y y' (fun i => (alpha * matvec (bd_n A) (bd_mat A) (vec 0 x) i + beta * vec 0 y i)%R).
Proof. exact gbmv_proof. Qed.
Print Assumptions C20_banded_matrix_vector.
Theorem C20_banded_matrix_matrix : forall alpha (A B : banded R) beta (C : banded R),
  bd_ok A -> bd_ok B -> bd_ok C ->
  bd_m C = bd_m A -> bd_m B = bd_n A -> bd_n C = bd_n B ->
  bd_l A + bd_l B <= bd_l C -> bd_u A + bd_u B <= bd_u C ->
  exists C', gbmm alpha A B beta C = Some C' /\ bd_ok C' /\ same_shape C' C /\
    forall i j, 0 <= i < bd_m C -> 0 <= j < bd_n C ->
      bd_mat C' i j = (alpha * matmul (bd_n A) (bd_mat A) (bd_mat B) i j + beta * bd_mat C i j)%R.
Proof. exact gbmm_proof. Qed.
Print Assumptions C20_banded_matrix_matrix.
Theorem C20_banded_add : forall alpha (A : banded R) beta (B C : banded R),
  bd_ok A -> bd_ok B -> bd_ok C ->
  bd_m A = bd_m C -> bd_m B = bd_m C -> bd_n A = bd_n C -> bd_n B = bd_n C ->
  bd_l A <= bd_l C -> bd_l B <= bd_l C -> bd_u A <= bd_u C -> bd_u B <= bd_u C ->
  exists C', banded_add alpha A beta B C = Some C' /\ bd_ok C' /\ same_shape C' C /\
    forall i j, 0 <= i < bd_m C -> 0 <= j < bd_n C -> bd_mat C' i j = (alpha * bd_mat A i j + beta * bd_mat B i j)%R.
Proof. exact banded_add_proof. Qed.
Print Assumptions C20_banded_add.
Theorem C20_banded_uniform_scaling_add : forall alpha (A : banded R) beta,
  bd_ok A -> bd_m A = bd_n A -> 0 <= bd_l A -> 0 <= bd_u A ->
  exists A', banded_uniform_scaling_add alpha A beta = Some A' /\ bd_ok A' /\ same_shape A' A /\
    forall i j, 0 <= i < bd_m A -> 0 <= j < bd_n A -> bd_mat A' i j = (alpha * bd_mat A i j + beta * delta i j)%R.
Proof. exact C20_scaling_proof. Qed.
Print Assumptions C20_banded_uniform_scaling_add.
(** in-place product by a tridiagonal operator: B has bandwidths at most (l,u) before *)
Theorem C20_tridiagonal_times_banded : forall alpha (A : banded R) beta (B : banded R) l u,
  bd_ok A -> bd_ok B -> bd_m A = bd_n A -> bd_m B = bd_n B -> bd_m A = bd_m B ->
  bd_l A = 1 -> bd_u A = 1 -> -1 <= l < bd_l B -> -1 <= u < bd_u B ->
  (forall i j, 0 <= i < bd_m B -> 0 <= j < bd_n B -> i > j + l \/ j > i + u -> bd_mat B i j = 0%R) ->
  exists B', tridiagonal_banded_multiplication alpha A beta B l u = Some B' /\ bd_ok B' /\ same_shape B' B /\
    forall i j, 0 <= i < bd_m B -> 0 <= j < bd_n B ->
      bd_mat B' i j = (alpha * matmul (bd_m B) (bd_mat A) (bd_mat B) i j + beta * bd_mat B i j)%R.
Proof. exact C20_trimult_proof. Qed.
Print Assumptions C20_tridiagonal_times_banded.
Example C20_nonvacuous :
  let A := Banded [0; 1; 2; 3; 4; 5; 6; 7; 0]%R 3 3 1 1 in
  let C := calloc_banded 3 3 2 2 in
  bd_ok A /\ bd_ok C /\ bd_l A + bd_l A <= bd_l C /\ bd_u A + bd_u A <= bd_u C.
Proof. exact C20_example_proof. Qed.
Example C20_computed :
  let A := Banded [0; 1; 2; 3; 4; 5; 6; 7; 0] 3 3 1 1 in
  @gbmv Z Z_arith 2 A [1; 1; 1] 10 [1; 1; 1; 5] = Some [18; 34; 34; 5] /\
  (do C <- @gbmm Z Z_arith 1 A A 0 (@calloc_banded Z Z_arith 3 3 2 2); @bd_get Z Z_arith C 1 1) = Some 52.
Proof. vm_compute. repeat split. Qed.

(** ** C21 *)
Theorem C21_realloc_grow : forall (F : Type) (AF : Arith F) (A : tbanded F) b,
  tb_ok A -> tb_b A < b ->
  exists A', realloc_tbanded A b = Some A' /\ tb_ok A' /\ tb_n A' = tb_n A /\ tb_b A' = b /\
    forall i j, tb_get A' i j = tb_get A i j.
Proof. exact (fun F AF => realloc_grow_proof). Qed.
Print Assumptions C21_realloc_grow.
Theorem C21_realloc_shrink : forall (F : Type) (AF : Arith F) (A : tbanded F) b,
  tb_ok A -> 0 <= b < tb_b A ->
  exists A', realloc_tbanded A b = Some A' /\ tb_ok A' /\ tb_n A' = tb_n A /\ tb_b A' = b /\
    forall i j, tb_get A' i j = if j - i <=? b then tb_get A i j else Some zero.
Proof. exact (fun F AF => realloc_shrink_proof). Qed.
Print Assumptions C21_realloc_shrink.
(** with the bandwidth it already has, the matrix is replaced by zero: entries are lost *)
Theorem C21_realloc_same_bandwidth_refuted :
  exists A : tbanded Z, tb_ok A /\
    exists A', @realloc_tbanded Z Z_arith A (tb_b A) = Some A' /\
      @tb_get Z Z_arith A 0 0 = Some 5 /\ @tb_get Z Z_arith A' 0 0 = Some 0.
Proof. exact C21_refuted_proof. Qed.
Print Assumptions C21_realloc_same_bandwidth_refuted.
Theorem C21_realloc_same_bandwidth_zeroes : forall (F : Type) (AF : Arith F) (A : tbanded F), tb_ok A ->
  exists A', realloc_tbanded A (tb_b A) = Some A' /\ forall i j, tb_get A' i j = Some zero.
Proof. exact (fun F AF => realloc_same_proof). Qed.
Print Assumptions C21_realloc_same_bandwidth_zeroes.
Example C21_nonvacuous :
  tb_ok (TBanded [0; 2; 1; 3; 4; 5] 3 1) /\
  (do B <- @realloc_tbanded Z Z_arith (TBanded [0; 2; 1; 3; 4; 5] 3 1) 2; @tb_get Z Z_arith B 1 2) = Some 4.
Proof. split; [repeat split; cbn; lia|vm_compute; reflexivity]. Qed.

(** ** C44 *)
Theorem C44_modified_multiply : forall trans nv (K Rm : tbanded R) x o,
  mp_ok nv K Rm -> fits o (tb_n Rm) x ->
  exists x', mpmv trans nv K Rm x o = Some x' /\
    acts o (tb_n Rm) x x' (mp_rel (tb_n Rm) (tb_mat K) (tb_mat Rm) nv trans).
Proof. exact mpmv_proof. Qed.
Print Assumptions C44_modified_multiply.
Theorem C44_solve_inverts_multiply : forall trans nv (K Rm : tbanded R) x o,
  mp_ok nv K Rm -> fits o (tb_n Rm) x ->
  (do y <- mpmv trans nv K Rm x o; mpsv trans nv K Rm y o) = Some x /\
  (do y <- mpsv trans nv K Rm x o; mpmv trans nv K Rm y o) = Some x.
Proof. exact mpsv_mpmv_proof. Qed.
Print Assumptions C44_solve_inverts_multiply.
(** mpmm and mpsm: every column, and inverse to each other *)
Theorem C44_columnwise : forall trans nv (K Rm : tbanded R) B LDB N,
  mp_ok nv K Rm -> 0 <= N -> fits_mat 0 (tb_n Rm) N LDB B ->
  (exists B', mpmm trans nv K Rm B LDB N = Some B' /\
     acts_columns (tb_n Rm) N LDB B B' (mp_rel (tb_n Rm) (tb_mat K) (tb_mat Rm) nv trans)) /\
  (do C <- mpmm trans nv K Rm B LDB N; mpsm trans nv K Rm C LDB N) = Some B /\
  (do C <- mpsm trans nv K Rm B LDB N; mpmm trans nv K Rm C LDB N) = Some B.
Proof. exact C44_columnwise_proof. Qed.
Print Assumptions C44_columnwise.
Example C44_nonvacuous : mp_ok 2 (TBanded [0; 1; 1; 1; 4; 1]%R 3 1) (TBanded [0; 2; 1; 3; 4; 5]%R 3 1).
Proof. exact C44_example_proof. Qed.

(** ** C48 *)
Theorem C48_operator_clenshaw : forall n c incc A B C (X : banded R) phi0,
  1 <= n -> bd_ok X -> bd_m X = bd_n X -> bd_l X = 1 -> bd_u X = 1 ->
  n <= zlen A -> n <= zlen B -> n + 1 <= zlen C -> strided n c incc ->
  exists M, operator_clenshaw n c incc A B C X phi0 = Some M /\
    bd_ok M /\ bd_m M = bd_m X /\ bd_n M = bd_m X /\ bd_l M = n - 1 /\ bd_u M = n - 1 /\
    forall i j, 0 <= i < bd_m X -> 0 <= j < bd_m X ->
      bd_mat M i j = (phi0 * sumZ n (fun k =>
        nthZ 0 c (k * incc) * mpoly (bd_m X) (nthZ 0 A) (nthZ 0 B) (nthZ 0 C) (bd_mat X) k i j))%R.
Proof. exact operator_clenshaw_proof. Qed.
Print Assumptions C48_operator_clenshaw.
Example C48_nonvacuous :
  bd_ok (Banded [0; 1; 2; 3; 4; 5; 6; 7; 0]%R 3 3 1 1) /\ strided 2 [1; 0; 2]%R 2.
Proof. exact C48_example_proof. Qed.
(** p_0 = 1, p_1 = x: 1 + 2 X *)
Example C48_computed :
  (do M <- @operator_clenshaw Z Z_arith 2 [1; 0; 2] 2 [1; 1] [0; 0] [0; 0; 0] (Banded [0; 1; 2; 3; 4; 5; 6; 7; 0] 3 3 1 1) 1;
   do a <- @bd_get Z Z_arith M 0 0; do b <- @bd_get Z Z_arith M 1 2; Some (a, b)) = Some (3, 12).
Proof. vm_compute. reflexivity. Qed.
