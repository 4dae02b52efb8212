(** * C45: 2x2-block upper-triangular matrices *)
From Coq Require Import ZArith List Reals.
From Verif Require Import Arith Base SpecSum SpecLin MBanded SpecBanded MHier MEig MButter SpecButter MBlock SpecBlock PBlock2 PBlock3 PBlock4 PBlock5 PBlock6 PBlockThms.
Import ListNotations.
Open Scope Z_scope.

(** C45: assembling four triangular banded blocks of any bandwidths interleaves them, and blocks of
    different sizes are rejected *)
Theorem C45_create : forall d00 d01 d10 d11 : tbanded R, tb_ok d00 -> tb_ok d01 -> tb_ok d10 -> tb_ok d11 -> tb_n d01 = tb_n d00 -> tb_n d10 = tb_n d00 -> tb_n d11 = tb_n d00 ->
  exists A, create_btband d00 d01 d10 d11 = Some A /\ bt_ok A /\ bt_n A = tb_n d00 /\
    forall i j, 0 <= i < tb_n d00 -> 0 <= j < tb_n d00 ->
      bt_mat A (2 * i) (2 * j) = tb_mat d00 i j /\ bt_mat A (2 * i) (2 * j + 1) = tb_mat d01 i j /\
      bt_mat A (2 * i + 1) (2 * j) = tb_mat d10 i j /\ bt_mat A (2 * i + 1) (2 * j + 1) = tb_mat d11 i j.
Proof. exact create_btband_proof. Qed.
Print Assumptions C45_create.
Theorem C45_create_rejects : forall d00 d01 d10 d11 : tbanded R, tb_n d01 <> tb_n d00 \/ tb_n d10 <> tb_n d00 \/ tb_n d11 <> tb_n d00 -> create_btband d00 d01 d10 d11 = None.
Proof. exact create_btband_sizes. Qed.
Print Assumptions C45_create_rejects.
(** C45: storing a 2x2 block inside the band sets its four entries, and no others *)
Theorem C45_store : forall A v i j, bt_ok A -> 0 <= i -> j < bt_n A -> 0 <= j - i <= bt_b A ->
  exists A', bt_set A v i j = Some A' /\ bt_ok A' /\ bt_n A' = bt_n A /\ bt_b A' = bt_b A /\ bt_get A' i j = Some v /\
    bt_mat A' (2 * i) (2 * j) = m00 v /\ bt_mat A' (2 * i) (2 * j + 1) = m01 v /\ bt_mat A' (2 * i + 1) (2 * j) = m10 v /\ bt_mat A' (2 * i + 1) (2 * j + 1) = m11 v /\
    forall p q, 0 <= p < 2 * bt_n A -> 0 <= q < 2 * bt_n A -> ~ (p / 2 = i /\ q / 2 = j) -> bt_mat A' p q = bt_mat A p q.
Proof. exact bt_store_proof. Qed.
Print Assumptions C45_store.
(** C45: conversion to an ordinary triangular banded matrix keeps the upper triangle (and drops the
    entries below the diagonal), whatever the fresh memory holds *)
Theorem C45_convert : forall junk A, bt_ok A -> exists T, btband_to_tb junk A = Some T /\ tb_ok T /\ tb_n T = 2 * bt_n A /\
  forall i j, 0 <= i < 2 * bt_n A -> 0 <= j < 2 * bt_n A -> tb_mat T i j = upper (bt_mat A) i j.
Proof. exact btband_to_tb_proof. Qed.
Print Assumptions C45_convert.
(** C45: multiply and solve, plain and transposed *)
Theorem C45_multiply : forall A t x o, bt_ok A -> fits o (2 * bt_n A) x ->
  exists x', btbmv t A x o = Some x' /\ acts o (2 * bt_n A) x x' (isprod (2 * bt_n A) (op t (bt_mat A))).
Proof. exact btbmv_proof. Qed.
Print Assumptions C45_multiply.
Theorem C45_solve : forall A t x o, bt_ok A -> nonsingular_blocks (bt_n A) (bt_mat A) -> fits o (2 * bt_n A) x ->
  exists x', btbsv t A x o = Some x' /\ acts o (2 * bt_n A) x x' (fun v w => isprod (2 * bt_n A) (op t (bt_mat A)) w v).
Proof. exact btbsv_proof. Qed.
Print Assumptions C45_solve.
Theorem C45_inverse : forall A t x o, bt_ok A -> nonsingular_blocks (bt_n A) (bt_mat A) -> fits o (2 * bt_n A) x ->
  (do y <- btbmv t A x o; btbsv t A y o) = Some x /\ (do y <- btbsv t A x o; btbmv t A y o) = Some x.
Proof. exact btb_inverse_proof. Qed.
Print Assumptions C45_inverse.
Example C45_nonvacuous : bt_ok (blkU IZR) /\ nonsingular_blocks 2 (bt_mat (blkU IZR)).
Proof. exact (conj (proj2 (proj2 (bt_ok_ex IZR))) nonsingular_ex). Qed.
Example C45_computed :
  @btbmv Z Z_arith false (blkU (fun z => z)) [1; 10; 100; 1000] 0 = Some [4312; 6511; 2300; 1100] /\
  @btbsv Z Z_arith false (blkU (fun z => z)) [4312; 6511; 2300; 1100] 0 = Some [1; 10; 100; 1000] /\
  @btbmv Z Z_arith true (blkU (fun z => z)) [1; 10; 100; 1000] 0 = Some [12; 11; 1353; 1264] /\
  @btbsv Z Z_arith true (blkU (fun z => z)) [12; 11; 1353; 1264] 0 = Some [1; 10; 100; 1000].
Proof. exact block_computed. Qed.
(** C45: the eigenvalues are the two roots of det(A_jj - l B_jj), in increasing order; a diagonal
    block without a real root is refused *)
Theorem C45_eigenvalues : forall A B lambda, bt_ok A -> bt_ok B -> bt_n B = bt_n A -> fits 0 (2 * bt_n A) lambda ->
  (forall j, 0 <= j < bt_n A -> det2 (bt_mat B) j <> 0%R /\ exists l, l <> 0%R /\ pencil_det2 (bt_mat A) (bt_mat B) l j = 0%R) ->
  exists lambda', btband_eigenvalues A B lambda = Some lambda' /\ zlen lambda' = zlen lambda /\ (forall p, 2 * bt_n A <= p -> zget lambda' p = zget lambda p) /\
    forall j, 0 <= j < bt_n A -> (vec 0 lambda' (2 * j) <= vec 0 lambda' (2 * j + 1))%R /\
      forall l, pencil_det2 (bt_mat A) (bt_mat B) l j = (det2 (bt_mat B) j * (l - vec 0 lambda' (2 * j)%Z) * (l - vec 0 lambda' (2 * j + 1)%Z))%R.
Proof. exact C45_eigenvalues_proof. Qed.
Print Assumptions C45_eigenvalues.
Theorem C45_no_real_eigenvalues : forall A B lambda j, bt_ok A -> bt_ok B -> bt_n B = bt_n A -> 0 <= j < bt_n A ->
  (forall l, pencil_det2 (bt_mat A) (bt_mat B) l j <> 0%R) -> btband_eigenvalues A B lambda = None.
Proof. exact btband_eigenvalues_complex. Qed.
Print Assumptions C45_no_real_eigenvalues.
(** C45: the eigenvectors satisfy A V = B V Lambda for any first entries of the diagonal blocks of V,
    which are kept *)
Theorem C45_eigenvectors : forall A B lambda lambda' V, bt_ok A -> bt_ok B -> bt_n B = bt_n A -> 2 * bt_n A <= zlen lambda -> 2 * bt_n A * (2 * bt_n A) <= zlen V ->
  (forall j, 0 <= j < bt_n A -> det2 (bt_mat B) j <> 0%R /\ exists l, l <> 0%R /\ pencil_det2 (bt_mat A) (bt_mat B) l j = 0%R) ->
  btband_eigenvalues A B lambda = Some lambda' ->
  (forall j p, 0 <= j < bt_n A -> p = 0 \/ p = 1 -> (bt_mat A (2 * j + 1) (2 * j + 1) - vec 0 lambda' (2 * j + p) * bt_mat B (2 * j + 1)%Z (2 * j + 1)%Z)%R <> 0%R) ->
  (forall i j p, 0 <= i < j -> j < bt_n A -> p = 0 \/ p = 1 -> pencil_det2 (bt_mat A) (bt_mat B) (vec 0 lambda' (2 * j + p)) i <> 0%R) ->
  no_block_lower (bt_n A) V ->
  exists V', btband_eigenvectors A B V = Some V' /\ zlen V' = zlen V /\ no_block_lower (bt_n A) V' /\
    (forall j p, 0 <= j < bt_n A -> p = 0 \/ p = 1 -> mat 0 (2 * bt_n A) V' (2 * j) (2 * j + p) = mat 0 (2 * bt_n A) V (2 * j) (2 * j + p)) /\
    (forall i c, 0 <= i < 2 * bt_n A -> 0 <= c < 2 * bt_n A ->
      matmul (2 * bt_n A) (bt_mat A) (mat 0 (2 * bt_n A) V') i c = (vec 0 lambda' c * matmul (2 * bt_n A) (bt_mat B) (mat 0 (2 * bt_n A) V') i c)%R).
Proof. exact btband_eigenvectors_proof. Qed.
Print Assumptions C45_eigenvectors.
Example C45_eigen_nonvacuous : let A := blkA IZR in let B := blkI IZR in let V := [1; 0; 0; 0; 1; 0; 0; 0; 1; 1; 1; 0; 1; 1; 1; 0]%R in
  bt_ok A /\ bt_ok B /\ bt_n B = bt_n A /\ 2 * bt_n A * (2 * bt_n A) <= zlen V /\
  (forall j, 0 <= j < bt_n A -> det2 (bt_mat B) j <> 0%R /\ exists l, l <> 0%R /\ pencil_det2 (bt_mat A) (bt_mat B) l j = 0%R) /\
  no_block_lower (bt_n A) V /\
  exists lambda', btband_eigenvalues A B [0; 0; 0; 0]%R = Some lambda' /\ (forall j, 0 <= j < 2 -> vec 0 lambda' (2 * j) = IZR (4 * j + 1) /\ vec 0 lambda' (2 * j + 1) = IZR (4 * j + 3)) /\
  (forall j p, 0 <= j < bt_n A -> p = 0 \/ p = 1 -> (bt_mat A (2 * j + 1) (2 * j + 1) - vec 0 lambda' (2 * j + p) * bt_mat B (2 * j + 1)%Z (2 * j + 1)%Z)%R <> 0%R) /\
  (forall i j p, 0 <= i < j -> j < bt_n A -> p = 0 \/ p = 1 -> pencil_det2 (bt_mat A) (bt_mat B) (vec 0 lambda' (2 * j + p)) i <> 0%R).
Proof. exact eigen_ex. Qed.

(** C45: dense matrices; only the block upper triangle is read *)
Theorem C45_dense_multiply : forall t n A LDA x o, 0 <= n -> fits_mat 0 (2 * n) (2 * n) LDA A -> fits o (2 * n) x ->
  exists x', btrmv t n A LDA x o = Some x' /\ acts o (2 * n) x x' (isprod (2 * n) (op t (block_upper (mat 0 LDA A)))).
Proof. exact btrmv_proof. Qed.
Print Assumptions C45_dense_multiply.
Theorem C45_dense_solve : forall t n A LDA x o, 0 <= n -> fits_mat 0 (2 * n) (2 * n) LDA A -> nonsingular_blocks n (mat 0 LDA A) -> fits o (2 * n) x ->
  exists x', btrsv t n A LDA x o = Some x' /\ acts o (2 * n) x x' (fun v w => isprod (2 * n) (op t (block_upper (mat 0 LDA A))) w v).
Proof. exact btrsv_proof. Qed.
Print Assumptions C45_dense_solve.
Theorem C45_dense_inverse : forall t n A LDA x o, 0 <= n -> fits_mat 0 (2 * n) (2 * n) LDA A -> nonsingular_blocks n (mat 0 LDA A) -> fits o (2 * n) x ->
  (do y <- btrmv t n A LDA x o; btrsv t n A LDA y o) = Some x /\ (do y <- btrsv t n A LDA x o; btrmv t n A LDA y o) = Some x.
Proof. exact btr_inverse_proof. Qed.
Print Assumptions C45_dense_inverse.
Theorem C45_dense_columns : forall t n A LDA B LDB N, 0 <= n -> 0 <= N -> fits_mat 0 (2 * n) (2 * n) LDA A -> nonsingular_blocks n (mat 0 LDA A) -> fits_mat 0 (2 * n) N LDB B ->
  (exists B', btrmm t n A LDA B LDB N = Some B' /\ acts_columns (2 * n) N LDB B B' (isprod (2 * n) (op t (block_upper (mat 0 LDA A))))) /\
  (do B' <- btrmm t n A LDA B LDB N; btrsm t n A LDA B' LDB N) = Some B /\ (do B' <- btrsm t n A LDA B LDB N; btrmm t n A LDA B' LDB N) = Some B.
Proof. exact btr_columns_proof. Qed.
Print Assumptions C45_dense_columns.
Example C45_dense_nonvacuous : nonsingular_blocks 2 (mat 0 4 (dense4 IZR)).
Proof. exact dense4_nonsingular. Qed.
Example C45_dense_computed :
  @btrmv Z Z_arith false 2 (dense4 (fun z => z)) 4 [1; 10; 100; 1000] 0 = Some [4312; 6511; 2300; 1100] /\
  @btrsv Z Z_arith false 2 (dense4 (fun z => z)) 4 [4312; 6511; 2300; 1100] 0 = Some [1; 10; 100; 1000] /\
  @btrmv Z Z_arith true 2 (dense4 (fun z => z)) 4 [1; 10; 100; 1000] 0 = Some [12; 11; 1353; 1264] /\
  @btrsv Z Z_arith true 2 (dense4 (fun z => z)) 4 [12; 11; 1353; 1264] 0 = Some [1; 10; 100; 1000].
Proof. exact dense_computed. Qed.

(** C45: eigenvector plans: the matrix [bf_mat E] is the 2x2 rotations times the matrix of the inner
    plan; any thread number, any contents of the scratch *)
Theorem C45_plan_multiply : forall BS tn E, 0 <= tn -> bf_wf BS tn E -> forall t x o, fits o (2 * bf_n E) x ->
  exists x', bbfmv BS tn t E x o = Some x' /\ acts o (2 * bf_n E) x x' (isprod (2 * bf_n E) (op t (bf_mat E))).
Proof. exact bbfmv_proof. Qed.
Print Assumptions C45_plan_multiply.
Theorem C45_plan_solve : forall BS tn E, 0 <= tn -> bf_wf BS tn E -> unit_rotations (bf_n E) (bf_s E) (bf_c E) -> nonzero_diag (2 * bf_n E) (tb_V (bf_F E)) ->
  forall t x o, fits o (2 * bf_n E) x ->
  exists x', bbfsv BS tn t E x o = Some x' /\ acts o (2 * bf_n E) x x' (fun v w => isprod (2 * bf_n E) (op t (bf_mat E)) w v).
Proof. exact bbfsv_proof. Qed.
Print Assumptions C45_plan_solve.
Theorem C45_plan_inverse : forall BS tn E, 0 <= tn -> bf_wf BS tn E -> unit_rotations (bf_n E) (bf_s E) (bf_c E) -> nonzero_diag (2 * bf_n E) (tb_V (bf_F E)) ->
  forall t x o, fits o (2 * bf_n E) x ->
  (do y <- bbfmv BS tn t E x o; bbfsv BS tn t E y o) = Some x /\ (do y <- bbfsv BS tn t E x o; bbfmv BS tn t E y o) = Some x.
Proof. exact bbf_inverse_proof. Qed.
Print Assumptions C45_plan_inverse.
Theorem C45_plan_columns : forall BS tn E, 0 <= tn -> bf_wf BS tn E -> unit_rotations (bf_n E) (bf_s E) (bf_c E) -> nonzero_diag (2 * bf_n E) (tb_V (bf_F E)) ->
  forall t B LDB N, 0 <= N -> fits_mat 0 (2 * bf_n E) N LDB B ->
  (exists B', bbfmm BS tn t E B LDB N = Some B' /\ acts_columns (2 * bf_n E) N LDB B B' (isprod (2 * bf_n E) (op t (bf_mat E)))) /\
  (do B' <- bbfmm BS tn t E B LDB N; bbfsm BS tn t E B' LDB N) = Some B /\ (do B' <- bbfsm BS tn t E B LDB N; bbfmm BS tn t E B' LDB N) = Some B.
Proof. exact bbf_columns_proof. Qed.
Print Assumptions C45_plan_columns.
(** C45: with DBLOCK and RBLOCK the multiply applies every second row and column of the matrix, and
    the solve those of its inverse U *)
Theorem C45_half_multiply : forall BS tn E, 0 <= tn -> bf_wf BS tn E -> forall t d r x o, fits o (bf_n E) x ->
  exists x', bbbfmv BS tn t d r E x o = Some x' /\ acts o (bf_n E) x x' (isprod (bf_n E) (half_block r d (op t (bf_mat E)))).
Proof. exact bbbfmv_proof. Qed.
Print Assumptions C45_half_multiply.
Theorem C45_half_columns : forall BS tn E, 0 <= tn -> bf_wf BS tn E -> forall t d r B LDB N, 0 <= N -> fits_mat 0 (bf_n E) N LDB B ->
  exists B', bbbfmm BS tn t d r E B LDB N = Some B' /\ acts_columns (bf_n E) N LDB B B' (isprod (bf_n E) (half_block r d (op t (bf_mat E)))).
Proof. exact bbbfmm_proof. Qed.
Print Assumptions C45_half_columns.
Theorem C45_half_solve : forall BS tn E, 0 <= tn -> bf_wf BS tn E -> forall t d r x o U,
  unit_rotations (bf_n E) (bf_s E) (bf_c E) -> nonzero_diag (2 * bf_n E) (tb_V (bf_F E)) ->
  (forall i j, 0 <= i < 2 * bf_n E -> 0 <= j < 2 * bf_n E -> matmul (2 * bf_n E) (op t (bf_mat E)) U i j = delta i j) -> fits o (bf_n E) x ->
  exists x', bbbfsv BS tn t d r E x o = Some x' /\ acts o (bf_n E) x x' (isprod (bf_n E) (half_block d r U)).
Proof. exact bbbfsv_proof. Qed.
Print Assumptions C45_half_solve.
Example C45_plan_nonvacuous : bf_wf 5 0 planR /\ unit_rotations 2 (bf_s planR) (bf_c planR) /\ nonzero_diag 4 (tb_V (bf_F planR)).
Proof. exact planE_ok. Qed.
Example C45_plan_computed :
  @bbfmv Z Z_arith 5 0 false (planE (fun z => z) 1 0) [1; 10; 100; 1000] 0 = Some [-6390; 5321; -7100; 1000] /\
  @bbfsv Z Z_arith 5 0 false (planE (fun z => z) 1 0) [-6390; 5321; -7100; 1000] 0 = Some [1; 10; 100; 1000] /\
  @bbbfmv Z Z_arith 5 0 false true false (planE (fun z => z) 1 0) [10; 1000] 0 = Some [-5990; -7000].
Proof. exact plan_computed. Qed.
