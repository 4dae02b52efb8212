(** * C30: divide-and-conquer eigenvector plans *)
From Coq Require Import ZArith List Reals.
From Verif Require Import Arith Base SpecSum SpecLin MBanded SpecBanded MHier SpecHier MButter SpecButter PButter2 PButter3 PButterThms.
Import ListNotations.
Open Scope Z_scope.

(** [tb_V E] is the upper-triangular matrix the plan stands for: the leaf matrix, or
    [[V1, V1 W], [0, V2]] with W = -C o (X Y^T) + S.  The multiply applies it (or its transpose) to
    the vector in place, for any contents of the scratch arrays and any thread number [tn]. *)
Theorem C30_multiply : forall BS tn E, 0 <= tn -> tb_wf BS tn E -> forall t x o, fits o (tbeig_n E) x ->
  exists x', bfmv BS tn t E x o = Some x' /\ acts o (tbeig_n E) x x' (isprod (tbeig_n E) (op t (tb_V E))).
Proof. exact bfmv_proof. Qed.
Print Assumptions C30_multiply.
Theorem C30_solve : forall BS tn E, 0 <= tn -> tb_wf BS tn E -> nonzero_diag (tbeig_n E) (tb_V E) -> forall t x o, fits o (tbeig_n E) x ->
  exists x', bfsv BS tn t E x o = Some x' /\ acts o (tbeig_n E) x x' (fun v w => isprod (tbeig_n E) (op t (tb_V E)) w v).
Proof. exact bfsv_proof. Qed.
Print Assumptions C30_solve.
Theorem C30_inverse : forall BS tn E, 0 <= tn -> tb_wf BS tn E -> nonzero_diag (tbeig_n E) (tb_V E) -> forall t x o, fits o (tbeig_n E) x ->
  (do y <- bfmv BS tn t E x o; bfsv BS tn t E y o) = Some x /\ (do y <- bfsv BS tn t E x o; bfmv BS tn t E y o) = Some x.
Proof. exact bf_inverse_proof. Qed.
Print Assumptions C30_inverse.
(** the matrix versions act on every column and are inverse to each other *)
Theorem C30_columns : forall BS tn E, 0 <= tn -> tb_wf BS tn E -> nonzero_diag (tbeig_n E) (tb_V E) ->
  forall t B LDB N, 0 <= N -> fits_mat 0 (tbeig_n E) N LDB B ->
  (exists B', bfmm BS tn t E B LDB N = Some B' /\ acts_columns (tbeig_n E) N LDB B B' (isprod (tbeig_n E) (op t (tb_V E)))) /\
  (do B' <- bfmm BS tn t E B LDB N; bfsm BS tn t E B' LDB N) = Some B /\ (do B' <- bfsm BS tn t E B LDB N; bfmm BS tn t E B' LDB N) = Some B.
Proof. exact C30_columns_proof. Qed.
Print Assumptions C30_columns.
Example C30_example : tb_wf 3 0 (tree3 IZR) /\ nonzero_diag 3 (tb_V (tree3 IZR)).
Proof. exact C30_example_proof. Qed.
Example C30_computed :
  @bfmv Z Z_arith 3 0 false (tree3 (fun z : Z => z)) [1; 10; 100] 0 = Some [-1849; 410; 100] /\
  @bfsv Z Z_arith 3 0 false (tree3 (fun z : Z => z)) [-1849; 410; 100] 0 = Some [1; 10; 100] /\
  @bfmv Z Z_arith 3 0 true (tree3 (fun z : Z => z)) [1; 10; 100] 0 = Some [1; -95; 132] /\
  @bfsv Z Z_arith 3 0 true (tree3 (fun z : Z => z)) [1; -95; 132] 0 = Some [1; 10; 100].
Proof. exact C30_computed_proof. Qed.

(** the variant with a low-rank coupling *)
Theorem C30_multiply_ADI : forall BS E, ad_wf BS E -> forall t x o, fits o (tbadi_n E) x ->
  exists x', bfmv_ADI BS t E x o = Some x' /\ acts o (tbadi_n E) x x' (isprod (tbadi_n E) (op t (ad_V E))).
Proof. exact bfmv_ADI_proof. Qed.
Print Assumptions C30_multiply_ADI.
Theorem C30_solve_ADI : forall BS E, ad_wf BS E -> nonzero_diag (tbadi_n E) (ad_V E) -> forall t x o, fits o (tbadi_n E) x ->
  exists x', bfsv_ADI BS t E x o = Some x' /\ acts o (tbadi_n E) x x' (fun v w => isprod (tbadi_n E) (op t (ad_V E)) w v).
Proof. exact bfsv_ADI_proof. Qed.
Print Assumptions C30_solve_ADI.
Theorem C30_inverse_ADI : forall BS E, ad_wf BS E -> nonzero_diag (tbadi_n E) (ad_V E) -> forall t x o, fits o (tbadi_n E) x ->
  (do y <- bfmv_ADI BS t E x o; bfsv_ADI BS t E y o) = Some x /\ (do y <- bfsv_ADI BS t E x o; bfmv_ADI BS t E y o) = Some x.
Proof. exact bf_ADI_inverse_proof. Qed.
Print Assumptions C30_inverse_ADI.
Theorem C30_columns_ADI : forall BS E, ad_wf BS E -> nonzero_diag (tbadi_n E) (ad_V E) ->
  forall t B LDB N, 0 <= N -> fits_mat 0 (tbadi_n E) N LDB B ->
  (exists B', bfmm_ADI BS t E B LDB N = Some B' /\ acts_columns (tbadi_n E) N LDB B B' (isprod (tbadi_n E) (op t (ad_V E)))) /\
  (do B' <- bfmm_ADI BS t E B LDB N; bfsm_ADI BS t E B' LDB N) = Some B /\ (do B' <- bfsm_ADI BS t E B LDB N; bfmm_ADI BS t E B' LDB N) = Some B.
Proof. exact C30_columns_ADI_proof. Qed.
Print Assumptions C30_columns_ADI.
Example C30_example_ADI : ad_wf 2 (adi2 IZR) /\ nonzero_diag 2 (ad_V (adi2 IZR)) /\
  @bfmv_ADI Z Z_arith 2 false (adi2 (fun z : Z => z)) [1; 10] 0 = Some [151; 10] /\ @bfsv_ADI Z Z_arith 2 false (adi2 (fun z : Z => z)) [151; 10] 0 = Some [1; 10].
Proof. exact C30_example_ADI_proof. Qed.

(** scaling the rows or the columns of a plan scales those of the matrix *)
Theorem C30_scale_rows : forall BS tn alpha x E, tb_wf BS tn E -> forall o, fits o (tbeig_n E) x ->
  exists E', scale_rows_tb BS alpha x o E = Some E' /\ tb_wf BS tn E' /\ tbeig_n E' = tbeig_n E /\
    forall i j, 0 <= i < tbeig_n E -> 0 <= j < tbeig_n E -> tb_V E' i j = (alpha * vec o x i * tb_V E i j)%R.
Proof. exact scale_rows_tb_proof. Qed.
Print Assumptions C30_scale_rows.
Theorem C30_scale_columns : forall BS tn alpha x E, tb_wf BS tn E -> no_sparse E -> forall o, fits o (tbeig_n E) x -> (forall i, 0 <= i < tbeig_n E -> vec o x i <> 0%R) ->
  exists E', scale_columns_tb BS alpha x o E = Some E' /\ tb_wf BS tn E' /\ tbeig_n E' = tbeig_n E /\
    forall i j, 0 <= i < tbeig_n E -> 0 <= j < tbeig_n E -> tb_V E' i j = (alpha * vec o x j * tb_V E i j)%R.
Proof. exact scale_columns_tb_proof. Qed.
Print Assumptions C30_scale_columns.
(** [no_sparse] is needed: with coincident eigenvalues the sparse part is not scaled *)
Theorem C30_scale_columns_sparse_refuted :
  exists E x, tb_wf 3 0 E /\ fits 0 (tbeig_n E) x /\ (forall i, 0 <= i < tbeig_n E -> vec 0 x i <> 0%R) /\
    exists E', scale_columns_tb 3 1%R x 0 E = Some E' /\ tb_V E' 0 2 <> (1 * vec 0 x 2 * tb_V E 0 2)%R.
Proof. exact C30_scale_columns_sparse_refuted_proof. Qed.
Print Assumptions C30_scale_columns_sparse_refuted.
Theorem C30_scale_rows_ADI : forall BS alpha x E, ad_wf BS E -> forall o, fits o (tbadi_n E) x ->
  exists E', scale_rows_ad BS alpha x o E = Some E' /\ ad_wf BS E' /\ tbadi_n E' = tbadi_n E /\
    forall i j, 0 <= i < tbadi_n E -> 0 <= j < tbadi_n E -> ad_V E' i j = (alpha * vec o x i * ad_V E i j)%R.
Proof. exact scale_rows_ad_proof. Qed.
Print Assumptions C30_scale_rows_ADI.
Theorem C30_scale_columns_ADI : forall BS alpha x E, ad_wf BS E -> forall o, fits o (tbadi_n E) x -> (forall i, 0 <= i < tbadi_n E -> vec o x i <> 0%R) ->
  exists E', scale_columns_ad BS alpha x o E = Some E' /\ ad_wf BS E' /\ tbadi_n E' = tbadi_n E /\
    forall i j, 0 <= i < tbadi_n E -> 0 <= j < tbadi_n E -> ad_V E' i j = (alpha * vec o x j * ad_V E i j)%R.
Proof. exact scale_columns_ad_proof. Qed.
Print Assumptions C30_scale_columns_ADI.
