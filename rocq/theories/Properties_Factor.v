(** * Property theorems: factorisations and tridiagonal kernels (C22-C24)

    Source: src/banded_source.c, src/tridiagonal_source.c.  Vocabulary: SpecLin.v, SpecBanded.v
    ([bd_mat], [upper], [lower], [unit_lower], [same_matrix], [positive_definite],
    [orthogonal]), SpecTri.v ([st_mat], [kt_mat], [bi_mat]). *)
From Coq Require Import ZArith List Reals Lra Lia Bool.
From Verif Require Import Arith Base BaseFacts SpecSum SpecLin MBanded SpecBanded MFactor MTridiag SpecTri PFactor2 PTridiag PFactorThms.
Import ListNotations.
Open Scope Z_scope.

(** ** C22 *)
(** elimination without pivoting: when no pivot vanishes, L U = A; in bounds always *)
Theorem C22_lu : forall (A : banded R),
  bd_ok A -> bd_m A = bd_n A -> 0 <= bd_l A -> 0 <= bd_u A ->
  exists F, banded_lufact A = Some F /\ bd_ok F /\ same_shape F A /\
    (nonzero_diag (bd_n A) (bd_mat F) ->
     same_matrix (bd_n A) (bd_n A) (matmul (bd_n A) (unit_lower (bd_mat F)) (upper (bd_mat F))) (bd_mat A)).
Proof. exact lufact_proof. Qed.
Print Assumptions C22_lu.
(** Cholesky: R^T R = A when the pivots are positive, and they are for every positive definite A;
    the strictly lower part of the factor keeps the multipliers R(k,r)/R(k,k) *)
Theorem C22_cholesky : forall (A : banded R),
  bd_ok A -> bd_m A = bd_n A -> bd_l A = bd_u A -> 0 <= bd_u A -> symmetric (bd_n A) (bd_mat A) ->
  exists F, banded_cholfact A = Some F /\ bd_ok F /\ same_shape F A /\
    ((forall k, 0 <= k < bd_n A -> (0 < bd_mat F k k)%R) ->
       same_matrix (bd_n A) (bd_n A) (matmul (bd_n A) (transp (upper (bd_mat F))) (upper (bd_mat F))) (bd_mat A) /\
       (forall k r, 0 <= k < r -> r < bd_n A -> (bd_mat F r k * bd_mat F k k = bd_mat F k r)%R)) /\
    (positive_definite (bd_n A) (bd_mat A) -> forall k, 0 <= k < bd_n A -> (0 < bd_mat F k k)%R).
Proof. exact cholfact_proof. Qed.
Print Assumptions C22_cholesky.
(** A = [1 2; 2 5] *)
Example C22_nonvacuous :
  let A := Banded [0; 1; 2; 2; 5; 0]%R 2 2 1 1 in
  bd_ok A /\ bd_m A = bd_n A /\ bd_l A = bd_u A /\ symmetric (bd_n A) (bd_mat A) /\ positive_definite (bd_n A) (bd_mat A).
Proof. exact C22_pd_example_proof. Qed.
(** [2 1 0; 4 5 6; 0 3 8] = [1; 2 1; 0 1 1] [2 1 0; 3 6; 2], and
    [1 2 0; 2 5 3; 0 3 13] = R^T R, R = [1 2 0; 1 3; 2] *)
Example C22_computed :
  @banded_lufact Z Z_arith (Banded [0; 2; 4; 1; 5; 3; 6; 8; 0] 3 3 1 1) = Some (Banded [0; 2; 2; 1; 3; 1; 6; 2; 0] 3 3 1 1) /\
  @banded_cholfact Z Z_arith (Banded [0; 1; 2; 2; 5; 3; 3; 13; 0] 3 3 1 1) = Some (Banded [0; 1; 2; 2; 1; 3; 3; 2; 0] 3 3 1 1).
Proof. vm_compute. repeat split. Qed.

(** ** C23 *)
(** the computed reflector maps the pivot vector to (plus or minus its norm) e_0, is an
    involution and preserves norms; it reads and writes n entries only *)
Theorem C23_reflector : forall n D v, 1 <= n -> fits v n D ->
  exists D' tau, compute_reflector n D v = Some (D', tau) /\ zlen D' = zlen D /\
    (vec v D' 0 * vec v D' 0 = sumsq v n D)%R /\
    (exists D'', apply_reflector n (other_v D' v) tau D v = Some D'' /\ writes v n D D'' (fun i => if i =? 0 then vec v D' 0 else 0%R)) /\
    (forall A o, fits o n A -> exists A', apply_reflector n (other_v D' v) tau A o = Some A' /\ sumsq o n A' = sumsq o n A /\
       apply_reflector n (other_v D' v) tau A' o = Some A).
Proof. exact C23_reflector_proof. Qed.
Print Assumptions C23_reflector.
Theorem C23_ql_reflector : forall n D v, 1 <= n -> fits v n D ->
  exists D' tau, compute_ql_reflector n D v = Some (D', tau) /\ zlen D' = zlen D /\
    (vec v D' (n - 1) * vec v D' (n - 1) = sumsq v n D)%R /\
    (exists D'', apply_ql_reflector n (other_v D' v) tau D v = Some D'' /\ writes v n D D'' (fun i => if i =? n - 1 then vec v D' (n - 1) else 0%R)) /\
    (forall A o, fits o n A -> exists A', apply_ql_reflector n (other_v D' v) tau A o = Some A' /\ sumsq o n A' = sumsq o n A /\
       apply_ql_reflector n (other_v D' v) tau A' o = Some A).
Proof. exact C23_ql_reflector_proof. Qed.
Print Assumptions C23_ql_reflector.
(** A = Q R for any shape; bqmv multiplies by this orthogonal Q or its transpose *)
Theorem C23_qr : forall (A : banded R), bd_ok A -> 0 <= bd_l A -> 0 <= bd_u A ->
  exists Q, banded_qrfact A = Some Q /\ bd_ok (bq_factors Q) /\
    bd_m (bq_factors Q) = bd_m A /\ bd_n (bq_factors Q) = bd_n A /\
    bd_l (bq_factors Q) = bd_l A /\ bd_u (bq_factors Q) = bd_l A + bd_u A /\
    exists Qx, orthogonal (bd_m A) Qx /\
      same_matrix (bd_m A) (bd_n A) (matmul (bd_m A) Qx (upper (bd_mat (bq_factors Q)))) (bd_mat A) /\
      forall trans x o, fits o (bd_m A) x ->
        exists x', bqmv trans Q x o = Some x' /\ acts o (bd_m A) x x' (isprod (bd_m A) (op trans Qx)).
Proof. exact C23_qr_proof. Qed.
Print Assumptions C23_qr.
(** A = Q L for square A *)
Theorem C23_ql : forall (A : banded R), bd_ok A -> bd_m A = bd_n A -> 0 <= bd_l A -> 0 <= bd_u A ->
  exists Q, banded_qlfact A = Some Q /\ bd_ok (bq_factors Q) /\
    bd_m (bq_factors Q) = bd_m A /\ bd_n (bq_factors Q) = bd_n A /\
    bd_l (bq_factors Q) = bd_l A + bd_u A /\ bd_u (bq_factors Q) = bd_u A /\
    exists Qx, orthogonal (bd_n A) Qx /\
      same_matrix (bd_n A) (bd_n A) (matmul (bd_n A) Qx (lower (bd_mat (bq_factors Q)))) (bd_mat A) /\
      forall trans x o, fits o (bd_n A) x ->
        exists x', bqmv trans Q x o = Some x' /\ acts o (bd_n A) x x' (isprod (bd_n A) (op trans Qx)).
Proof. exact C23_ql_proof. Qed.
Print Assumptions C23_ql.
(** Q^T undoes Q and Q undoes Q^T, exactly, and both preserve the norm *)
Theorem C23_transpose_inverts : forall (A : banded R) Q trans x o, bd_ok A -> 0 <= bd_l A -> 0 <= bd_u A ->
  (banded_qrfact A = Some Q \/ (bd_m A = bd_n A /\ banded_qlfact A = Some Q)) -> fits o (bd_m A) x ->
  (do y <- bqmv trans Q x o; bqmv (negb trans) Q y o) = Some x /\
  (exists y, bqmv trans Q x o = Some y /\ sumsq o (bd_m A) y = sumsq o (bd_m A) x).
Proof. exact C23_inverse_proof. Qed.
Print Assumptions C23_transpose_inverts.
(** [0 2; 4 5] = Q [-4 -5; 0 2] *)
Example C23_computed :
  @banded_qrfact Z Z_arith (Banded [7; 0; 4; 2; 5; 7] 2 2 1 1) = Some (BandedOQ (Banded [0; 7; -4; 1; 0; -5; 2; 7] 2 2 1 2) [1; 2] true) /\
  @bqmv Z Z_arith true (BandedOQ (Banded [0; 7; -4; 1; 0; -5; 2; 7] 2 2 1 2) [1; 2] true) [9; 2; 5; 9] 1 = Some [9; -5; 2; 9] /\
  @bqmv Z Z_arith false (BandedOQ (Banded [0; 7; -4; 1; 0; -5; 2; 7] 2 2 1 2) [1; 2] true) [9; -5; 2; 9] 1 = Some [9; 2; 5; 9].
Proof. vm_compute. repeat split. Qed.

(** ** C24 *)
(** B^T B = T when the pivots are positive, which they are for every positive definite T *)
Theorem C24_cholesky : forall (A : symtri R), st_ok A ->
  exists B, symtri_cholesky A = Some B /\ bi_ok B /\ bi_n B = st_n A /\
    ((forall i, 0 <= i < st_n A -> (0 < bi_mat B i i)%R) ->
       same_matrix (st_n A) (st_n A) (matmul (st_n A) (transp (bi_mat B)) (bi_mat B)) (st_mat A)) /\
    (positive_definite (st_n A) (st_mat A) -> forall i, 0 <= i < st_n A -> (0 < bi_mat B i i)%R).
Proof. exact tchol_proof. Qed.
Print Assumptions C24_cholesky.
Theorem C24_bidiagonal_multiply : forall trans (B : bidiag R) x, bi_ok B -> bi_n B <= zlen x ->
  exists x', bdmv trans B x = Some x' /\ acts 0 (bi_n B) x x' (isprod (bi_n B) (op trans (bi_mat B))).
Proof. exact bdmv_proof. Qed.
Print Assumptions C24_bidiagonal_multiply.
Theorem C24_bidiagonal_solve : forall trans (B : bidiag R) x,
  bi_ok B -> bi_n B <= zlen x -> nonzero_diag (bi_n B) (bi_mat B) ->
  exists x', bdsv trans B x = Some x' /\
    acts 0 (bi_n B) x x' (fun v w => isprod (bi_n B) (op trans (bi_mat B)) w v).
Proof. exact bdsv_proof. Qed.
Print Assumptions C24_bidiagonal_solve.
Theorem C24_bidiagonal_inverse : forall trans (B : bidiag R) x,
  bi_ok B -> bi_n B <= zlen x -> nonzero_diag (bi_n B) (bi_mat B) ->
  (exists y, bdmv trans B x = Some y /\ bdsv trans B y = Some x) /\
  (exists y, bdsv trans B x = Some y /\ bdmv trans B y = Some x).
Proof. exact bd_inverse_proof. Qed.
Print Assumptions C24_bidiagonal_inverse.
(** y <- alpha T x + beta y, in bounds, for n >= 2 *)
Theorem C24_symmetric_multiply : forall alpha (A : symtri R) x beta y,
  st_ok A -> 2 <= st_n A -> st_n A <= zlen x -> st_n A <= zlen y ->
  exists y', stmv alpha A x beta y = Some y' /\
    writes 0 (st_n A) y y' (fun i => (alpha * matvec (st_n A) (st_mat A) (vec 0 x) i + beta * vec 0 y i)%R).
Proof. exact stmv_proof. Qed.
Print Assumptions C24_symmetric_multiply.
Theorem C24_skew_multiply : forall trans alpha (A : skewtri R) x beta y,
  kt_ok A -> 2 <= kt_n A -> kt_n A <= zlen x -> kt_n A <= zlen y ->
  exists y', ktmv trans alpha A x beta y = Some y' /\
    writes 0 (kt_n A) y y' (fun i => (alpha * matvec (kt_n A) (op trans (kt_mat A)) (vec 0 x) i + beta * vec 0 y i)%R).
Proof. exact ktmv_proof. Qed.
Print Assumptions C24_skew_multiply.
(** the order-one case reads b[0] and x[1], outside arrays of the advertised lengths *)
Theorem C24_order_one_refuted :
  exists (A : symtri R) (K : skewtri R) (x y : list R),
    st_ok A /\ kt_ok K /\ st_n A = 1 /\ kt_n K = 1 /\ zlen x = 1 /\ zlen y = 1 /\
    forall alpha beta trans, stmv alpha A x beta y = None /\ ktmv trans alpha K x beta y = None.
Proof. exact C24_refuted_proof. Qed.
Print Assumptions C24_order_one_refuted.
(** K^T K of a skew tridiagonal K is a symmetric tridiagonal matrix on the even indices and
    another on the odd indices *)
Theorem C24_skew_square_splits : forall (A : skewtri R) (Ba Bb Ca Cb : list R),
  let n := kt_n A in
  kt_ok A -> 2 <= n ->
  (n + 1) / 2 <= zlen Ba -> (n + 1) / 2 - 1 <= zlen Bb -> n / 2 <= zlen Ca -> n / 2 - 1 <= zlen Cb ->
  exists Ba' Bb' Ca' Cb', skew_to_symmetric A Ba Bb Ca Cb = Some (Ba', Bb', Ca', Cb') /\
    forall i j, 0 <= i < n -> 0 <= j < n ->
      matmul n (transp (kt_mat A)) (kt_mat A) i j =
        if (i mod 2 =? 0) && (j mod 2 =? 0) then st_mat (SymTri Ba' Bb' ((n + 1) / 2)) (i / 2) (j / 2)
        else if (i mod 2 =? 1) && (j mod 2 =? 1) then st_mat (SymTri Ca' Cb' (n / 2)) (i / 2) (j / 2)
        else 0%R.
Proof. exact skew_proof. Qed.
Print Assumptions C24_skew_square_splits.
Example C24_cholesky_nonvacuous :
  let A := SymTri [1; 5]%R [2]%R 2 in st_ok A /\ positive_definite (st_n A) (st_mat A).
Proof. exact C24_pd_example_proof. Qed.
Example C24_bidiagonal_nonvacuous :
  let B := BiDiag [1; 3]%R [2]%R 2 in bi_ok B /\ nonzero_diag (bi_n B) (bi_mat B).
Proof. exact C24_bd_example_proof. Qed.
Example C24_computed :
  @symtri_cholesky Z Z_arith (SymTri [1; 5; 10] [2; 3] 3) = Some (BiDiag [1; 1; 1] [2; 3] 3) /\
  @stmv Z Z_arith 1 (SymTri [1; 5; 10] [2; 3] 3) [1; 1; 1] 10 [1; 0; 0] = Some [13; 10; 13] /\
  @ktmv Z Z_arith false 1 (SkewTri [2; 3] 3) [1; 1; 1] 0 [0; 0; 0] = Some [2; 1; -3] /\
  @bdmv Z Z_arith false (BiDiag [1; 1; 1] [2; 3] 3) [1; 1; 1] = Some [3; 4; 1] /\
  @bdsv Z Z_arith false (BiDiag [1; 1; 1] [2; 3] 3) [3; 4; 1] = Some [1; 1; 1] /\
  @skew_to_symmetric Z Z_arith (SkewTri [2; 3] 3) [0; 0] [0] [0] [] = Some ([4; 9], [-6], [13], []).
Proof. vm_compute. repeat split. Qed.
