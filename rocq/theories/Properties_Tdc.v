(** * C33: divide and conquer for symmetric-definite tridiagonal pencils *)
From Coq Require Import ZArith List Reals.
From Verif Require Import Arith Base SpecSum SpecLin MTridiag SpecTri MHier SpecHier MDprk MDprk2 SpecDprk MTdc SpecTdc MSht PSht PTdcThms.
Import ListNotations.
Open Scope Z_scope.

(** C33: a symmetric tridiagonal matrix is torn in the middle into two smaller ones *)
Theorem C33_halves : forall T, st_ok T -> 2 <= st_n T -> let s := st_n T / 2 in
  exists T1 T2, halves T = Some (T1, T2, Rabs (nthZ 0%R (st_b T) (s - 1)%Z)) /\ st_ok T1 /\ st_n T1 = s /\ st_ok T2 /\ st_n T2 = st_n T - s /\
   (nonpositive_off T -> nonpositive_off T1 /\ nonpositive_off T2).
Proof. exact halves_total. Qed.
Print Assumptions C33_halves.
(** C33: T = diag(T1, T2) + rho y y^T, whenever the entry torn is not positive *)
Theorem C33_tearing : forall T T1 T2 rho, st_ok T -> 2 <= st_n T -> halves T = Some (T1, T2, rho) -> let s := st_n T / 2 in (nthZ 0 (st_b T) (s - 1)%Z <= 0)%R ->
  forall i j, 0 <= i < st_n T -> 0 <= j < st_n T -> st_mat T i j = (blockdiag s (st_mat T1) (st_mat T2) i j + rho * tear_dir s i * tear_dir s j)%R.
Proof. exact tearing_proof. Qed.
Print Assumptions C33_tearing.
(** C33: and never when it is positive *)
Theorem C33_tearing_refuted : forall T T1 T2 rho, st_ok T -> 2 <= st_n T -> halves T = Some (T1, T2, rho) -> let s := st_n T / 2 in (0 < nthZ 0 (st_b T) (s - 1)%Z)%R ->
  exists i j, 0 <= i < st_n T /\ 0 <= j < st_n T /\ st_mat T i j <> (blockdiag s (st_mat T1) (st_mat T2) i j + rho * tear_dir s i * tear_dir s j)%R.
Proof. exact tearing_refuted_proof. Qed.
Print Assumptions C33_tearing_refuted.
(** C33: tearing a positive definite matrix can give an indefinite block *)
Theorem C33_definiteness_refuted : exists S S1 S2 sigma, st_ok S /\ nonpositive_off S /\ posdef (st_n S) (st_mat S) /\ halves S = Some (S1, S2, sigma) /\ ~ posdef (st_n S1) (st_mat S1).
Proof. exact definiteness_proof. Qed.
Print Assumptions C33_definiteness_refuted.
(** C33: sdtdc_eig returns V and Lambda with T V = S V Lambda and V^T S V = I, for off-diagonals
    that are not positive, if each of the pencils at the leaves is solved by the tridiagonal
    eigensolver and each rank-one problem on the way up is simple and its root finder exact *)
Theorem C33_eig : forall eps fm eigvals leig bs fuel T S, (0 <= eps)%R -> 2 <= bs -> st_ok T -> st_ok S -> st_n S = st_n T ->
  nonpositive_off T -> nonpositive_off S -> (Z.to_nat (st_n T) <= fuel)%nat ->
  problems bs (leaf_solved leig) (simple_merge eps fm eigvals) dvmv leig (definite_dpr1_eig eps fm eigvals) fuel T S ->
  exists F, sdtdc_eig dvmv bs leig (definite_dpr1_eig eps fm eigvals) fuel T S = Some F /\ tdc_ok dpe_dense_ok F /\ tdc_n F = st_n T /\
    eigensystem (st_n T) (st_n T) (st_mat T) (st_mat S) (nthZ 0%R (tdc_lambda F)) (tdc_mat dpe_dense F).
Proof. exact sdtdc_dense_proof. Qed.
Print Assumptions C33_eig.
Theorem C33_eig_FMM : forall sample eps fm eigvals leig bs fuel T S, (0 <= eps)%R -> 2 <= bs -> exact_kernels sample -> st_ok T -> st_ok S -> st_n S = st_n T ->
  nonpositive_off T -> nonpositive_off S -> (Z.to_nat (st_n T) <= fuel)%nat ->
  problems bs (leaf_solved leig) (simple_merge eps fm eigvals) dfmv leig (definite_dpr1_eig_FMM sample eps fm eigvals) fuel T S ->
  exists F, sdtdc_eig dfmv bs leig (definite_dpr1_eig_FMM sample eps fm eigvals) fuel T S = Some F /\ tdc_ok dpe_hier_ok F /\ tdc_n F = st_n T /\
    eigensystem (st_n T) (st_n T) (st_mat T) (st_mat S) (nthZ 0%R (tdc_lambda F)) (tdc_mat dpe_hier F).
Proof. exact sdtdc_hier_proof. Qed.
Print Assumptions C33_eig_FMM.
(** C33: tdmv and tfmv multiply by that V or its transpose, y <- alpha op(V) x + beta y, and change
    nothing in the tree but scratch *)
Theorem C33_tdmv : forall t alpha F x beta y, tdc_ok dpe_dense_ok F -> tdc_n F <= zlen x -> tdc_n F <= zlen y ->
  exists F' y', tdmv t alpha F x beta y = Some (F', y') /\ same_tree F F' /\
    writes 0 (tdc_n F) y y' (fun i => (alpha * matvec (tdc_n F) (op t (tdc_mat dpe_dense F)) (vec 0 x) i + beta * vec 0 y i)%R).
Proof. exact tdmv_proof. Qed.
Print Assumptions C33_tdmv.
Theorem C33_tfmv : forall t alpha F x beta y, tdc_ok dpe_hier_ok F -> tdc_n F <= zlen x -> tdc_n F <= zlen y ->
  exists F' y', tfmv t alpha F x beta y = Some (F', y') /\ same_tree F F' /\
    writes 0 (tdc_n F) y y' (fun i => (alpha * matvec (tdc_n F) (op t (tdc_mat dpe_hier F)) (vec 0 x) i + beta * vec 0 y i)%R).
Proof. exact tfmv_proof. Qed.
Print Assumptions C33_tfmv.
(** C33: so that the tree can be used again, in any number of products *)
Theorem C33_reusable : forall V (M0 : dpeig R V -> Z -> Z -> R) ok0 F F', same_tree F F' -> tdc_ok ok0 F ->
  tdc_ok ok0 F' /\ tdc_n F' = tdc_n F /\ tdc_lambda F' = tdc_lambda F /\ tdc_mat M0 F' = tdc_mat M0 F.
Proof. exact @same_tree_proof. Qed.
Print Assumptions C33_reusable.
(** C33: the library's own pencils meet the hypotheses: no off-diagonal entry is positive, and the
    right-hand matrix is positive definite; it is R R^T up to a positive number in the last
    diagonal position *)
Theorem C33_sht_nonpositive : forall n mu m odd, 1 <= n -> 0 <= m ->
  exists A B, @create_A_shtsdtev R R_arith n mu m odd = Some A /\ @create_B_shtsdtev R R_arith n m odd = Some B /\
    st_ok A /\ st_n A = n /\ nonpositive_off A /\ st_ok B /\ st_n B = n /\ nonpositive_off B.
Proof. exact sht_nonpositive_proof. Qed.
Print Assumptions C33_sht_nonpositive.
Theorem C33_sht_definite : forall n m odd, 1 <= n -> 0 <= m ->
  exists B, @create_B_shtsdtev R R_arith n m odd = Some B /\ st_ok B /\ st_n B = n /\ posdef n (st_mat B).
Proof. exact sht_posdef_proof. Qed.
Print Assumptions C33_sht_definite.
Theorem C33_sht_factor : forall n m odd, 1 <= n -> 0 <= m ->
  exists B C d, @create_B_shtsdtev R R_arith n m odd = Some B /\ @create_R_shtsdtev R R_arith n m odd = Some C /\ bi_ok C /\ bi_n C = n /\ (0 < d)%R /\
    (forall i, 0 <= i < n -> (0 < nthZ 0 (bi_c C) i)%R) /\
    forall i j, 0 <= i < n -> 0 <= j < n -> st_mat B i j = (matmul n (bi_mat C) (transp (bi_mat C)) i j + (if ((i =? n - 1) && (j =? n - 1))%bool then d else 0))%R.
Proof. exact sht_factor_proof. Qed.
Print Assumptions C33_sht_factor.

Example C33_nonvacuous : exists eigvals, st_ok ex_T /\ st_ok ex_S /\ st_n ex_S = st_n ex_T /\ nonpositive_off ex_T /\ nonpositive_off ex_S /\
  problems 2 (leaf_solved ex_leig) (simple_merge 0 1 eigvals) dvmv ex_leig (definite_dpr1_eig 0%R 1%R eigvals) 2 ex_T ex_S.
Proof. exact ex_simple_proof. Qed.
Example C33_computed :
  let leaf V := TLeaf 1 [V] [0] in
  @tdmv Z Z_arith false 1 (TNode 2 (DpEig [] [1; 2; 3; 4] [0; 0] [] [] [0; 1] [0; 1] 2 0 0) (leaf 5) (leaf 7) [0; 0]) [1; 10] 1 [100; 1000; 9] =
    Some (TNode 2 (DpEig [] [1; 2; 3; 4] [0; 0] [] [] [0; 1] [0; 1] 2 0 0) (leaf 5) (leaf 7) [31; 42], [255; 1294; 9]) /\
  @tdmv Z Z_arith true 1 (TNode 2 (DpEig [] [1; 2; 3; 4] [0; 0] [] [] [0; 1] [0; 1] 2 0 0) (leaf 5) (leaf 7) [0; 0]) [1; 10] 1 [100; 1000; 9] =
    Some (TNode 2 (DpEig [] [1; 2; 3; 4] [0; 0] [] [] [0; 1] [0; 1] 2 0 0) (leaf 5) (leaf 7) [5; 70], [245; 1295; 9]).
Proof. vm_compute. repeat split. Qed.
