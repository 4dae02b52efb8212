(** * C32, C52-C55: diagonal-plus-rank-one matrices *)
From Coq Require Import ZArith List Reals.
From Verif Require Import Arith Base SpecSum SpecLin MHier SpecHier SpecSort MDprk MDprk2 SpecDprk PDprk PDprk2 PDprk3 PDprk4 PDprk5 PDprk8 PDprk9 PDprkThms.
Import ListNotations.
Open Scope Z_scope.

(** C32: drmv and irmv multiply by D + rho z z^T and I + sigma z z^T, in place *)
Theorem C32_multiply : forall A x, dp_ok A -> dp_n A <= zlen x ->
  exists x', drmv A x = Some x' /\ writes 0 (dp_n A) x x' (matvec (dp_n A) (dp_mat A) (vec 0 x)).
Proof. exact drmv_proof. Qed.
Print Assumptions C32_multiply.
Theorem C32_multiply_identity : forall A x, ip_ok A -> ip_n A <= zlen x ->
  exists x', irmv A x = Some x' /\ writes 0 (ip_n A) x x' (matvec (ip_n A) (ip_mat A) (vec 0 x)).
Proof. exact irmv_proof. Qed.
Print Assumptions C32_multiply_identity.
(** C32: the inverses, on both sides, whenever the matrix is non-singular *)
Theorem C32_inverse_identity : forall A, ip_ok A ->
  (1 + ip_sigma A * sumZ (ip_n A) (fun i => nthZ 0 (ip_z A) i * nthZ 0 (ip_z A) i) <> 0)%R ->
  exists B, idpr1_inv A = Some B /\ ip_ok B /\ ip_n B = ip_n A /\ forall i j, 0 <= i < ip_n A -> 0 <= j < ip_n A ->
    matmul (ip_n A) (ip_mat A) (ip_mat B) i j = delta i j /\ matmul (ip_n A) (ip_mat B) (ip_mat A) i j = delta i j.
Proof. exact idpr1_inv_proof. Qed.
Print Assumptions C32_inverse_identity.
Theorem C32_inverse : forall A, dp_ok A -> (forall i, 0 <= i < dp_n A -> nthZ 0%R (dp_d A) i <> 0%R) ->
  (1 + dp_rho A * sumZ (dp_n A) (fun i => nthZ 0 (dp_z A) i * nthZ 0 (dp_z A) i / nthZ 0 (dp_d A) i) <> 0)%R ->
  exists B, dpr1_inv A = Some B /\ dp_ok B /\ dp_n B = dp_n A /\ forall i j, 0 <= i < dp_n A -> 0 <= j < dp_n A ->
    matmul (dp_n A) (dp_mat A) (dp_mat B) i j = delta i j /\ matmul (dp_n A) (dp_mat B) (dp_mat A) i j = delta i j.
Proof. exact dpr1_inv_proof. Qed.
Print Assumptions C32_inverse.
(** C32: the factor is a symmetric square root, whenever I + sigma z z^T is positive semidefinite *)
Theorem C32_square_root : forall A, ip_ok A ->
  (0 <= 1 + ip_sigma A * sumZ (ip_n A) (fun i => nthZ 0 (ip_z A) i * nthZ 0 (ip_z A) i))%R ->
  exists B, idpr1_factorize A = Some B /\ ip_ok B /\ ip_n B = ip_n A /\
    (forall i j, 0 <= i < ip_n A -> 0 <= j < ip_n A -> matmul (ip_n A) (ip_mat B) (ip_mat B) i j = ip_mat A i j) /\
    (forall i j, ip_mat B i j = ip_mat B j i).
Proof. exact idpr1_factorize_proof. Qed.
Print Assumptions C32_square_root.

(** C52: secular and generalized_secular evaluate the secular functions of the matrix and of the
    pencil at lambda = lambdahi + lambdalo, and the _derivative functions their derivatives *)
Theorem C52_secular : forall A lo hi, dp_ok A -> secular A lo hi = Some (secular_function A (hi + lo)).
Proof. exact secular_proof. Qed.
Print Assumptions C52_secular.
Theorem C52_generalized_secular : forall A B lo hi, dp_ok A -> ip_sigma B <> 0%R ->
  generalized_secular A B lo hi = Some (pencil_secular_function A (ip_sigma B) (hi + lo)).
Proof. exact generalized_secular_proof. Qed.
Print Assumptions C52_generalized_secular.
Theorem C52_derivative : forall A lo hi, dp_ok A -> off_poles A (hi + lo) ->
  exists v, secular_derivative A lo hi = Some v /\ derivable_pt_lim (secular_function A) (hi + lo) v.
Proof. exact secular_derivative_proof. Qed.
Print Assumptions C52_derivative.
Theorem C52_generalized_derivative : forall A B lo hi, dp_ok A -> ip_sigma B <> 0%R -> off_poles A (hi + lo) ->
  (dp_rho A - ip_sigma B * (hi + lo) <> 0)%R ->
  exists v, generalized_secular_derivative A B lo hi = Some v /\ derivable_pt_lim (pencil_secular_function A (ip_sigma B)) (hi + lo) v.
Proof. exact generalized_secular_derivative_proof. Qed.
Print Assumptions C52_generalized_derivative.
(** C52: false for the second derivative, which leaves out the last term *)
Theorem C52_second_derivative_refuted : exists A lo hi v, dp_ok A /\ off_poles A (hi + lo) /\ secular_second_derivative A lo hi = Some v /\
  ~ (exists f', (forall t, off_poles A t -> derivable_pt_lim (secular_function A) t (f' t)) /\ derivable_pt_lim f' (hi + lo) v).
Proof. exact second_refuted_proof. Qed.
Print Assumptions C52_second_derivative_refuted.
(** C52: the roots: with rho > 0, increasing d and no zero in z there is exactly one to the right of
    each d_i (and to the left of d_(i+1)) and none to the left of d_0 *)
Theorem C52_interlacing : forall A, dp_ok A -> (0 < dp_rho A)%R -> increasing (dp_d A) 0 (dp_n A - 1) ->
  (forall i, 0 <= i < dp_n A -> nthZ 0%R (dp_z A) i <> 0%R) ->
  (forall i, 0 <= i < dp_n A -> exists! t, (nthZ 0 (dp_d A) i < t)%R /\ (i + 1 < dp_n A -> (t < nthZ 0 (dp_d A) (i + 1))%R) /\ secular_function A t = 0%R) /\
  (forall t, (forall i, 0 <= i < dp_n A -> (t < nthZ 0 (dp_d A) i)%R) -> (0 < secular_function A t)%R).
Proof. exact interlacing_proof. Qed.
Print Assumptions C52_interlacing.

(** C53: from different roots the eigenvector routines build columns with A V = V Lambda,
    V^T V = I and a nonnegative diagonal; for a positive definite pencil A V = B V Lambda,
    V^T B V = I *)
Theorem C53_eigenvectors : forall A lo hi m, dp_ok A -> 0 <= m <= dp_n A -> m <= zlen lo -> m <= zlen hi ->
  (forall j, 0 <= j < m -> pencil_root A 0 (nthZ 0 hi j + nthZ 0 lo j)%R) ->
  (forall j k, 0 <= j < m -> 0 <= k < m -> j <> k -> (nthZ 0 hi j + nthZ 0 lo j)%R <> (nthZ 0 hi k + nthZ 0 lo k)%R) ->
  exists Q, dpr1_eigvecs A lo hi m = Some Q /\ zlen Q = dp_n A * m /\
    eigensystem (dp_n A) m (dp_mat A) delta (fun j => (nthZ 0 hi j + nthZ 0 lo j)%R) (mat 0 (dp_n A) Q) /\
    (forall j, 0 <= j < m -> (0 <= mat 0 (dp_n A) Q j j)%R).
Proof. exact eigvecs_proof. Qed.
Print Assumptions C53_eigenvectors.
Theorem C53_pencil_eigenvectors : forall A lo hi m, dp_ok A -> 0 <= m <= dp_n A -> m <= zlen lo -> m <= zlen hi ->
  forall B, ip_n B = dp_n A -> (forall i, 0 <= i < dp_n A -> nthZ 0%R (ip_z B) i = nthZ 0%R (dp_z A) i) -> posdef (dp_n A) (ip_mat B) ->
  (forall j, 0 <= j < m -> pencil_root A (ip_sigma B) (nthZ 0 hi j + nthZ 0 lo j)%R) ->
  (forall j k, 0 <= j < m -> 0 <= k < m -> j <> k -> (nthZ 0 hi j + nthZ 0 lo j)%R <> (nthZ 0 hi k + nthZ 0 lo k)%R) ->
  exists Q, definite_dpr1_eigvecs A B lo hi m = Some Q /\ zlen Q = dp_n A * m /\
    eigensystem (dp_n A) m (dp_mat A) (ip_mat B) (fun j => (nthZ 0 hi j + nthZ 0 lo j)%R) (mat 0 (dp_n A) Q) /\
    (forall j, 0 <= j < m -> (0 <= mat 0 (dp_n A) Q j j)%R).
Proof. exact definite_eigvecs_proof. Qed.
Print Assumptions C53_pencil_eigenvectors.
(** C53: the hierarchical versions, from hierarchical matrices that hold the kernels 1/(d-lambda)
    and 1/(d-lambda)^2 *)
Theorem C53_hierarchical_eigenvectors : forall A lam m Q N, dp_ok A -> 0 <= m ->
  (h_ok Q /\ hrows Q = dp_n A /\ hcols Q = m /\ forall i j, 0 <= i < dp_n A -> 0 <= j < m -> h_mat Q i j = (/ (nthZ 0 (dp_d A) i - lam j))%R) ->
  (h_ok N /\ hrows N = dp_n A /\ hcols N = m /\ forall i j, 0 <= i < dp_n A -> 0 <= j < m -> h_mat N i j = (/ (nthZ 0 (dp_d A) i - lam j) * / (nthZ 0 (dp_d A) i - lam j))%R) ->
  (forall j, 0 <= j < m -> pencil_root A 0 (lam j)) -> (forall j k, 0 <= j < m -> 0 <= k < m -> j <> k -> lam j <> lam k) ->
  exists H, dpr1_eigvecs_FMM A Q N m = Some H /\ h_ok H /\ hrows H = dp_n A /\ hcols H = m /\ eigensystem (dp_n A) m (dp_mat A) delta lam (h_mat H).
Proof. exact eigvecs_FMM_proof. Qed.
Print Assumptions C53_hierarchical_eigenvectors.
Theorem C53_hierarchical_pencil_eigenvectors : forall A lam m Q N, dp_ok A -> 0 <= m ->
  (h_ok Q /\ hrows Q = dp_n A /\ hcols Q = m /\ forall i j, 0 <= i < dp_n A -> 0 <= j < m -> h_mat Q i j = (/ (nthZ 0 (dp_d A) i - lam j))%R) ->
  (h_ok N /\ hrows N = dp_n A /\ hcols N = m /\ forall i j, 0 <= i < dp_n A -> 0 <= j < m -> h_mat N i j = (/ (nthZ 0 (dp_d A) i - lam j) * / (nthZ 0 (dp_d A) i - lam j))%R) ->
  forall B, ip_n B = dp_n A -> (forall i, 0 <= i < dp_n A -> nthZ 0%R (ip_z B) i = nthZ 0%R (dp_z A) i) -> posdef (dp_n A) (ip_mat B) ->
  (forall j, 0 <= j < m -> pencil_root A (ip_sigma B) (lam j)) -> (forall j k, 0 <= j < m -> 0 <= k < m -> j <> k -> lam j <> lam k) ->
  exists H, definite_dpr1_eigvecs_FMM A B Q N m = Some H /\ h_ok H /\ hrows H = dp_n A /\ hcols H = m /\
    eigensystem (dp_n A) m (dp_mat A) (ip_mat B) lam (h_mat H).
Proof. exact definite_eigvecs_FMM_proof. Qed.
Print Assumptions C53_hierarchical_pencil_eigenvectors.
(** C53: symmetric_dpr1_synthesize replaces z, keeping signs, so that the given interlaced numbers
    are exactly roots *)
Theorem C53_synthesize : forall A lo hi, dp_ok A -> dp_n A <= zlen lo -> dp_n A <= zlen hi ->
  let lam := fun j => (nthZ 0 hi j + nthZ 0 lo j)%R in
  increasing (dp_d A) 0 (dp_n A - 1) -> (0 < dp_rho A)%R ->
  (forall i, 0 <= i < dp_n A -> (nthZ 0 (dp_d A) i < lam i)%R) -> (forall i, 0 <= i -> i + 1 < dp_n A -> (lam i < nthZ 0 (dp_d A) (i + 1))%R) ->
  exists A', dpr1_synthesize A lo hi = Some A' /\ dp_ok A' /\ dp_d A' = dp_d A /\ dp_rho A' = dp_rho A /\ dp_n A' = dp_n A /\
    (forall k, 0 <= k < dp_n A -> (0 <= nthZ 0 (dp_z A') k * nthZ 0 (dp_z A) k)%R) /\
    forall j, 0 <= j < dp_n A -> pencil_root A' 0 (lam j).
Proof. exact synthesize_interlaced_proof. Qed.
Print Assumptions C53_synthesize.
(** C53: the same for any sign of rho, as long as the squares to be taken roots of are nonnegative;
    and for the pencil *)
Theorem C53_synthesize_general : forall A lo hi, dp_ok A -> dp_n A <= zlen lo -> dp_n A <= zlen hi ->
  let lam := fun j => (nthZ 0 hi j + nthZ 0 lo j)%R in
  (forall i j, 0 <= i < dp_n A -> 0 <= j < dp_n A -> i <> j -> nthZ 0%R (dp_d A) i <> nthZ 0%R (dp_d A) j) ->
  (forall j, 0 <= j < dp_n A -> off_poles A (lam j)) -> dp_rho A <> 0%R ->
  (forall k, 0 <= k < dp_n A -> (0 <= loewner (dp_n A) (nthZ 0%R (dp_d A)) lam k / dp_rho A)%R) ->
  exists A', dpr1_synthesize A lo hi = Some A' /\ dp_ok A' /\ dp_d A' = dp_d A /\ dp_rho A' = dp_rho A /\ dp_n A' = dp_n A /\
    (forall k, 0 <= k < dp_n A -> (0 <= nthZ 0 (dp_z A') k * nthZ 0 (dp_z A) k)%R) /\
    forall j, 0 <= j < dp_n A -> pencil_root A' 0 (lam j).
Proof. exact synthesize_proof. Qed.
Print Assumptions C53_synthesize_general.
Theorem C53_synthesize_pencil : forall A B lo hi, dp_ok A -> ip_ok B -> ip_n B = dp_n A -> dp_n A <= zlen lo -> dp_n A <= zlen hi ->
  let n := dp_n A in let d := nthZ 0%R (dp_d A) in let rho := dp_rho A in let sigma := ip_sigma B in
  let lam := fun j => (nthZ 0 hi j + nthZ 0 lo j)%R in
  let w := fun k => (loewner n d lam k / (rho - sigma * d k))%R in
  (forall i j, 0 <= i < n -> 0 <= j < n -> i <> j -> d i <> d j) ->
  (forall j, 0 <= j < n -> off_poles A (lam j)) -> (forall k, 0 <= k < n -> (rho - sigma * d k <> 0)%R) -> (forall j, 0 <= j < n -> (rho - sigma * lam j <> 0)%R) ->
  (1 - sigma * sumZ n w <> 0)%R -> (forall k, 0 <= k < n -> (0 <= w k / (1 - sigma * sumZ n w))%R) ->
  exists A' B', definite_dpr1_synthesize A B lo hi = Some (A', B') /\ dp_ok A' /\ ip_ok B' /\ dp_d A' = dp_d A /\ dp_rho A' = rho /\ dp_n A' = n /\ ip_n B' = n /\ ip_sigma B' = sigma /\
    (forall k, 0 <= k < n -> nthZ 0%R (ip_z B') k = nthZ 0%R (dp_z A') k /\ (0 <= nthZ 0 (dp_z A') k * nthZ 0 (ip_z B) k)%R) /\
    forall j, 0 <= j < n -> pencil_root A' sigma (lam j).
Proof. exact definite_synthesize_proof. Qed.
Print Assumptions C53_synthesize_pencil.

(** C54: with a root finder that returns exact, different roots the drivers return all eigenvalues
    in nondecreasing order and a matrix V with A V = V Lambda, V^T V = I, whatever the order of d,
    with zeros in z and with repeated d_i where z_i is zero *)
Theorem C54_eig : forall eps fm A B eigvals, dp_ok A -> (0 <= eps)%R -> dp_simple (defl_tol false eps A B) 0 A ->
  (forall B1, exact_roots fm (dp_rho A) 0 (fun A lo hi => eigvals A B1 lo hi)) ->
  exists E, dpr1_eig eps fm eigvals A B = Some E /\ dpe_dense_ok E /\ de_num E = dp_n A /\ zlen (de_lambda E) = dp_n A /\
    nondecreasing (de_lambda E) 0 (dp_n A - 1) /\ eigensystem (dp_n A) (dp_n A) (dp_mat A) delta (nthZ 0%R (de_lambda E)) (dpe_dense E).
Proof. exact dpr1_eig_proof. Qed.
Print Assumptions C54_eig.
Theorem C54_definite_eig : forall eps fm A B eigvals, dp_ok A -> (0 <= eps)%R -> ip_ok B /\ ip_n B = dp_n A ->
  (forall i, 0 <= i < dp_n A -> nthZ 0%R (ip_z B) i = nthZ 0%R (dp_z A) i) -> (0 <= ip_sigma B)%R -> dp_simple (defl_tol true eps A B) (ip_sigma B) A ->
  (forall B1, ip_sigma B1 = ip_sigma B -> exact_roots fm (dp_rho A) (ip_sigma B) (fun A lo hi => eigvals A B1 lo hi)) ->
  exists E, definite_dpr1_eig eps fm eigvals A B = Some E /\ dpe_dense_ok E /\ de_num E = dp_n A /\ zlen (de_lambda E) = dp_n A /\
    nondecreasing (de_lambda E) 0 (dp_n A - 1) /\ eigensystem (dp_n A) (dp_n A) (dp_mat A) (ip_mat B) (nthZ 0%R (de_lambda E)) (dpe_dense E).
Proof. exact definite_dpr1_eig_proof. Qed.
Print Assumptions C54_definite_eig.
Theorem C54_eig_FMM : forall eps fm A B eigvals sample, dp_ok A -> (0 <= eps)%R -> exact_kernels sample -> dp_simple (defl_tol false eps A B) 0 A ->
  (forall B1, exact_roots fm (dp_rho A) 0 (fun A lo hi => eigvals A B1 lo hi)) ->
  exists E, dpr1_eig_FMM sample eps fm eigvals A B = Some E /\ dpe_hier_ok E /\ de_num E = dp_n A /\ zlen (de_lambda E) = dp_n A /\
    nondecreasing (de_lambda E) 0 (dp_n A - 1) /\ eigensystem (dp_n A) (dp_n A) (dp_mat A) delta (nthZ 0%R (de_lambda E)) (dpe_hier E).
Proof. exact dpr1_eig_FMM_proof. Qed.
Print Assumptions C54_eig_FMM.
Theorem C54_definite_eig_FMM : forall eps fm A B eigvals sample, dp_ok A -> (0 <= eps)%R -> exact_kernels sample -> ip_ok B /\ ip_n B = dp_n A ->
  (forall i, 0 <= i < dp_n A -> nthZ 0%R (ip_z B) i = nthZ 0%R (dp_z A) i) -> (0 <= ip_sigma B)%R -> dp_simple (defl_tol true eps A B) (ip_sigma B) A ->
  (forall B1, ip_sigma B1 = ip_sigma B -> exact_roots fm (dp_rho A) (ip_sigma B) (fun A lo hi => eigvals A B1 lo hi)) ->
  exists E, definite_dpr1_eig_FMM sample eps fm eigvals A B = Some E /\ dpe_hier_ok E /\ de_num E = dp_n A /\ zlen (de_lambda E) = dp_n A /\
    nondecreasing (de_lambda E) 0 (dp_n A - 1) /\ eigensystem (dp_n A) (dp_n A) (dp_mat A) (ip_mat B) (nthZ 0%R (de_lambda E)) (dpe_hier E).
Proof. exact definite_dpr1_eig_FMM_proof. Qed.
Print Assumptions C54_definite_eig_FMM.
(** C54: such root finders exist (floatmin 1, rho 2, sigma 0 or 1 below; in general for every
    rho <> 0 with sigma = 0 and every sigma > 0), and so do exact kernels *)
Theorem C54_root_finder_exists : forall fm rho sigma, (sigma = 0 /\ rho <> 0 \/ 0 < sigma)%R -> exists f, exact_roots fm rho sigma f.
Proof. exact roots_exist_proof. Qed.
Print Assumptions C54_root_finder_exists.
Theorem C54_kernels_exist : exists sample, exact_kernels sample.
Proof. exact kernels_exist_proof. Qed.
Print Assumptions C54_kernels_exist.
(** C54: false of symmetric_dpr1_eig as soon as some lambdalo is at most sqrt(floatmin): the
    eigenvector routine is handed the eigenvalues from the wrong place.  The matrix below has
    exact roots, and the column returned for the larger eigenvalue belongs to the smaller one. *)
Theorem C54_small_offset_refuted : forall fm (B : idpr1 R), (0 < fm)%R -> exists A eigvals lo hi E,
  dp_ok A /\ (forall l h, eigvals A B l h = Some (lo, hi)) /\ zlen lo = dp_n A /\ zlen hi = dp_n A /\
  (forall j, 0 <= j < dp_n A -> pencil_root A 0 (nthZ 0 hi j + nthZ 0 lo j)%R) /\
  dpr1_eig 0%R fm eigvals A B = Some E /\ dpe_dense_ok E /\ de_num E = dp_n A /\ 1 < dp_n A /\
  (nthZ 0 (de_lambda E) 0 < nthZ 0 (de_lambda E) 1)%R /\
  eigenpair (dp_n A) (dp_mat A) delta (nthZ 0%R (de_lambda E) 0) (fun i => dpe_dense E i 1) /\
  ~ eigenpair (dp_n A) (dp_mat A) delta (nthZ 0%R (de_lambda E) 1) (fun i => dpe_dense E i 1).
Proof. exact wrong_offset_proof. Qed.
Print Assumptions C54_small_offset_refuted.

(** C55: dvmv and dfmv multiply by the eigenvector matrix or its transpose:
    y <- alpha op(V) x + beta y; x and the permutations are left as they were *)
Theorem C55_dense_vectors : forall t alpha E x beta y, dpe_dense_ok E -> de_num E <= zlen x -> de_num E <= zlen y ->
  exists y', dvmv t alpha E x beta y = Some (x, y', de_p E, de_q E) /\
    writes 0 (de_num E) y y' (fun i => (alpha * matvec (de_num E) (op t (dpe_dense E)) (vec 0 x) i + beta * vec 0 y i)%R).
Proof. exact dvmv_proof. Qed.
Print Assumptions C55_dense_vectors.
Theorem C55_hierarchical_vectors : forall t alpha E x beta y, dpe_hier_ok E -> de_num E <= zlen x -> de_num E <= zlen y ->
  exists y', dfmv t alpha E x beta y = Some (x, y', de_p E, de_q E) /\
    writes 0 (de_num E) y y' (fun i => (alpha * matvec (de_num E) (op t (dpe_hier E)) (vec 0 x) i + beta * vec 0 y i)%R).
Proof. exact dfmv_proof. Qed.
Print Assumptions C55_hierarchical_vectors.

Example C32_nonvacuous : dp_ok ex_A /\ dp_simple (defl_tol false 0 ex_A (IDpr1 [1; 1]%R 1%R 2)) 0 ex_A /\ dp_simple (defl_tol true 0 ex_A (IDpr1 [1; 1]%R 1%R 2)) 1 ex_A /\
  increasing (dp_d ex_A) 0 (dp_n ex_A - 1) /\ (1 + 1 * sumZ 2 (fun i => nthZ 0 [1; 1] i * nthZ 0 [1; 1] i) <> 0)%R.
Proof. exact simple_example_proof. Qed.
Example C54_nonvacuous : exists f g : dpr1 R -> idpr1 R -> list R -> list R -> option (list R * list R),
  (forall B1, exact_roots 1 2 0 (fun A lo hi => f A B1 lo hi)) /\ (forall B1, exact_roots 1 2 1 (fun A lo hi => g A B1 lo hi)).
Proof. exact finder_example_proof. Qed.
Example C55_computed :
  @drmv Z Z_arith (Dpr1 [1; 2; 3] [1; 0; 2] 5 3) [1; 1; 1; 9] = Some [16; 2; 33; 9] /\
  @irmv Z Z_arith (IDpr1 [1; 0; 2] 5 3) [1; 1; 1; 9] = Some [16; 1; 31; 9] /\
  @dvmv Z Z_arith false 1 (DpEig [7] [1; 2; 3; 4; 5; 6] [0; 0; 0; 0] [] [] [2; 0; 3; 1] [1; 0; 3; 2] 4 1 1) [1; 10; 100; 1000] 2 [1; 1; 1; 1] =
    Some ([1; 10; 100; 1000], [1409; 3602; 12; 2502], [2; 0; 3; 1], [1; 0; 3; 2]).
Proof. exact dprk_computed_proof. Qed.
