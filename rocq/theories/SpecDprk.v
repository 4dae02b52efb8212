(** * Vocabulary for diagonal-plus-rank-one matrices *)
From Coq Require Import ZArith List Reals.
From Verif Require Import Base SpecSum SpecLin SpecSort MHier SpecHier MDprk.
Open Scope Z_scope.

Definition dp_ok {F} (A : dpr1 F) : Prop := 0 <= dp_n A /\ dp_n A <= zlen (dp_d A) /\ dp_n A <= zlen (dp_z A).
Definition ip_ok {F} (A : idpr1 F) : Prop := 0 <= ip_n A /\ ip_n A <= zlen (ip_z A).
(** D + rho z z^T *)
Definition dp_mat (A : dpr1 R) (i j : Z) : R :=
  (delta i j * nthZ 0 (dp_d A) i + dp_rho A * nthZ 0 (dp_z A) i * nthZ 0 (dp_z A) j)%R.
(** I + sigma z z^T *)
Definition ip_mat (A : idpr1 R) (i j : Z) : R := (delta i j + ip_sigma A * nthZ 0 (ip_z A) i * nthZ 0 (ip_z A) j)%R.

(** f 0 * f 1 * .. * f (n-1) *)
Fixpoint prodn (k : nat) (f : Z -> R) : R := match k with O => 1%R | S k' => (prodn k' f * f (Z.of_nat k'))%R end.
Definition prodZ (n : Z) (f : Z -> R) : R := prodn (Z.to_nat n) f.

(** the function sum_i z_i^2/(d_i - lambda) *)
Definition pole_sum (A : dpr1 R) (lambda : R) : R :=
  sumZ (dp_n A) (fun i => (nthZ 0 (dp_z A) i * nthZ 0 (dp_z A) i / (nthZ 0 (dp_d A) i - lambda))%R).
(** the secular functions of D + rho z z^T and of the pencil (D + rho z z^T, I + sigma z z^T) *)
Definition secular_function (A : dpr1 R) (lambda : R) : R := (/ dp_rho A + pole_sum A lambda)%R.
Definition pencil_secular_function (A : dpr1 R) (sigma lambda : R) : R := (/ (dp_rho A - sigma * lambda) + pole_sum A lambda)%R.
(** lambda is no pole *)
Definition off_poles (A : dpr1 R) (lambda : R) : Prop := forall i, 0 <= i < dp_n A -> nthZ 0%R (dp_d A) i <> lambda.

(** A v = lambda B v on the first n entries *)
Definition eigenpair (n : Z) (A B : Z -> Z -> R) (lambda : R) (v : Z -> R) : Prop :=
  forall i, 0 <= i < n -> matvec n A v i = (lambda * matvec n B v i)%R.
(** A V = B V diag(lambda) and V^T B V = I for the first m columns *)
Definition eigensystem (n m : Z) (A B : Z -> Z -> R) (lambda : Z -> R) (V : Z -> Z -> R) : Prop :=
  (forall j, 0 <= j < m -> eigenpair n A B (lambda j) (fun i => V i j)) /\
  (forall j k, 0 <= j < m -> 0 <= k < m -> sumZ n (fun i => V i j * matvec n B (fun r => V r k) i)%R = delta j k).

(** lambda is a root of the secular function, away from the poles *)
Definition pencil_root (A : dpr1 R) (sigma lambda : R) : Prop :=
  off_poles A lambda /\ (dp_rho A - sigma * lambda)%R <> 0%R /\ pencil_secular_function A sigma lambda = 0%R.
(** v^T B v > 0 for every nonzero v *)
Definition posdef (n : Z) (B : Z -> Z -> R) : Prop :=
  forall v, (exists i, 0 <= i < n /\ v i <> 0%R) -> (0 < sumZ n (fun i => v i * matvec n B v i))%R.

(** the Loewner products: the weights c_k for which the function 1 + sum_k c_k/(d_k - t) vanishes at lambda_0, .., lambda_(n-1) *)
Definition loewner (n : Z) (d lambda : Z -> R) (k : Z) : R :=
  ((lambda k - d k) * prodZ n (fun i => if (i =? k)%Z then 1 else (lambda i - d k) / (d i - d k)))%R.

(** the matrix an eigen-decomposition stands for: rows permuted by p, columns by q, and in
    between the identity (iz), the diagonal v (id) and the block V *)
Definition dpe_core {V} (Vm : Z -> Z -> R) (E : dpeig R V) (i k : Z) : R :=
  let iz := de_iz E in let id := de_id E in
  if i <? iz then delta i k
  else if k <? iz then 0%R
  else if k <? iz + id then (if i =? k then nthZ 0%R (de_v E) (k - iz) else 0%R)
  else Vm (i - iz) (k - iz - id).
Definition dpe_mat {V} (Vm : Z -> Z -> R) (E : dpeig R V) (r j : Z) : R :=
  sumZ (de_num E) (fun i => (delta (nthZ 0%Z (de_p E) i) r * dpe_core Vm E i (nthZ 0%Z (de_q E) j))%R).
Definition dpe_ok {V} (E : dpeig R V) : Prop :=
  0 <= de_iz E /\ 0 <= de_id E /\ de_iz E + de_id E <= de_num E /\ de_id E <= zlen (de_v E) /\
  is_perm (de_num E) (de_p E) /\ is_perm (de_num E) (de_q E).
(** for dense V *)
Definition dpe_dense (E : dpeig R (list R)) : Z -> Z -> R := dpe_mat (mat 0 (de_num E - de_iz E) (de_V E)) E.
Definition dpe_dense_ok (E : dpeig R (list R)) : Prop :=
  dpe_ok E /\ (de_num E - de_iz E) * (de_num E - de_iz E - de_id E) <= zlen (de_V E).
(** for hierarchical V *)
Definition dpe_hier (E : dpeig R (hmat R)) : Z -> Z -> R := dpe_mat (h_mat (de_V E)) E.
Definition dpe_hier_ok (E : dpeig R (hmat R)) : Prop :=
  dpe_ok E /\ h_ok (de_V E) /\ hrows (de_V E) = de_num E - de_iz E /\ hcols (de_V E) = de_num E - de_iz E - de_id E.

(** the threshold of the first deflation: entries of z up to it are dropped *)
Definition defl_tol (definite : bool) (eps : R) (A : dpr1 R) (B : idpr1 R) : R :=
  (sqrt (if definite then Rabs (dp_rho A) + Rabs (ip_sigma B) else Rabs (dp_rho A)) *
   sqrt (sumZ (dp_n A) (fun i => nthZ 0 (dp_z A) i * nthZ 0 (dp_z A) i)) * eps)%R.

(** what the drivers need of the root finder, run with the parameters rho and sigma: for strictly
    increasing d, nonzero z and rho <> sigma d_i it returns, as sums lambdahi + lambdalo, n
    different roots of the secular function, and no lambdalo is as small as sqrt(floatmin) *)
Definition exact_roots (floatmin rho sigma : R) (f : dpr1 R -> list R -> list R -> option (list R * list R)) : Prop :=
  forall A lo hi, dp_ok A -> dp_rho A = rho -> zlen lo = dp_n A -> zlen hi = dp_n A ->
    increasing (dp_d A) 0 (dp_n A - 1) ->
    (forall i, 0 <= i < dp_n A -> nthZ 0%R (dp_z A) i <> 0%R /\ (rho - sigma * nthZ 0 (dp_d A) i)%R <> 0%R) ->
    exists lo' hi', f A lo hi = Some (lo', hi') /\ zlen lo' = dp_n A /\ zlen hi' = dp_n A /\
      (forall j, 0 <= j < dp_n A -> pencil_root A sigma (nthZ 0 hi' j + nthZ 0 lo' j)%R) /\
      (forall j k, 0 <= j < dp_n A -> 0 <= k < dp_n A -> j <> k -> (nthZ 0 hi' j + nthZ 0 lo' j)%R <> (nthZ 0 hi' k + nthZ 0 lo' k)%R) /\
      (forall j, 0 <= j < dp_n A -> (sqrt floatmin < Rabs (nthZ 0 lo' j))%R).

(** what the FMM drivers need of the sampled kernels: hierarchical matrices with the entries
    1/(d_i - lambda_j) and 1/(d_i - lambda_j)^2, lambda_j given as lambdahi + lambdalo *)
Definition exact_kernels (sample : list R -> list R -> list R -> list R -> Z -> Z -> option (hmat R * hmat R)) : Prop :=
  forall d lambda lo hi n m, 0 <= n <= zlen d -> 0 <= m -> m <= zlen lambda -> m <= zlen lo -> m <= zlen hi ->
    (forall j, 0 <= j < m -> nthZ 0%R lambda j = (nthZ 0 hi j + nthZ 0 lo j)%R) ->
    (forall i j, 0 <= i < n -> 0 <= j < m -> nthZ 0%R d i <> nthZ 0%R lambda j) ->
    exists Q N, sample d lambda lo hi n m = Some (Q, N) /\
      h_ok Q /\ hrows Q = n /\ hcols Q = m /\ h_ok N /\ hrows N = n /\ hcols N = m /\
      forall i j, 0 <= i < n -> 0 <= j < m ->
        h_mat Q i j = (/ (nthZ 0 d i - nthZ 0 lambda j))%R /\
        h_mat N i j = (/ ((nthZ 0 d i - nthZ 0 lambda j) * (nthZ 0 d i - nthZ 0 lambda j)))%R.
(** the hypotheses on the problem D + rho z z^T (sigma: 0 or that of the pencil): what deflation
    drops is zero, the d_i of nonzero z_i are distinct and rho <> sigma d_i for them *)
Definition dp_simple (tol sigma : R) (A : dpr1 R) : Prop :=
  (forall i, 0 <= i < dp_n A -> (Rabs (nthZ 0 (dp_z A) i) <= tol)%R -> nthZ 0%R (dp_z A) i = 0%R) /\
  (forall i j, 0 <= i < dp_n A -> 0 <= j < dp_n A -> i <> j -> nthZ 0%R (dp_z A) i <> 0%R -> nthZ 0%R (dp_z A) j <> 0%R ->
     nthZ 0%R (dp_d A) i <> nthZ 0%R (dp_d A) j) /\
  (forall i, 0 <= i < dp_n A -> nthZ 0%R (dp_z A) i <> 0%R -> (dp_rho A - sigma * nthZ 0 (dp_d A) i <> 0)%R).
