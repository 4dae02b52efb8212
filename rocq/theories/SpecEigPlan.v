(** * Vocabulary for the eigenvector planners *)
From Coq Require Import ZArith List Reals.
From Verif Require Import Arith Base SpecSum SpecLin MHier SpecHier SpecSort SpecEig MButter SpecButter MEigPlan.
Open Scope Z_scope.

(** V is the upper-triangular matrix of eigenvectors, A V = B V diag(A_jj / B_jj), whose diagonal is D *)
Definition eigenvectors_of (n : Z) (A B : Z -> Z -> R) (D : Z -> R) (V : Z -> Z -> R) : Prop :=
  (forall i j, 0 <= j < i -> i < n -> V i j = 0%R) /\ (forall j, 0 <= j < n -> V j j = D j) /\
  forall i j, 0 <= i < n -> 0 <= j < n -> matmul n A V i j = (matmul n B V i j * (A j j / B j j))%R.
(** [low x i j] is a factorisation of the matrix f(x_a, x_c), a in i, c in j, for ranges i and j of two
    sorted parts 0 .. s-1 and s .. n-1 of x that are separated *)
Definition exact_lowrank (f : R -> R -> R) (low : list R -> Z * Z -> Z * Z -> option (lowrank R)) : Prop :=
  forall x s n i j, 0 <= s <= n -> n <= zlen x -> nondecreasing x 0 (s - 1) -> nondecreasing x s (n - 1) ->
    subrange i (0, s) -> subrange j (s, n) -> separated x x i j ->
    exists L, low x i j = Some L /\ lr_ok L /\ lr_m L = len i /\ lr_n L = len j /\ samples f x x 0 i j (lr_mat L).
(** [adi m a n b r X Y] is a factorisation of the solution Z of diag(a) Z - Z diag(b) = X Y^T *)
Definition exact_sylvester (adi : Z -> list R -> Z -> list R -> Z -> list R -> list R -> option (lowrank R)) : Prop :=
  forall m a n b r X Y, 0 <= m <= zlen a -> 0 <= n <= zlen b -> 0 <= r -> m * r <= zlen X -> n * r <= zlen Y ->
    (forall i k, 0 <= i < m -> 0 <= k < n -> nthZ 0%R a i <> nthZ 0%R b k) ->
    exists L, adi m a n b r X Y = Some L /\ lr_ok L /\ lr_m L = m /\ lr_n L = n /\
      forall i k, 0 <= i < m -> 0 <= k < n ->
        (nthZ 0%R a i * lr_mat L i k - lr_mat L i k * nthZ 0%R b k = sumZ r (fun q => mat 0 m X i q * mat 0 n Y k q))%R.
(** the structure of a plan whose kernels are sampled exactly: at every inner node p1 and p2 sort the two
    halves of lambda, and F0 holds the kernel of the sorted halves *)
Fixpoint sampled (tol : R) (E : tbeig R) (L : ltree R) : Prop :=
  match E, L with
  | TBLeaf n V, LLeaf la => zlen la = n
  | TBNode n b F0 X Y p1 p2 Sp t1 t2 F1 F2, LNode la L1 L2 =>
    let s := n / 2 in let m := n - n / 2 in
    zlen la = n /\ is_perm s p1 /\ is_perm m p2 /\
    (forall i j, 0 <= i < j -> j < s -> (nthZ 0%R la (nthZ 0%Z p1 i) <= nthZ 0%R la (nthZ 0%Z p1 j))%R) /\
    (forall i j, 0 <= i < j -> j < m -> (nthZ 0%R la (s + nthZ 0%Z p2 i)%Z <= nthZ 0%R la (s + nthZ 0%Z p2 j)%Z)%R) /\
    (forall i j, 0 <= i < s -> 0 <= j < m -> h_mat F0 i j = thresholded_cauchykernel tol (nthZ 0%R la (nthZ 0%Z p1 i)) (nthZ 0%R la (s + nthZ 0%Z p2 j)%Z)) /\
    sampled tol F1 L1 /\ sampled tol F2 L2
  | _, _ => False
  end.
(** no two of the n eigenvalues are within the relative tolerance *)
Definition none_close (tol : R) (n : Z) (la : Z -> R) : Prop := forall i j, 0 <= i < j -> j < n -> ~ close tol (la i) (la j).
