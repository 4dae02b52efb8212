(** * Vocabulary for the divide-and-conquer eigensolver *)
From Coq Require Import ZArith List Reals.
From Verif Require Import Arith Base SpecSum SpecLin MTridiag SpecTri MHier SpecHier MDprk MDprk2 SpecDprk MTdc.
Import ListNotations.
Open Scope Z_scope.

(** diag(A, B), A being s by s *)
Definition blockdiag (s : Z) (A B : Z -> Z -> R) (i j : Z) : R :=
  if i <? s then (if j <? s then A i j else 0%R) else (if j <? s then 0%R else B (i - s) (j - s)).
(** no off-diagonal entry is positive *)
Definition nonpositive_off (T : symtri R) : Prop := forall i, 0 <= i < st_n T - 1 -> (nthZ 0 (st_b T) i <= 0)%R.
(** the vector y: -1 at s-1, 1 at s *)
Definition tear_dir (s i : Z) : R := if i =? s - 1 then (-1)%R else if i =? s then 1%R else 0%R.
Section Tree.
Context {V : Type}.
(** the matrix and the well-formedness of the rank-one eigen-decompositions in the nodes *)
Variable M0 : dpeig R V -> Z -> Z -> R.
Variable ok0 : dpeig R V -> Prop.
(** the matrix a tree stands for: V in a leaf, diag(V1, V2) V0 in a node *)
Fixpoint tdc_mat (t : tdc R (dpeig R V)) : Z -> Z -> R :=
  match t with
  | TLeaf n Vm _ => mat 0 n Vm
  | TNode n F0 F1 F2 _ => matmul n (blockdiag (tdc_n F1) (tdc_mat F1) (tdc_mat F2)) (M0 F0)
  end.
Fixpoint tdc_ok (t : tdc R (dpeig R V)) : Prop :=
  match t with
  | TLeaf n Vm lambda => 0 <= n /\ zlen Vm = n * n /\ zlen lambda = n
  | TNode n F0 F1 F2 z => 2 <= n /\ ok0 F0 /\ de_num F0 = n /\ zlen (de_lambda F0) = n /\ zlen z = n /\
      tdc_n F1 = n / 2 /\ tdc_n F2 = n - n / 2 /\ tdc_ok F1 /\ tdc_ok F2
  end.
(** equal except for the contents of the scratch vectors *)
Fixpoint same_tree (t u : tdc R (dpeig R V)) : Prop :=
  match t, u with
  | TLeaf _ _ _, TLeaf _ _ _ => t = u
  | TNode n F0 F1 F2 z, TNode m G0 G1 G2 w => n = m /\ F0 = G0 /\ zlen z = zlen w /\ same_tree F1 G1 /\ same_tree F2 G2
  | _, _ => False
  end.

(** what the recursion solves.  [leaf_solved]: the tridiagonal eigensolver, started with V = I,
    returns a full eigensystem of (T, S).  [merge_solved]: the rank-one eigensolver does for (A, B),
    which is given with equal vectors z and sigma >= 0. *)
Definition leaf_solved (leig : symtri R -> symtri R -> list R -> list R -> option (list R * list R)) (T S : symtri R) : Prop :=
  forall I L, zlen I = st_n T * st_n T -> zlen L = st_n T ->
    (forall i j, 0 <= i < st_n T -> 0 <= j < st_n T -> mat 0 (st_n T) I i j = delta i j) ->
  exists Vm lambda, leig T S I L = Some (Vm, lambda) /\ zlen Vm = st_n T * st_n T /\ zlen lambda = st_n T /\
    eigensystem (st_n T) (st_n T) (st_mat T) (st_mat S) (nthZ 0%R lambda) (mat 0 (st_n T) Vm).
Definition merge_ready (A : dpr1 R) (B : idpr1 R) : Prop :=
  dp_ok A /\ ip_ok B /\ ip_n B = dp_n A /\ (forall i, 0 <= i < dp_n A -> nthZ 0%R (ip_z B) i = nthZ 0%R (dp_z A) i) /\ (0 <= ip_sigma B)%R.
Definition merge_solved (deig : dpr1 R -> idpr1 R -> option (dpeig R V)) (A : dpr1 R) (B : idpr1 R) : Prop :=
  merge_ready A B -> exists E, deig A B = Some E /\ ok0 E /\ de_num E = dp_n A /\ zlen (de_lambda E) = dp_n A /\
    eigensystem (dp_n A) (dp_n A) (dp_mat A) (ip_mat B) (nthZ 0%R (de_lambda E)) (M0 E).

(** the two halves of a torn matrix *)
Definition halves (T : symtri R) : option (symtri R * symtri R * R) :=
  let n := st_n T in let s := n / 2 in
  do rho <- tear_rho s T;
  do T1 <- tear_first s rho T; do T2 <- tear_second n s rho T; Some (T1, T2, rho).
(** every pencil handed to the tridiagonal eigensolver satisfies P, and every pair handed to the
    rank-one eigensolver satisfies Q *)
Section Problems.
Variable bs : Z.
Variables (P : symtri R -> symtri R -> Prop) (Q : dpr1 R -> idpr1 R -> Prop).
Variable dmv0 : bool -> R -> dpeig R V -> list R -> R -> list R -> option (list R * list R * list Z * list Z).
Variable leig : symtri R -> symtri R -> list R -> list R -> option (list R * list R).
Variable deig : dpr1 R -> idpr1 R -> option (dpeig R V).
Fixpoint problems (fuel : nat) (T S : symtri R) : Prop :=
  match fuel with
  | O => True
  | Datatypes.S fuel =>
    if st_n T <? bs then P T S
    else forall T1 T2 rho S1 S2 sigma, halves T = Some (T1, T2, rho) -> halves S = Some (S1, S2, sigma) ->
      problems fuel T1 S1 /\ problems fuel T2 S2 /\
      forall F1 F2 y A B G1 G2, sdtdc_eig dmv0 bs leig deig fuel T1 S1 = Some F1 -> sdtdc_eig dmv0 bs leig deig fuel T2 S2 = Some F2 ->
        tear_vector (st_n T) (st_n T / 2) = Some y ->
        merge_problem dmv0 (st_n T) (st_n T / 2) rho sigma y F1 F2 = Some (A, B, G1, G2) -> Q A B
  end.
End Problems.
End Tree.
(** the hypotheses on a rank-one problem under which the rank-one eigensolver is exact: it is
    simple and its root finder is exact *)
Definition simple_merge (eps fm : R) (eigvals : dpr1 R -> idpr1 R -> list R -> list R -> option (list R * list R)) (A : dpr1 R) (B : idpr1 R) : Prop :=
  dp_simple (defl_tol true eps A B) (ip_sigma B) A /\
  (forall B1, ip_sigma B1 = ip_sigma B -> exact_roots fm (dp_rho A) (ip_sigma B) (fun A lo hi => eigvals A B1 lo hi)).
