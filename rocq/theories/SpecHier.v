(** * The matrix represented by a dense, low-rank or hierarchical matrix *)
From Coq Require Import ZArith List Reals Bool.
From Verif Require Import Base SpecSum SpecLin MHier.
Import ListNotations.
Open Scope Z_scope.

(** rows and columns of op(A) for an m by n matrix A; [t] is TRANS == 'T' *)
Definition orows (t : bool) (m n : Z) : Z := if t then n else m.
Definition ocols (t : bool) (m n : Z) : Z := if t then m else n.
(** the r by c matrix [U] placed with its corner at row [p], column [q] of a zero matrix *)
Definition placed (p q r c : Z) (U : Z -> Z -> R) (i j : Z) : R :=
  if (p <=? i) && (i <? p + r) && (q <=? j) && (j <? q + c) then U (i - p) (j - q) else 0%R.
(** [before n f = f 0 + .. + f (n-1)], the offset of block number n when block k has size f k *)
Fixpoint beforen (k : nat) (f : Z -> Z) : Z := match k with O => 0 | S k' => beforen k' f + f (Z.of_nat k') end.
Definition before (n : Z) (f : Z -> Z) : Z := beforen (Z.to_nat n) f.

Definition de_ok {F} (A : dense F) : Prop := 0 <= de_m A /\ 0 <= de_n A /\ de_m A * de_n A <= zlen (de_A A).
Definition de_mat (A : dense R) : Z -> Z -> R := mat 0 (de_m A) (de_A A).
Definition lr_ok {F} (L : lowrank F) : Prop :=
  0 <= lr_m L /\ 0 <= lr_n L /\ 0 <= lr_r L /\ lr_m L * lr_r L <= zlen (lr_U L) /\ lr_n L * lr_r L <= zlen (lr_V L) /\
  (lr_three L = true -> lr_r L * lr_r L <= zlen (lr_S L)) /\ lr_r L <= zlen (lr_t1 L) /\ lr_r L <= zlen (lr_t2 L).
(** U V^T or U S V^T *)
Definition lr_mat (L : lowrank R) : Z -> Z -> R :=
  let U := mat 0 (lr_m L) (lr_U L) in let S := mat 0 (lr_r L) (lr_S L) in let V := mat 0 (lr_n L) (lr_V L) in
  if lr_three L then matmul (lr_r L) U (matmul (lr_r L) S (transp V)) else matmul (lr_r L) U (transp V).

(** sizes of block row a and block column b of an M by N array of blocks *)
Definition rsize {F} (bl : list (hmat F)) (a : Z) : Z := hrows (nthZ HNone bl a).
Definition csize {F} (bl : list (hmat F)) (M b : Z) : Z := hcols (nthZ HNone bl (b * M)).
(** all blocks of a block row have the same number of rows, those of a block column the same
    number of columns, and the sizes add up *)
Inductive h_ok {F} : hmat F -> Prop :=
| ok_dense A : de_ok A -> h_ok (HDense A)
| ok_low L : lr_ok L -> h_ok (HLow L)
| ok_tree m n M N bl : 1 <= M -> 1 <= N -> zlen bl = M * N ->
    (forall k b, zget bl k = Some b -> h_ok b) ->
    (forall a b X, 0 <= a < M -> 0 <= b < N -> zget bl (a + b * M) = Some X -> hrows X = rsize bl a /\ hcols X = csize bl M b) ->
    m = before M (rsize bl) -> n = before N (csize bl M) ->
    h_ok (HTree m n M N bl).
(** the flattened matrix: every block at its place *)
Fixpoint h_mat (H : hmat R) : Z -> Z -> R :=
  match H with
  | HNone => fun _ _ => 0%R
  | HDense A => de_mat A
  | HLow L => lr_mat L
  | HTree m n M N bl =>
    let mats := map h_mat bl in
    fun i j => sumZ N (fun b => sumZ M (fun a =>
      placed (before a (rsize bl)) (before b (csize bl M)) (rsize bl a) (csize bl M b)
        (nthZ (fun _ _ => 0%R) mats (a + b * M)) i j))
  end.

(** [C'] is [C] with the m by p matrix at [o] with leading dimension [ld] replaced by [val] and no
    other change *)
Definition writes_mat {F} (o m p ld : Z) (C C' : list F) (val : Z -> Z -> F) : Prop :=
  zlen C' = zlen C /\
  (forall i k, 0 <= i < m -> 0 <= k < p -> zget C' (o + (i + k * ld)) = Some (val i k)) /\
  (forall q, (forall i k, 0 <= i < m -> 0 <= k < p -> q <> o + (i + k * ld)) -> zget C' q = zget C q).

(** ** Sampling *)
(** the gap between the node intervals [x_start, x_(stop-1)] and [y_start, y_(stop-1)] *)
Definition gap (x y : list R) (i j : Z * Z) : R :=
  Rmax 0 (Rmax (nthZ 0%R y (fst j) - nthZ 0%R x (snd i - 1)) (nthZ 0%R x (fst i) - nthZ 0%R y (snd j - 1))).
Definition diameter (v : list R) (i : Z * Z) : R := (nthZ 0%R v (snd i - 1) - nthZ 0%R v (fst i))%R.
Definition separated (x y : list R) (i j : Z * Z) : Prop := (Rmin (diameter x i) (diameter y j) <= gap x y i j)%R.
(** a nonempty range inside [i0] *)
Definition subrange (i i0 : Z * Z) : Prop := fst i0 <= fst i /\ fst i < snd i /\ snd i <= snd i0.
(** the entries of the matrix are within eps of f(x_i, y_j), rows and columns counted from the
    starts of the ranges *)
Definition samples (f : R -> R -> R) (x y : list R) (eps : R) (i j : Z * Z) (U : Z -> Z -> R) : Prop :=
  forall a b, fst i <= a < snd i -> fst j <= b < snd j ->
    (Rabs (U (a - fst i)%Z (b - fst j)%Z - f (nthZ 0 x a) (nthZ 0 y b)) <= eps)%R.

(** [X'] has the shape of [X] and its entry (i,j) is that of [X] times g i j *)
Definition scaled (g : Z -> Z -> R) (X X' : hmat R) : Prop :=
  h_ok X' /\ hrows X' = hrows X /\ hcols X' = hcols X /\
  forall i j, 0 <= i < hrows X -> 0 <= j < hcols X -> h_mat X' i j = (g i j * h_mat X i j)%R.

