(** * Vocabulary for the harmonic transforms: tensors, the BLAS contract, adjoints *)
From Coq Require Import ZArith List Reals.
From Verif Require Import Base Arith SpecSum SpecLin MHarmonic.
Open Scope Z_scope.

(** The upper triangle of the matrix stored by columns with leading dimension [ld]. *)
Definition utri (ld : Z) (T : list R) (i j : Z) : R := if i <=? j then mat 0 ld T i j else 0%R.

(** Euclidean inner product of two arrays (of the same length). *)
Definition dot (X Y : list R) : R := sumZ (zlen X) (fun i => (nthZ 0 X i * nthZ 0 Y i)%R).

(** [B'] is [B] with the [m] lines of [n] entries of stride [s] starting at [base j] each
    replaced by its product with [U j], and no other change. *)
Definition lines (n s m : Z) (base : Z -> Z) (U : Z -> Z -> Z -> R) (B B' : list R) : Prop :=
  zlen B' = zlen B /\
  (forall j i, 0 <= j < m -> 0 <= i < n ->
     nthZ 0%R B' (base j + i * s) = sumZ n (fun k => (U j i k * nthZ 0%R B (base j + k * s))%R)) /\
  (forall p, (forall j i, 0 <= j < m -> 0 <= i < n -> p <> base j + i * s) -> zget B' p = zget B p).

(** The BLAS contract (http://www.netlib.org/blas, DTRMM, DTRMV), with unit scaling, upper
    triangular and non-unit diagonal, for the argument ranges BLAS accepts. *)
Record blas_ok (BL : blas R) : Prop := {
  (* B := op(T) B on a block of n rows and k columns *)
  ok_left : forall trans n k T ldt B o ldb, 0 < n -> 0 <= k -> fits_mat 0 n n ldt T -> fits_mat o n k ldb B ->
    exists B', dtrmm_left BL trans n k T ldt B o ldb = Some B' /\
      lines n 1 k (fun j => o + j * ldb) (fun _ => op trans (utri ldt T)) B B';
  (* B := B op(T): row i of the result is op(T)^T times row i *)
  ok_right : forall trans n k T ldt B o ldb, 0 < n -> 0 < k -> fits_mat 0 k k ldt T -> fits_mat o n k ldb B ->
    exists B', dtrmm_right BL trans n k T ldt B o ldb = Some B' /\
      lines k ldb n (fun i => o + i) (fun _ => transp (op trans (utri ldt T))) B B';
  (* x := op(T) x on n entries of stride inc *)
  ok_mv : forall trans n T ldt x o inc, 0 < n -> 0 < inc -> fits_mat 0 n n ldt T ->
    0 <= o -> o + (n - 1) * inc < zlen x ->
    exists x', dtrmv BL trans n T ldt x o inc = Some x' /\
      lines n inc 1 (fun _ => o) (fun _ => op trans (utri ldt T)) x x';
  (* B := op(T) B for complex B, where the upper triangle of T has zero imaginary parts: real and
     imaginary parts are multiplied separately (line 2j+r: part r of column j) *)
  ok_zleft : forall trans n k T ldt B o ldb, 0 < n -> 0 <= k -> n <= ldt -> 2 * ((n - 1) * ldt + n) <= zlen T ->
    (forall i j, 0 <= i <= j -> j < n -> nthZ 0%R T (2 * (i + j * ldt) + 1) = 0%R) ->
    0 <= o -> n <= ldb -> (0 < k -> 2 * (o + (k - 1) * ldb + n) <= zlen B) ->
    exists B', ztrmm_left BL trans n k T ldt B o ldb = Some B' /\
      lines n 2 (2 * k) (fun j => 2 * (o + (j / 2) * ldb) + j mod 2)
        (fun _ => op trans (fun i j => if i <=? j then nthZ 0%R T (2 * (i + j * ldt)) else 0%R)) B B' }.

(** [B] and [B'] are three-dimensional arrays of sizes [a], [b], [c] (first index fastest), and
    [B'] is [B] multiplied along the middle dimension: for every [x < a] and [z < c],
    [B'(x, i, z) = sum_k U z i k B(x, k, z)]. *)
Definition entry (a b : Z) (B : list R) (x y z : Z) : R := nthZ 0%R B (x + a * (y + b * z)).
Definition mode (a b c : Z) (U : Z -> Z -> Z -> R) (B B' : list R) : Prop :=
  zlen B = a * b * c /\ zlen B' = a * b * c /\
  forall x i z, 0 <= x < a -> 0 <= i < b -> 0 <= z < c ->
    entry a b B' x i z = sumZ b (fun k => (U z i k * entry a b B x k z)%R).
(** [N] by [M] matrices: multiply every column [j] by [U j]; multiply every row by [U] *)
Definition mul_columns (N M : Z) (U : Z -> Z -> Z -> R) := mode 1 N M U.
Definition mul_rows (N M : Z) (U : Z -> Z -> R) := mode N M 1 (fun _ => U).

(** The two matrices are inverse to each other (as matrices of order [n]). *)
Definition inverse_of (n : Z) (U V : Z -> Z -> R) : Prop :=
  forall i j, 0 <= i < n -> 0 <= j < n -> matmul n U V i j = delta i j /\ matmul n V U i j = delta i j.

(** [p] and [q] succeed on all arrays of length [len] and are adjoint to each other. *)
Definition adjoint (len : Z) (p q : list R -> option (list R)) : Prop :=
  forall X Y, zlen X = len -> zlen Y = len ->
  exists X' Y', p X = Some X' /\ q Y = Some Y' /\ zlen X' = len /\ zlen Y' = len /\ dot X' Y = dot X Y'.
(** [p] and [q] succeed on all arrays of length [len] and are inverse to each other. *)
Definition inverse (len : Z) (p q : list R -> option (list R)) : Prop :=
  forall X, zlen X = len ->
  (exists X', p X = Some X' /\ zlen X' = len /\ q X' = Some X) /\ (exists X', q X = Some X' /\ zlen X' = len /\ p X' = Some X).
(** [a X + Y] entry by entry *)
Definition axpy (a : R) (X Y : list R) : list R := map (fun p => (a * fst p + snd p)%R) (combine X Y).
(** [p] succeeds on all arrays of length [len] and is linear. *)
Definition linear (len : Z) (p : list R -> option (list R)) : Prop :=
  forall a X Y, zlen X = len -> zlen Y = len ->
  exists X' Y', p X = Some X' /\ p Y = Some Y' /\ zlen X' = len /\ zlen Y' = len /\ p (axpy a X Y) = Some (axpy a X' Y').
(** [P] and [Q] are [N] by [N] arrays whose upper triangles are inverse to each other. *)
Definition inverse_tables (N : Z) (P Q : list R) : Prop :=
  zlen P = N * N /\ zlen Q = N * N /\ inverse_of N (utri N P) (utri N Q).
(** The program with TRANS='T' ([true]) is the adjoint of the one with TRANS='N', and both are linear. *)
Definition transposed (len : Z) (p : bool -> list R -> option (list R)) : Prop :=
  adjoint len (p false) (p true) /\ linear len (p false) /\ linear len (p true).
(** Entry by entry: the factor 2/pi, and 1/sqrt 2 in the first row and in the first column. *)
Definition scaled2 (N M : Z) (A A' : list R) : Prop := zlen A' = N * M /\
  forall i j, 0 <= i < N -> 0 <= j < M -> nthZ 0%R A' (i + j * N) =
    (2 / PI * (if i =? 0 then / sqrt 2 else 1) * (if (j =? 0)%Z then / sqrt 2 else 1) * nthZ 0 A (i + j * N))%R.
(** The same in three dimensions, with (2/pi)^(3/2). *)
Definition scaled3 (N L M : Z) (A A' : list R) : Prop := zlen A' = N * L * M /\
  forall i j k, 0 <= i < N -> 0 <= j < L -> 0 <= k < M -> nthZ 0%R A' (i + (j + k * L) * N) =
    (2 / PI * sqrt (2 / PI) * (if i =? 0 then / sqrt 2 else 1) * (if (j =? 0)%Z then / sqrt 2 else 1) * (if (k =? 0)%Z then / sqrt 2 else 1) * nthZ 0 A (i + (j + k * L) * N))%R.
