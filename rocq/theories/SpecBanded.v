(** * The matrices that banded storage represents *)
From Coq Require Import ZArith List Reals Bool.
From Verif Require Import Base SpecSum SpecLin MBanded.
Open Scope Z_scope.

(** entry (i,j) of a banded matrix is stored in row u+i-j of column j of the data *)
Definition bd_mat (A : banded R) (i j : Z) : R :=
  if (- bd_l A <=? j - i) && (j - i <=? bd_u A)
  then mat 0 (bd_l A + bd_u A + 1) (bd_data A) (bd_u A + i - j) j else 0%R.
Definition bd_ok {F} (A : banded F) : Prop :=
  0 <= bd_m A /\ 0 <= bd_n A /\ bd_n A * (bd_l A + bd_u A + 1) <= zlen (bd_data A).
(** entry (i,j), j-b <= i <= j, of a triangular banded matrix: row b+i-j of column j *)
Definition tb_mat (A : tbanded R) (i j : Z) : R :=
  if (0 <=? j - i) && (j - i <=? tb_b A)
  then mat 0 (tb_b A + 1) (tb_data A) (tb_b A + i - j) j else 0%R.
Definition tb_ok {F} (A : tbanded F) : Prop :=
  0 <= tb_n A /\ 0 <= tb_b A /\ tb_n A * (tb_b A + 1) <= zlen (tb_data A).
(** the upper (lower) triangle of a banded matrix *)
Definition upper (U : Z -> Z -> R) (i j : Z) : R := if i <=? j then U i j else 0%R.
Definition lower (U : Z -> Z -> R) (i j : Z) : R := if j <=? i then U i j else 0%R.
Definition nonzero_diag (n : Z) (U : Z -> Z -> R) : Prop := forall i, 0 <= i < n -> U i i <> 0%R.
(** the entry (i,j) is inside the matrix and its band *)
Definition bd_stored {F} (A : banded F) (i j : Z) : Prop :=
  0 <= i < bd_m A /\ 0 <= j < bd_n A /\ - bd_l A <= j - i <= bd_u A.
Definition tb_stored {F} (A : tbanded F) (i j : Z) : Prop :=
  0 <= i < tb_n A /\ 0 <= j < tb_n A /\ 0 <= j - i <= tb_b A.
Definition same_shape {F} (A B : banded F) : Prop :=
  bd_m A = bd_m B /\ bd_n A = bd_n B /\ bd_l A = bd_l B /\ bd_u A = bd_u B.

(** ** Modified weights: w = (R^{-1} or R K^{-1}, or their transposes) v
    [nv < 1]: polynomial modification, R w = v (R^T w = v);
    otherwise rational modification, w = R K^{-1} v (w = K^{-T} R^T v) *)
Definition mp_rel n (K Rm : Z -> Z -> R) nv t (v w : Z -> R) : Prop :=
  if nv <? 1 then isprod n (op t Rm) w v
  else if t then exists z, isprod n (transp Rm) v z /\ isprod n (transp K) w z
  else exists z, isprod n K z v /\ isprod n Rm z w.
Definition mp_ok nv (K Rm : tbanded R) : Prop :=
  tb_ok Rm /\ nonzero_diag (tb_n Rm) (tb_mat Rm) /\
  (1 <= nv -> tb_ok K /\ nonzero_diag (tb_n K) (tb_mat K) /\ tb_n K = tb_n Rm).
(** ** Factorisations *)
(** the lower triangle with ones on the diagonal *)
Definition unit_lower (U : Z -> Z -> R) (i j : Z) : R := if i =? j then 1%R else if j <? i then U i j else 0%R.
Definition symmetric (n : Z) (U : Z -> Z -> R) : Prop := forall i j, 0 <= i < n -> 0 <= j < n -> U i j = U j i.
(** x^T U x > 0 for every non-zero x *)
Definition positive_definite (n : Z) (U : Z -> Z -> R) : Prop :=
  forall x : Z -> R, (exists i, 0 <= i < n /\ x i <> 0%R) -> (0 < sumZ n (fun i => x i * matvec n U x i))%R.
(** the [n] by [p] matrices are equal *)
Definition same_matrix (m n : Z) (U V : Z -> Z -> R) : Prop := forall i j, 0 <= i < m -> 0 <= j < n -> U i j = V i j.
Definition orthogonal (n : Z) (Q : Z -> Z -> R) : Prop :=
  same_matrix n n (matmul n (transp Q) Q) delta /\ same_matrix n n (matmul n Q (transp Q)) delta.
(** the sum of the squares of the n entries from position o *)
Definition sumsq (o n : Z) (x : list R) : R := sumZ n (fun i => (vec o x i * vec o x i)%R).
