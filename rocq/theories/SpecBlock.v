(** * The matrices that 2x2-block storage represents *)
From Coq Require Import ZArith List Reals Bool.
From Verif Require Import Base SpecSum SpecLin MBanded SpecBanded MHier MButter SpecButter MBlock.
Open Scope Z_scope.

(** entry (i,j) of the 2n by 2n matrix is entry (i/2, j/2) of the block (i%2, j%2) *)
Definition bt_mat (A : btband R) (i j : Z) : R :=
  let T := if i mod 2 =? 0 then (if j mod 2 =? 0 then bt00 A else bt01 A) else if j mod 2 =? 0 then bt10 A else bt11 A in
  tb_mat T (i / 2) (j / 2).
Definition tb_is {F} (n b : Z) (T : tbanded F) : Prop := tb_ok T /\ tb_n T = n /\ tb_b T = b.
Definition bt_ok {F} (A : btband F) : Prop :=
  tb_is (bt_n A) (bt_b A) (bt00 A) /\ tb_is (bt_n A) (bt_b A) (bt01 A) /\ tb_is (bt_n A) (bt_b A) (bt10 A) /\ tb_is (bt_n A) (bt_b A) (bt11 A).
(** the determinant of the i-th diagonal 2x2 block *)
Definition det2 (U : Z -> Z -> R) (i : Z) : R :=
  (U (2 * i)%Z (2 * i)%Z * U (2 * i + 1)%Z (2 * i + 1)%Z - U (2 * i)%Z (2 * i + 1)%Z * U (2 * i + 1)%Z (2 * i)%Z)%R.
Definition nonsingular_blocks (n : Z) (U : Z -> Z -> R) : Prop := forall i, 0 <= i < n -> det2 U i <> 0%R.
(** the block upper triangle of a matrix *)
Definition block_upper (U : Z -> Z -> R) (i j : Z) : R := if i / 2 <=? j / 2 then U i j else 0%R.
Definition is_block_upper (n : Z) (U : Z -> Z -> R) : Prop := forall i j, 0 <= i < 2 * n -> 0 <= j < 2 * n -> j / 2 < i / 2 -> U i j = 0%R.
(** block diagonal rotations [[c, -s], [s, c]] *)
Definition rotations (s c : list R) (i j : Z) : R :=
  if negb (i / 2 =? j / 2) then 0%R
  else if i =? j then nthZ 0%R c (i / 2) else if i <? j then (- nthZ 0 s (i / 2))%R else nthZ 0%R s (i / 2).
Definition unit_rotations (n : Z) (s c : list R) : Prop :=
  forall i, 0 <= i < n -> (nthZ 0 s i * nthZ 0 s i + nthZ 0 c i * nthZ 0 c i = 1)%R.
(** the matrix of a plan: the rotations times the upper-triangular eigenvector matrix *)
Definition bf_mat (E : btbeig R) : Z -> Z -> R := matmul (2 * bf_n E) (rotations (bf_s E) (bf_c E)) (tb_V (bf_F E)).
Definition bf_wf {F} (BS tn : Z) (E : btbeig F) : Prop :=
  0 <= bf_n E /\ bf_n E <= zlen (bf_s E) /\ bf_n E <= zlen (bf_c E) /\ 2 * bf_n E * (tn + 1) <= zlen (bf_t E) /\
  tbeig_n (bf_F E) = 2 * bf_n E /\ tb_wf BS tn (bf_F E).
(** every second row and column: [first = 0] the even ones, [1] the odd ones *)
Definition odd (b : bool) : Z := if b then 1 else 0.
Definition half_block (r d : bool) (U : Z -> Z -> R) (i j : Z) : R := U (2 * i + odd r)%Z (2 * j + odd d)%Z.
(** the eigenvalues of a 2x2 pencil: the roots of det(A - l B) *)
Definition pencil_det2 (A B : Z -> Z -> R) (l : R) (j : Z) : R := det2 (fun i k => (A i k - l * B i k)%R) j.
(** V is zero below its 2x2 diagonal blocks *)
Definition no_block_lower (n : Z) (V : list R) : Prop := forall i j, 0 <= i < 2 * n -> 0 <= j < 2 * n -> j / 2 < i / 2 -> mat 0 (2 * n) V i j = 0%R.
