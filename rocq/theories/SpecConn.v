(** * Connection of two families of polynomials *)
From Coq Require Import ZArith List Reals.
From Verif Require Import Base SpecSum SpecLin MBanded SpecBanded SpecEig SpecClassical.
Open Scope Z_scope.

(** [U] is the upper-triangular n by n matrix that writes the polynomials of [P] in the basis [Q]:
    P_j = sum over i <= j of U_ij Q_i *)
Definition connects (n : Z) (U : Z -> Z -> R) (P Q : Z -> R -> R) : Prop :=
  (forall i j, 0 <= j < i -> i < n -> U i j = 0%R) /\
  forall j x, 0 <= j < n -> P j x = expansion n (fun i => U i j) Q x.

(** Chebyshev polynomials of the first kind and their squared norms *)
Record is_chebyshev (P : Z -> R -> R) : Prop := {
  che_0 : forall x, P 0 x = 1%R;
  che_1 : forall x, P 1 x = x;
  che_S : forall n x, 1 <= n -> P (n + 1)%Z x = (2 * x * P n x - P (n - 1)%Z x)%R }.
Record chebyshev_norms (h : Z -> R) : Prop := {
  chn_0 : (0 < h 0%Z)%R;
  chn_S : forall n, 1 <= n -> (2 * h n = h 0%Z)%R }.

(** ultraspherical polynomials C_n^{(l)} (DLMF 18.9.1, 18.9.2) and their squared norms *)
Record is_ultraspherical (l : R) (P : Z -> R -> R) : Prop := {
  ult_0 : forall x, P 0 x = 1%R;
  ult_1 : forall x, P 1 x = (2 * l * x)%R;
  ult_S : forall n x, 1 <= n -> let k := IZR n in
    ((k + 1) * P (n + 1)%Z x = 2 * (k + l) * x * P n x - (k + 2 * l - 1) * P (n - 1)%Z x)%R }.
Record ultraspherical_norms (l : R) (h : Z -> R) : Prop := {
  un_0 : (0 < h 0%Z)%R;
  un_S : forall n, 0 <= n -> let k := IZR n in
    ((k + 1) * (k + 1 + l) * h (n + 1)%Z = (k + l) * (k + 2 * l) * h n)%R }.

(** The columns of [U] are the eigenvectors of the triangular pencil A v = lam B v *)
Definition diagonalizes (n : Z) (A B : tbanded R) (U : Z -> Z -> R) (lam : Z -> R) : Prop :=
  tb_ok A /\ tb_ok B /\ tb_n A = n /\ tb_n B = n /\ nonzero_diag n (tb_mat B) /\
  (forall j, 0 <= j < n -> pencil_eig A B j = lam j) /\
  forall i j, 0 <= i < n -> 0 <= j < n -> matmul n (tb_mat A) U i j = (matmul n (tb_mat B) U i j * lam j)%R.

(** The array [D'] differs from [D] only in the entries 0, incd, ..., (n-1) incd, which hold the diagonal of [U] *)
Definition holds_diag (n incd : Z) (U : Z -> Z -> R) (D D' : list R) : Prop :=
  zlen D' = zlen D /\ (forall i, 0 <= i < n -> zget D' (i * incd) = Some (U i i)) /\
  forall p, (forall i, 0 <= i < n -> p <> i * incd) -> zget D' p = zget D p.

(** There is exactly one n by n matrix that connects P with Q *)
Definition one_connection (n : Z) (P Q : Z -> R -> R) : Prop :=
  (exists U, connects n U P Q) /\
  forall U U', connects n U P Q -> connects n U' P Q -> forall i j, 0 <= i < n -> 0 <= j < n -> U i j = U' i j.
