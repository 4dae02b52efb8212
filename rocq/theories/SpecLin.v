(** * Vocabulary for linear algebra statements *)
From Coq Require Import ZArith List Reals.
From Verif Require Import Base SpecSum.
Open Scope Z_scope.

(** the vector of reals stored in [x] from position [o] *)
Definition vec (o : Z) (x : list R) (i : Z) : R := nthZ 0%R x (o + i).
(** the matrix stored column by column in [A] from position [o] with leading dimension [ld] *)
Definition mat (o ld : Z) (A : list R) (i j : Z) : R := nthZ 0%R A (o + (i + j * ld)).
(** row [i] of the product of the n-column matrix [U] with the vector [v] *)
Definition matvec (n : Z) (U : Z -> Z -> R) (v : Z -> R) (i : Z) : R := sumZ n (fun k => (U i k * v k)%R).
Definition matmul (n : Z) (U V : Z -> Z -> R) (i j : Z) : R := sumZ n (fun k => (U i k * V k j)%R).
Definition transp (U : Z -> Z -> R) (i j : Z) : R := U j i.
Definition delta (i j : Z) : R := if i =? j then 1%R else 0%R.

(** [x'] is [x] with the [n] entries from position [o] replaced by [val 0 .. val (n-1)],
    and no other change *)
Definition writes {F} (o n : Z) (x x' : list F) (val : Z -> F) : Prop :=
  zlen x' = zlen x /\
  (forall i, 0 <= i < n -> zget x' (o + i) = Some (val i)) /\
  (forall p, p < o \/ o + n <= p -> zget x' p = zget x p).
(** the [n] entries from [o] lie inside the array *)
Definition fits {F} (o n : Z) (x : list F) : Prop := 0 <= o /\ o + n <= zlen x.

(** [w = U v] on the first n entries *)
Definition isprod (n : Z) (U : Z -> Z -> R) (v w : Z -> R) : Prop :=
  forall i, 0 <= i < n -> w i = matvec n U v i.
(** [x'] is [x] with the vector of length [n] at [o] replaced by one related by [P] to the old
    one, and no other change *)
Definition acts (o n : Z) (x x' : list R) (P : (Z -> R) -> (Z -> R) -> Prop) : Prop :=
  zlen x' = zlen x /\ P (vec o x) (vec o x') /\
  (forall p, p < o \/ o + n <= p -> zget x' p = zget x p).
(** the same for each of the [N] columns of a matrix with leading dimension [ld] *)
Definition acts_columns (n N ld : Z) (B B' : list R) (P : (Z -> R) -> (Z -> R) -> Prop) : Prop :=
  zlen B' = zlen B /\ (forall j, 0 <= j < N -> P (vec (j * ld) B) (vec (j * ld) B')) /\
  (forall p, (forall j i, 0 <= j < N -> 0 <= i < n -> p <> j * ld + i) -> zget B' p = zget B p).
(** a linear map or its transpose *)
Definition op (trans : bool) (U : Z -> Z -> R) : Z -> Z -> R := if trans then transp U else U.
(** an [m] by [n] matrix stored from [o] with leading dimension [ld] lies inside the array *)
Definition fits_mat {F} (o m n ld : Z) (A : list F) : Prop :=
  0 <= o /\ 0 <= m <= ld /\ (0 < n -> o + (n - 1) * ld + m <= zlen A).
(** The polynomials of a three-term family at an m by m matrix X:
    [P_{-1} = 0], [P_0 = I], [P_{k+1} = P_k (A_k X + B_k I) - C_k P_{k-1}];
    [mpoly2 .. k] is [(P_{k-1}, P_k)] *)
Fixpoint mpoly2 (m : Z) (A B C : Z -> R) (X : Z -> Z -> R) (k : nat) : (Z -> Z -> R) * (Z -> Z -> R) :=
  match k with
  | O => (fun _ _ => 0%R, delta)
  | S k' => let (Q, P) := mpoly2 m A B C X k' in
            let z := Z.of_nat k' in
            (P, fun i j => (A z * matmul m P X i j + B z * P i j - C z * Q i j)%R)
  end.
Definition mpoly (m : Z) (A B C : Z -> R) (X : Z -> Z -> R) (k : Z) : Z -> Z -> R := snd (mpoly2 m A B C X (Z.to_nat k)).
