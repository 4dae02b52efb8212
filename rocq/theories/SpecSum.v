(** * Finite sums over the integers [0, n), used in statements *)
From Coq Require Import ZArith List Reals Lia Lra.
From Verif Require Import Base.
Open Scope Z_scope.

Fixpoint sumn (k : nat) (f : Z -> R) : R :=
  match k with
  | O => 0%R
  | S k' => (sumn k' f + f (Z.of_nat k'))%R
  end.
(** [sumZ n f = f 0 + f 1 + .. + f (n-1)]; 0 when [n <= 0] *)
Definition sumZ (n : Z) (f : Z -> R) : R := sumn (Z.to_nat n) f.

(** Chebyshev polynomials of the first kind *)
Fixpoint chebT2 (k : nat) (x : R) : R * R :=   (* (T_k, T_{k+1}) *)
  match k with
  | O => (1%R, x)
  | S k' => let (a, b) := chebT2 k' x in (b, (2 * x * b - a)%R)
  end.
Definition chebT (k : Z) (x : R) : R := fst (chebT2 (Z.to_nat k) x).

(** A three-term family: [p_0 = 1], [p_{-1} = 0], [p_{k+1} = (A_k x + B_k) p_k - C_k p_{k-1}] *)
Fixpoint opoly2 (A B C : Z -> R) (k : nat) (x : R) : R * R :=   (* (p_{k-1}, p_k) *)
  match k with
  | O => (0%R, 1%R)
  | S k' => let (q, p) := opoly2 A B C k' x in
            (p, ((A (Z.of_nat k') * x + B (Z.of_nat k')) * p - C (Z.of_nat k') * q)%R)
  end.
Definition opoly (A B C : Z -> R) (k : Z) (x : R) : R := snd (opoly2 A B C (Z.to_nat k) x).

(** The downward recurrence evaluated by eigen_eval: [v_{n} = 0], [v_{n-1} = 1],
    [v_{k-1} = A_k ((x + B_k) v_k + C_k v_{k+1})].  [eigv n A B C d x] is
    [(v_{n-1-d}, v_{n-d})]. *)
Fixpoint eigv2 (n : Z) (A B C : Z -> R) (d : nat) (x : R) : R * R :=
  match d with
  | O => (1%R, 0%R)
  | S d' => let (v, w) := eigv2 n A B C d' x in
            let k := (n - 1 - Z.of_nat d')%Z in
            ((A k * ((x + B k) * v + C k * w))%R, v)
  end.
Definition eigv (n : Z) (A B C : Z -> R) (k : Z) (x : R) : R := fst (eigv2 n A B C (Z.to_nat (n - 1 - k)) x).

(** ** Vocabulary for evaluation routines *)
(** the routine left [f'] in the output array whose former contents were [f]: the first
    [m] entries are [val 0 .. val (m-1)] and nothing else changed *)
Definition evaluates {F} (m : Z) (f f' : list F) (val : Z -> F) : Prop :=
  zlen f' = zlen f /\
  (forall j, 0 <= j < m -> zget f' j = Some (val j)) /\
  (forall j, m <= j -> zget f' j = zget f j).

(** the [n] coefficients [c[0], c[incc], ..] lie inside the array *)
Definition strided {F} (n : Z) (c : list F) (incc : Z) : Prop :=
  forall k, 0 <= k < n -> 0 <= k * incc < zlen c.

(** the value eigen_eval computes at [x]: the expansion with coefficients [c] in the
    eigenvector [v_0 .. v_{n-1}], normalised to unit 2-norm and to [sign * v_0 >= 0] *)
Definition eig_value (n : Z) (A B C c : Z -> R) (sign : Z) (x : R) : R :=
  let v := fun k => eigv n A B C k x in
  let s := (sumZ n (fun k => v k * c k) / sqrt (sumZ n (fun k => v k * v k)))%R in
  if Rlt_dec (IZR sign * v 0) 0 then (- s)%R else s.
