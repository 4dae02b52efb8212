(** * Classical orthogonal polynomials, by their textbook recurrences *)
From Coq Require Import ZArith List Reals.
From Verif Require Import Base SpecSum.
Open Scope Z_scope.

(** Jacobi polynomials P_n^{(a,b)} (DLMF 18.9.1, 18.9.2) *)
Record is_jacobi (a b : R) (P : Z -> R -> R) : Prop := {
  jac_0 : forall x, P 0 x = 1%R;
  jac_1 : forall x, P 1 x = ((a + 1) + (a + b + 2) * (x - 1) / 2)%R;
  jac_S : forall n x, 1 <= n -> let k := IZR n in
    (2 * (k + 1) * (k + a + b + 1) * (2*k + a + b) * P (n + 1)%Z x =
     (2*k + a + b + 1) * ((2*k + a + b + 2) * (2*k + a + b) * x + (a * a - b * b)) * P n x
     - 2 * (k + a) * (k + b) * (2*k + a + b + 2) * P (n - 1)%Z x)%R }.
(** their squared norms h_n: h_0 is the mass of the weight (1-x)^a (1+x)^b, and
    h_{n+1} / h_n = (2n+a+b+1)(n+a+1)(n+b+1) / ((2n+a+b+3)(n+1)(n+a+b+1)) (DLMF table 18.3.1) *)
Record jacobi_norms (a b : R) (h : Z -> R) : Prop := {
  jn_0 : (0 < h 0%Z)%R;
  jn_1 : ((a + b + 3) * h 1%Z = (a + 1) * (b + 1) * h 0%Z)%R;
  jn_S : forall n, 1 <= n -> let k := IZR n in
    ((2*k + a + b + 3) * (k + 1) * (k + a + b + 1) * h (n + 1)%Z =
     (2*k + a + b + 1) * (k + a + 1) * (k + b + 1) * h n)%R }.
(** the masses of the weights with parameters (a,b) and (a+1,b+1) *)
Definition jacobi_masses (a b h0 h1 : R) : Prop :=
  ((a + b + 2) * (a + b + 3) * h1 = 4 * (a + 1) * (b + 1) * h0)%R.

(** Laguerre polynomials L_n^{(a)} *)
Record is_laguerre (a : R) (P : Z -> R -> R) : Prop := {
  lag_0 : forall x, P 0 x = 1%R;
  lag_1 : forall x, P 1 x = (a + 1 - x)%R;
  lag_S : forall n x, 1 <= n -> let k := IZR n in
    ((k + 1) * P (n + 1)%Z x = (2*k + a + 1 - x) * P n x - (k + a) * P (n - 1)%Z x)%R }.
Record laguerre_norms (a : R) (h : Z -> R) : Prop := {
  ln_0 : (0 < h 0%Z)%R;
  ln_S : forall n, 0 <= n -> let k := IZR n in ((k + 1) * h (n + 1)%Z = (k + a + 1) * h n)%R }.
Definition laguerre_masses (a h0 h1 : R) : Prop := (h1 = (a + 1) * h0)%R.

(** Hermite polynomials H_n *)
Record is_hermite (P : Z -> R -> R) : Prop := {
  her_0 : forall x, P 0 x = 1%R;
  her_1 : forall x, P 1 x = (2 * x)%R;
  her_S : forall n x, 1 <= n -> (P (n + 1)%Z x = 2 * x * P n x - 2 * IZR n * P (n - 1)%Z x)%R }.
Record hermite_norms (h : Z -> R) : Prop := {
  hn_0 : (0 < h 0%Z)%R;
  hn_S : forall n, 0 <= n -> (h (n + 1)%Z = 2 * (IZR n + 1) * h n)%R }.

(** the family itself, or the orthonormal one *)
Definition fam (norm : bool) (P : Z -> R -> R) (h : Z -> R) (n : Z) (x : R) : R :=
  if norm then (P n x / sqrt (h n))%R else P n x.

(** [g] is the k-th derivative of [f] *)
Fixpoint nth_derivative (k : nat) (f g : R -> R) : Prop :=
  match k with
  | O => forall x, f x = g x
  | S k => exists f', (forall x, derivable_pt_lim f x (f' x)) /\ nth_derivative k f' g
  end.
(** the expansion with coefficients c_0 .. c_{n-1} *)
Definition expansion (n : Z) (c : Z -> R) (P : Z -> R -> R) (x : R) : R := sumZ n (fun i => (c i * P i x)%R).
