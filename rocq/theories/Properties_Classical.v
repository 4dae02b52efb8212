(** * C42: operators of classical orthogonal polynomials

    [fam norm P h n] is the polynomial of degree n of the family [P], divided by the square root
    of its squared norm [h n] if [norm]; [expansion m c F x] is the sum of [c i * F i x] over i < m. *)
From Coq Require Import ZArith List Reals.
From Verif Require Import Base Arith SpecSum SpecLin SpecBanded MBanded MClassical SpecClassical PClass3 PClass4 PClass5 PClass6 PClass7 PClass8.
Open Scope Z_scope.

(** The recurrence coefficients generate the (normalised) polynomials. *)
Theorem C42_jacobi_recurrence : forall norm a b P h x, (-1 < a)%R -> (-1 < b)%R -> is_jacobi a b P -> jacobi_norms a b h ->
  fam norm P h 1 x = ((rec_A_jacobi norm 0 a b * x + rec_B_jacobi norm 0 a b) * fam norm P h 0 x)%R /\
  forall n, 1 <= n -> fam norm P h (n + 1) x =
    ((rec_A_jacobi norm n a b * x + rec_B_jacobi norm n a b) * fam norm P h n x - rec_C_jacobi norm n a b * fam norm P h (n - 1) x)%R.
Proof. exact (fun norm a b P h x Ha Hb HP Hh => jacobi_recurrence_proof a b Ha Hb P h HP Hh norm x). Qed.
Print Assumptions C42_jacobi_recurrence.
Theorem C42_laguerre_recurrence : forall norm a P h x, (-1 < a)%R -> is_laguerre a P -> laguerre_norms a h ->
  fam norm P h 1 x = ((rec_A_laguerre norm 0 a * x + rec_B_laguerre norm 0 a) * fam norm P h 0 x)%R /\
  forall n, 1 <= n -> fam norm P h (n + 1) x =
    ((rec_A_laguerre norm n a * x + rec_B_laguerre norm n a) * fam norm P h n x - rec_C_laguerre norm n a * fam norm P h (n - 1) x)%R.
Proof. exact (fun norm a P h x Ha HP Hh => laguerre_recurrence_proof a Ha P h HP Hh norm x). Qed.
Print Assumptions C42_laguerre_recurrence.
Theorem C42_hermite_recurrence : forall norm P h x, is_hermite P -> hermite_norms h ->
  fam norm P h 1 x = ((rec_A_hermite norm 0 * x + rec_B_hermite norm 0) * fam norm P h 0 x)%R /\
  forall n, 1 <= n -> fam norm P h (n + 1) x =
    ((rec_A_hermite norm n * x + rec_B_hermite norm n) * fam norm P h n x - rec_C_hermite norm n * fam norm P h (n - 1) x)%R.
Proof. exact (fun norm P h x HP Hh => hermite_recurrence_proof P h HP Hh norm x). Qed.
Print Assumptions C42_hermite_recurrence.

(** Multiplication by x: column j holds the coefficients of x p_j. *)
Theorem C42_jacobi_multiplication : forall norm m n a b P h, (-1 < a)%R -> (-1 < b)%R -> 0 <= m -> 0 <= n -> is_jacobi a b P -> jacobi_norms a b h ->
  exists A, create_jacobi_multiplication norm m n a b = Some A /\ bd_ok A /\ bd_m A = m /\ bd_n A = n /\ bd_l A = 1 /\ bd_u A = 1 /\
    forall j x, 0 <= j < n -> j + 1 < m -> expansion m (fun i => bd_mat A i j) (fam norm P h) x = (x * fam norm P h j x)%R.
Proof. exact jacobi_multiplication_proof. Qed.
Print Assumptions C42_jacobi_multiplication.
Theorem C42_laguerre_multiplication : forall norm m n a P h, (-1 < a)%R -> 0 <= m -> 0 <= n -> is_laguerre a P -> laguerre_norms a h ->
  exists A, create_laguerre_multiplication norm m n a = Some A /\ bd_ok A /\ bd_m A = m /\ bd_n A = n /\ bd_l A = 1 /\ bd_u A = 1 /\
    forall j x, 0 <= j < n -> j + 1 < m -> expansion m (fun i => bd_mat A i j) (fam norm P h) x = (x * fam norm P h j x)%R.
Proof. exact laguerre_multiplication_proof. Qed.
Print Assumptions C42_laguerre_multiplication.
Theorem C42_hermite_multiplication : forall norm m n P h, 0 <= m -> 0 <= n -> is_hermite P -> hermite_norms h ->
  exists A, create_hermite_multiplication norm m n = Some A /\ bd_ok A /\ bd_m A = m /\ bd_n A = n /\ bd_l A = 1 /\ bd_u A = 1 /\
    forall j x, 0 <= j < n -> j + 1 < m -> expansion m (fun i => bd_mat A i j) (fam norm P h) x = (x * fam norm P h j x)%R.
Proof. exact hermite_multiplication_proof. Qed.
Print Assumptions C42_hermite_multiplication.

(** Raising: column j holds the coefficients of p_j in the family with raised parameters. *)
Theorem C42_jacobi_raising : forall norm m n a b P Q h hq, (-1 < a)%R -> (-1 < b)%R -> 0 <= m -> 0 <= n -> is_jacobi a b P -> jacobi_norms a b h ->
  is_jacobi (a+1) (b+1) Q -> jacobi_norms (a+1) (b+1) hq -> jacobi_masses a b (h 0%Z) (hq 0%Z) ->
  exists A, create_jacobi_raising norm m n a b = Some A /\ bd_ok A /\ bd_m A = m /\ bd_n A = n /\ bd_l A = 0 /\ bd_u A = 2 /\
    forall j x, 0 <= j < n -> j < m -> expansion m (fun i => bd_mat A i j) (fam norm Q hq) x = fam norm P h j x.
Proof. exact jacobi_raising_proof. Qed.
Print Assumptions C42_jacobi_raising.
Theorem C42_laguerre_raising : forall norm m n a P Q h hq, (-1 < a)%R -> 0 <= m -> 0 <= n -> is_laguerre a P -> laguerre_norms a h ->
  is_laguerre (a+1) Q -> laguerre_norms (a+1) hq -> laguerre_masses a (h 0%Z) (hq 0%Z) ->
  exists A, create_laguerre_raising norm m n a = Some A /\ bd_ok A /\ bd_m A = m /\ bd_n A = n /\ bd_l A = 0 /\ bd_u A = 1 /\
    forall j x, 0 <= j < n -> j < m -> expansion m (fun i => bd_mat A i j) (fam norm Q hq) x = fam norm P h j x.
Proof. exact laguerre_raising_proof. Qed.
Print Assumptions C42_laguerre_raising.

(** Lowering: column j holds the coefficients of (1-x^2) q_j, or x q_j, in the family with lowered parameters. *)
Theorem C42_jacobi_lowering : forall norm m n a b P Q h hq, (-1 < a)%R -> (-1 < b)%R -> 0 <= m -> 0 <= n -> is_jacobi a b P -> jacobi_norms a b h ->
  is_jacobi (a+1) (b+1) Q -> jacobi_norms (a+1) (b+1) hq -> jacobi_masses a b (h 0%Z) (hq 0%Z) ->
  exists A, create_jacobi_lowering norm m n a b = Some A /\ bd_ok A /\ bd_m A = m /\ bd_n A = n /\ bd_l A = 2 /\ bd_u A = 0 /\
    forall j x, 0 <= j < n -> j + 2 < m -> expansion m (fun i => bd_mat A i j) (fam norm P h) x = ((1 - x * x) * fam norm Q hq j x)%R.
Proof. exact jacobi_lowering_proof. Qed.
Print Assumptions C42_jacobi_lowering.
Theorem C42_laguerre_lowering : forall norm m n a P Q h hq, (-1 < a)%R -> 0 <= m -> 0 <= n -> is_laguerre a P -> laguerre_norms a h ->
  is_laguerre (a+1) Q -> laguerre_norms (a+1) hq -> laguerre_masses a (h 0%Z) (hq 0%Z) ->
  exists A, create_laguerre_lowering norm m n a = Some A /\ bd_ok A /\ bd_m A = m /\ bd_n A = n /\ bd_l A = 1 /\ bd_u A = 0 /\
    forall j x, 0 <= j < n -> j + 1 < m -> expansion m (fun i => bd_mat A i j) (fam norm P h) x = (x * fam norm Q hq j x)%R.
Proof. exact laguerre_lowering_proof. Qed.
Print Assumptions C42_laguerre_lowering.

(** Derivatives of any order: column j holds the coefficients of the derivative of p_j in the
    family whose parameters are raised [order] times.  [Fam k] is the family with parameters
    raised k times; [data] is the uninitialised block the matrix lives in. *)
Theorem C42_jacobi_derivative : forall a b order Fam hs, (-1 < a)%R -> (-1 < b)%R -> 0 <= order ->
  (forall k, 0 <= k <= order -> is_jacobi (a + IZR k) (b + IZR k) (Fam k)) ->
  (forall k, 0 <= k <= order -> jacobi_norms (a + IZR k) (b + IZR k) (hs k)) ->
  (forall k, 0 <= k < order -> jacobi_masses (a + IZR k) (b + IZR k) (hs k 0%Z) (hs (k+1) 0%Z)) ->
  forall data norm m n, 0 <= m -> 0 <= n -> n <= zlen data ->
  exists D, create_jacobi_derivative data norm m n order a b = Some D /\ bd_ok D /\ bd_m D = m /\ bd_n D = n /\ bd_l D = - order /\ bd_u D = order /\
    forall j, 0 <= j < n -> j - order < m ->
    nth_derivative (Z.to_nat order) (fam norm (Fam 0) (hs 0) j) (fun x => expansion m (fun i => bd_mat D i j) (fam norm (Fam order) (hs order)) x).
Proof. exact jacobi_derivative_proof. Qed.
Print Assumptions C42_jacobi_derivative.
Theorem C42_laguerre_derivative : forall data norm m n order a (Fam : Z -> Z -> R -> R) (hs : Z -> Z -> R), (-1 < a)%R -> 0 <= order -> 0 <= m -> 0 <= n -> n <= zlen data ->
  (forall k, 0 <= k <= order -> is_laguerre (a + IZR k) (Fam k) /\ laguerre_norms (a + IZR k) (hs k)) ->
  (forall k, 0 <= k < order -> laguerre_masses (a + IZR k) (hs k 0%Z) (hs (k+1) 0%Z)) ->
  exists D, create_laguerre_derivative data norm m n order a = Some D /\ bd_ok D /\ bd_m D = m /\ bd_n D = n /\ bd_l D = - order /\ bd_u D = order /\
    forall j, 0 <= j < n -> j - order < m ->
    nth_derivative (Z.to_nat order) (fam norm (Fam 0) (hs 0) j) (fun x => expansion m (fun i => bd_mat D i j) (fam norm (Fam order) (hs order)) x).
Proof. exact laguerre_derivative_proof. Qed.
Print Assumptions C42_laguerre_derivative.
Theorem C42_hermite_derivative : forall data norm m n order P h, 0 <= order -> 0 <= m -> 0 <= n -> n <= zlen data -> is_hermite P -> hermite_norms h ->
  exists D, create_hermite_derivative data norm m n order = Some D /\ bd_ok D /\ bd_m D = m /\ bd_n D = n /\ bd_l D = - order /\ bd_u D = order /\
    forall j, 0 <= j < n -> j - order < m ->
    nth_derivative (Z.to_nat order) (fam norm P h j) (fun x => expansion m (fun i => bd_mat D i j) (fam norm P h) x).
Proof. exact hermite_derivative_proof. Qed.
Print Assumptions C42_hermite_derivative.

(** The families, their norms and their masses exist for all parameters above -1. *)
Example C42_nonvacuous_jacobi : forall a b, (-1 < a)%R -> (-1 < b)%R -> forall k, 0 <= k ->
  is_jacobi (a + IZR k) (b + IZR k) (std_jacobi (a + IZR k) (b + IZR k)) /\
  jacobi_norms (a + IZR k) (b + IZR k) (std_jacobi_norms (a + IZR k) (b + IZR k) (jac_mass a b k)) /\
  jacobi_masses (a + IZR k) (b + IZR k) (std_jacobi_norms (a + IZR k) (b + IZR k) (jac_mass a b k) 0) (std_jacobi_norms (a + IZR (k+1)) (b + IZR (k+1)) (jac_mass a b (k+1)) 0).
Proof. exact jac_chain_ok. Qed.
Example C42_nonvacuous_laguerre : forall a, (-1 < a)%R -> forall k, 0 <= k ->
  is_laguerre (a + IZR k) (std_laguerre (a + IZR k)) /\ laguerre_norms (a + IZR k) (std_laguerre_norms (a + IZR k) (lag_mass a k)) /\
  laguerre_masses (a + IZR k) (std_laguerre_norms (a + IZR k) (lag_mass a k) 0) (std_laguerre_norms (a + IZR (k+1)) (lag_mass a (k+1)) 0).
Proof. exact lag_chain_ok. Qed.
Example C42_nonvacuous_hermite : is_hermite std_hermite /\ hermite_norms (std_hermite_norms 1).
Proof. exact std_hermite_ok. Qed.
