(** * Model of src/helmholtzhodge.c: surface gradient, curl and the Helmholtz--Hodge decomposition

    Array elements are those of [Arith]; an integer product is converted by [ofZ] after it has been
    formed exactly (in C it is formed in int and overflows for n > 23169: not modelled here).
    U, Ut, Up, U1, U2, V1, V2 are different blocks.  A pointer passed to gbmv is the suffix of its
    array.  The plan's matrices are lists: entry m-1 of the C arrays is entry m-1 of the list. *)
From Coq Require Import ZArith List Bool.
From Verif Require Import Arith Base MBanded MFactor.
Import ListNotations.
Open Scope Z_scope.
Section Model.
Context {F : Type} {AF : Arith F}.
Local Infix "*!" := mul (at level 40, left associativity).
Local Infix "/!" := div (at level 40, left associativity).

(** 4-20 sph_sine_multiplication *)
Definition sph_sine_multiplication (n m : Z) : option (tbanded F) :=
  do T <- for_up 0 (n + 1 - m) (fun l T =>
    let num := ofZ ((l + 2 * m - 1) * (l + 2 * m)) in
    let den := ofZ ((2 * l + 2 * m - 1) * (2 * l + 2 * m + 1)) in
    tb_set T (sqrtA (num /! den)) l l) (calloc_tbanded (n + 1 - m) 2);
  for_up 0 (n - 1 - m) (fun l T =>
    let num := ofZ ((l + 1) * (l + 2)) in
    let den := ofZ ((2 * l + 2 * m + 1) * (2 * l + 2 * m + 3)) in
    tb_set T (opp (sqrtA (num /! den))) l (l + 2)) T.

(** 22-38 sph_theta_derivative *)
Definition sph_theta_derivative (n m : Z) : option (banded F) :=
  do B <- for_up 1 (n + 1 - m) (fun l B =>
    let num := ofZ (l * (l + 2 * m)) in
    let den := ofZ ((2 * l + 2 * m - 1) * (2 * l + 2 * m + 1)) in
    bd_set B (ofZ (l + m - 1) *! sqrtA (num /! den)) l (l - 1)) (calloc_banded (n + 1 - m) (n + 1 - m) 1 1);
  for_up 0 (n - m) (fun l B =>
    let num := ofZ ((l + 1) * (l + 2 * m + 1)) in
    let den := ofZ ((2 * l + 2 * m + 1) * (2 * l + 2 * m + 3)) in
    bd_set B (ofZ (- (l + m + 2)) *! sqrtA (num /! den)) l (l + 1)) B.

(** 50-62 ft_plan_sph_gradient: the lists B and T (the structure also holds n) *)
Record gradient_plan := GradPlan { gp_B : list (banded F); gp_T : list (tbanded F) }.
Definition plan_sph_gradient (n : Z) : option gradient_plan :=
  do P <- for_up 1 (n + 1) (fun m P =>
    do B <- sph_theta_derivative n m; do T <- sph_sine_multiplication n m;
    Some (GradPlan (gp_B P ++ [B]) (gp_T P ++ [T]))) (GradPlan [] []);
  Some P.

(** ft_gbmv(alpha, A, x+ox, beta, y+oy) *)
Definition gbmv_at (alpha : F) (A : banded F) (x : list F) (ox : Z) (beta : F) (y : list F) (oy : Z) : option (list F) :=
  if (0 <=? ox) && (ox <=? zlen x) && (0 <=? oy) && (oy <=? zlen y) then
    do y' <- gbmv alpha A (skipn (Z.to_nat ox) x) beta (skipn (Z.to_nat oy) y);
    Some (firstn (Z.to_nat oy) y ++ y')
  else None.

(** 64-86 ft_execute_sph_gradient *)
Definition grad_zonal (U : list F) (N : Z) (Ut Up : list F) : option (list F * list F) :=
  do (Ut, Up) <- for_up 0 (N - 1) (fun l '(Ut, Up) =>
    do u <- zget U (l + 1);
    do Ut <- zset Ut l (opp (sqrtA (add (ofZ l) (ofZ 1) *! add (ofZ l) (ofZ 2))) *! u);
    do Up <- zset Up l zero;
    Some (Ut, Up)) (Ut, Up);
  do Up <- zset Up (N - 1) zero;
  do Ut <- zset Ut (N - 1) zero;
  Some (Ut, Up).
Definition grad_theta (P : gradient_plan) (U : list F) (N m : Z) (Ut : list F) : option (list F) :=
  do B <- zget (gp_B P) (m - 1); do T <- zget (gp_T P) (m - 1);
  do Ut <- gbmv_at one B U (N * (2 * m - 1)) zero Ut (N * (2 * m - 1));
  do Ut <- gbmv_at one B U (N * (2 * m)) zero Ut (N * (2 * m));
  do Ut <- tbsv false T Ut (N * (2 * m - 1));
  tbsv false T Ut (N * (2 * m)).
Definition grad_phi (P : gradient_plan) (U : list F) (N m : Z) (Up : list F) : option (list F) :=
  do T <- zget (gp_T P) (m - 1);
  do Up <- for_up 0 (N + 1 - m) (fun l Up =>
    do c <- zget U (l + N * (2 * m));
    do Up <- zset Up (l + N * (2 * m - 1)) (ofZ (- m) *! c);
    do s <- zget U (l + N * (2 * m - 1));
    zset Up (l + N * (2 * m)) (ofZ m *! s)) Up;
  do Up <- tbsv false T Up (N * (2 * m - 1));
  tbsv false T Up (N * (2 * m)).
Definition execute_sph_gradient (P : gradient_plan) (U Ut Up : list F) (N M : Z) : option (list F * list F) :=
  do (Ut, Up) <- grad_zonal U N Ut Up;
  do Ut <- for_up 1 (M / 2 + 1) (grad_theta P U N) Ut;
  do Up <- for_up 1 (M / 2 + 1) (grad_phi P U N) Up;
  Some (Ut, Up).

(** 88-92 ft_execute_sph_curl *)
Definition execute_sph_curl (P : gradient_plan) (U Ut Up : list F) (N M : Z) : option (list F * list F) :=
  do (Up, Ut) <- execute_sph_gradient P U Up Ut N M;
  do Ut <- for_up 0 (N * M) (fun i Ut => do x <- zget Ut i; zset Ut i (opp x)) Ut;
  Some (Ut, Up).

(** 105-125 sph_helmholtz_hodge_conversion *)
Definition sph_helmholtz_hodge_conversion (n m : Z) : option (banded F) :=
  do A <- for_up 0 (n + 1 - m) (fun l A =>
    do A <- bd_set A (ofZ m) (2 * l + 1) (2 * l);
    do A <- bd_set A (ofZ m) (2 * l) (2 * l + 1);
    let num := ofZ ((l + 1) * (l + 2 * m + 1)) in
    let den := ofZ ((2 * l + 2 * m + 1) * (2 * l + 2 * m + 3)) in
    let cst := ofZ (m + l) *! sqrtA (num /! den) in
    do A <- bd_set A cst (2 * l + 3) (2 * l + 1);
    bd_set A cst (2 * l + 2) (2 * l)) (calloc_banded (2 * n + 4 - 2 * m) (2 * n + 2 - 2 * m) 2 2);
  for_up 0 (n - m) (fun l A =>
    let num := ofZ ((l + 1) * (l + 2 * m + 1)) in
    let den := ofZ ((2 * l + 2 * m + 1) * (2 * l + 2 * m + 3)) in
    let cst := ofZ (- (m + l + 2)) *! sqrtA (num /! den) in
    do A <- bd_set A cst (2 * l) (2 * l + 2);
    bd_set A cst (2 * l + 1) (2 * l + 3)) A.

(** 127-142 ft_plan_sph_helmholtzhodge; [junk] is the uninitialised contents of the workspace X *)
Record hh_plan := HHPlan { hp_T : list (tbanded F); hp_F : list (@banded_oq F); hp_X : list F }.
Definition plan_sph_helmholtzhodge (junk : F) (n : Z) : option hh_plan :=
  do (Ts, Fs) <- for_up 1 (n + 1) (fun m '(Ts, Fs) =>
    do T <- sph_sine_multiplication n m; do A <- sph_helmholtz_hodge_conversion n m; do Q <- banded_qrfact A;
    Some (Ts ++ [T], Fs ++ [Q])) ([], []);
  Some (HHPlan Ts Fs (zmake (2 * n + 2) junk)).

(** 144-152 and 154-162: readin1 is (c1, c2, s) = (2m-1, 2m, identity), readin2 is (2m, 2m-1, negation) *)
Definition hh_readin (s : F -> F) (c1 c2 : Z) (X V1 V2 : list F) (N m : Z) : option (list F) :=
  do v <- zget V1 (N * c1); do X <- zset X 0 v;
  do v <- zget V2 (N - m + N * c2); do X <- zset X (2 * N + 1 - 2 * m) (s v);
  do X <- for_up 0 (N - m) (fun l X =>
    do v <- zget V2 (l + N * c2); do X <- zset X (2 * l + 1) (s v);
    do v <- zget V1 (l + 1 + N * c1); zset X (2 * l + 2) v) X;
  do X <- zset X (2 * N + 3 - 2 * m) zero;
  zset X (2 * N + 2 - 2 * m) zero.
(** 164-172 and 174-182: the first store to U2 is not negated in either *)
Definition hh_writeout (s : F -> F) (c1 c2 : Z) (X U1 U2 : list F) (N m : Z) : option (list F * list F) :=
  do x <- zget X 0; do U1 <- zset U1 (N * c1) x;
  do x <- zget X (N - m); do U2 <- zset U2 (N * c2) x;
  do (U1, U2) <- for_up 0 (N - 1 - m) (fun l '(U1, U2) =>
    do x <- zget X (2 * l + 2); do U1 <- zset U1 (l + 1 + N * c1) x;
    do x <- zget X (2 * l + 1); do U2 <- zset U2 (l + N * c2) (s x);
    Some (U1, U2)) (U1, U2);
  do x <- zget X (2 * N - 2 * m - 1); do U2 <- zset U2 (N - 1 - m + N * c2) (s x);
  Some (U1, U2).

(** 187-211 ft_execute_sph_helmholtzhodge: new U1, U2, V1, V2, X *)
Record hh_state := HHState { h_U1 : list F; h_U2 : list F; h_V1 : list F; h_V2 : list F; h_X : list F }.
Definition hh_zonal (N : Z) (V1 V2 U1 U2 : list F) : option (list F * list F) :=
  do U2 <- zset U2 0 zero; do U1 <- zset U1 0 zero;
  for_up 0 (N - 1) (fun l '(U1, U2) =>
    let den := sqrtA (add (ofZ l) (ofZ 1) *! add (ofZ l) (ofZ 2)) in
    do v <- zget V1 l; do U1 <- zset U1 (l + 1) (opp v /! den);
    do v <- zget V2 l; do U2 <- zset U2 (l + 1) (opp v /! den);
    Some (U1, U2)) (U1, U2).
Definition hh_solve (Q : @banded_oq F) (X : list F) : option (list F) :=
  do X <- bqmv true Q X 0; brsv false (bq_factors Q) X 0.
Definition hh_order (P : hh_plan) (N m : Z) (st : hh_state) : option hh_state :=
  let '(HHState U1 U2 V1 V2 X) := st in
  do T <- zget (hp_T P) (m - 1); do Q <- zget (hp_F P) (m - 1);
  do V1 <- tbmv false T V1 (N * (2 * m - 1));
  do V1 <- tbmv false T V1 (N * (2 * m));
  do V2 <- tbmv false T V2 (N * (2 * m - 1));
  do V2 <- tbmv false T V2 (N * (2 * m));
  do X <- hh_readin (fun x => x) (2 * m - 1) (2 * m) X V1 V2 N m;
  do X <- hh_solve Q X;
  do (U1, U2) <- hh_writeout (fun x => x) (2 * m - 1) (2 * m) X U1 U2 N m;
  do X <- hh_readin opp (2 * m) (2 * m - 1) X V1 V2 N m;
  do X <- hh_solve Q X;
  do (U1, U2) <- hh_writeout opp (2 * m) (2 * m - 1) X U1 U2 N m;
  Some (HHState U1 U2 V1 V2 X).
Definition execute_sph_helmholtzhodge (P : hh_plan) (U1 U2 V1 V2 : list F) (N M : Z) : option hh_state :=
  do (U1, U2) <- hh_zonal N V1 V2 U1 U2;
  for_up 1 (M / 2 + 1) (hh_order P N) (HHState U1 U2 V1 V2 (hp_X P)).
End Model.
