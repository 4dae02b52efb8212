(** * C60: isometries of coefficients are isometries of the function (src/isometries.c)

    Statements only; proofs are in PGeo*.v.  Vocabulary: SpecGeo.v ([xyz t phi] is the point of the
    sphere; [act3 A v] a matrix times a vector; [sphP] the polar factors of the documented
    orthonormal real spherical harmonics; [moved N M T A A']: the function of the new
    coefficients at [T v] is the function of the old coefficients at [v], for every point v;
    [degrees_below n N M A]: no coefficients of degree n or more) and SpecIso.v. *)
From Coq Require Import ZArith List Lia Bool Reals Lra.
From Verif Require Import Base Arith SpecSum MIso SpecIso SpecGeo PIso PIsoThms PGeo7.
Import ListNotations.
Open Scope Z_scope.

(** The value of a series depends on the point only, not on its coordinates (at the poles, and modulo periods). *)
Theorem C60_function_on_the_sphere :
  forall (n N M : Z) (A : list R), 2 <= n <= N -> 2 * n - 1 <= M -> Z.odd M = true -> zlen A = N * M -> degrees_below n N M A ->
  forall t phi t' phi', xyz t phi = xyz t' phi' -> harmonic_series sphP N (M / 2) A t phi = harmonic_series sphP N (M / 2) A t' phi'.
Proof. exact G_function. Qed.
Print Assumptions C60_function_on_the_sphere.
Example C60_nonvacuous : let A := map IZR [1; 2; 3; 0; 4; 5; 0; 9; 6; 7; 0; 9; 8; 0; 9; 9; 10; 0; 9; 9] in
  2 <= 3 <= 4 /\ 2 * 3 - 1 <= 5 /\ Z.odd 5 = true /\ zlen A = 4 * 5 /\ degrees_below 3 4 5 A.
Proof.
  cbv zeta. split; [lia|]. split; [lia|]. split; [reflexivity|]. split; [reflexivity|]. intros i q Hi Hq D.
  assert (i = 0 \/ i = 1 \/ i = 2 \/ i = 3) as [-> | [-> | [-> | ->]]] by lia; assert (q = 0 \/ q = 1 \/ q = 2 \/ q = 3 \/ q = 4) as [-> | [-> | [-> | [-> | ->]]]] by lia; cbn in D; try lia; reflexivity.
Qed.

(** The exchange of axes maps (x, y, z) to (x, -z, -y). *)
Theorem C60_exchange :
  forall (huge : R) (n N M : Z) (A : list R), 2 <= n <= N -> 2 * n - 1 <= M -> Z.odd M = true -> zlen A = N * M -> degrees_below n N M A ->
  exists J A', plan_isometry n = Some J /\ yz_exchange huge n J N M A = Some A' /\ zlen A' = N * M /\ degrees_below n N M A' /\
    moved N M (fun '(x, y, z) => (x, - z, - y)%R) A A'.
Proof. exact G_exchange. Qed.
Print Assumptions C60_exchange.

(** An isometry in factored form moves the function by its matrix. *)
Theorem C60_isometry :
  forall (huge : R) (n N M : Z) (Q : zyzr R) (A : list R), 2 <= n <= N -> 2 * n - 1 <= M -> Z.odd M = true -> zlen A = N * M -> degrees_below n N M A ->
  (zs0 Q * zs0 Q + zc0 Q * zc0 Q = 1)%R -> (zs1 Q * zs1 Q + zc1 Q * zc1 Q = 1)%R -> (zs2 Q * zs2 Q + zc2 Q * zc2 Q = 1)%R ->
  exists J A', plan_isometry n = Some J /\ sph_isometry huge n J Q N M A = Some A' /\ zlen A' = N * M /\ degrees_below n N M A' /\
    moved N M (act3 (apply_ZYZR Q id3)) A A'.
Proof. exact G_isometry. Qed.
Print Assumptions C60_isometry.
Example C60_isometry_nonvacuous : let Q := ZYZR (3/5)%R (4/5)%R (5/13)%R (4/5)%R (3/5)%R (12/13)%R (-1) in
  (zs0 Q * zs0 Q + zc0 Q * zc0 Q = 1)%R /\ (zs1 Q * zs1 Q + zc1 Q * zc1 Q = 1)%R /\ (zs2 Q * zs2 Q + zc2 Q * zc2 Q = 1)%R.
Proof. cbn. lra. Qed.

(** The rotation by Euler angles moves the function by the documented product Z(alpha) Y(beta) Z(gamma). *)
Theorem C60_rotation :
  forall (huge : R) (n N M : Z) (alpha beta gamma : R) (A : list R), 2 <= n <= N -> 2 * n - 1 <= M -> Z.odd M = true -> zlen A = N * M -> degrees_below n N M A ->
  exists J A', plan_isometry n = Some J /\ sph_rotation huge sin cos n J alpha beta gamma N M A = Some A' /\ zlen A' = N * M /\ degrees_below n N M A' /\
    moved N M (act3 (mul3 (rotz alpha) (mul3 (roty beta) (rotz gamma)))) A A'.
Proof. exact G_rotation. Qed.
Print Assumptions C60_rotation.

(** The transformation by an orthogonal matrix Q moves the function by Q, for every Q that C40 factors correctly, ... *)
Theorem C60_orthogonal_transformation :
  forall (huge tiny : R) (n N M : Z) (Q : o3 R) (A : list R), 2 <= n <= N -> 2 * n - 1 <= M -> Z.odd M = true -> zlen A = N * M -> degrees_below n N M A ->
  (0 <= tiny < 1)%R -> orthogonal3 Q -> (q6 Q = 0 /\ q7 Q = 0 \/ tiny < hyp (q6 Q) (q7 Q))%R ->
  (det3 Q = 1 \/ q2 Q <> 0 \/ q6 Q = 0 /\ q7 Q = 0 /\ q4 Q <> 0)%R ->
  exists J A', plan_isometry n = Some J /\ sph_orthogonal_transformation huge hyp tiny n J Q N M A = Some A' /\ zlen A' = N * M /\ degrees_below n N M A' /\
    moved N M (act3 Q) A A'.
Proof. exact G_orthogonal. Qed.
Print Assumptions C60_orthogonal_transformation.
Example C60_orthogonal_nonvacuous : exists Q : o3 R, orthogonal3 Q /\ det3 Q = 1%R /\ (1 / 2 < hyp (q6 Q) (q7 Q))%R.
Proof.
  exists (O3 (3/5) 0 (4/5) 0 1 0 (-4/5) 0 (3/5))%R. unfold orthogonal3, mul3, tr3, id3, det3, hyp. cbn. split; [f_equal; lra|]. split; [lra|].
  apply Rlt_le_trans with (sqrt ((3/5) * (3/5)))%R; [rewrite sqrt_square; lra|apply sqrt_le_1; lra].
Qed.
(** ... and for no other: for each of them already a function of degree one is moved elsewhere. *)
Theorem C60_orthogonal_transformation_every_matrix_refuted :
  forall (huge tiny : R) (Q : o3 R), (0 <= tiny < 1)%R -> orthogonal3 Q -> (q6 Q = 0 /\ q7 Q = 0 \/ tiny < hyp (q6 Q) (q7 Q))%R ->
  det3 Q = (-1)%R -> q2 Q = 0%R -> (~ (q6 Q = 0 /\ q7 Q = 0) \/ q4 Q = 0)%R ->
  exists J A A', plan_isometry 2 = Some J /\ zlen A = 2 * 3 /\ sph_orthogonal_transformation huge hyp tiny 2 J Q 2 3 A = Some A' /\ ~ moved 2 3 (act3 Q) A A'.
Proof. exact G_bad. Qed.
Print Assumptions C60_orthogonal_transformation_every_matrix_refuted.
Example C60_exchange_of_x_and_y : exists Q : o3 R, orthogonal3 Q /\ det3 Q = (-1)%R /\ q2 Q = 0%R /\ q6 Q = 0%R /\ q7 Q = 0%R /\ q4 Q = 0%R.
Proof. exists (O3 0 1 0 1 0 0 0 0 1)%R. unfold orthogonal3, mul3, tr3, id3, det3. cbn. split; [f_equal; lra|]. repeat split; lra. Qed.

(** A reflection in general position reflects the function in the plane orthogonal to w. *)
Theorem C60_reflection :
  forall (huge tiny : R) (n N M : Z) (w0 w1 w2 : R) (A : list R), 2 <= n <= N -> 2 * n - 1 <= M -> Z.odd M = true -> zlen A = N * M -> degrees_below n N M A ->
  (0 <= tiny < 1)%R -> (w0 * w0 + w1 * w1 + w2 * w2 <> 0)%R -> (w0 * w2 <> 0)%R -> (tiny < hyp (q6 (reflection w0 w1 w2)) (q7 (reflection w0 w1 w2)))%R ->
  exists J A', plan_isometry n = Some J /\ sph_reflection huge hyp tiny n J w0 w1 w2 N M A = Some A' /\ zlen A' = N * M /\ degrees_below n N M A' /\
    moved N M (act3 (reflection w0 w1 w2)) A A'.
Proof. exact G_reflection. Qed.
Print Assumptions C60_reflection.
Example C60_reflection_nonvacuous : (1 * 1 + 1 * 1 + 1 * 1 <> 0)%R /\ (1 * 1 <> 0)%R /\ (1 / 2 < hyp (q6 (reflection 1 1 1)) (q7 (reflection 1 1 1)))%R.
Proof.
  split; [lra|]. split; [lra|]. unfold hyp, reflection. cbn. apply Rlt_le_trans with (sqrt ((3/5) * (3/5)))%R; [rewrite sqrt_square; lra|apply sqrt_le_1; lra].
Qed.
