(** * C40, C41: isometries of the sphere (src/isometries.c)

    Statements only; proofs are in PIso*.v.  Vocabulary: SpecIso.v (3 by 3 matrices by columns,
    [hyp] is hypot, [harmonic_series P N h A u phi] is the function with coefficients [A], for
    any polar factors [P]; [same_degree N M l A B]: the coefficients of degree l agree;
    [degree_norm N l A]: the sum of the squares of the coefficients of degree l).
    [tiny] is M_FLT_MIN; [huge] is the rescaling threshold of the eigenvector evaluation. *)
From Coq Require Import ZArith List Lia Bool Reals Lra.
From Verif Require Import Base Arith SpecSum MIso SpecIso PIso PIsoThms PIso9.
Import ListNotations.
Open Scope Z_scope.

(** ** C40.  The factorisation reproduces Q: for every rotation, and for every improper Q whose
    first column is not horizontal or that maps the pole to itself with Q[4] non-zero.
    (The hypothesis on [tiny]: the pole's image is vertical, or off vertical by more than the threshold.) *)
Theorem C40_zyzr :
  forall (tiny : R) (Q U : o3 R), (0 <= tiny < 1)%R -> orthogonal3 Q ->
  (q6 Q = 0 /\ q7 Q = 0 \/ tiny < hyp (q6 Q) (q7 Q))%R ->
  (det3 Q = 1 \/ q2 Q <> 0 \/ q6 Q = 0 /\ q7 Q = 0 /\ q4 Q <> 0)%R ->
  apply_ZYZR (create_ZYZR hyp tiny Q) U = mul3 Q U.
Proof. exact zyzr_proof. Qed.
Print Assumptions C40_zyzr.
Example C40_zyzr_nonvacuous : exists Q : o3 R, orthogonal3 Q /\ det3 Q = (-1)%R /\ (q2 Q <> 0)%R /\ (1 / 2 < hyp (q6 Q) (q7 Q))%R.
Proof.
  exists (O3 (3/5) 0 (4/5) 0 (-1) 0 (-4/5) 0 (3/5))%R. unfold orthogonal3, mul3, tr3, id3, det3, hyp. cbn. split; [f_equal; lra|]. split; [lra|]. split; [lra|].
  apply Rlt_le_trans with (sqrt ((3/5) * (3/5)))%R; [rewrite sqrt_square; lra|apply sqrt_le_1; lra].
Qed.

(** For all the other improper matrices the result is not Q. *)
Theorem C40_zyzr_every_orthogonal_refuted :
  forall (tiny : R) (Q : o3 R), (0 <= tiny < 1)%R -> orthogonal3 Q ->
  (q6 Q = 0 /\ q7 Q = 0 \/ tiny < hyp (q6 Q) (q7 Q))%R ->
  det3 Q = (-1)%R -> q2 Q = 0%R -> (~ (q6 Q = 0 /\ q7 Q = 0) \/ q4 Q = 0)%R ->
  apply_ZYZR (create_ZYZR hyp tiny Q) id3 <> Q.
Proof. exact zyzr_bad. Qed.
Print Assumptions C40_zyzr_every_orthogonal_refuted.
Example C40_exchange_of_x_and_y : exists Q : o3 R, orthogonal3 Q /\ det3 Q = (-1)%R /\ q2 Q = 0%R /\ q6 Q = 0%R /\ q7 Q = 0%R /\ q4 Q = 0%R.
Proof. exists (O3 0 1 0 1 0 0 0 0 1)%R. unfold orthogonal3, mul3, tr3, id3, det3. cbn. split; [f_equal; lra|]. repeat split; lra. Qed.

(** The Householder reflection applied to the columns of a matrix. *)
Theorem C40_reflection :
  forall (w0 w1 w2 : R) (U : o3 R), (w0 * w0 + w1 * w1 + w2 * w2 <> 0)%R ->
  apply_reflection w0 w1 w2 U = mul3 (reflection w0 w1 w2) U /\
  orthogonal3 (reflection w0 w1 w2) /\ det3 (reflection w0 w1 w2) = (-1)%R /\ mul3 (reflection w0 w1 w2) (reflection w0 w1 w2) = id3.
Proof. intros. split; [now apply reflection_proof|now apply reflection_orth]. Qed.
Print Assumptions C40_reflection.

(** Reflections in general position are factored correctly ... *)
Theorem C40_zyzr_reflection :
  forall tiny w0 w1 w2 : R, (0 <= tiny < 1)%R -> (w0 * w0 + w1 * w1 + w2 * w2 <> 0)%R -> (w0 * w2 <> 0)%R ->
  (tiny < hyp (q6 (reflection w0 w1 w2)) (q7 (reflection w0 w1 w2)))%R ->
  apply_ZYZR (create_ZYZR hyp tiny (reflection w0 w1 w2)) id3 = reflection w0 w1 w2.
Proof. exact zyzr_reflection_good. Qed.
Print Assumptions C40_zyzr_reflection.
(** ... but no mirror plane through the x axis, other than the coordinate planes, is. *)
Theorem C40_zyzr_reflection_x_axis_refuted :
  forall tiny w1 w2 : R, (0 <= tiny < 1)%R -> w1 <> 0%R -> w2 <> 0%R -> (tiny < hyp 0 (-2 * w1 * w2 / (w1 * w1 + w2 * w2)))%R ->
  apply_ZYZR (create_ZYZR hyp tiny (reflection 0 w1 w2)) id3 <> reflection 0 w1 w2.
Proof. exact zyzr_reflection_bad. Qed.
Print Assumptions C40_zyzr_reflection_x_axis_refuted.
Example C40_mirror_y_eq_z : (1 / 2 < hyp 0 (-2 * 1 * 1 / (1 * 1 + 1 * 1)))%R.
Proof. unfold hyp. replace (0 * 0 + -2 * 1 * 1 / (1 * 1 + 1 * 1) * (-2 * 1 * 1 / (1 * 1 + 1 * 1)))%R with (1 * 1)%R by field. rewrite sqrt_square; lra. Qed.

(** ** C41.  A polar rotation by t turns the function about the axis: the new function at azimuth phi is the old one at phi - t. *)
Theorem C41_polar_rotation_turns :
  forall (N M : Z) (t : R) (A : list R), 0 <= N -> 0 < M -> Z.odd M = true -> zlen A = N * M ->
  exists A', polar_rotation N M (sin t) (cos t) A = Some A' /\ zlen A' = N * M /\
    forall P u phi, harmonic_series P N (M / 2) A' u phi = harmonic_series P N (M / 2) A u (phi - t).
Proof. exact T_rot_series. Qed.
Print Assumptions C41_polar_rotation_turns.
Example C41_nonvacuous : let A := map IZR [1; 2; 3; 4; 5; 6; 7; 8; 9; 10; 11; 12; 13; 14; 15] in 0 <= 3 /\ 0 < 5 /\ Z.odd 5 = true /\ zlen A = 3 * 5 /\ 2 <= 3 <= 3 /\ 2 * 3 - 1 <= 5.
Proof. cbn. lia. Qed.

Theorem C41_polar_rotations_compose :
  forall (N M : Z) (t t' : R) (A : list R), 0 <= N -> 0 < M -> Z.odd M = true -> zlen A = N * M ->
  (do A1 <- polar_rotation N M (sin t) (cos t) A; polar_rotation N M (sin t') (cos t') A1) = polar_rotation N M (sin (t + t')) (cos (t + t')) A /\
  polar_rotation N M (sin (t + t')) (cos (t + t')) A <> None.
Proof. exact T_rot_compose. Qed.
Print Assumptions C41_polar_rotations_compose.

Theorem C41_polar_rotation_undone :
  forall (N M : Z) (t : R) (A : list R), 0 <= N -> 0 < M -> Z.odd M = true -> zlen A = N * M ->
  (do A1 <- polar_rotation N M (sin t) (cos t) A; polar_rotation N M (- sin t)%R (cos t) A1) = Some A.
Proof. exact T_rot_inverse. Qed.
Print Assumptions C41_polar_rotation_undone.

Theorem C41_polar_rotation_norm :
  forall (N M : Z) (t : R) (A : list R), 0 <= N -> 0 < M -> Z.odd M = true -> zlen A = N * M ->
  exists A', polar_rotation N M (sin t) (cos t) A = Some A' /\
    sumZ (N * M) (fun p => (nthZ 0 A' p * nthZ 0 A' p)%R) = sumZ (N * M) (fun p => (nthZ 0 A p * nthZ 0 A p)%R).
Proof. exact T_rot_norm. Qed.
Print Assumptions C41_polar_rotation_norm.

(** Order zero and everything outside the coefficient triangle stay. *)
Theorem C41_polar_rotation_keeps :
  forall (N M : Z) (t : R) (A : list R), 0 <= N -> 0 < M -> Z.odd M = true -> zlen A = N * M ->
  exists A', polar_rotation N M (sin t) (cos t) A = Some A' /\
    forall i q, 0 <= i < N -> 0 <= q < M -> q = 0 \/ N <= i + (q + 1) / 2 -> nthZ 0%R A' (i + N * q) = nthZ 0%R A (i + N * q).
Proof. exact T_rot_outside. Qed.
Print Assumptions C41_polar_rotation_keeps.

(** The polar reflection is an involution, in any arithmetic whose negation is one, and evaluates the function at the reflected colatitude. *)
Theorem C41_polar_reflection_involution :
  forall (F : Type) (AF : Arith F), (forall x : F, opp (opp x) = x) ->
  forall (N M : Z) (A : list F), 0 <= N -> 0 < M -> Z.odd M = true -> zlen A = N * M ->
  (do A1 <- polar_reflection N M A; polar_reflection N M A1) = Some A.
Proof. exact @T_ref_involution. Qed.
Print Assumptions C41_polar_reflection_involution.

Theorem C41_polar_reflection_reflects :
  forall (N M : Z) (A : list R), 0 <= N -> 0 < M -> Z.odd M = true -> zlen A = N * M ->
  exists A', polar_reflection N M A = Some A' /\ zlen A' = N * M /\
    forall P u u' phi, (forall m i, 0 <= m <= M / 2 -> 0 <= i < N - m -> P m i u' = ((if Z.odd i then -1 else 1) * P m i u)%R) ->
      harmonic_series P N (M / 2) A' u phi = harmonic_series P N (M / 2) A u' phi.
Proof. exact T_ref_series. Qed.
Print Assumptions C41_polar_reflection_reflects.

(** Every isometry acts on each degree separately: the new coefficients of degree l are a function of the old coefficients of degree l only. *)
Theorem C41_isometries_keep_degrees_apart :
  forall (F : Type) (AF : Arith F) (huge : F) (n N M l : Z) (Q : zyzr F) (A B : list F),
  2 <= n <= N -> 2 * n - 1 <= M -> Z.odd M = true -> l < N -> zlen A = N * M -> zlen B = N * M -> same_degree N M l A B ->
  exists J A' B', plan_isometry n = Some J /\ sph_isometry huge n J Q N M A = Some A' /\ sph_isometry huge n J Q N M B = Some B' /\
    zlen A' = N * M /\ zlen B' = N * M /\ same_degree N M l A' B'.
Proof. exact @T_degrees. Qed.
Print Assumptions C41_isometries_keep_degrees_apart.

(** The exchange of the y and z axes: degrees 0 and 1 exactly, degrees from n on untouched, zeros outside the triangle stay zero. *)
Theorem C41_exchange_frame :
  forall (F : Type) (AF : Arith F) (huge : F) (n N M : Z) (A : list F), 2 <= n <= N -> 2 * n - 1 <= M -> Z.odd M = true -> zlen A = N * M ->
  exists J A', plan_isometry n = Some J /\ yz_exchange huge n J N M A = Some A' /\ zlen A' = N * M /\
    nthZ zero A' 0 = nthZ zero A 0 /\ nthZ zero A' 1 = opp (nthZ zero A N) /\ nthZ zero A' N = opp (nthZ zero A 1) /\ nthZ zero A' (N * 2) = nthZ zero A (N * 2) /\
    (forall l, n <= l < N -> same_degree N M l A A') /\
    (forall i q, 0 <= i < N -> 0 <= q < M -> N <= i + (q + 1) / 2 -> nthZ zero A (i + N * q) = zero -> nthZ zero A' (i + N * q) = zero).
Proof. exact @T_exchange_frame. Qed.
Print Assumptions C41_exchange_frame.

(** The exchange is an involution on the coefficients, and on the array if the entries outside the triangle are zero. *)
Theorem C41_exchange_involution :
  forall (huge : R) (n N M : Z) (A : list R), 2 <= n <= N -> 2 * n - 1 <= M -> Z.odd M = true -> zlen A = N * M ->
  exists J A1 A2, plan_isometry n = Some J /\ yz_exchange huge n J N M A = Some A1 /\ yz_exchange huge n J N M A1 = Some A2 /\ zlen A2 = N * M /\
    (forall l, 0 <= l < N -> same_degree N M l A A2) /\
    ((forall i q, 0 <= i < N -> 0 <= q < M -> N <= i + (q + 1) / 2 -> nthZ 0%R A (i + N * q) = 0%R) -> A2 = A).
Proof. exact T_exchange_involution. Qed.
Print Assumptions C41_exchange_involution.
Example C41_triangle_nonvacuous : let A := map IZR [1; 2; 3; 4; 5; 0; 7; 8; 0; 10; 0; 0; 13; 0; 0] in
  zlen A = 3 * 5 /\ forall i q, 0 <= i < 3 -> 0 <= q < 5 -> 3 <= i + (q + 1) / 2 -> nthZ 0%R A (i + 3 * q) = 0%R.
Proof.
  cbn zeta. split; [reflexivity|]. intros i q Hi Hq D.
  assert (i = 0 \/ i = 1 \/ i = 2) as [-> | [-> | ->]] by lia; assert (q = 0 \/ q = 1 \/ q = 2 \/ q = 3 \/ q = 4) as [-> | [-> | [-> | [-> | ->]]]] by lia; cbn in D; try lia; reflexivity.
Qed.

(** The exchange preserves the norm of every degree. *)
Theorem C41_exchange_norm :
  forall (huge : R) (n N M : Z) (A : list R), 2 <= n <= N -> 2 * n - 1 <= M -> Z.odd M = true -> zlen A = N * M ->
  exists J A', plan_isometry n = Some J /\ yz_exchange huge n J N M A = Some A' /\ zlen A' = N * M /\
    forall l, 0 <= l < N -> 2 * l < M -> degree_norm N l A' = degree_norm N l A.
Proof. exact T_exchange_norm. Qed.
Print Assumptions C41_exchange_norm.

(** So does the transformation by any orthogonal matrix (proper or not), ... *)
Theorem C41_orthogonal_transformation_norm :
  forall (huge tiny : R) (n N M : Z) (Q : o3 R) (A : list R), 2 <= n <= N -> 2 * n - 1 <= M -> Z.odd M = true -> zlen A = N * M ->
  (0 <= tiny < 1)%R -> orthogonal3 Q -> (q6 Q = 0 /\ q7 Q = 0 \/ tiny < hyp (q6 Q) (q7 Q))%R ->
  exists J A', plan_isometry n = Some J /\ sph_orthogonal_transformation huge hyp tiny n J Q N M A = Some A' /\ zlen A' = N * M /\
    forall l, 0 <= l < N -> 2 * l < M -> degree_norm N l A' = degree_norm N l A.
Proof. exact T_orthogonal_norm. Qed.
Print Assumptions C41_orthogonal_transformation_norm.
(** ... and the rotation by any Euler angles, ... *)
Theorem C41_rotation_norm :
  forall (huge : R) (n N M : Z) (alpha beta gamma : R) (A : list R), 2 <= n <= N -> 2 * n - 1 <= M -> Z.odd M = true -> zlen A = N * M ->
  exists J A', plan_isometry n = Some J /\ sph_rotation huge sin cos n J alpha beta gamma N M A = Some A' /\ zlen A' = N * M /\
    forall l, 0 <= l < N -> 2 * l < M -> degree_norm N l A' = degree_norm N l A.
Proof. exact T_rotation_norm. Qed.
Print Assumptions C41_rotation_norm.
(** ... which the rotation by the negated angles in reverse order undoes. *)
Theorem C41_rotation_undone :
  forall (huge : R) (n N M : Z) (alpha beta gamma : R) (A : list R), 2 <= n <= N -> 2 * n - 1 <= M -> Z.odd M = true -> zlen A = N * M ->
  exists J A1 A2, plan_isometry n = Some J /\ sph_rotation huge sin cos n J alpha beta gamma N M A = Some A1 /\
    sph_rotation huge sin cos n J (- gamma)%R (- beta)%R (- alpha)%R N M A1 = Some A2 /\ zlen A2 = N * M /\
    forall l, 0 <= l < N -> same_degree N M l A A2.
Proof. exact T_rotation_undone. Qed.
Print Assumptions C41_rotation_undone.

(** With one coefficient (n = 1) the exchange reads and writes outside the array. *)
Theorem C41_exchange_single_coefficient_refuted :
  forall (F : Type) (AF : Arith F) (huge x : F), yz_exchange huge 1 [] 1 1 [x] = None.
Proof. exact @T_exchange_n1. Qed.
Print Assumptions C41_exchange_single_coefficient_refuted.
