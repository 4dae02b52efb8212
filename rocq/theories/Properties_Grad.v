(** * Property theorems: gradient, curl and Helmholtz-Hodge decomposition on the sphere (C61-C62)

    Source: src/helmholtzhodge.c.  Vocabulary: SpecIso.v ([harmonic_series], [sphP] of SpecGeo.v: the function with given
    spherical-harmonic coefficients), SpecGrad.v ([vector_series]: the component of a vector field with given "sphv"
    coefficients, [degrees_up_to]).  An N by M array has M/2 orders. *)
From Coq Require Import ZArith List Reals Lra Lia Bool.
From Verif Require Import Arith Base SpecSum MBanded MGrad SpecIso SpecGeo SpecGrad PGrad6 PGrad9 PGradEx.
Import ListNotations.
Open Scope Z_scope.

(** ** C61 *)
(** the gradient: Ut' and Up' are the components along e_theta and e_phi of the gradient of the function with coefficients U,
    at every point (t, phi), the poles included; the contents of the output arrays do not matter *)
Theorem C61_gradient : forall N M U Ut Up, 1 <= N -> Z.odd M = true -> 0 <= M / 2 <= N -> zlen U = N * M -> zlen Ut = N * M -> zlen Up = N * M -> degrees_up_to N M U ->
  exists P Ut' Up', plan_sph_gradient N = Some P /\ execute_sph_gradient P U Ut Up N M = Some (Ut', Up') /\ zlen Ut' = N * M /\ zlen Up' = N * M /\
    forall t phi, derivable_pt_lim (fun t => harmonic_series sphP N (M / 2) U t phi) t (vector_series N (M / 2) Ut' t phi) /\
                  derivable_pt_lim (fun phi => harmonic_series sphP N (M / 2) U t phi) phi (sin t * vector_series N (M / 2) Up' t phi)%R.
Proof. exact C61_gradient_proof. Qed.
Print Assumptions C61_gradient.
(** the curl e_r x grad u = - (1 / sin t) du/dphi e_theta + du/dtheta e_phi *)
Theorem C61_curl : forall N M U Ut Up, 1 <= N -> Z.odd M = true -> 0 <= M / 2 <= N -> zlen U = N * M -> zlen Ut = N * M -> zlen Up = N * M -> degrees_up_to N M U ->
  exists P Ut' Up', plan_sph_gradient N = Some P /\ execute_sph_curl P U Ut Up N M = Some (Ut', Up') /\ zlen Ut' = N * M /\ zlen Up' = N * M /\
    forall t phi, derivable_pt_lim (fun phi => harmonic_series sphP N (M / 2) U t phi) phi (- (sin t * vector_series N (M / 2) Ut' t phi))%R /\
                  derivable_pt_lim (fun t => harmonic_series sphP N (M / 2) U t phi) t (vector_series N (M / 2) Up' t phi).
Proof. exact C61_curl_proof. Qed.
Print Assumptions C61_curl.
(** a function of degree 2 with components of order 0, 1 and 2 *)
Example C61_nonvacuous : let U := [1; 2; 3; 4; 5; 0; 6; 7; 0; 8; 0; 0; 9; 0; 0]%R in
  1 <= 3 /\ Z.odd 5 = true /\ 0 <= 5 / 2 <= 3 /\ zlen U = 3 * 5 /\ degrees_up_to 3 5 U.
Proof. exact C61_example. Qed.

(** ** C62 *)
(** the decomposition of the field grad u1 + e_r x grad u2 returns the coefficients of u1 and u2 (of mean zero), of every degree
    below N; neither the contents of the workspace nor those of the output arrays matter *)
Theorem C62_recovers : forall junk N M U1 U2 A1 A2 B1 B2 W1 W2, 1 <= N -> Z.odd M = true -> 0 <= M / 2 <= N - 1 ->
  zlen U1 = N * M -> zlen U2 = N * M -> zlen A1 = N * M -> zlen A2 = N * M -> zlen B1 = N * M -> zlen B2 = N * M -> zlen W1 = N * M -> zlen W2 = N * M ->
  degrees_up_to N M U1 -> degrees_up_to N M U2 -> nthZ 0%R U1 0 = 0%R -> nthZ 0%R U2 0 = 0%R ->
  exists P G1 G2 C1 C2 H, plan_sph_gradient N = Some P /\ execute_sph_gradient P U1 A1 A2 N M = Some (G1, G2) /\ execute_sph_curl P U2 B1 B2 N M = Some (C1, C2) /\ plan_sph_helmholtzhodge junk N = Some H /\
    forall V1 V2, zlen V1 = N * M -> zlen V2 = N * M -> (forall p, 0 <= p < N * M -> nthZ 0%R V1 p = (nthZ 0 G1 p + nthZ 0 C1 p)%R /\ nthZ 0%R V2 p = (nthZ 0 G2 p + nthZ 0 C2 p)%R) ->
    exists st, execute_sph_helmholtzhodge H W1 W2 V1 V2 N M = Some st /\ zlen (h_U1 st) = N * M /\ zlen (h_U2 st) = N * M /\
      forall i q, 0 <= i -> 0 <= q < M -> i + (q + 1) / 2 < N -> nthZ 0%R (h_U1 st) (i + N * q) = nthZ 0%R U1 (i + N * q) /\ nthZ 0%R (h_U2 st) (i + N * q) = nthZ 0%R U2 (i + N * q).
Proof. exact C62_recovers_proof. Qed.
Print Assumptions C62_recovers.
Example C62_nonvacuous : let U1 := [0; 2; 3; 4; 5; 0; 6; 7; 0; 8; 0; 0; 9; 0; 0]%R in let U2 := [0; 1; 1; 1; 2; 0; 3; 5; 0; 8; 0; 0; 1; 0; 0]%R in
  1 <= 3 /\ Z.odd 5 = true /\ 0 <= 5 / 2 <= 3 - 1 /\ zlen U1 = 3 * 5 /\ zlen U2 = 3 * 5 /\ degrees_up_to 3 5 U1 /\ degrees_up_to 3 5 U2 /\ nthZ 0%R U1 0 = 0%R /\ nthZ 0%R U2 0 = 0%R.
Proof. exact C62_example. Qed.
(** with as many orders as degrees, which the gradient accepts, the decomposition leaves its arrays whatever they hold *)
Theorem C62_wide_refuted : forall (P : hh_plan (F:=R)) U1 U2 V1 V2 N M, 1 <= N <= M / 2 -> execute_sph_helmholtzhodge P U1 U2 V1 V2 N M = None.
Proof. exact C62_wide_refuted_proof. Qed.
Print Assumptions C62_wide_refuted.
