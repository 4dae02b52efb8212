(** * C47, continued: the int expressions of the gradient, the curl, the Helmholtz--Hodge decomposition and
    the polar isometries.  Statements only; proofs are in PInt5.v.  Vocabulary: MInt.v, MInt2.v. *)
From Coq Require Import ZArith List Lia Bool String.
From Verif Require Import Base MInt MInt2 PInt5.
Import ListNotations.
Open Scope string_scope.
Open Scope Z_scope.

(** ** The planners: the exact thresholds. *)
Theorem C47_plan_sph_gradient :
  forall n : Z, 0 <= n <= int_max -> exec c_plan_sph_gradient (params [("n", n)]) = if n <=? 23170 then Done else Overflow.
Proof. exact gradient_T. Qed.
Print Assumptions C47_plan_sph_gradient.
Theorem C47_plan_sph_helmholtzhodge :
  forall n : Z, 0 <= n <= int_max -> exec c_plan_sph_helmholtzhodge (params [("n", n)]) = if n <=? 23169 then Done else Overflow.
Proof. exact helmholtzhodge_T. Qed.
Print Assumptions C47_plan_sph_helmholtzhodge.
Example C47_plan_sph_gradient_nonvacuous : exec c_plan_sph_gradient (params [("n", 23170)]) = Done /\ exec c_plan_sph_helmholtzhodge (params [("n", 23170)]) = Overflow.
Proof. split; [rewrite (C47_plan_sph_gradient 23170)|rewrite (C47_plan_sph_helmholtzhodge 23170)]; try reflexivity; unfold int_max; lia. Qed.

(** ** Execution on N by M arrays, M = 2k+1, of at most 2^31 - 1 entries: no overflow. *)
Theorem C47_execute_sph_gradient :
  forall N k : Z, 1 <= N <= int_max -> 0 <= k -> N * (2 * k + 1) <= int_max ->
  exec c_execute_sph_gradient (params [("N", N); ("M", 2 * k + 1)]) = Done /\ exec c_execute_sph_curl (params [("N", N); ("M", 2 * k + 1)]) = Done.
Proof. intros N k H1 H2 H3. split; [exact (gradient_D N k H1 H2 H3)|exact (curl_D N k H1 H2 H3)]. Qed.
Print Assumptions C47_execute_sph_gradient.
Theorem C47_execute_sph_helmholtzhodge :
  forall N k : Z, 1 <= N <= int_max -> 0 <= k <= N -> N * (2 * k + 1) <= int_max -> exec c_execute_sph_helmholtzhodge (params [("N", N); ("M", 2 * k + 1)]) = Done.
Proof. intros N k H1 [H2 H3] H4. exact (hh_D N k H1 H2 H4 H3). Qed.
Print Assumptions C47_execute_sph_helmholtzhodge.
Theorem C47_polar_isometries :
  forall N k : Z, 1 <= N < int_max -> 0 <= k -> N * (2 * k + 1) <= int_max ->
  exec c_polar_rotation (params [("N", N); ("M", 2 * k + 1)]) = Done /\ exec c_polar_reflection (params [("N", N); ("M", 2 * k + 1)]) = Done.
Proof. intros N k H1 H2 H3. assert (H4 : 1 <= N <= int_max) by lia. split; [exact (polar_rotation_D N k H4 H2 H3)|apply (polar_reflection_D N k H4 H2 H3); lia]. Qed.
Print Assumptions C47_polar_isometries.
Example C47_execute_sph_gradient_nonvacuous : 1 <= 32768 < int_max /\ 0 <= 32767 <= 32768 /\ 32768 * (2 * 32767 + 1) <= int_max.
Proof. unfold int_max. lia. Qed.
