(** * Theorem forms for Properties_Iso.v *)
From Coq Require Import ZArith List Lia Bool Reals Lra ZifyBool ZifyNat.
From Verif Require Import Base BaseFacts Arith SpecSum PSum MRecur MIso SpecIso PIso PIso2 PIso3 PIso4 PIso5 PTrig.
Import ListNotations.
Open Scope Z_scope.

Lemma oddM M : 0 < M -> Z.odd M = true -> exists h, 0 <= h /\ M = 2 * h + 1.
Proof. intros HM HO. exists (M / 2). rewrite PTrig.odd_b in HO. lia. Qed.

Lemma T_rot_series N M t (A : list R) : 0 <= N -> 0 < M -> Z.odd M = true -> zlen A = N * M ->
  exists A', polar_rotation N M (sin t) (cos t) A = Some A' /\ zlen A' = N * M /\
    forall P u phi, harmonic_series P N (M / 2) A' u phi = harmonic_series P N (M / 2) A u (phi - t).
Proof.
  intros HN HM HO LA. destruct (oddM M HM HO) as (h & Hh & ->). destruct (polar_rotation_spec N h t A HN Hh LA) as (A' & E & X). exists A'. split; auto. split; [apply X|]. intros P u phi.
  replace ((2 * h + 1) / 2) with h by lia. eapply rotated_series; eauto.
Qed.
Lemma T_rot_compose N M t t' (A : list R) : 0 <= N -> 0 < M -> Z.odd M = true -> zlen A = N * M ->
  (do A1 <- polar_rotation N M (sin t) (cos t) A; polar_rotation N M (sin t') (cos t') A1) = polar_rotation N M (sin (t + t')) (cos (t + t')) A /\
  polar_rotation N M (sin (t + t')) (cos (t + t')) A <> None.
Proof.
  intros HN HM HO LA. destruct (oddM M HM HO) as (h & Hh & ->). destruct (polar_rotation_spec N h t A HN Hh LA) as (A1 & E1 & X1). rewrite E1. cbn [obind].
  destruct (polar_rotation_spec N h t' A1 HN Hh (proj1 X1)) as (A2 & E2 & X2). destruct (polar_rotation_spec N h (t + t') A HN Hh LA) as (A3 & E3 & X3).
  rewrite E2, E3. split; [|discriminate]. f_equal. apply (rotated_fun (t + t') N h A A2 A3 HN); [exact (rotated_comp t t' N h A A1 A2 HN Hh X1 X2)|exact X3].
Qed.
Lemma T_rot_inverse N M t (A : list R) : 0 <= N -> 0 < M -> Z.odd M = true -> zlen A = N * M ->
  (do A1 <- polar_rotation N M (sin t) (cos t) A; polar_rotation N M (- sin t)%R (cos t) A1) = Some A.
Proof.
  intros HN HM HO LA. rewrite <- sin_neg. destruct (oddM M HM HO) as (h & Hh & ->).
  destruct (polar_rotation_spec N h t A HN Hh LA) as (A1 & E1 & X1). rewrite E1. cbn [obind]. rewrite <- (cos_neg t).
  destruct (polar_rotation_spec N h (- t) A1 HN Hh (proj1 X1)) as (A2 & E2 & X2). rewrite E2. f_equal. apply (rotated_0 N h A A2 HN LA). replace 0%R with (t + - t)%R by ring. exact (rotated_comp t (- t) N h A A1 A2 HN Hh X1 X2).
Qed.
Lemma T_rot_norm N M t (A : list R) : 0 <= N -> 0 < M -> Z.odd M = true -> zlen A = N * M ->
  exists A', polar_rotation N M (sin t) (cos t) A = Some A' /\
    sumZ (N * M) (fun p => (nthZ 0 A' p * nthZ 0 A' p)%R) = sumZ (N * M) (fun p => (nthZ 0 A p * nthZ 0 A p)%R).
Proof.
  intros HN HM HO LA. destruct (oddM M HM HO) as (h & Hh & ->). destruct (polar_rotation_spec N h t A HN Hh LA) as (A' & E & X). exists A'. split; auto. eapply rotated_norm; eauto.
Qed.
Lemma T_rot_outside N M t (A : list R) : 0 <= N -> 0 < M -> Z.odd M = true -> zlen A = N * M ->
  exists A', polar_rotation N M (sin t) (cos t) A = Some A' /\
    forall i q, 0 <= i < N -> 0 <= q < M -> q = 0 \/ N <= i + (q + 1) / 2 -> nthZ 0%R A' (i + N * q) = nthZ 0%R A (i + N * q).
Proof.
  intros HN HM HO LA. destruct (oddM M HM HO) as (h & Hh & ->). destruct (polar_rotation_spec N h t A HN Hh LA) as (A' & E & [L X]). exists A'. split; auto. intros i q Hi Hq D. change (i + N * q) with (pos N i q).
  rewrite X by lia. apply rotv_rest. lia.
Qed.
Lemma T_ref_involution (F : Type) (AF : Arith F) : (forall x : F, opp (opp x) = x) -> forall N M A, 0 <= N -> 0 < M -> Z.odd M = true -> zlen A = N * M ->
  (do A1 <- polar_reflection N M A; polar_reflection N M A1) = Some A.
Proof.
  intros OO N M A HN HM HO LA. destruct (oddM M HM HO) as (h & Hh & ->). destruct (polar_reflection_spec N h A HN Hh LA) as (A1 & E1 & X1). rewrite E1. cbn [obind].
  destruct (polar_reflection_spec N h A1 HN Hh (proj1 X1)) as (A2 & E2 & X2). rewrite E2. f_equal. exact (reflected_twice N h A A1 A2 HN OO LA X1 X2).
Qed.
Lemma T_ref_series N M (A : list R) : 0 <= N -> 0 < M -> Z.odd M = true -> zlen A = N * M ->
  exists A', polar_reflection N M A = Some A' /\ zlen A' = N * M /\
    forall P u u' phi, (forall m i, 0 <= m <= M / 2 -> 0 <= i < N - m -> P m i u' = ((if Z.odd i then -1 else 1) * P m i u)%R) ->
      harmonic_series P N (M / 2) A' u phi = harmonic_series P N (M / 2) A u' phi.
Proof.
  intros HN HM HO LA. destruct (oddM M HM HO) as (h & Hh & ->). destruct (polar_reflection_spec N h A HN Hh LA) as (A' & E & X). exists A'. split; auto. split; [apply X|]. intros P u u' phi HP.
  replace ((2 * h + 1) / 2) with h in * by lia. apply (reflected_series N h A A'); auto. intros m i Hm Hi. rewrite HP by lia. now rewrite PTrig.odd_b.
Qed.
Lemma T_degrees (F : Type) (AF : Arith F) huge n N M l (Q : zyzr F) A B : 2 <= n <= N -> 2 * n - 1 <= M -> Z.odd M = true -> l < N -> zlen A = N * M -> zlen B = N * M -> same_degree N M l A B ->
  exists J A' B', plan_isometry n = Some J /\ sph_isometry huge n J Q N M A = Some A' /\ sph_isometry huge n J Q N M B = Some B' /\
    zlen A' = N * M /\ zlen B' = N * M /\ same_degree N M l A' B'.
Proof.
  intros Hn HM HO Hl LA LB S. destruct (oddM M ltac:(lia) HO) as (h & Hh & ->). eapply isometry_degree; eauto. lia.
Qed.
Lemma T_exchange_frame (F : Type) (AF : Arith F) huge n N M A : 2 <= n <= N -> 2 * n - 1 <= M -> Z.odd M = true -> zlen A = N * M ->
  exists J A', plan_isometry n = Some J /\ yz_exchange huge n J N M A = Some A' /\ zlen A' = N * M /\
    nthZ zero A' 0 = nthZ zero A 0 /\ nthZ zero A' 1 = opp (nthZ zero A N) /\ nthZ zero A' N = opp (nthZ zero A 1) /\ nthZ zero A' (N * 2) = nthZ zero A (N * 2) /\
    (forall l, n <= l < N -> same_degree N M l A A') /\
    (forall i q, 0 <= i < N -> 0 <= q < M -> N <= i + (q + 1) / 2 -> nthZ zero A (i + N * q) = zero -> nthZ zero A' (i + N * q) = zero).
Proof.
  intros Hn HM HO LA. destruct (oddM M ltac:(lia) HO) as (h & Hh & ->). destruct (yz_exchange_spec huge n N h A Hn ltac:(lia) LA) as (J & A' & EJ & E & L & (D1 & D2 & D3) & V & W & Z).
  exists J, A'. split; auto. split; auto. split; auto. split.
  - assert (X := W 0 ltac:(lia) 0 0 ltac:(lia) ltac:(lia) eq_refl). replace (0 + N * 0) with 0 in X by lia. auto.
  - split; auto. split; auto. split; auto. split.
    + intros l Hl. apply W. lia.
    + intros i q Hi Hq D K. destruct (Z (i + (q + 1) / 2) D i q Hi Hq eq_refl) as [X|X]; auto. congruence.
Qed.
Lemma T_exchange_n1 (F : Type) (AF : Arith F) huge (x : F) : yz_exchange huge 1 [] 1 1 [x] = None.
Proof. reflexivity. Qed.
