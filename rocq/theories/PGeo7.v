(** * Theorem forms: isometries of the coefficients are isometries of the function *)
From Coq Require Import ZArith List Lia Bool Reals Lra ZifyBool ZifyNat.
From Verif Require Import Base Arith SpecSum PSum MRecur MIso SpecIso SpecGeo PIso PIso2 PIso5 PIsoThms PIso9 PGeo3 PGeo4 PGeo6.
Import ListNotations.
Open Scope Z_scope.

Lemma half_h h : (2 * h + 1) / 2 = h. Proof. lia. Qed.
Lemma moves_moved n N h T A A' : moves n N h T A A' -> moved N (2 * h + 1) T A A'.
Proof. intros (_ & _ & V). unfold moved. rewrite half_h. exact V. Qed.
Lemma moved_ext N M T T' A A' : (forall v, T v = T' v) -> moved N M T A A' -> moved N M T' A A'.
Proof. intros E V t phi t' phi' HX. apply V. now rewrite E. Qed.
Lemma G_function n N M A : 2 <= n <= N -> 2 * n - 1 <= M -> Z.odd M = true -> zlen A = N * M -> degrees_below n N M A -> moved N M (fun v => v) A A.
Proof. intros Hn HM HO LA HB. destruct (oddM M ltac:(lia) HO) as (h & Hh & ->). apply (moves_moved n). apply moves_refl; auto. lia. Qed.
Lemma G_exchange huge n N M A : 2 <= n <= N -> 2 * n - 1 <= M -> Z.odd M = true -> zlen A = N * M -> degrees_below n N M A ->
  exists J A', plan_isometry n = Some J /\ yz_exchange huge n J N M A = Some A' /\ zlen A' = N * M /\ degrees_below n N M A' /\ moved N M (fun '(x, y, z) => (x, - z, - y)%R) A A'.
Proof.
  intros Hn HM HO LA HB. destruct (oddM M ltac:(lia) HO) as (h & Hh & ->). destruct (yz_exchange_spec huge n N h A Hn ltac:(lia) LA) as (J & A' & EJ & E & X). assert (M0 := moves_exchange huge J n N h A A' Hn ltac:(lia) HB X).
  exists J, A'. split; auto. split; auto. split; [apply M0|]. split; [apply M0|]. apply (moves_moved n). exact M0.
Qed.
Lemma G_isometry huge n N M (Q : zyzr R) A : 2 <= n <= N -> 2 * n - 1 <= M -> Z.odd M = true -> zlen A = N * M -> degrees_below n N M A ->
  (zs0 Q * zs0 Q + zc0 Q * zc0 Q = 1)%R -> (zs1 Q * zs1 Q + zc1 Q * zc1 Q = 1)%R -> (zs2 Q * zs2 Q + zc2 Q * zc2 Q = 1)%R ->
  exists J A', plan_isometry n = Some J /\ sph_isometry huge n J Q N M A = Some A' /\ zlen A' = N * M /\ degrees_below n N M A' /\ moved N M (act3 (apply_ZYZR Q id3)) A A'.
Proof.
  intros Hn HM HO LA HB U0 U1 U2. destruct (oddM M ltac:(lia) HO) as (h & Hh & ->). destruct (isometry_moves huge n N h Q A Hn ltac:(lia) LA HB) as (J & A' & EJ & E & M0); [now split|].
  exists J, A'. split; auto. split; auto. split; [apply M0|]. split; [apply M0|]. now apply (moves_moved n).
Qed.
Lemma G_create huge tiny n N M (Q : o3 R) A : 2 <= n <= N -> 2 * n - 1 <= M -> Z.odd M = true -> zlen A = N * M -> degrees_below n N M A ->
  (0 <= tiny < 1)%R -> orthogonal3 Q -> (q6 Q = 0 /\ q7 Q = 0 \/ tiny < hyp (q6 Q) (q7 Q))%R ->
  exists J A', plan_isometry n = Some J /\ sph_orthogonal_transformation huge hyp tiny n J Q N M A = Some A' /\ zlen A' = N * M /\ degrees_below n N M A' /\ moved N M (act3 (apply_ZYZR (create_ZYZR hyp tiny Q) id3)) A A'.
Proof.
  intros Hn HM HO LA HB Ht HQ D. unfold sph_orthogonal_transformation. destruct (create_shape tiny Q Ht (orth_cols Q HQ) D) as (c0 & s0 & c1 & s1 & a & b & c & d & r & E & N0 & N1 & _ & _ & _ & _ & Ncd & _).
  rewrite E. apply G_isometry; auto; cbn [zs0 zs1 zs2 zc0 zc1 zc2]; [rewrite <- N0|rewrite <- N1|rewrite <- Ncd]; ring.
Qed.
Lemma mul3_id Q : mul3 Q id3 = Q.
Proof. destruct Q. unfold mul3, id3. cbn. f_equal; ring. Qed.
Lemma G_orthogonal huge tiny n N M (Q : o3 R) A : 2 <= n <= N -> 2 * n - 1 <= M -> Z.odd M = true -> zlen A = N * M -> degrees_below n N M A ->
  (0 <= tiny < 1)%R -> orthogonal3 Q -> (q6 Q = 0 /\ q7 Q = 0 \/ tiny < hyp (q6 Q) (q7 Q))%R -> (det3 Q = 1 \/ q2 Q <> 0 \/ q6 Q = 0 /\ q7 Q = 0 /\ q4 Q <> 0)%R ->
  exists J A', plan_isometry n = Some J /\ sph_orthogonal_transformation huge hyp tiny n J Q N M A = Some A' /\ zlen A' = N * M /\ degrees_below n N M A' /\ moved N M (act3 Q) A A'.
Proof.
  intros Hn HM HO LA HB Ht HQ D G. destruct (G_create huge tiny n N M Q A Hn HM HO LA HB Ht HQ D) as (J & A' & EJ & E & L & B & V). exists J, A'. rewrite (zyzr_proof tiny Q id3 Ht HQ D G), mul3_id in V. auto 10.
Qed.
Lemma G_rotation huge n N M alpha beta gamma A : 2 <= n <= N -> 2 * n - 1 <= M -> Z.odd M = true -> zlen A = N * M -> degrees_below n N M A ->
  exists J A', plan_isometry n = Some J /\ sph_rotation huge sin cos n J alpha beta gamma N M A = Some A' /\ zlen A' = N * M /\ degrees_below n N M A' /\
    moved N M (act3 (mul3 (rotz alpha) (mul3 (roty beta) (rotz gamma)))) A A'.
Proof.
  intros Hn HM HO LA HB. unfold sph_rotation. set (Q := ZYZR (sin alpha) (sin beta) (sin gamma) (cos alpha) (cos beta) (cos gamma) 1).
  destruct (G_isometry huge n N M Q A Hn HM HO LA HB) as (J & A' & EJ & E & L & B & V); [apply sin2_cos2|apply sin2_cos2|apply sin2_cos2|]. exists J, A'. split; auto. split; auto. split; auto. split; auto.
  replace (mul3 (rotz alpha) (mul3 (roty beta) (rotz gamma))) with (apply_ZYZR Q id3); auto. unfold apply_ZYZR, mul3, rotz, roty, id3, Q. cbn. f_equal; ring.
Qed.
Lemma apply_refl_id (w0 w1 w2 : R) : (w0 * w0 + w1 * w1 + w2 * w2 <> 0)%R -> apply_reflection w0 w1 w2 (O3 one zero zero zero one zero zero zero one) = reflection w0 w1 w2.
Proof. intros H. change (O3 one zero zero zero one zero zero zero one) with id3. rewrite reflection_proof by auto. apply mul3_id. Qed.
Lemma G_reflection huge tiny n N M w0 w1 w2 A : 2 <= n <= N -> 2 * n - 1 <= M -> Z.odd M = true -> zlen A = N * M -> degrees_below n N M A ->
  (0 <= tiny < 1)%R -> (w0 * w0 + w1 * w1 + w2 * w2 <> 0)%R -> (w0 * w2 <> 0)%R -> (tiny < hyp (q6 (reflection w0 w1 w2)) (q7 (reflection w0 w1 w2)))%R ->
  exists J A', plan_isometry n = Some J /\ sph_reflection huge hyp tiny n J w0 w1 w2 N M A = Some A' /\ zlen A' = N * M /\ degrees_below n N M A' /\ moved N M (act3 (reflection w0 w1 w2)) A A'.
Proof.
  intros Hn HM HO LA HB Ht W0 W1 D. destruct (reflection_orth w0 w1 w2 W0) as (OR & DT & IV). unfold sph_reflection. cbn [one zero R_arith] in *.
  assert (E0 := apply_refl_id w0 w1 w2 W0). cbn [one zero R_arith] in E0. rewrite E0.
  destruct (G_create huge tiny n N M (reflection w0 w1 w2) A Hn HM HO LA HB Ht OR) as (J & A' & EJ & E & L & B & V); auto. exists J, A'.
  rewrite (zyzr_reflection_good tiny w0 w1 w2 Ht W0 W1 D) in V. auto 10.
Qed.
(** ** the matrices that are factored wrongly *)
Definition tqi (Q : zyzr R) (v : R * R * R) : R * R * R :=
  let w := tz (- zs2 Q) (zc2 Q) (tj (tz (zs1 Q) (zc1 Q) (tj (tz (- zs0 Q) (zc0 Q) v)))) in if zsign Q <? 0 then tm w else w.
Lemma tz_inv s c v : (s * s + c * c = 1)%R -> tz s c (tz (- s) c v) = v.
Proof.
  intros H. destruct v as [[x y] z]. unfold tz. apply triple_eq; [| |reflexivity].
  - transitivity ((s * s + c * c) * x)%R; [ring|rewrite H; ring].
  - transitivity ((s * s + c * c) * y)%R; [ring|rewrite H; ring].
Qed.
Lemma tj_inv v : tj (tj v) = v. Proof. destruct v as [[x y] z]. unfold tj. apply triple_eq; ring. Qed.
Lemma tm_inv v : tm (tm v) = v. Proof. destruct v as [[x y] z]. unfold tm. apply triple_eq; ring. Qed.
Lemma tq_tqi Q v : unit_zyzr Q -> tq Q (tqi Q v) = v.
Proof.
  intros (U0 & U1 & U2). unfold tq, tqi. cbv zeta. assert (E : forall w, (if zsign Q <? 0 then tm (if zsign Q <? 0 then tm w else w) else (if zsign Q <? 0 then tm w else w)) = w) by (intros w; destruct (zsign Q <? 0); [apply tm_inv|reflexivity]).
  rewrite E, tz_inv by exact U2. rewrite tj_inv. replace (zs1 Q) with (- - zs1 Q)%R at 2 by ring. rewrite tz_inv by (rewrite <- U1; ring). rewrite tj_inv. now apply tz_inv.
Qed.
Lemma tqi_keeps Q : unit_zyzr Q -> keeps (tqi Q).
Proof.
  intros (U0 & U1 & U2) v Hv. unfold tqi. cbv zeta. assert (K : on_sphere (tz (- zs2 Q) (zc2 Q) (tj (tz (zs1 Q) (zc1 Q) (tj (tz (- zs0 Q) (zc0 Q) v)))))).
  { apply keeps_tz; [rewrite <- U2; ring|]. apply keeps_tj. apply keeps_tz; [exact U1|]. apply keeps_tj. apply keeps_tz; [rewrite <- U0; ring|]. exact Hv. }
  destruct (zsign Q <? 0); [apply keeps_tm|]; exact K.
Qed.
Lemma fn_linear a b c : exists K, (0 < K)%R /\ forall t phi, harmonic_series sphP 2 1 [0; c; b; 0; a; 0]%R t phi = (let '(x, y, z) := xyz t phi in K * (a * x + b * y + c * z))%R.
Proof.
  destruct sphP_1 as (K & K0 & HK). exists K. split; auto. intros t phi. change (fn 2 1 [0; c; b; 0; a; 0]%R t phi = (let '(x, y, z) := xyz t phi in K * (a * x + b * y + c * z))%R).
  rewrite (regroup 2 2 1); try lia.
  - change 2 with (1 + 1) at 1. rewrite sum2, dsum_0, dsum_1, (proj1 (HK t)), (proj2 (HK t)). unfold xyz. change (nthZ 0%R [0; c; b; 0; a; 0]%R 0) with 0%R. change (nthZ 0%R [0; c; b; 0; a; 0]%R 1) with c. change (nthZ 0%R [0; c; b; 0; a; 0]%R 2) with b. change (nthZ 0%R [0; c; b; 0; a; 0]%R (2 * 2)) with a. ring.
  - intros i q Hi Hq D. lia.
Qed.
Lemma basis_differ (T Q : o3 R) : T <> Q -> exists v, on_sphere v /\ act3 T v <> act3 Q v.
Proof.
  intros NE. destruct T as [a0 a1 a2 a3 a4 a5 a6 a7 a8], Q as [b0 b1 b2 b3 b4 b5 b6 b7 b8].
  destruct (Req_dec a0 b0) as [->|N]; [|exists (1, 0, 0)%R; split; [cbn; ring|cbn; intros H; injection H; intros; apply N; lra]].
  destruct (Req_dec a1 b1) as [->|N]; [|exists (1, 0, 0)%R; split; [cbn; ring|cbn; intros H; injection H; intros; apply N; lra]].
  destruct (Req_dec a2 b2) as [->|N]; [|exists (1, 0, 0)%R; split; [cbn; ring|cbn; intros H; injection H; intros; apply N; lra]].
  destruct (Req_dec a3 b3) as [->|N]; [|exists (0, 1, 0)%R; split; [cbn; ring|cbn; intros H; injection H; intros; apply N; lra]].
  destruct (Req_dec a4 b4) as [->|N]; [|exists (0, 1, 0)%R; split; [cbn; ring|cbn; intros H; injection H; intros; apply N; lra]].
  destruct (Req_dec a5 b5) as [->|N]; [|exists (0, 1, 0)%R; split; [cbn; ring|cbn; intros H; injection H; intros; apply N; lra]].
  destruct (Req_dec a6 b6) as [->|N]; [|exists (0, 0, 1)%R; split; [cbn; ring|cbn; intros H; injection H; intros; apply N; lra]].
  destruct (Req_dec a7 b7) as [->|N]; [|exists (0, 0, 1)%R; split; [cbn; ring|cbn; intros H; injection H; intros; apply N; lra]].
  destruct (Req_dec a8 b8) as [->|N]; [|exists (0, 0, 1)%R; split; [cbn; ring|cbn; intros H; injection H; intros; apply N; lra]].
  congruence.
Qed.
Lemma orth_keeps Q : orthogonal3 Q -> keeps (act3 Q).
Proof.
  intros HO [[x y] z] H. destruct Q as [a0 a1 a2 a3 a4 a5 a6 a7 a8]. unfold orthogonal3, mul3, tr3, id3 in HO. cbn in HO. injection HO. intros. unfold on_sphere, act3 in *. cbn in *. rewrite <- H.
  transitivity ((a0 * a0 + a1 * a1 + a2 * a2) * (x * x) + (a3 * a3 + a4 * a4 + a5 * a5) * (y * y) + (a6 * a6 + a7 * a7 + a8 * a8) * (z * z) + 2 * (a0 * a3 + a1 * a4 + a2 * a5) * (x * y) + 2 * (a0 * a6 + a1 * a7 + a2 * a8) * (x * z) + 2 * (a3 * a6 + a4 * a7 + a5 * a8) * (y * z))%R; [ring|].
  assert (C0 : (a0 * a0 + a1 * a1 + a2 * a2 = 1)%R) by lra. assert (C1 : (a3 * a3 + a4 * a4 + a5 * a5 = 1)%R) by lra. assert (C2 : (a6 * a6 + a7 * a7 + a8 * a8 = 1)%R) by lra.
  assert (C3 : (a0 * a3 + a1 * a4 + a2 * a5 = 0)%R) by lra. assert (C4 : (a0 * a6 + a1 * a7 + a2 * a8 = 0)%R) by lra. assert (C5 : (a3 * a6 + a4 * a7 + a5 * a8 = 0)%R) by lra.
  rewrite C0, C1, C2, C3, C4, C5. ring.
Qed.
Lemma G_bad huge tiny Q : (0 <= tiny < 1)%R -> orthogonal3 Q -> (q6 Q = 0 /\ q7 Q = 0 \/ tiny < hyp (q6 Q) (q7 Q))%R ->
  det3 Q = (-1)%R -> q2 Q = 0%R -> (~ (q6 Q = 0 /\ q7 Q = 0) \/ q4 Q = 0)%R ->
  exists J A A', plan_isometry 2 = Some J /\ zlen A = 2 * 3 /\ sph_orthogonal_transformation huge hyp tiny 2 J Q 2 3 A = Some A' /\ ~ moved 2 3 (act3 Q) A A'.
Proof.
  intros Ht HQ D G1 G2 G3. assert (NE := zyzr_bad tiny Q Ht HQ D G1 G2 G3). destruct (basis_differ _ _ NE) as ([[a b] c] & Hv & DF).
  assert (UZ : unit_zyzr (create_ZYZR hyp tiny Q)).
  { destruct (create_shape tiny Q Ht (orth_cols Q HQ) D) as (c0 & s0 & c1 & s1 & a' & b' & c' & d & r & E & N0 & N1 & _ & _ & _ & _ & Ncd & _). rewrite E. unfold unit_zyzr. cbn [zs0 zs1 zs2 zc0 zc1 zc2]. repeat split; [rewrite <- N0|rewrite <- N1|rewrite <- Ncd]; ring. }
  set (A := [0; c; b; 0; a; 0]%R). destruct (fn_linear a b c) as (K & K0 & LN). fold A in LN.
  destruct (G_create huge tiny 2 2 3 Q A) as (J & A' & EJ & E & L & B & V); auto; try lia. { intros i q Hi Hq DD. lia. }
  exists J, A, A'. split; auto. split; auto. split; auto. intros MQ.
  assert (Kp := orth_keeps Q HQ _ Hv). destruct (act3 Q (a, b, c)) as [[x y] z] eqn:EP. destruct (sphere_point x y z Kp) as (t & phi & P). destruct (sphere_point a b c Hv) as (t1 & phi1 & P1).
  assert (Kr := tqi_keeps (create_ZYZR hyp tiny Q) UZ (x, y, z) Kp). assert (TI := tq_tqi (create_ZYZR hyp tiny Q) (x, y, z) UZ). rewrite tq_act in TI.
  destruct (tqi (create_ZYZR hyp tiny Q) (x, y, z)) as [[a2 b2] c2]. destruct (sphere_point a2 b2 c2 Kr) as (t2 & phi2 & P2).
  assert (E1 := MQ t phi t1 phi1). rewrite P, P1, EP in E1. specialize (E1 eq_refl). assert (E2 := V t phi t2 phi2). rewrite P, P2, TI in E2. specialize (E2 eq_refl).
  rewrite E1 in E2. change (3 / 2) with 1 in E2. rewrite !LN, P1, P2 in E2. unfold on_sphere in *. apply Rmult_eq_reg_l in E2; [|lra].
  assert (SQ : ((a - a2) * (a - a2) + (b - b2) * (b - b2) + (c - c2) * (c - c2) = 0)%R) by lra.
  assert (a2 = a /\ b2 = b /\ c2 = c) as (Q1 & Q2 & Q3).
  { pose proof (Rle_0_sqr (a - a2)) as Y1. pose proof (Rle_0_sqr (b - b2)) as Y2. pose proof (Rle_0_sqr (c - c2)) as Y3. unfold Rsqr in *.
    split; [|split]; apply Rminus_diag_uniq_sym; apply Rsqr_0_uniq; unfold Rsqr; lra. }
  subst a2 b2 c2. apply DF. congruence.
Qed.
