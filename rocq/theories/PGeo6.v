(** * The exchange, the rotations and the reflections of the coefficients move the function *)
From Coq Require Import ZArith List Lia Bool Reals Lra Factorial ZifyBool ZifyNat.
From Verif Require Import Base Arith SpecSum PSum PKraw PKraw2 PDual MRecur MIso SpecIso SpecGeo PIso PIso2 PIso3 PIso4 PIso5 PIsoThms PIso7 PIso8 PIso9 PGeo1 PGeo2 PGeo3 PGeo4 PGeo5.
Open Scope Z_scope.

(** ** degrees 0 and 1 *)
Lemma sum1 f : sumZ (0 + 1) f = f 0. Proof. rewrite sumZ_S by lia. rewrite sumZ_0 by lia. ring. Qed.
Lemma sum2 f : sumZ (1 + 1) f = (f 0%Z + f 1%Z)%R.
Proof. rewrite sumZ_S by lia. replace (sumZ 1 f) with (sumZ (0 + 1) f) by reflexivity. now rewrite sum1. Qed.
Lemma sphP_00 t t' : sphP 0 0 t = sphP 0 0 t'.
Proof. unfold sphP. cbn [Z.to_nat legendre2 fst oddfact pow]. reflexivity. Qed.
Lemma sphP_1 : exists K : R, (0 < K)%R /\ forall t, sphP 0 1 t = (K * cos t)%R /\ sphP 1 0 t = (K * sin t)%R.
Proof.
  pose proof PI_RGT_0 as PP. exists (sqrt (3 / 2) * sqrt (1 / (2 * PI)))%R. split. { apply Rmult_lt_0_compat; apply sqrt_lt_R0; [lra|apply Rdiv_lt_0_compat; lra]. } intros t. unfold sphP. split.
  - change (Z.to_nat 0) with 0%nat. change (Z.to_nat 1) with 1%nat. change (Z.to_nat (2 * 0 + 1)) with 1%nat. cbn [legendre2 fst oddfact pow Nat.add Nat.mul fact]. change (INR 0) with 0%R. change (INR 1) with 1%R. change (0 =? 0) with true. cbv iota.
    replace ((IZR (0 + 1) + 1 / 2) * (1 / 1))%R with (3 / 2)%R by (cbn; field). field.
  - change (Z.to_nat 0) with 0%nat. change (Z.to_nat 1) with 1%nat. change (Z.to_nat (2 * 1 + 0)) with 2%nat. cbn [legendre2 fst oddfact pow fact Nat.add Nat.mul]. change (INR 0) with 0%R. change (INR 1) with 1%R. change (INR 2) with 2%R. change (1 =? 0) with false. cbv iota.
    replace ((IZR (1 + 0) + 1 / 2) * (1 / 2))%R with ((3 / 2) * (1 / 2))%R by (cbn; field). rewrite (sqrt_mult (3 / 2) (1 / 2)) by lra.
    replace (2 / (2 * PI))%R with (2 * (1 / (2 * PI)))%R by (field; lra). rewrite (sqrt_mult 2 (1 / (2 * PI))); [|lra|apply Rlt_le, Rdiv_lt_0_compat; lra].
    assert (E : (sqrt (1 / 2) * sqrt 2 = 1)%R) by (rewrite <- sqrt_mult by lra; replace (1 / 2 * 2)%R with 1%R by field; apply sqrt_1).
    transitivity ((sqrt (1 / 2) * sqrt 2) * (sqrt (3 / 2) * sqrt (1 / (2 * PI)) * sin t))%R; [ring|rewrite E; ring].
Qed.
Lemma dsum_0 N A t phi : dsum N 0 A t phi = (nthZ 0%R A 0 * sphP 0 0 t)%R.
Proof. unfold dsum. rewrite sum1, YY_s0. unfold YY, pc, pos. replace (0 - 0 + N * (2 * 0)) with 0 by lia. cbn [tri_]. rewrite Rmult_0_l, cos_0. replace (0 - 0) with 0 by lia. ring. Qed.
Lemma dsum_1 N A t phi : dsum N 1 A t phi = (nthZ 0%R A 1 * sphP 0 1 t + nthZ 0%R A N * (sphP 1 0 t * sin phi) + nthZ 0%R A (N * 2)%Z * (sphP 1 0 t * cos phi))%R.
Proof.
  unfold dsum. rewrite sum2, YY_s0. unfold YY, pc, ps, pos. replace (1 - 0 + N * (2 * 0)) with 1 by lia. replace (1 - 1 + N * (2 * 1)) with (N * 2) by lia. replace (1 - 1 + N * (2 * 1 - 1)) with N by lia. cbn [tri_].
  rewrite Rmult_0_l, cos_0, Rmult_1_l. replace (1 - 0) with 1 by lia. replace (1 - 1) with 0 by lia. ring.
Qed.

(** ** regrouping by degree *)
Lemma tri_sum n g : 0 <= n -> sumZ n (fun m => sumZ (n - m) (fun i => g m i)) = sumZ n (fun l => sumZ (l + 1) (fun m => g m (l - m))).
Proof.
  intros Hn. pattern n. apply natlike_ind; [| |exact Hn]; cbv beta.
  - rewrite !sumZ_0 by lia. reflexivity.
  - intros k Hk IH. replace (Z.succ k) with (k + 1) by lia. rewrite (sumZ_S k (fun l => sumZ (l + 1) (fun m => g m (l - m)))) by lia. rewrite <- IH. rewrite !(sumZ_S k) by lia.
    replace (k + 1 - k) with (0 + 1) by lia. rewrite sum1. replace (k - k) with 0 by lia.
    rewrite (sumZ_ext k (fun m => sumZ (k + 1 - m) (fun i => g m i)) (fun m => (sumZ (k - m) (fun i => g m i) + g m (k - m)%Z)%R)).
    + rewrite sumZ_plus. ring.
    + intros m Hm. replace (k + 1 - m) with (k - m + 1) by lia. rewrite sumZ_S by lia. reflexivity.
Qed.
Definition band (n N h : Z) (A : list R) : Prop := forall i q, 0 <= i < N -> 0 <= q < 2 * h + 1 -> n <= i + (q + 1) / 2 < N -> nthZ 0%R A (i + N * q) = 0%R.
Definition fn (N h : Z) (A : list R) (t phi : R) : R := harmonic_series sphP N h A t phi.
Lemma sum_short a b f : 0 <= a <= b -> (forall i, a <= i < b -> f i = 0%R) -> sumZ b f = sumZ a f.
Proof. intros H Hz. rewrite (sumZ_split b a) by lia. rewrite (sumZ_zero (b - a)); [ring|]. intros i Hi. apply Hz. lia. Qed.
Lemma regroup n N h A t phi : 1 <= n <= N -> n - 1 <= h -> band n N h A -> fn N h A t phi = sumZ n (fun l => dsum N l A t phi).
Proof.
  intros Hn Hh HB. unfold fn, harmonic_series.
  set (g := fun m i => (nthZ 0 A (i + N * (2 * m)) * (sphP m i t * cos (IZR m * phi)) + nthZ 0 A (i + N * (2 * m - 1)) * (sphP m i t * sin (IZR m * phi)))%R).
  transitivity (sumZ n (fun m => sumZ (n - m) (fun i => g m i))).
  - rewrite (sumZ_first n) by lia. f_equal.
    + replace (n - 0) with n by lia. rewrite (sum_short n N); [|lia|].
      * apply sumZ_ext. intros i Hi. unfold g. replace (i + N * (2 * 0)) with i by lia. rewrite Rmult_0_l, sin_0, cos_0. ring.
      * intros i Hi. assert (X := HB i 0 ltac:(lia) ltac:(lia) ltac:(lia)). replace (i + N * 0) with i in X by lia. rewrite X. ring.
    + assert (ZT : forall m i, 1 <= m <= h -> 0 <= i < N - m -> n <= m + i -> (sphP m i t * (nthZ 0 A (i + N * (2 * m - 1))%Z * sin (IZR m * phi) + nthZ 0 A (i + N * (2 * m))%Z * cos (IZR m * phi)) = 0)%R).
      { intros m i Hm Hi D. rewrite (HB i (2 * m - 1)), (HB i (2 * m)) by lia. ring. }
      rewrite (sum_short (n - 1) h); [|lia|].
      * apply sumZ_ext. intros k Hk. cbv zeta. replace (1 + k) with (k + 1) by lia. set (m := k + 1) in *. rewrite (sum_short (n - m) (N - m)); [|lia|].
        -- apply sumZ_ext. intros i Hi. unfold g. ring.
        -- intros i Hi. apply ZT; lia.
      * intros k Hk. cbv zeta. apply sumZ_zero. intros i Hi. apply ZT; lia.
  - rewrite tri_sum by lia. apply sumZ_ext. intros l Hl. unfold dsum. apply sumZ_ext. intros m Hm. unfold g, YY, pc, ps, pos. cbn [tri_]. reflexivity.
Qed.
Lemma dsum_same N M l A B t phi : 0 <= l < N -> 2 * l < M -> same_degree N M l A B -> dsum N l A t phi = dsum N l B t phi.
Proof.
  intros Hl HM SD. unfold dsum. apply sumZ_ext. intros m Hm. change 0%R with (zero : R). rewrite (same_pc N M l A B m) by (auto; lia). destruct (Z.eq_dec m 0) as [->|].
  - rewrite YY_s0. cbn [zero R_arith]. ring.
  - rewrite (same_ps N M l A B m) by (auto; lia). reflexivity.
Qed.
Lemma fn_same n N h A B t phi : 1 <= n <= N -> n - 1 <= h -> band n N h A -> band n N h B -> (forall l, 0 <= l < n -> same_degree N (2 * h + 1) l A B) -> fn N h A t phi = fn N h B t phi.
Proof. intros Hn Hh BA BB SD. rewrite !(regroup n) by auto. apply sumZ_ext. intros l Hl. apply (dsum_same N (2 * h + 1)); try lia. auto. Qed.

(** ** the exchange *)
Lemma exchange_moves huge J n N h A A' t phi t' phi' : 2 <= n <= N -> n - 1 <= h -> band n N h A -> exchanged huge J n N h A A' ->
  band n N h A' /\ (exch_pt t phi t' phi' -> fn N h A' t phi = fn N h A t' phi').
Proof.
  intros Hn Hh HB (LA' & (D1 & D2 & D3) & V & W & _). cbn [opp zero R_arith] in D1, D2, D3.
  assert (HB' : band n N h A').
  { intros i q Hi Hq D. transitivity (nthZ 0%R A (i + N * q)); [symmetry|exact (HB i q Hi Hq D)]. apply (W (i + (q + 1) / 2)); lia. }
  split; auto. intros HP. rewrite !(regroup n) by (auto; lia). apply sumZ_ext. intros l Hl. destruct (Z.eq_dec l 0) as [->|N0]; [|destruct (Z.eq_dec l 1) as [->|N1]].
  - rewrite !dsum_0, (sphP_00 t t'). f_equal. symmetry. assert (X := W 0 ltac:(lia) 0 0 ltac:(lia) ltac:(lia) eq_refl). replace (0 + N * 0) with 0 in X by lia. exact X.
  - rewrite !dsum_1. destruct sphP_1 as (K & _ & HK). rewrite !(proj1 (HK _)), !(proj2 (HK _)), D1, D2, D3.
    unfold exch_pt, xyz in HP. injection HP. intros Hz Hy Hx. rewrite Hz.
    transitivity (K * (- nthZ 0%R A N * cos t + - nthZ 0%R A 1 * (sin t * sin phi) + nthZ 0%R A (N * 2)%Z * (sin t * cos phi)))%R; [ring|]. rewrite <- Hx.
    replace (- nthZ 0%R A N * cos t)%R with (nthZ 0%R A N * - cos t)%R by ring. rewrite <- Hy. ring.
  - destruct (V l ltac:(lia)) as (P & EP & EPP & D). destruct (plan_partial_val l ltac:(lia)) as (P' & EP' & PL). rewrite EPP in EP'. injection EP' as <-.
    apply (deg_move N l A A' t phi t' phi'); auto; [lia|]. apply (planned_lin_sg l P ltac:(lia) PL huge). exact D.
Qed.
(** the function depends on the point only *)
Lemma well_defined n N h A t phi t2 phi2 : 2 <= n <= N -> n - 1 <= h -> zlen A = N * (2 * h + 1) -> band n N h A -> xyz t phi = xyz t2 phi2 -> fn N h A t phi = fn N h A t2 phi2.
Proof.
  intros Hn Hh LA HB HX. destruct (exch_exists t phi) as (t' & phi' & HP). assert (HP2 : exch_pt t2 phi2 t' phi') by (unfold exch_pt in *; now rewrite <- HX).
  destruct (exchange_twice 1%R n N h A Hn Hh LA) as (J & A1 & A2 & EJ & E1 & E2 & L1 & L2 & SD & _).
  destruct (yz_exchange_spec 1%R n N h A Hn Hh LA) as (J' & A1' & EJ' & E1' & X1). rewrite EJ in EJ'. injection EJ' as <-. rewrite E1 in E1'. injection E1' as <-.
  destruct (yz_exchange_spec 1%R n N h A1 Hn Hh L1) as (J' & A2' & EJ' & E2' & X2). rewrite EJ in EJ'. injection EJ' as <-. rewrite E2 in E2'. injection E2' as <-.
  destruct (exchange_moves 1%R J n N h A A1 t phi t' phi' Hn Hh HB X1) as (B1 & _).
  destruct (exchange_moves 1%R J n N h A1 A2 t phi t' phi' Hn Hh B1 X2) as (B2 & M1). destruct (exchange_moves 1%R J n N h A1 A2 t2 phi2 t' phi' Hn Hh B1 X2) as (_ & M2).
  rewrite (fn_same n N h A A2 t phi), (fn_same n N h A A2 t2 phi2) by (auto; try lia; intros; apply SD; lia). rewrite M1, M2 by auto. reflexivity.
Qed.

(** ** maps of the sphere *)
Definition moves (n N h : Z) (T : R * R * R -> R * R * R) (A A' : list R) : Prop :=
  zlen A' = N * (2 * h + 1) /\ band n N h A' /\ forall t phi t' phi', xyz t phi = T (xyz t' phi') -> fn N h A' t phi = fn N h A t' phi'.
Definition on_sphere (v : R * R * R) : Prop := let '(x, y, z) := v in (x * x + y * y + z * z = 1)%R.
Lemma xyz_sphere t phi : on_sphere (xyz t phi).
Proof.
  unfold on_sphere, xyz. pose proof (sin2_cos2 t) as S1. pose proof (sin2_cos2 phi) as S2. unfold Rsqr in *.
  transitivity (sin t * sin t * (sin phi * sin phi + cos phi * cos phi) + cos t * cos t)%R; [ring|rewrite S2; lra].
Qed.
Definition keeps (T : R * R * R -> R * R * R) : Prop := forall v, on_sphere v -> on_sphere (T v).
Lemma moves_comp n N h T1 T2 A A1 A2 : keeps T1 -> moves n N h T1 A A1 -> moves n N h T2 A1 A2 -> moves n N h (fun v => T2 (T1 v)) A A2.
Proof.
  intros K1 (L1 & B1 & M1) (L2 & B2 & M2). split; auto. split; auto. intros t phi t' phi' HX.
  assert (S1 := K1 _ (xyz_sphere t' phi')). destruct (T1 (xyz t' phi')) as [[x y] z] eqn:E1. destruct (sphere_point x y z S1) as (t1 & phi1 & P1).
  rewrite (M2 t phi t1 phi1) by (rewrite P1; exact HX). apply M1. rewrite P1. auto.
Qed.
Definition tz (s c : R) (v : R * R * R) : R * R * R := let '(x, y, z) := v in (c * x - s * y, s * x + c * y, z)%R.
Definition tj (v : R * R * R) : R * R * R := let '(x, y, z) := v in (x, - z, - y)%R.
Definition tm (v : R * R * R) : R * R * R := let '(x, y, z) := v in (x, y, - z)%R.
Lemma keeps_tz s c : (s * s + c * c = 1)%R -> keeps (tz s c).
Proof. intros H [[x y] z]. unfold on_sphere, tz. intros <-. transitivity ((s * s + c * c) * (x * x + y * y) + z * z)%R; [ring|rewrite H; ring]. Qed.
Lemma keeps_tj : keeps tj. Proof. intros [[x y] z]. unfold on_sphere, tj. intros <-. ring. Qed.
Lemma keeps_tm : keeps tm. Proof. intros [[x y] z]. unfold on_sphere, tm. intros <-. ring. Qed.
Lemma rotated_band t n N h A B : 0 <= h -> rotated t N h A B -> band n N h A -> band n N h B.
Proof.
  intros Hh [LB V] HB i q Hi Hq D. change (i + N * q) with (pos N i q). rewrite V by auto. unfold rotv. 
  destruct ((1 <=? q) && (i <? N - (q + 1) / 2)) eqn:E; [|apply HB; auto].
  destruct (q mod 2 =? 1) eqn:Eq; unfold pos; rewrite !HB by lia; ring.
Qed.
Lemma moves_rot n N h t A B : 2 <= n <= N -> n - 1 <= h -> band n N h A -> rotated t N h A B -> moves n N h (tz (sin t) (cos t)) A B.
Proof.
  intros Hn Hh HB X. assert (HB' := rotated_band t n N h A B ltac:(lia) X HB). split; [apply X|]. split; auto. intros u phi u' phi' HX.
  rewrite (well_defined n N h B u phi u' (phi' + t)); auto; [|apply X|].
  - unfold fn. rewrite (rotated_series t N h A B) by (auto; lia). f_equal. ring.
  - rewrite HX. unfold tz, xyz. rewrite cos_plus, sin_plus. apply triple_eq; ring.
Qed.
Lemma legendre_refl m t i : fst (legendre2 m (PI - t) i) = ((-1) ^ i * fst (legendre2 m t i))%R /\ snd (legendre2 m (PI - t) i) = (- (-1) ^ i * snd (legendre2 m t i))%R.
Proof.
  assert (C : cos (PI - t) = (- cos t)%R) by (rewrite cos_minus, cos_PI, sin_PI; ring). assert (Sn : sin (PI - t) = sin t) by (rewrite sin_minus, cos_PI, sin_PI; ring).
  induction i as [|i (I1 & I2)]; cbn [legendre2].
  - cbn [fst snd pow]. rewrite Sn. split; ring.
  - destruct (legendre2 m (PI - t) i) as [p q]. destruct (legendre2 m t i) as [p' q']. cbn [fst snd] in *. rewrite I1, I2, C. cbn [pow]. split; [|ring]. pose proof (pos_INR i). field. lra.
Qed.
Lemma sphP_refl m i t : 0 <= i -> sphP m i (PI - t) = ((if i mod 2 =? 1 then -1 else 1) * sphP m i t)%R.
Proof.
  intros Hi. unfold sphP. rewrite (proj1 (legendre_refl _ _ _)).
  assert (E : ((-1) ^ Z.to_nat i = (if (i mod 2 =? 1)%Z then -1 else 1))%R).
  { pattern i. apply natlike_ind; [reflexivity| |exact Hi]. intros k Hk IH. replace (Z.to_nat (Z.succ k)) with (S (Z.to_nat k)) by lia. cbn [pow]. rewrite IH.
    destruct (k mod 2 =? 1) eqn:E1; destruct (Z.succ k mod 2 =? 1) eqn:E2; try lia; ring. }
  rewrite E. ring.
Qed.
Lemma reflected_band n N h (A B : list R) : reflected N h A B -> band n N h A -> band n N h B.
Proof.
  intros [LB V] HB i q Hi Hq D. change (i + N * q) with (pos N i q). cbn [zero R_arith] in V. rewrite V by auto. unfold refv. assert (X := HB i q Hi Hq D). fold (pos N i q) in X. cbn [zero opp R_arith]. rewrite X. destruct (_ && _); ring.
Qed.
Lemma moves_ref n N h A B : 2 <= n <= N -> n - 1 <= h -> band n N h A -> reflected N h A B -> moves n N h tm A B.
Proof.
  intros Hn Hh HB X. assert (HB' := reflected_band n N h A B X HB). split; [apply X|]. split; auto. intros u phi u' phi' HX.
  rewrite (well_defined n N h B u phi (PI - u') phi'); auto; [|apply X|].
  - unfold fn. rewrite (reflected_series N h A B sphP (PI - u') u') by (auto; try lia; intros; rewrite sphP_refl by lia; destruct (i mod 2 =? 1); ring). reflexivity.
  - rewrite HX. unfold tm, xyz. rewrite cos_minus, sin_minus, cos_PI, sin_PI. apply triple_eq; ring.
Qed.
Lemma moves_exchange huge J n N h A A' : 2 <= n <= N -> n - 1 <= h -> band n N h A -> exchanged huge J n N h A A' -> moves n N h tj A A'.
Proof.
  intros Hn Hh HB X. split; [apply X|]. split; [apply (exchange_moves huge J n N h A A' 0 0 0 0); auto|]. intros t phi t' phi' HX. apply (exchange_moves huge J n N h A A' t phi t' phi'); auto.
  apply exch_pt_sym. unfold exch_pt. destruct (xyz t' phi') as [[x y] z]. rewrite HX. reflexivity.
Qed.
Lemma moves_refl n N h A : zlen A = N * (2 * h + 1) -> 2 <= n <= N -> n - 1 <= h -> band n N h A -> moves n N h (fun v => v) A A.
Proof. intros LA Hn Hh HB. split; auto. split; auto. intros. now apply (well_defined n). Qed.

(** ** isometries *)
Definition tq (Q : zyzr R) (v : R * R * R) : R * R * R := tz (zs0 Q) (zc0 Q) (tj (tz (- zs1 Q) (zc1 Q) (tj (tz (zs2 Q) (zc2 Q) (if zsign Q <? 0 then tm v else v))))).
Lemma tq_act Q v : tq Q v = act3 (apply_ZYZR Q id3) v.
Proof. destruct v as [[x y] z]. unfold tq, apply_ZYZR, act3, id3. cbn [q0 q1 q2 q3 q4 q5 q6 q7 q8]. destruct (zsign Q <? 0); unfold tm, tz, tj; cbn; apply triple_eq; ring. Qed.
Lemma isometry_moves huge n N h (Q : zyzr R) A : 2 <= n <= N -> n - 1 <= h -> zlen A = N * (2 * h + 1) -> band n N h A -> unit_zyzr Q ->
  exists J A', plan_isometry n = Some J /\ sph_isometry huge n J Q N (2 * h + 1) A = Some A' /\ moves n N h (act3 (apply_ZYZR Q id3)) A A'.
Proof.
  intros Hn Hh LA HB (U0 & U1 & U2). unfold sph_isometry. assert (U1' : (- zs1 Q * - zs1 Q + zc1 Q * zc1 Q = 1)%R) by (rewrite <- U1; ring).
  assert (G : exists A0, (if zsign Q <? 0 then polar_reflection N (2 * h + 1) A else Some A) = Some A0 /\ moves n N h (fun v => if zsign Q <? 0 then tm v else v) A A0).
  { destruct (zsign Q <? 0); [|eexists; split; [reflexivity|now apply moves_refl]]. destruct (polar_reflection_spec N h A ltac:(lia) ltac:(lia) LA) as (A0 & E & X). exists A0. split; auto. now apply moves_ref. }
  destruct G as (A0 & E0 & M0).
  assert (RT : forall s c B, (s * s + c * c = 1)%R -> zlen B = N * (2 * h + 1) -> band n N h B -> exists B', polar_rotation N (2 * h + 1) s c B = Some B' /\ moves n N h (tz s c) B B').
  { intros s c B SC LB BB. destruct (angle s c SC) as (t & -> & ->). destruct (polar_rotation_spec N h t B ltac:(lia) ltac:(lia) LB) as (B' & E & X). exists B'. split; auto. now apply moves_rot. }
  destruct (RT (zs2 Q) (zc2 Q) A0 U2 (proj1 M0) (proj1 (proj2 M0))) as (A1 & E1 & M1).
  destruct (yz_exchange_spec huge n N h A1 Hn Hh (proj1 M1)) as (J & A2 & EJ & E2 & X2). assert (M2 := moves_exchange huge J n N h A1 A2 Hn Hh (proj1 (proj2 M1)) X2).
  destruct (RT (- zs1 Q)%R (zc1 Q) A2 U1' (proj1 M2) (proj1 (proj2 M2))) as (A3 & E3 & M3).
  destruct (yz_exchange_spec huge n N h A3 Hn Hh (proj1 M3)) as (J' & A4 & EJ' & E4 & X4). rewrite EJ in EJ'. injection EJ' as <-. assert (M4 := moves_exchange huge J n N h A3 A4 Hn Hh (proj1 (proj2 M3)) X4).
  destruct (RT (zs0 Q) (zc0 Q) A4 U0 (proj1 M4) (proj1 (proj2 M4))) as (A5 & E5 & M5).
  exists J, A5. split; auto. rewrite E0. cbn [obind]. rewrite E1. cbn [obind]. rewrite E2. cbn [obind]. cbn [opp R_arith]. rewrite E3. cbn [obind]. rewrite E4. cbn [obind]. split; auto.
  assert (K0 : keeps (fun v => if zsign Q <? 0 then tm v else v)) by (destruct (zsign Q <? 0); [exact keeps_tm|now intros v]).
  assert (K2 := keeps_tz _ _ U2). assert (K1 := keeps_tz _ _ U1').
  assert (C1 := moves_comp _ _ _ _ _ _ _ _ K0 M0 M1). 
  assert (KC1 : keeps (fun v => tz (zs2 Q) (zc2 Q) (if zsign Q <? 0 then tm v else v))) by (intros v Hv; apply K2, K0, Hv).
  assert (C2 := moves_comp _ _ _ _ _ _ _ _ KC1 C1 M2).
  assert (KC2 : keeps (fun v => tj (tz (zs2 Q) (zc2 Q) (if zsign Q <? 0 then tm v else v)))) by (intros v Hv; apply keeps_tj, KC1, Hv).
  assert (C3 := moves_comp _ _ _ _ _ _ _ _ KC2 C2 M3).
  assert (KC3 : keeps (fun v => tz (- zs1 Q) (zc1 Q) (tj (tz (zs2 Q) (zc2 Q) (if zsign Q <? 0 then tm v else v))))) by (intros v Hv; apply K1, KC2, Hv).
  assert (C4 := moves_comp _ _ _ _ _ _ _ _ KC3 C3 M4).
  assert (KC4 : keeps (fun v => tj (tz (- zs1 Q) (zc1 Q) (tj (tz (zs2 Q) (zc2 Q) (if zsign Q <? 0 then tm v else v)))))) by (intros v Hv; apply keeps_tj, KC3, Hv).
  assert (C5 := moves_comp _ _ _ _ _ _ _ _ KC4 C4 M5).
  destruct C5 as (L5 & B5 & V5). split; auto. split; auto. intros t phi t' phi' HX. apply V5. rewrite HX, <- tq_act. reflexivity.
Qed.
