(** * Theorem forms: the exchange is an involution, isometries preserve the norm of every degree, rotations are undone *)
From Coq Require Import ZArith List Lia Bool Reals Lra Ratan ZifyBool ZifyNat.
From Verif Require Import Base BaseFacts Arith SpecSum PSum MRecur MIso SpecIso PIso PIso2 PIso3 PIso4 PIso5 PTrig PIsoThms PIso8.
Import ListNotations.
Open Scope Z_scope.

Lemma same_refl N M l (A : list R) : same_degree N M l A A. Proof. now intros i q _ _ _. Qed.
Lemma same_sym N M l (A B : list R) : same_degree N M l A B -> same_degree N M l B A.
Proof. intros X i q Hi Hq D. symmetry. auto. Qed.
Lemma same_trans N M l (A B C : list R) : same_degree N M l A B -> same_degree N M l B C -> same_degree N M l A C.
Proof. intros X Y i q Hi Hq D. rewrite (X i q), (Y i q); auto. Qed.
Lemma dnorm_same N M l A B : 0 <= l < N -> 2 * l < M -> same_degree N M l A B -> dnorm N l A = dnorm N l B.
Proof. intros Hl HM X. unfold dnorm. apply sumZ_ext. intros q Hq. change 0%R with (zero : R). rewrite (X (l - (q + 1) / 2) q) by lia. reflexivity. Qed.
Lemma dnorm_0 N A : dnorm N 0 A = (nthZ 0 A 0 * nthZ 0 A 0)%R.
Proof. unfold dnorm. change (2 * 0 + 1) with (0 + 1). rewrite sumZ_S by lia. change (sumZ 0 _) with 0%R. replace (0 - (0 + 1) / 2 + N * 0) with 0 by lia. ring. Qed.
Lemma dnorm_1 N A : dnorm N 1 A = (nthZ 0 A 1 * nthZ 0 A 1 + nthZ 0 A N * nthZ 0 A N + nthZ 0 A (N * 2) * nthZ 0 A (N * 2))%R.
Proof.
  assert (G : forall f, sumZ 3 f = (f 0%Z + f 1%Z + f 2%Z)%R).
  { intros f. change 3 with (2 + 1). rewrite sumZ_S by lia. replace (sumZ 2 f) with (sumZ (1 + 1) f) by reflexivity. rewrite sumZ_S by lia. replace (sumZ 1 f) with (sumZ (0 + 1) f) by reflexivity. rewrite sumZ_S by lia. change (sumZ 0 f) with 0%R. ring. }
  unfold dnorm. change (2 * 1 + 1) with 3. rewrite G.
  replace (1 - (0 + 1) / 2 + N * 0) with 1 by lia. replace (1 - (1 + 1) / 2 + N * 1) with N by lia. replace (1 - (2 + 1) / 2 + N * 2) with (N * 2) by lia. ring.
Qed.
(** the exchange, with the plan made once *)
Lemma exchange_twice huge n N h A : 2 <= n <= N -> n - 1 <= h -> zlen A = N * (2 * h + 1) ->
  exists J A1 A2, plan_isometry n = Some J /\ yz_exchange huge n J N (2 * h + 1) A = Some A1 /\ yz_exchange huge n J N (2 * h + 1) A1 = Some A2 /\
    zlen A1 = N * (2 * h + 1) /\ zlen A2 = N * (2 * h + 1) /\
    (forall l, 0 <= l < N -> same_degree N (2 * h + 1) l A A2) /\
    (forall l, 0 <= l < N -> 2 * l < 2 * h + 1 -> dnorm N l A1 = dnorm N l A) /\
    (forall i q, 0 <= i < N -> 0 <= q < 2 * h + 1 -> N <= i + (q + 1) / 2 -> nthZ 0%R A2 (i + N * q) = nthZ 0%R A (i + N * q) \/ nthZ 0%R A2 (i + N * q) = 0%R).
Proof.
  intros Hn Hh LA. destruct (yz_exchange_spec huge n N h A Hn Hh LA) as (J & A1 & EJ & E1 & X1). assert (L1 : zlen A1 = N * (2 * h + 1)) by apply X1.
  destruct (yz_exchange_spec huge n N h A1 Hn Hh L1) as (J' & A2 & EJ' & E2 & X2). rewrite EJ in EJ'. injection EJ' as <-.
  exists J, A1, A2. split; auto. split; auto. split; auto. split; auto.
  destruct X1 as (_ & (D1 & D2 & D3) & V & W & Zr). destruct X2 as (L2 & (D1' & D2' & D3') & V' & W' & Zr'). split; auto.
  assert (LIN : forall l, 2 <= l < n -> exists s1 s2 s4, (s1 = 1 \/ s1 = -1) /\ (s2 = 1 \/ s2 = -1) /\ (s4 = 1 \/ s4 = -1) /\ deg_lin s1 s2 s4 N l A A1 /\ deg_lin s1 s2 s4 N l A1 A2).
  { intros l Hl. destruct (V l Hl) as (P & EP & EPP & D). destruct (V' l Hl) as (P' & EP' & _ & D'). rewrite EP in EP'. injection EP' as <-.
    destruct (plan_partial_val l ltac:(lia)) as (P' & EP' & PL). rewrite EPP in EP'. injection EP' as <-.
    destruct (planned_lin l P ltac:(lia) PL) as (s1 & s2 & s4 & H1 & H2 & H4 & K). exists s1, s2, s4. repeat split; auto; eapply K; eauto. }
  split; [|split].
  - intros l Hl. destruct (Z.eq_dec l 0) as [->|N0]; [|destruct (Z.eq_dec l 1) as [->|N1]; [|destruct (Z_lt_dec l n)]].
    + eapply same_trans; [apply W|apply W']; lia.
    + cbn [opp zero R_arith] in *. intros i q Hi Hq D. assert (q = 0 /\ i = 1 \/ q = 1 /\ i = 0 \/ q = 2 /\ i = 0) as [[-> ->]|[[-> ->]|[-> ->]]] by lia.
      * replace (1 + N * 0) with 1 by lia. change (zero : R) with 0%R. rewrite D1', D2. ring.
      * replace (0 + N * 1) with N by lia. change (zero : R) with 0%R. rewrite D2', D1. ring.
      * replace (0 + N * 2) with (N * 2) by lia. change (zero : R) with 0%R. rewrite D3', D3. ring.
    + destruct (LIN l ltac:(lia)) as (s1 & s2 & s4 & H1 & H2 & H4 & K1 & K2). apply (deg_twice s1 s2 s4 N (2 * h + 1) l A A1 A2); auto. lia.
    + eapply same_trans; [apply W|apply W']; lia.
  - intros l Hl HM. destruct (Z.eq_dec l 0) as [->|N0]; [|destruct (Z.eq_dec l 1) as [->|N1]; [|destruct (Z_lt_dec l n)]].
    + symmetry. apply (dnorm_same N (2 * h + 1)); try lia. apply W. lia.
    + cbn [opp zero R_arith] in *. rewrite !dnorm_1, D1, D2, D3. ring.
    + destruct (LIN l ltac:(lia)) as (s1 & s2 & s4 & H1 & H2 & H4 & K1 & K2). apply (deg_norm s1 s2 s4 N l A A1); auto. lia.
    + symmetry. apply (dnorm_same N (2 * h + 1)); try lia. apply W. lia.
  - intros i q Hi Hq D. destruct (Zr' (i + (q + 1) / 2) D i q Hi Hq eq_refl) as [X|X]; [|right; exact X]. destruct (Zr (i + (q + 1) / 2) D i q Hi Hq eq_refl) as [Y|Y]; cbn [zero R_arith] in *; rewrite X; auto.
Qed.
Lemma T_exchange_involution huge n N M (A : list R) : 2 <= n <= N -> 2 * n - 1 <= M -> Z.odd M = true -> zlen A = N * M ->
  exists J A1 A2, plan_isometry n = Some J /\ yz_exchange huge n J N M A = Some A1 /\ yz_exchange huge n J N M A1 = Some A2 /\ zlen A2 = N * M /\
    (forall l, 0 <= l < N -> same_degree N M l A A2) /\
    ((forall i q, 0 <= i < N -> 0 <= q < M -> N <= i + (q + 1) / 2 -> nthZ 0%R A (i + N * q) = 0%R) -> A2 = A).
Proof.
  intros Hn HM HO LA. destruct (oddM M ltac:(lia) HO) as (h & Hh & ->). destruct (exchange_twice huge n N h A Hn ltac:(lia) LA) as (J & A1 & A2 & EJ & E1 & E2 & L1 & L2 & SD & _ & OUT).
  exists J, A1, A2. repeat (split; auto). intros ZR. apply (arr_ext 0%R N (2 * h + 1)); auto; [lia|]. intros i q Hi Hq. unfold pos.
  destruct (Z_lt_dec (i + (q + 1) / 2) N).
  - symmetry. apply (SD (i + (q + 1) / 2)); lia.
  - rewrite ZR by lia. destruct (OUT i q Hi Hq ltac:(lia)) as [X|X]; auto. rewrite X. apply ZR; lia.
Qed.
Lemma T_exchange_norm huge n N M (A : list R) : 2 <= n <= N -> 2 * n - 1 <= M -> Z.odd M = true -> zlen A = N * M ->
  exists J A', plan_isometry n = Some J /\ yz_exchange huge n J N M A = Some A' /\ zlen A' = N * M /\
    forall l, 0 <= l < N -> 2 * l < M -> degree_norm N l A' = degree_norm N l A.
Proof.
  intros Hn HM HO LA. destruct (oddM M ltac:(lia) HO) as (h & Hh & ->). destruct (exchange_twice huge n N h A Hn ltac:(lia) LA) as (J & A1 & A2 & EJ & E1 & _ & L1 & _ & _ & NM & _).
  exists J, A1. repeat (split; auto).
Qed.
(** rotations and reflections about the axis *)
Lemma rotated_dnorm t N h l A B : 0 <= l < N -> l <= h -> rotated t N h A B -> dnorm N l B = dnorm N l A.
Proof.
  intros Hl Hh [LB V]. unfold dnorm. rewrite !sum_pairs by lia. f_equal.
  - change (l - (0 + 1) / 2 + N * 0) with (pos N (l - (0 + 1) / 2) 0). rewrite (V (l - (0 + 1) / 2) 0) by lia. rewrite rotv_rest by lia. reflexivity.
  - apply sumZ_ext. intros k Hk. replace ((2 * k + 1 + 1) / 2) with (k + 1) by lia. replace ((2 * k + 2 + 1) / 2) with (k + 1) by lia.
    change (l - (k + 1) + N * (2 * k + 1)) with (pos N (l - (k + 1)) (2 * k + 1)). change (l - (k + 1) + N * (2 * k + 2)) with (pos N (l - (k + 1)) (2 * k + 2)).
    rewrite (V _ (2 * k + 1)), (V _ (2 * k + 2)) by lia.
    replace (2 * k + 1) with (2 * (k + 1) - 1) by lia. replace (2 * k + 2) with (2 * (k + 1)) by lia. rewrite rotv_odd, rotv_even by lia.
    set (x := nthZ 0%R A (pos N (l - (k + 1)) (2 * (k + 1) - 1))). set (y := nthZ 0%R A (pos N (l - (k + 1)) (2 * (k + 1)))). clearbody x y.
    set (u := (IZR (k + 1) * t)%R). pose proof (sin2_cos2 u) as SC. unfold Rsqr in SC. 
    transitivity ((sin u * sin u + cos u * cos u) * (x * x + y * y))%R; [ring|rewrite SC; ring].
Qed.
Lemma reflected_dnorm N h l (A B : list R) : 0 <= l < N -> l <= h -> reflected N h A B -> dnorm N l B = dnorm N l A.
Proof.
  intros Hl Hh [LB V]. unfold dnorm. apply sumZ_ext. intros q Hq. change (l - (q + 1) / 2 + N * q) with (pos N (l - (q + 1) / 2) q). cbn [zero R_arith] in V.
  rewrite (V (l - (q + 1) / 2) q) by lia. unfold refv. cbn [opp zero R_arith]. destruct (_ && _); cbn [opp zero R_arith]; ring.
Qed.
Lemma angle s c : (s * s + c * c = 1)%R -> exists t, s = sin t /\ c = cos t.
Proof.
  intros H. assert (B : (-1 <= c <= 1)%R) by nra. destruct (Rle_dec 0 s).
  - exists (acos c). rewrite cos_acos by lra. split; auto. rewrite sin_acos by lra. symmetry. replace (1 - c²)%R with (s * s)%R by (unfold Rsqr; lra). apply sqrt_square. lra.
  - exists (- acos c)%R. rewrite sin_neg, cos_neg, cos_acos by lra. split; auto. rewrite sin_acos by lra. replace (1 - c²)%R with ((- s) * (- s))%R by (unfold Rsqr; lra). rewrite sqrt_square by lra. ring.
Qed.
Lemma rot_norm N h s c A : 0 <= N -> 0 <= h -> zlen A = N * (2 * h + 1) -> (s * s + c * c = 1)%R ->
  exists A', polar_rotation N (2 * h + 1) s c A = Some A' /\ zlen A' = N * (2 * h + 1) /\ forall l, 0 <= l < N -> l <= h -> dnorm N l A' = dnorm N l A.
Proof.
  intros HN Hh LA SC. destruct (angle s c SC) as (t & -> & ->). destruct (polar_rotation_spec N h t A HN Hh LA) as (A' & E & X). exists A'. split; auto. split; [apply X|]. intros. eapply rotated_dnorm; eauto.
Qed.
Definition unit_zyzr (Q : zyzr R) : Prop := (zs0 Q * zs0 Q + zc0 Q * zc0 Q = 1 /\ zs1 Q * zs1 Q + zc1 Q * zc1 Q = 1 /\ zs2 Q * zs2 Q + zc2 Q * zc2 Q = 1)%R.
Lemma isometry_norm huge n N h (Q : zyzr R) A : 2 <= n <= N -> n - 1 <= h -> zlen A = N * (2 * h + 1) -> unit_zyzr Q ->
  exists J A', plan_isometry n = Some J /\ sph_isometry huge n J Q N (2 * h + 1) A = Some A' /\ zlen A' = N * (2 * h + 1) /\
    forall l, 0 <= l < N -> l <= h -> dnorm N l A' = dnorm N l A.
Proof.
  intros Hn Hh LA (U0 & U1 & U2). unfold sph_isometry.
  assert (G : exists A0, (if zsign Q <? 0 then polar_reflection N (2 * h + 1) A else Some A) = Some A0 /\ zlen A0 = N * (2 * h + 1) /\ forall l, 0 <= l < N -> l <= h -> dnorm N l A0 = dnorm N l A).
  { destruct (zsign Q <? 0); [|eauto]. destruct (polar_reflection_spec N h A ltac:(lia) ltac:(lia) LA) as (A0 & E & X). exists A0. split; auto. split; [apply X|]. intros. eapply reflected_dnorm; eauto. }
  destruct G as (A0 & E0 & L0 & N0).
  destruct (rot_norm N h (zs2 Q) (zc2 Q) A0 ltac:(lia) ltac:(lia) L0 U2) as (A1 & E1 & L1 & N1).
  destruct (exchange_twice huge n N h A1 Hn Hh L1) as (J & A2 & _ & EJ & E2 & _ & L2 & _ & _ & N2 & _).
  destruct (rot_norm N h (- zs1 Q)%R (zc1 Q) A2 ltac:(lia) ltac:(lia) L2) as (A3 & E3 & L3 & N3). { rewrite <- U1. ring. }
  destruct (exchange_twice huge n N h A3 Hn Hh L3) as (J' & A4 & _ & EJ' & E4 & _ & L4 & _ & _ & N4 & _). rewrite EJ in EJ'. injection EJ' as <-.
  destruct (rot_norm N h (zs0 Q) (zc0 Q) A4 ltac:(lia) ltac:(lia) L4 U0) as (A5 & E5 & L5 & N5).
  exists J, A5. split; auto. rewrite E0. cbn [obind]. rewrite E1. cbn [obind]. rewrite E2. cbn [obind]. cbn [opp R_arith]. rewrite E3. cbn [obind]. rewrite E4. cbn [obind].
  split; auto. split; auto. intros l Hl Hlh. rewrite N5, N4, N3, N2, N1, N0 by lia. reflexivity.
Qed.
Lemma T_isometry_norm huge n N M (Q : zyzr R) A : 2 <= n <= N -> 2 * n - 1 <= M -> Z.odd M = true -> zlen A = N * M ->
  (zs0 Q * zs0 Q + zc0 Q * zc0 Q = 1)%R -> (zs1 Q * zs1 Q + zc1 Q * zc1 Q = 1)%R -> (zs2 Q * zs2 Q + zc2 Q * zc2 Q = 1)%R ->
  exists J A', plan_isometry n = Some J /\ sph_isometry huge n J Q N M A = Some A' /\ zlen A' = N * M /\
    forall l, 0 <= l < N -> 2 * l < M -> degree_norm N l A' = degree_norm N l A.
Proof.
  intros Hn HM HO LA U0 U1 U2. destruct (oddM M ltac:(lia) HO) as (h & Hh & ->). destruct (isometry_norm huge n N h Q A Hn ltac:(lia) LA) as (J & A' & EJ & E & L & NM); [now split|].
  exists J, A'. repeat (split; auto). intros l Hl H2. apply NM; lia.
Qed.
Lemma T_orthogonal_norm huge tiny n N M (Q : o3 R) A : 2 <= n <= N -> 2 * n - 1 <= M -> Z.odd M = true -> zlen A = N * M ->
  (0 <= tiny < 1)%R -> orthogonal3 Q -> (q6 Q = 0 /\ q7 Q = 0 \/ tiny < hyp (q6 Q) (q7 Q))%R ->
  exists J A', plan_isometry n = Some J /\ sph_orthogonal_transformation huge hyp tiny n J Q N M A = Some A' /\ zlen A' = N * M /\
    forall l, 0 <= l < N -> 2 * l < M -> degree_norm N l A' = degree_norm N l A.
Proof.
  intros Hn HM HO LA Ht HQ D. destruct (create_shape tiny Q Ht (orth_cols Q HQ) D) as (c0 & s0 & c1 & s1 & a & b & c & d & r & E & N0 & N1 & _ & _ & _ & _ & Ncd & _).
  unfold sph_orthogonal_transformation. rewrite E. apply T_isometry_norm; auto; cbn [zs0 zs1 zs2 zc0 zc1 zc2]; [rewrite <- N0|rewrite <- N1|rewrite <- Ncd]; ring.
Qed.
Lemma T_rotation_norm huge n N M alpha beta gamma A : 2 <= n <= N -> 2 * n - 1 <= M -> Z.odd M = true -> zlen A = N * M ->
  exists J A', plan_isometry n = Some J /\ sph_rotation huge sin cos n J alpha beta gamma N M A = Some A' /\ zlen A' = N * M /\
    forall l, 0 <= l < N -> 2 * l < M -> degree_norm N l A' = degree_norm N l A.
Proof. intros Hn HM HO LA. unfold sph_rotation. apply T_isometry_norm; auto; cbn [zs0 zs1 zs2 zc0 zc1 zc2]; apply sin2_cos2. Qed.

Lemma T_rotation_undone huge n N M alpha beta gamma A : 2 <= n <= N -> 2 * n - 1 <= M -> Z.odd M = true -> zlen A = N * M ->
  exists J A1 A2, plan_isometry n = Some J /\ sph_rotation huge sin cos n J alpha beta gamma N M A = Some A1 /\
    sph_rotation huge sin cos n J (- gamma)%R (- beta)%R (- alpha)%R N M A1 = Some A2 /\ zlen A2 = N * M /\
    forall l, 0 <= l < N -> same_degree N M l A A2.
Proof.
  intros Hn HM HO LA. assert (HO' := HO). destruct (oddM M ltac:(lia) HO) as (h & Hh & ->). assert (Hh' : n - 1 <= h) by lia. unfold sph_rotation, sph_isometry. cbn [zs0 zs1 zs2 zc0 zc1 zc2 zsign]. change (1 <? 0) with false. cbv beta iota. cbn [obind opp R_arith].
  rewrite <- !sin_neg, !Ropp_involutive, !cos_neg.
  destruct (polar_rotation_spec N h gamma A ltac:(lia) Hh LA) as (B1 & E1 & X1). assert (L1 := proj1 X1).
  destruct (exchange_twice huge n N h B1 Hn Hh' L1) as (J & B2 & C2 & EJ & E2 & E2' & L2 & LC2 & S2 & _).
  destruct (polar_rotation_spec N h (- beta) B2 ltac:(lia) Hh L2) as (B3 & E3 & X3). assert (L3 := proj1 X3). rewrite cos_neg in E3.
  destruct (exchange_twice huge n N h B3 Hn Hh' L3) as (J' & B4 & C4 & EJ' & E4 & E4' & L4 & LC4 & S4 & _). rewrite EJ in EJ'. injection EJ' as <-.
  destruct (polar_rotation_spec N h alpha B4 ltac:(lia) Hh L4) as (B5 & E5 & X5). assert (L5 := proj1 X5).
  destruct (polar_rotation_spec N h (- alpha) B5 ltac:(lia) Hh L5) as (D4 & F4 & Y4). rewrite cos_neg in F4.
  assert (D4 = B4). { apply (rotated_0 N h B4 D4 ltac:(lia) L4). replace 0%R with (alpha + - alpha)%R by ring. exact (rotated_comp alpha (- alpha) N h B4 B5 D4 ltac:(lia) Hh X5 Y4). } subst D4.
  destruct (polar_rotation_spec N h beta C4 ltac:(lia) Hh LC4) as (G2 & K2 & Y2). assert (LG2 := proj1 Y2).
  destruct (exchange_twice huge n N h G2 Hn Hh' LG2) as (J' & G1 & _ & EJ' & K1 & _ & LG1 & _). rewrite EJ in EJ'. injection EJ' as <-.
  destruct (polar_rotation_spec N h (- gamma) G1 ltac:(lia) Hh LG1) as (G0 & K0 & Y0). assert (LG0 := proj1 Y0). rewrite cos_neg in K0.
  exists J, B5, G0. split; auto. split. { rewrite E1. cbn [obind]. rewrite E2. cbn [obind]. rewrite E3. cbn [obind]. rewrite E4. cbn [obind]. exact E5. }
  split. { rewrite F4. cbn [obind]. rewrite E4'. cbn [obind]. rewrite K2. cbn [obind]. rewrite K1. cbn [obind]. exact K0. }
  split; auto. intros l Hl.
  assert (RB : polar_rotation N (2 * h + 1) (sin beta) (cos beta) B3 = Some B2).
  { destruct (polar_rotation_spec N h beta B3 ltac:(lia) Hh L3) as (Z2 & Q2 & W2). rewrite Q2. f_equal. apply (rotated_0 N h B2 Z2 ltac:(lia) L2). replace 0%R with (- beta + beta)%R by ring. exact (rotated_comp (- beta) beta N h B2 B3 Z2 ltac:(lia) Hh X3 W2). }
  assert (RG : polar_rotation N (2 * h + 1) (sin (- gamma)) (cos gamma) B1 = Some A).
  { destruct (polar_rotation_spec N h (- gamma) B1 ltac:(lia) Hh L1) as (Z2 & Q2 & W2). rewrite cos_neg in Q2. rewrite Q2. f_equal. apply (rotated_0 N h A Z2 ltac:(lia) LA). replace 0%R with (gamma + - gamma)%R by ring. exact (rotated_comp gamma (- gamma) N h A B1 Z2 ltac:(lia) Hh X1 W2). }
  destruct (rotation_degree N h l (sin beta) (cos beta) B3 C4 ltac:(lia) Hh L3 LC4 (S4 l Hl)) as (u & v & Eu & Ev & _ & _ & S5). rewrite RB in Eu. injection Eu as <-. rewrite K2 in Ev. injection Ev as <-.
  destruct (exchange_degree_same huge n N h l B2 G2 Hn Hh' ltac:(lia) L2 LG2 S5) as (J' & u & v & EJ' & Eu & Ev & _ & _ & S6). rewrite EJ in EJ'. injection EJ' as <-. rewrite E2' in Eu. injection Eu as <-. rewrite K1 in Ev. injection Ev as <-.
  assert (S7 : same_degree N (2 * h + 1) l B1 G1) by (eapply same_trans; [apply S2; lia|exact S6]).
  destruct (rotation_degree N h l (sin (- gamma)) (cos gamma) B1 G1 ltac:(lia) Hh L1 LG1 S7) as (u & v & Eu & Ev & _ & _ & S8). rewrite RG in Eu. injection Eu as <-. rewrite K0 in Ev. injection Ev as <-. exact S8.
Qed.
