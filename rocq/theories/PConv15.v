(** * The disk, continued: the plan, the series and the values *)
From Coq Require Import ZArith List Lia Bool Reals Lra ZifyBool ZifyNat.
From Verif Require Import Base BaseFacts Arith SpecSum PSum SpecLin MRotations SpecRot PRotPlans PRotThms MDrivers MHarmonic SpecHarm PHarm4
  SpecClassical SpecConn PClass8 PPoly PPenU PPenC PDiag PTransforms2 SpecTransforms MFftw SpecFftw PFftwThms SpecConvert SpecConvert2 PConv3 PConv4 MTransforms MDense MDense2 PDense PDense2 PConv5 PConv6 PConv11 PConv12 PConv13 PConv14.
Import ListNotations.
Open Scope Z_scope.
Local Notation ord q := ((q + 1) / 2).

Section Disk.
Variables (BL : blas R) (tg : R -> R) (d1 d2 junk : list R) (jk : R) (N M : Z) (al be : R).
Hypotheses (OK : blas_ok BL) (HG : gamma_function tg) (Hpi : (tg (1/2) * tg (1/2) = PI)%R) (HN : 0 < N) (HM : 0 <= M) (Ho : M mod 2 = 1)
  (Ha : (-1 < al)%R) (Hb : (-1 < be)%R) (L1 : N <= zlen d1) (L2 : N <= zlen d2) (L3 : N <= zlen junk).
Let idR := fun x : R => x.
Variables (P : Z -> Z -> R -> R) (h : Z -> Z -> R).
Hypotheses (HF : disk_family tg (Rpower 2) al be P h).
Let T := std_cheb.
Let hC := hT tg.
Let J := std_jacobi (- (1 / 2)) (1 / 2).
Let hJ := std_jacobi_norms (- (1 / 2)) (1 / 2) PI.
Let c0 := Rpower 2 ((al + be + 2) / 2).
Let c1 := (c0 * sqrt (2 / PI))%R.
Let i0 := Rpower 2 (- ((al + be + 2) / 2)).
Let i1 := (i0 * sqrt (PI / 2))%R.
Lemma G0 : jacobi_family tg (Rpower 2) be al (P 0) (h 0).
Proof. pose proof (HF 0 ltac:(lia)) as X. replace (0 + al)%R with al in X by ring. exact X. Qed.
Lemma G1 : jacobi_family tg (Rpower 2) be (al + 1) (P 1) (h 1).
Proof. pose proof (HF 1 ltac:(lia)) as X. replace (1 + al)%R with (al + 1)%R in X by ring. exact X. Qed.
Lemma J_ok : is_jacobi (- (1 / 2)) (1 / 2) J /\ jacobi_norms (- (1 / 2)) (1 / 2) hJ /\ hJ 0 = PI.
Proof. pose proof PI_RGT_0. split; [apply std_jacobi_ok; lra|]. split; [apply std_jacobi_norms_ok; lra|reflexivity]. Qed.
Lemma J_mass : PI = jacobi_mass tg (Rpower 2) (- (1 / 2)) (1 / 2).
Proof.
  destruct HG as [g1 g2 g3]. unfold jacobi_mass. replace (- (1 / 2) + 1 / 2 + 1)%R with 1%R by field. replace (- (1 / 2) + 1)%R with (1 / 2)%R by field. rewrite (g3 (1 / 2)%R) by lra.
  replace (- (1 / 2) + 1 / 2 + 2)%R with (1 + 1)%R by field. rewrite (g3 1%R), g2 by lra. rewrite Rpower_1 by lra. rewrite <- Hpi. field.
Qed.
Lemma consts : (c0 * i0 = 1 /\ c1 * i1 = 1 /\ 0 < c0 /\ 0 < c1)%R.
Proof.
  pose proof PI_RGT_0 as PP. assert (C : (0 < c0)%R) by (unfold c0, Rpower; apply exp_pos). assert (S : (0 < sqrt (2 / PI))%R) by (apply sqrt_lt_R0, Rdiv_lt_0_compat; lra).
  assert (E : (c0 * i0 = 1)%R) by (unfold c0, i0; rewrite Rpower_Ropp; fold c0; field; lra). split; auto. split.
  - unfold c1, i1. replace (c0 * sqrt (2 / PI) * (i0 * sqrt (PI / 2)))%R with (c0 * i0 * (sqrt (2 / PI) * sqrt (PI / 2)))%R by ring. rewrite E, <- sqrt_mult by (apply Rlt_le, Rdiv_lt_0_compat; lra).
    replace (2 / PI * (PI / 2))%R with 1%R by (field; lra). rewrite sqrt_1. ring.
  - split; auto. unfold c1. now apply Rmult_lt_0_compat.
Qed.

Lemma disk_plan : exists RP P0 P1 Q0 Q1, plan_disk2cxf_tables 0%R idR tg (Rpower 2) PI d1 d2 junk jk N al be = Some (RP, (P0, P1), (Q0, Q1)) /\
  plan_rotdisk jk N al be = Some RP /\ rp_n RP = N /\ sq_tables RP /\ unit_sq RP /\
  table N P0 (fam true (P 0) (h 0)) (fun i x => T i x / c0)%R /\ table N P1 (fam true (P 1) (h 1)) (fun i x => fam true J hJ i x / c1)%R /\
  inverse_tables N P0 Q0 /\ inverse_tables N P1 Q1.
Proof.
  destruct (hT_ok tg Hpi) as [T1 T2]. fold hC in T1, T2. destruct G0 as (A1 & A2 & A3). destruct G1 as (B1 & B2 & B3). destruct J_ok as (J1 & J2 & J3). assert (HN0 : 0 <= N) by lia. pose proof (special_pow tg HG) as SP.
  assert (JM : hJ 0 = jacobi_mass tg (Rpower 2) (- (1 / 2)) (1 / 2)) by (rewrite J3; apply J_mass).
  destruct consts as (CC0 & CC1 & C0 & C1).
  destruct (rotdisk_ok N jk al be HN0 Ha Hb) as (RP & E & _). destruct (planned_disk N jk al be RP HN0 Ha Hb E) as (R1 & R2 & R3).
  assert (Hpi' : PI = (tg (1/2) * tg (1/2))%R) by auto. assert (Hc : (-1 < al + 1)%R) by lra. pose proof std_cheb_ok as HT. assert (m1 : (-1 < - (1 / 2))%R) by lra. assert (m2 : (-1 < 1 / 2)%R) by lra.
  destruct (jac2che_dense tg (Rpower 2) SP PI d1 d2 junk N HN0 L1 L2 L3 Hpi' true false be al (P 0) T (h 0) hC Hb Ha A1 HT A2 T1 A3 T2) as (P0 & E0 & T0').
  destruct (jac_dense tg (Rpower 2) SP d1 d2 N HN0 L1 L2 true true be (al + 1) (- (1 / 2)) (1 / 2) (P 1) J (h 1) hJ Hb Hc m1 m2 B1 J1 B2 J2 B3 JM) as (P1 & E1 & T1').
  destruct (che2jac_dense tg (Rpower 2) SP PI d1 d2 junk N HN0 L1 L2 L3 Hpi' false true be al T (P 0) hC (h 0) Hb Ha HT A1 T1 A2 T2 A3) as (Q0 & E2 & T2').
  destruct (jac_dense tg (Rpower 2) SP d1 d2 N HN0 L1 L2 true true (- (1 / 2)) (1 / 2) be (al + 1) J (P 1) hJ (h 1) m1 m2 Hb Hc J1 B1 J2 B2 JM B3) as (Q1 & E3 & T3').
  destruct (disk_scaling_ok N c0 c1 i0 i1 P0 P1 Q0 Q1 HN0 (proj1 T0') (proj1 T1') (proj1 T2') (proj1 T3')) as (P0' & P1' & Q0' & Q1' & ES & S0 & S1 & S2 & S3).
  exists RP, P0', P1', Q0', Q1'. unfold plan_disk2cxf_tables, idR in *. rewrite E. cbn [obind]. rewrite E0. cbn [obind].
  unfold half. cbn [add mul div opp ofZ sqrtA R_arith]. rewrite E1. cbn [obind]. rewrite E2. cbn [obind]. rewrite E3. cbn [obind].
  replace (1 / 2 * (al + be + 2))%R with ((al + be + 2) / 2)%R by field. replace (- (1 / 2) * (al + be + 2))%R with (- ((al + be + 2) / 2))%R by field.
  fold c0 i0. fold c1 i1. rewrite ES. cbn [obind fst snd]. repeat (split; [solve [auto]|]).
  split. { apply (table_rows N P0 P0' _ (fam false T hC) _ (fun _ => c0) HN0 T0' S0). intros i x Hi. unfold fam. field. lra. }
  split. { apply (table_rows N P1 P1' _ (fam true J hJ) _ (fun _ => c1) HN0 T1' S1). intros i x Hi. field. lra. }
  split.
  - apply (inverse_scaled N c0 i0 P0 P0' Q0 Q0' CC0 S0 S2). apply (tables_inverse N P0 Q0 _ _ HN0 T0' T2').
    + apply (jac_one true true N be al be al); auto; lra.
    + apply (one_conn N false false _ _ T T hC hC (cheb_graded _ N HT) (cheb_graded _ N HT)); apply chn_pos; auto.
  - apply (inverse_scaled N c1 i1 P1 P1' Q1 Q1' CC1 S1 S3). apply (tables_inverse N P1 Q1 _ _ HN0 T1' T3').
    + apply (jac_one true true N be (al + 1) be (al + 1)); auto; lra.
    + apply (jac_one true true N (- (1 / 2)) (1 / 2) (- (1 / 2)) (1 / 2)); auto; lra.
Qed.

Lemma disk_series RP P0 P1 Q0 Q1 lo A : plan_disk2cxf_tables 0%R idR tg (Rpower 2) PI d1 d2 junk jk N al be = Some (RP, (P0, P1), (Q0, Q1)) -> disk_array N M A -> exists A',
  sph2fourier BL (execute_sph_default (kernel_disk_hi2lo givens RP) N M) lo P0 P1 false N M A = Some A' /\ zlen A' = N * M /\
  forall t p, disk_fourier_series N M A' t p = zernike_series al be P h N M A (cos (t / 2)) p.
Proof.
  intros E0 [LA HZ]. destruct disk_plan as (RP' & P0' & P1' & Q0' & Q1' & E & ER & Rn & Rt & Ru & T0 & T1 & _). rewrite E0 in E. injection E as <- <- <- <- <-.
  destruct (disk_driver tg (Rpower 2) al be P h HG pow2_ok Ha Hb HF jk N M RP HN ER Ho A LA HZ) as (A1 & E1 & LA1 & K).
  destruct (H35_sph BL OK _ lo P0 P1 N M A A1 HN HM (proj1 T0) (proj1 T1) E1 LA1) as (A' & E' & (_ & L' & V)).
  exists A'. split; [exact E'|]. split; [lia|]. intros t p. destruct consts as (_ & _ & C0 & C1). destruct J_ok as (J1 & J2 & J3). pose proof PI_RGT_0 as PP.
  unfold disk_fourier_series, zernike_series. apply sumZ_ext. intros z Hz.
  rewrite (sumZ_ext N _ (fun l => (nthZ 0 A' (l + z * N)%Z * disk_radial N z l t) * azimuth z p)%R) by (intros; ring). rewrite sumZ_scal_r.
  rewrite (sumZ_ext N (fun i => nthZ 0 A (i + z * N)%Z * (Rpower 2 ((al + be + 2) / 2) * disk_factor P h (ord z) i (cos (t / 2)) * azimuth z p))%R
    (fun i => c0 * (nthZ 0 A (N * z + i * 1)%Z * disk_factor P h (ord z) i (cos (t / 2))) * azimuth z p)%R).
  2:{ intros i Hi. replace (N * z + i * 1) with (i + z * N) by lia. unfold c0. ring. }
  rewrite sumZ_scal_r, sumZ_scal. f_equal. destruct (K z Hz) as [_ KS]. specialize (KS (cos (t / 2))). unfold column_series in KS at 2. rewrite <- KS. clear KS. unfold column_series.
  assert (VV : forall i, 0 <= i < N -> nthZ 0%R A' (i + z * N) = sumZ N (fun k => utri N (if (z mod 4 =? 0) || (z mod 4 =? 3) then P0 else P1) i k * nthZ 0%R A1 (N * z + k * 1))%R).
  { intros i Hi. specialize (V 0 i z ltac:(lia) Hi Hz). unfold entry in V. replace (i + z * N) with (0 + 1 * (i + N * z)) by lia. rewrite V. apply sumZ_ext. intros k Hk. do 2 f_equal. lia. }
  assert (CT : (2 * (cos (t / 2) * cos (t / 2)) - 1 = cos t)%R). { replace t with (2 * (t / 2))%R at 3 by field. rewrite cos_2a_cos. ring. }
  assert (EO : even_order z = (ord z mod 2 =? 0)) by (unfold even_order; lia). unfold disk_radial. unfold even_order in *. destruct ((z mod 4 =? 0) || (z mod 4 =? 3)).
  - replace (ord z mod 2) with 0 by lia.
    rewrite (sumZ_ext N _ (fun l => c0 * (nthZ 0 A' (l + z * N)%Z * (T l (cos t) / c0)))%R).
    2:{ intros l Hl. unfold cosine, T. rewrite (cheb_cos std_cheb std_cheb_ok) by lia. field. lra. }
    rewrite sumZ_scal. f_equal.
    rewrite (table_sum N P0 _ _ (fun k => nthZ 0%R A1 (N * z + k * 1)) (fun l => nthZ 0%R A' (l + z * N)) (cos t) T0 VV).
    apply sumZ_ext. intros i Hi. unfold disk_factor. rewrite CT. change (Z.to_nat 0) with 0%nat. cbn [pow]. ring.
  - assert (O1 : ord z mod 2 = 1) by (pose proof (Z.mod_pos_bound (ord z) 2 ltac:(lia)); lia). rewrite O1.
    assert (S2P : (sqrt (2 / PI) = sqrt 2 / sqrt PI)%R) by (rewrite sqrt_div by lra; reflexivity). assert (0 < sqrt PI)%R by now apply sqrt_lt_R0. assert (0 < sqrt 2)%R by (apply sqrt_lt_R0; lra).
    rewrite (sumZ_ext N _ (fun l => (c0 * (sqrt 2 * cos (t / 2))) * (nthZ 0 A' (l + z * N)%Z * (fam true J hJ l (cos t) / c1)))%R).
    2:{ intros l Hl. pose proof (half_fam J hJ J1 J2 J3 l t ltac:(lia)) as HFM. unfold half_cosine. 
        replace (c0 * (sqrt 2 * cos (t / 2)) * (nthZ 0 A' (l + z * N)%Z * (fam true J hJ l (cos t) / c1)))%R with (c0 * sqrt 2 / c1 * nthZ 0 A' (l + z * N)%Z * (cos (t / 2) * fam true J hJ l (cos t)))%R by (field; lra).
        rewrite HFM. unfold c1. rewrite S2P. field. lra. }
    rewrite sumZ_scal. rewrite (table_sum N P1 _ _ (fun k => nthZ 0%R A1 (N * z + k * 1)) (fun l => nthZ 0%R A' (l + z * N)) (cos t) T1 VV).
    rewrite Rmult_assoc. f_equal. rewrite <- sumZ_scal. apply sumZ_ext. intros i Hi. unfold disk_factor. rewrite CT. change (Z.to_nat 1) with 1%nat. cbn [pow]. ring.
Qed.

Variables (FT : fftw R) (Y : list R).
Hypotheses (OF : fftw_ok FT) (LY : zlen Y = 2 * (N * (M / 2 + 1))).
Lemma disk_values RP P0 P1 Q0 Q1 : plan_disk2cxf_tables 0%R idR tg (Rpower 2) PI d1 d2 junk jk N al be = Some (RP, (P0, P1), (Q0, Q1)) ->
  let hi := execute_sph_default (kernel_disk_hi2lo givens RP) N M in let lo := execute_sph_default (kernel_disk_lo2hi givens_t RP) N M in
  forall A, disk_array N M A -> exists A' V,
    sph2fourier BL hi lo P0 P1 false N M A = Some A' /\ (forall t p, disk_fourier_series N M A' t p = zernike_series al be P h N M A (cos (t / 2)) p) /\
    disk_synthesis FT real_const false (plan_disk_synthesis N M) Y N M A' = Some V /\ zlen V = N * M /\
    (forall k j, 0 <= k < N -> 0 <= j < M -> nthZ 0%R V (k + j * N) = zernike_series al be P h N M A (cos (theta N k / 2)) (phi M j)) /\
    disk_analysis FT real_const false (plan_disk_analysis N M) Y N M V = Some A' /\
    fourier2sph BL hi lo Q0 Q1 false N M A' = Some A.
Proof.
  intros E hi lo A SA. destruct (disk_series RP P0 P1 Q0 Q1 lo A E SA) as (A' & E' & L' & FS).
  destruct disk_plan as (RP' & P0' & P1' & Q0' & Q1' & E2 & ER & Rn & Rt & Ru & T0 & T1 & I0 & I1). rewrite E in E2. injection E2 as <- <- <- <- <-.
  assert (HMp : 0 < M) by (destruct (Z.eq_dec M 0) as [e0|]; [rewrite e0 in Ho; discriminate|lia]). assert (OM : Z.odd M = true) by (rewrite Zodd_mod, Ho; reflexivity).
  destruct (T_C39_disk FT OF N M Y HN HMp OM LY A' L') as (V & EV & LV & VV).
  destruct (T_C38_disk FT OF N M Y HN HMp OM LY A' L') as ((V' & EV' & LV' & EA) & _). rewrite EV in EV'. injection EV' as <-.
  exists A', V. split; [exact E'|]. split; [exact FS|]. split; [exact EV|]. split; [exact LV|]. split.
  - intros k j Hk Hj. rewrite <- FS. rewrite (VV k j Hk Hj). unfold disk_fourier_series. apply sumZ_ext. intros z Hz. apply sumZ_ext. intros l Hl. ring.
  - split; [exact EA|].
    pose proof (H36_disk BL OK RP M P0 P1 Q0 Q1 false) as X. cbv zeta in X. rewrite Rn in X. specialize (X HN HM Ho Rt Ru I0 I1 A (proj1 SA)).
    destruct X as ((X & EX & _ & EB) & _). fold hi lo in EX, EB. fold hi in E'. rewrite E' in EX. injection EX as <-. exact EB.
Qed.
End Disk.
