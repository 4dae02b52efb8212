(** * From spherical harmonics to bivariate Fourier series and to values on the grid *)
From Coq Require Import ZArith List Lia Bool Reals Lra ZifyBool ZifyNat Factorial.
From Verif Require Import Base BaseFacts Arith SpecSum PSum SpecLin MRotations SpecRot PRotPlans PRotThms MDrivers MHarmonic SpecHarm PHarm4 SpecIso
  SpecClassical SpecConn PClass8 PPoly PPenU PPenC PDiag PTransforms2 SpecTransforms SpecGeo MFftw SpecFftw PFftwThms SpecConvert PConv3 PConv4 MDense PDense PDense2 PConv5.
Import ListNotations.
Open Scope Z_scope.
Local Notation ord q := ((q + 1) / 2).

Lemma sumZ_pairs' h f : 0 <= h -> sumZ (2 * h) f = sumZ h (fun k => (f (2 * k)%Z + f (2 * k + 1)%Z)%R).
Proof.
  intros Hh. pattern h. apply natlike_ind; auto.
  intros k Hk IH. replace (2 * Z.succ k) with (2 * k + 1 + 1) by lia. unfold Z.succ. rewrite !sumZ_S by lia. rewrite IH. ring.
Qed.
Lemma series_sum N M A t p : 0 <= N -> 0 <= M -> M mod 2 = 1 -> spherical N M A ->
  sumZ M (fun z => (column_series polar N (ord z) A (N * z) 1 t * azimuth z p)%R) = harmonic_series sphP N (M / 2) A t p.
Proof.
  intros HN HM Ho [LA HZ]. set (h := M / 2). assert (Hh : M = 2 * h + 1) by (unfold h; lia). assert (PP := PI_RGT_0).
  rewrite (sumZ_first M) by lia. unfold harmonic_series. f_equal.
  - change ((0 + 1) / 2) with 0. unfold column_series. rewrite <- sumZ_scal_r. apply sumZ_ext. intros i Hi. rewrite Z.mul_0_r, Z.add_0_l, Z.mul_1_r.
    unfold azimuth. cbn [Z.eqb]. unfold sphP, polar. cbn [Z.eqb]. replace (1 / (2 * PI))%R with (/ (2 * PI))%R by (field; lra). rewrite sqrt_inv. ring.
  - replace (M - 1) with (2 * h) by lia. rewrite sumZ_pairs' by lia. apply sumZ_ext. intros k Hk. cbv zeta. set (m := k + 1).
    replace (1 + 2 * k) with (2 * m - 1) by lia. replace (1 + (2 * k + 1)) with (2 * m) by lia.
    replace ((2 * m - 1 + 1) / 2) with m by (replace (2 * m - 1 + 1) with (m * 2) by lia; now rewrite Z.div_mul). replace ((2 * m + 1) / 2) with m by lia.
    assert (CS : forall q, 0 <= q < M -> ord q = m -> (column_series polar N m A (N * q) 1 t * / sqrt PI)%R = sumZ (N - m) (fun i => (sphP m i t * nthZ 0 A (i + N * q)%Z)%R)).
    { intros q Hq Eq. unfold column_series. rewrite <- sumZ_scal_r.
      assert (SP : forall i, sphP m i t = (polar m i t * / sqrt PI)%R).
      { intros i. unfold sphP, polar. replace (m =? 0) with false by lia. replace (2 / (2 * PI))%R with (/ PI)%R by (field; lra). rewrite sqrt_inv. reflexivity. }
      destruct (Z_le_gt_dec (N - m) 0).
      - rewrite (sumZ_0 (N - m)) by auto. apply sumZ_zero. intros i Hi. rewrite (HZ q Hq i) by lia. ring.
      - rewrite (sumZ_split N (N - m)) by lia. rewrite (sumZ_zero (N - (N - m))), Rplus_0_r.
        2:{ intros i Hi. rewrite (HZ q Hq) by lia. ring. }
        apply sumZ_ext. intros i Hi. rewrite SP. replace (N * q + i * 1) with (i + N * q) by lia. ring. }
    unfold azimuth. replace (2 * m - 1 =? 0) with false by lia. replace (2 * m =? 0) with false by lia.
    replace (Z.odd (2 * m - 1)) with true by (symmetry; replace (2 * m - 1) with (2 * k + 1) by lia; rewrite Z.odd_add, Z.odd_mul; reflexivity).
    replace (Z.odd (2 * m)) with false by (symmetry; rewrite Z.odd_mul; reflexivity).
    replace ((2 * m - 1 + 1) / 2) with m by lia. replace (2 * m / 2) with m by lia.
    replace (column_series polar N m A (N * (2 * m - 1)) 1 t * (sin (IZR m * p) / sqrt PI))%R with ((column_series polar N m A (N * (2 * m - 1)) 1 t * / sqrt PI) * sin (IZR m * p))%R by (unfold Rdiv; ring).
    replace (column_series polar N m A (N * (2 * m)) 1 t * (cos (IZR m * p) / sqrt PI))%R with ((column_series polar N m A (N * (2 * m)) 1 t * / sqrt PI) * cos (IZR m * p))%R by (unfold Rdiv; ring).
    rewrite !CS by lia. rewrite <- !sumZ_scal_r, <- sumZ_plus. apply sumZ_ext. intros i Hi. ring.
Qed.

Section Sphere.
Variables (BL : blas R) (tgamma : R -> R) (jk : R) (N M : Z).
Hypotheses (OK : blas_ok BL) (HG : gamma_function tgamma) (HN : 0 < N) (HM : 0 <= M) (Ho : M mod 2 = 1).
Let idR := fun x : R => x.
Lemma special_of : special tgamma (fun _ => 1%R).
Proof. destruct HG as [g1 g2 g3]. split; auto; intros; lra. Qed.
Lemma mass3 : (tgamma (1/2) * tgamma (3/2 + 1/2) / tgamma (3/2 + 1) = 4/3)%R.
Proof.
  destruct HG as [g1 g2 g3]. replace (3/2 + 1/2)%R with (1 + 1)%R by field. rewrite g3, g2 by lra. rewrite g3 by lra. replace (3/2)%R with (1/2 + 1)%R by field. rewrite g3 by lra. assert (0 < tgamma (1/2))%R by (apply g1; lra). field. lra.
Qed.
Lemma half_pos' : (0 < tgamma (1/2))%R. Proof. apply (gam_pos _ HG). lra. Qed.
Definition h1 : Z -> R := std_ult_norms 1 (tgamma (1/2) * tgamma (1 + 1/2) / tgamma (1 + 1)).
Definition h3 : Z -> R := std_ult_norms (3/2) (tgamma (1/2) * tgamma (3/2 + 1/2) / tgamma (3/2 + 1)).
Definition hc : Z -> R := std_cheb_norms (tgamma (1/2) * tgamma (1/2)).
Definition hl : Z -> R := std_jacobi_norms 0 0 2.
Definition leg := std_jacobi 0 0.
Lemma mass_pos' x : (0 < x)%R -> (0 < tgamma (1/2) * tgamma (x + 1/2) / tgamma (x + 1))%R.
Proof. intros. apply Rdiv_lt_0_compat; [apply Rmult_lt_0_compat|]; apply (gam_pos _ HG); lra. Qed.
Lemma fams : is_jacobi 0 0 leg /\ jacobi_norms 0 0 hl /\ hl 0 = 2%R /\ is_chebyshev std_cheb /\ chebyshev_norms hc /\ hc 0 = (tgamma (1/2) * tgamma (1/2))%R /\
  ultraspherical_norms (3/2) h3 /\ ultraspherical_norms 1 h1.
Proof.
  pose proof half_pos'. split; [apply std_jacobi_ok; lra|]. split; [apply std_jacobi_norms_ok; lra|]. split; [reflexivity|]. split; [apply std_cheb_ok|]. split; [apply std_cheb_norms_ok; nra|]. split; [reflexivity|].
  split; apply std_ult_norms_ok; try lra; apply mass_pos'; lra.
Qed.
Lemma sphere_plan : exists RP P0 P1 Q0 Q1, plan_sph2fourier_tables 0%R idR tgamma jk N = Some (RP, (P0, P1), (Q0, Q1)) /\ plan_rotsphere jk N = Some RP /\
  rp_n RP = N /\ tri_tables RP /\ unit_tri RP /\
  table N P0 (fam true leg hl) (fam false std_cheb hc) /\ table N P1 (fam true (std_ult (3/2)) h3) (fam false (std_ult 1) h1) /\
  inverse_tables N P0 Q0 /\ inverse_tables N P1 Q1.
Proof.
  destruct fams as (F1 & F2 & F3 & F4 & F5 & F6 & F7 & F8). assert (HN0 : 0 <= N) by lia.
  destruct (rotsphere_ok N jk HN0) as (RP & E & _). destruct (planned_sph N jk RP HN0 E) as (R1 & R2 & R3).
  destruct (leg2cheb_dense tgamma _ special_of N HN0 true false leg std_cheb hl hc) as (P0 & E0 & T0); auto.
  destruct (ult_dense tgamma _ special_of N HN0 true false (3/2) 1 (std_ult (3/2)) (std_ult 1) h3 h1) as (P1 & E1 & T1); auto using std_ult_ok; try lra.
  destruct (cheb2leg_dense tgamma _ special_of N HN0 true false leg std_cheb hl hc) as (Q0 & E2 & T2); auto.
  destruct (ult_dense tgamma _ special_of N HN0 false true 1 (3/2) (std_ult 1) (std_ult (3/2)) h1 h3) as (Q1 & E3 & T3); auto using std_ult_ok; try lra.
  exists RP, P0, P1, Q0, Q1. unfold plan_sph2fourier_tables, idR. cbn [div ofZ R_arith]. rewrite E. cbn [obind]. rewrite E0. cbn [obind]. rewrite E1. cbn [obind]. rewrite E2. cbn [obind]. rewrite E3. cbn [obind].
  split; [reflexivity|]. split; [reflexivity|]. split; [auto|]. split; [auto|]. split; [auto|]. split; [auto|]. split; [auto|].
  split.
  - apply (tables_inverse N P0 Q0 _ _ HN0 T0 T2).
    + apply (jac_one true true N 0 0 0 0); auto; lra.
    + apply (one_conn N false false _ _ std_cheb std_cheb hc hc (cheb_graded _ N F4) (cheb_graded _ N F4)); apply chn_pos; auto.
  - apply (tables_inverse N P1 Q1 _ _ HN0 T1 T3).
    + apply (ult_one true true N (3/2) (3/2)); auto using std_ult_ok; lra.
    + apply (ult_one false false N 1 1); auto using std_ult_ok; lra.
Qed.

Lemma even_ord z : 0 <= z -> even_order z = (ord z mod 2 =? 0).
Proof. intros Hz. unfold even_order. lia. Qed.

Lemma sphere_fourier RP P0 P1 Q0 Q1 lo A : plan_sph2fourier_tables 0%R idR tgamma jk N = Some (RP, (P0, P1), (Q0, Q1)) -> spherical N M A -> exists A',
  sph2fourier BL (execute_sph_default (kernel_sph_hi2lo givens RP) N M) lo P0 P1 false N M A = Some A' /\ zlen A' = N * M /\
  forall t p, fourier_series N M A' t p = harmonic_series sphP N (M / 2) A t p.
Proof.
  intros E0 SA. destruct fams as (F1 & F2 & F3 & F4 & F5 & F6 & F7 & F8).
  destruct sphere_plan as (RP' & P0' & P1' & Q0' & Q1' & E & ER & Rn & Rt & Ru & T0 & T1 & _). rewrite E0 in E. injection E as <- <- <- <- <-.
  destruct (driver_conv jk N M RP ltac:(lia) ER Ho A (proj1 SA) (proj2 SA)) as (A1 & E1 & L1 & K).
  destruct (H35_sph BL OK _ lo P0 P1 N M A A1 HN HM (proj1 T0) (proj1 T1) E1 L1) as (A' & E' & (_ & L' & V)).
  exists A'. split; [exact E'|]. split; [lia|]. intros t p. rewrite <- series_sum by (auto; lia).
  unfold fourier_series. apply sumZ_ext. intros z Hz.
  rewrite (sumZ_ext N _ (fun l => (nthZ 0 A' (l + z * N)%Z * sph_polar N z l t) * azimuth z p)%R) by (intros; ring). rewrite sumZ_scal_r. f_equal.
  destruct (K z Hz) as [KZ KS]. rewrite <- KS.
  assert (VV : forall i, 0 <= i < N -> nthZ 0%R A' (i + z * N) = sumZ N (fun k => utri N (if (z mod 4 =? 0) || (z mod 4 =? 3) then P0 else P1) i k * nthZ 0%R A1 (N * z + k * 1))%R).
  { intros i Hi. specialize (V 0 i z ltac:(lia) Hi Hz). unfold entry in V. replace (i + z * N) with (0 + 1 * (i + N * z)) by lia. rewrite V. apply sumZ_ext. intros k Hk. do 2 f_equal. lia. }
  assert (EO := even_ord z ltac:(lia)). unfold sph_polar. unfold even_order in *. destruct ((z mod 4 =? 0) || (z mod 4 =? 3)).
  - replace (ord z mod 2) with 0 by lia. unfold column_series.
    rewrite (sumZ_ext N _ (fun l => nthZ 0 A' (l + z * N)%Z * fam false std_cheb hc l (cos t))%R).
    2:{ intros l Hl. f_equal. unfold fam, cosine. symmetry. apply cheb_cos; [auto|lia]. }
    rewrite (table_sum N P0 _ _ (fun k => nthZ 0%R A1 (N * z + k * 1)) _ (cos t) T0 VV).
    apply sumZ_ext. intros i Hi. f_equal. symmetry. apply polar_0; auto; lia.
  - assert (O1 : ord z mod 2 = 1) by (pose proof (Z.mod_pos_bound (ord z) 2 ltac:(lia)); lia). rewrite O1 in *. unfold column_series.
    assert (LZ : nthZ 0%R A' (N - 1 + z * N) = 0%R).
    { rewrite VV by lia. apply sumZ_zero. intros k Hk. destruct (Z.eq_dec k (N - 1)) as [->|NE]; [rewrite KZ by lia; ring|]. unfold utri. replace (N - 1 <=? k) with false by lia. ring. }
    rewrite (sumZ_ext N _ (fun l => sin t * (nthZ 0 A' (l + z * N)%Z * fam false (std_ult 1) h1 l (cos t)))%R).
    2:{ intros l Hl. unfold sine. destruct (Z.eqb_spec l (N - 1)) as [->|]; [rewrite LZ; ring|]. rewrite <- (ult1_sin (std_ult 1) (std_ult_ok 1)) by lia. unfold fam. ring. }
    rewrite sumZ_scal. rewrite (table_sum N P1 _ _ (fun k => nthZ 0%R A1 (N * z + k * 1)) _ (cos t) T1 VV). rewrite <- sumZ_scal.
    apply sumZ_ext. intros i Hi. rewrite (polar_1 (std_ult (3/2)) h3); auto using std_ult_ok; [ring|apply mass3|lia].
Qed.

Variables (FT : fftw R) (Y : list R).
Hypotheses (OF : fftw_ok FT) (LY : zlen Y = 2 * (N * (M / 2 + 1))).
Lemma sphere_values RP P0 P1 Q0 Q1 : plan_sph2fourier_tables 0%R idR tgamma jk N = Some (RP, (P0, P1), (Q0, Q1)) ->
  let hi := execute_sph_default (kernel_sph_hi2lo givens RP) N M in let lo := execute_sph_default (kernel_sph_lo2hi givens_t RP) N M in
  forall A, spherical N M A -> exists A' V,
    sph2fourier BL hi lo P0 P1 false N M A = Some A' /\ (forall t p, fourier_series N M A' t p = harmonic_series sphP N (M / 2) A t p) /\
    sph_synthesis FT real_const false (plan_sph_synthesis N M) Y N M A' = Some V /\ zlen V = N * M /\
    (forall k j, 0 <= k < N -> 0 <= j < M -> nthZ 0%R V (k + j * N) = harmonic_series sphP N (M / 2) A (theta N k) (phi M j)) /\
    sph_analysis FT real_const false (plan_sph_analysis N M) Y N M V = Some A' /\
    fourier2sph BL hi lo Q0 Q1 false N M A' = Some A.
Proof.
  intros E hi lo A SA. destruct (sphere_fourier RP P0 P1 Q0 Q1 lo A E SA) as (A' & E' & L' & FS).
  destruct sphere_plan as (RP' & P0' & P1' & Q0' & Q1' & E2 & ER & Rn & Rt & Ru & T0 & T1 & I0 & I1). rewrite E in E2. injection E2 as <- <- <- <- <-.
  assert (HMp : 0 < M) by (destruct (Z.eq_dec M 0) as [e0|]; [rewrite e0 in Ho; discriminate|lia]). assert (OM : Z.odd M = true) by (rewrite Zodd_mod, Ho; reflexivity).
  destruct (T_C39_sphere FT OF N M Y HN HMp OM LY A' L') as (V & EV & LV & VV).
  destruct (T_C38_sphere FT OF N M Y HN HMp OM LY A' L') as ((V' & EV' & LV' & EA) & _). rewrite EV in EV'. injection EV' as <-.
  exists A', V. split; [exact E'|]. split; [exact FS|]. split; [exact EV|]. split; [exact LV|]. split.
  - intros k j Hk Hj. rewrite <- FS. rewrite (VV k j Hk Hj). unfold fourier_series. apply sumZ_ext. intros z Hz. apply sumZ_ext. intros l Hl. ring.
  - split; [exact EA|].
    pose proof (H36_sph BL OK RP M P0 P1 Q0 Q1 false) as X. cbv zeta in X. rewrite Rn in X. specialize (X HN HM Ho Rt Ru I0 I1 A (proj1 SA)).
    destruct X as ((X & EX & _ & EB) & _). fold hi lo in EX, EB. fold hi in E'. rewrite E' in EX. injection EX as <-. exact EB.
Qed.
End Sphere.
