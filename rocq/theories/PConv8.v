(** * Conversion: statements proved in Properties_Convert.v *)
From Coq Require Import ZArith List Lia Bool Reals Lra ZifyBool ZifyNat Factorial.
From Verif Require Import Base BaseFacts Arith SpecSum PSum SpecLin MRotations SpecRot PRotPlans PRotThms MDrivers MHarmonic SpecHarm PHarm4 PHarmEx SpecIso
  SpecClassical SpecConn PClass8 PPenU PPenC SpecTransforms SpecGeo MFftw SpecFftw MRefBlas PRefBlas PRefFftw PFftwThms PPermute SpecConvert PConv3 PConv4 MDense PDense PDense2 PConv6 PConv7.
Import ListNotations.
Open Scope Z_scope.
Lemma T_C63_driver junk N M RP A : 0 <= N -> plan_rotsphere junk N = Some RP -> M mod 2 = 1 -> spherical N M A ->
  exists A', execute_sph_default (kernel_sph_hi2lo givens RP) N M A = Some A' /\ zlen A' = N * M /\
    forall q, 0 <= q < M -> zero_from (N - ((q + 1) / 2) mod 2) N A' (N * q) 1 /\
      forall t, column_series polar N (((q + 1) / 2) mod 2) A' (N * q) 1 t = column_series polar N ((q + 1) / 2) A (N * q) 1 t.
Proof.
  intros HN HP HM [LA HZ]. destruct (driver_conv junk N M RP HN HP HM A LA HZ) as (A' & E & L & K). exists A'. split; [exact E|]. split; [exact L|]. exact K.
Qed.
Lemma T_C64_plan tgamma jk N : gamma_function tgamma -> 0 < N ->
  exists RP P0 P1 Q0 Q1, plan_sph2fourier_tables 0%R (fun x => x) tgamma jk N = Some (RP, (P0, P1), (Q0, Q1)).
Proof. intros HG HN. destruct (sphere_plan tgamma jk N 1 HG HN) as (RP & P0 & P1 & Q0 & Q1 & E & _). eauto 8. Qed.
Lemma sph_one N M : 0 < N -> 0 < M -> spherical N M (1%R :: zmake (N * M - 1) 0%R).
Proof.
  intros HN HM. split; [rewrite zlen_cons, zlen_zmake; nia|]. intros q Hq i Hi Hi0.
  assert (X : 0 < N * q + i * 1) by nia. unfold nthZ. rewrite zget_cons by lia. rewrite zget_zmake by nia. reflexivity.
Qed.
Lemma series_one N M t p : 0 < N -> 0 < M -> M mod 2 = 1 -> harmonic_series sphP N (M / 2) (1%R :: zmake (N * M - 1) 0%R) t p = sqrt (/ (4 * PI)).
Proof.
  intros HN HM Ho. assert (PP := PI_RGT_0). set (A := 1%R :: zmake (N * M - 1) 0%R).
  assert (Z0 : forall k, 0 < k < N * M -> nthZ 0%R A k = 0%R) by (intros k Hk; unfold nthZ, A; rewrite zget_cons by lia; rewrite zget_zmake by nia; reflexivity).
  unfold harmonic_series. rewrite (sumZ_first N) by auto. rewrite (sumZ_zero (N - 1)) by (intros; rewrite Z0 by nia; ring).
  rewrite (sumZ_zero (M / 2)).
  2:{ intros k Hk. cbv zeta. apply sumZ_zero. intros i Hi. rewrite !Z0; [ring| |]; split; try nia; apply Z.lt_le_trans with (N * (2 * (k + 1) + 1)); try nia; apply Z.mul_le_mono_nonneg_l; try lia. }
  change (nthZ 0%R A 0) with 1%R. unfold sphP. change (Z.to_nat 0) with 0%nat. change (Z.to_nat (2 * 0 + 0)) with 0%nat. cbn [Z.eqb fact]. change (INR 1) with 1%R. change (0 + 0)%Z with 0%Z.
  cbn [legendre2 fst oddfact pow INR]. rewrite !Rmult_1_r, !Rplus_0_r.
  replace (sqrt ((0 + 1 / 2) * (1 / 1)))%R with (sqrt (1/2)) by (f_equal; field). rewrite ?Rmult_1_r. rewrite <- sqrt_mult by (try lra; apply Rlt_le, Rdiv_lt_0_compat; lra). f_equal. field. lra.
Qed.
Lemma T_C64_example N M : 0 < N -> 0 < M -> M mod 2 = 1 -> exists RP P0 P1 Q0 Q1 A' V,
  plan_sph2fourier_tables 0%R (fun x => x) ex_gamma 0%R N = Some (RP, (P0, P1), (Q0, Q1)) /\
  sph2fourier ref_blas (execute_sph_default (kernel_sph_hi2lo givens RP) N M) (execute_sph_default (kernel_sph_lo2hi givens_t RP) N M) P0 P1 false N M
    (1%R :: zmake (N * M - 1) 0%R) = Some A' /\
  sph_synthesis ref_fftw real_const false (plan_sph_synthesis N M) (zmake (2 * (N * (M / 2 + 1))) 0%R) N M A' = Some V /\
  forall k j, 0 <= k < N -> 0 <= j < M -> nthZ 0%R V (k + j * N) = sqrt (/ (4 * PI)).
Proof.
  intros HN HM Ho. destruct (T_C64_plan ex_gamma 0%R N ex_gamma_ok HN) as (RP & P0 & P1 & Q0 & Q1 & E). exists RP, P0, P1, Q0, Q1.
  destruct (sphere_values ref_blas ex_gamma 0%R N M ref_blas_ok ex_gamma_ok HN ltac:(lia) Ho ref_fftw (zmake (2 * (N * (M / 2 + 1))) 0%R) ref_ok ltac:(apply zlen_zmake; assert (0 <= M / 2) by (apply Z.div_pos; lia); nia)
    RP P0 P1 Q0 Q1 E (1%R :: zmake (N * M - 1) 0%R) (sph_one N M HN HM)) as (A' & V & E1 & _ & E2 & _ & VV & _).
  exists A', V. split; [exact E|]. split; [exact E1|]. split; [exact E2|]. intros k j Hk Hj. rewrite VV by auto. now apply series_one.
Qed.
Lemma T_C63_example : exists RP, plan_rotsphere 0%R 3 = Some RP /\ columns_fit [0; 0; 0; 0; 0; 0; 0; 0; 0; 7; 0; 0; 5; 0; 0]%R 9 1 3 1 /\
  zero_from (3 - 2) 3 [0; 0; 0; 0; 0; 0; 0; 0; 0; 7; 0; 0; 5; 0; 0]%R 9 1 /\ spherical 3 5 [0; 0; 0; 0; 0; 0; 0; 0; 0; 7; 0; 0; 5; 0; 0]%R.
Proof.
  destruct (rotsphere_ok 3 0%R ltac:(lia)) as (RP & E & _). exists RP. split; [exact E|]. split; [|split].
  - intros r i Hr Hi. change (zlen _) with 15. lia.
  - intros i Hi _. assert (i = 1 \/ i = 2) as [-> | ->] by lia; reflexivity.
  - split; [reflexivity|]. intros q Hq i Hi Hi0. assert (q = 0 \/ q = 1 \/ q = 2 \/ q = 3 \/ q = 4) as [-> | [-> | [-> | [-> | ->]]]] by lia;
      cbn in Hi; (assert (i = 0 \/ i = 1 \/ i = 2) as [-> | [-> | ->]] by lia); try reflexivity; exfalso; lia.
Qed.
