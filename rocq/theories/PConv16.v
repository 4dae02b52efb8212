(** * Triangle and disk: statements and examples for Properties_Convert2.v *)
From Coq Require Import ZArith List Lia Bool Reals Lra ZifyBool ZifyNat.
From Verif Require Import Base BaseFacts Arith SpecSum PSum SpecLin MRotations SpecRot MDrivers MHarmonic SpecHarm PHarm4 PPermute MRefBlas PRefBlas PRefFftw
  SpecClassical SpecConn PClass8 PPoly PPenU PPenC PDiag PTransforms2 SpecTransforms MFftw SpecFftw PFftwThms SpecConvert SpecConvert2 MTransforms MDense MDense2 PConv7 PConv11 PConv12 PConv13 PConv15.
Import ListNotations.
Open Scope Z_scope.

(** ** a function with the properties used of the gamma function *)
Definition ex_gamma2 (x : R) : R := (ex_gamma x * (1 + (sqrt PI - 1) * (sin (PI * x) * sin (PI * x))))%R.
Lemma ex_gamma_half : ex_gamma (1 / 2) = 1%R.
Proof. unfold ex_gamma, steps. replace (up (- (1 / 2))) with 0; [reflexivity|]. apply tech_up; lra. Qed.
Lemma ex_gamma2_ok : gamma_function ex_gamma2 /\ (ex_gamma2 (1 / 2) * ex_gamma2 (1 / 2) = PI)%R.
Proof.
  pose proof PI_RGT_0 as PP. assert (SP : (0 < sqrt PI)%R) by now apply sqrt_lt_R0. destruct ex_gamma_ok as [g1 g2 g3]. split; [split|].
  - intros x Hx. unfold ex_gamma2. apply Rmult_lt_0_compat; auto. pose proof (sin2_cos2 (PI * x)) as S. unfold Rsqr in S.
    assert (0 <= sin (PI * x) * sin (PI * x))%R by nra. assert (0 <= cos (PI * x) * cos (PI * x))%R by nra. nra.
  - unfold ex_gamma2. rewrite g2, Rmult_1_r, sin_PI. ring.
  - intros x Hx. unfold ex_gamma2. rewrite g3 by auto. replace (PI * (x + 1))%R with (PI * x + PI)%R by ring. rewrite neg_sin. ring.
  - unfold ex_gamma2. rewrite ex_gamma_half. replace (PI * (1 / 2))%R with (PI / 2)%R by field. rewrite sin_PI2. replace (1 * (1 + (sqrt PI - 1) * (1 * 1)))%R with (sqrt PI) by ring. apply sqrt_sqrt. lra.
Qed.
(** ** the families exist *)
Lemma mass_pos tg a b : gamma_function tg -> (-1 < a)%R -> (-1 < b)%R -> (0 < jacobi_mass tg (Rpower 2) a b)%R.
Proof. intros [g1 _ _] Ha Hb. unfold jacobi_mass. apply Rdiv_lt_0_compat; [|apply g1; lra]. repeat apply Rmult_lt_0_compat; try (apply g1; lra). apply pow2_ok. Qed.
Definition fam_h (tg : R -> R) (a b : R) : Z -> R := std_jacobi_norms a b (jacobi_mass tg (Rpower 2) a b).
Lemma family_exists tg a b : gamma_function tg -> (-1 < a)%R -> (-1 < b)%R -> jacobi_family tg (Rpower 2) a b (std_jacobi a b) (fam_h tg a b).
Proof. intros HG Ha Hb. split; [apply std_jacobi_ok; lra|]. split; [apply std_jacobi_norms_ok; auto using mass_pos|reflexivity]. Qed.
Lemma tri_family_exists tg al be ga : gamma_function tg -> (-1 < al)%R -> (-1 < be)%R -> (-1 < ga)%R ->
  triangle_family tg (Rpower 2) al be ga (fun m => std_jacobi (2 * IZR m + be + ga + 1) al) (fun m => fam_h tg (2 * IZR m + be + ga + 1) al).
Proof. intros HG Ha Hb Hg m Hm. assert (0 <= IZR m)%R by (now apply IZR_le). apply family_exists; auto; lra. Qed.
Lemma disk_family_exists tg al be : gamma_function tg -> (-1 < al)%R -> (-1 < be)%R ->
  disk_family tg (Rpower 2) al be (fun m => std_jacobi be (IZR m + al)) (fun m => fam_h tg be (IZR m + al)).
Proof. intros HG Ha Hb m Hm. assert (0 <= IZR m)%R by (now apply IZR_le). apply family_exists; auto; lra. Qed.

(** ** statements *)
Lemma T_C66_tri_driver tg p al be ga P h : gamma_function tg -> power_of_two p -> (-1 < al)%R -> (-1 < be)%R -> (-1 < ga)%R -> triangle_family tg p al be ga P h ->
  forall (junk : R) (N M : Z) (RP : rotplan R) (A : list R), 0 <= N -> plan_rottriangle junk N al be ga = Some RP -> triangular N M A ->
  exists A', execute_tri_default (kernel_tri_hi2lo givens RP) N M A = Some A' /\ zlen A' = N * M /\
    forall q, 0 <= q < M -> forall x, column_series (tri_factor P h) N 0 A' (N * q) 1 x = column_series (tri_factor P h) N q A (N * q) 1 x.
Proof. intros HG HP Ha Hb Hg HF junk N M RP A HN HR [LA HZ]. now apply (tri_driver tg p al be ga P h HG HP Ha Hb Hg HF junk N M RP). Qed.
Lemma T_C66_disk_driver tg p al be P h : gamma_function tg -> power_of_two p -> (-1 < al)%R -> (-1 < be)%R -> disk_family tg p al be P h ->
  forall (junk : R) (N M : Z) (RP : rotplan R) (A : list R), 0 < N -> plan_rotdisk junk N al be = Some RP -> M mod 2 = 1 -> disk_array N M A ->
  exists A', execute_sph_default (kernel_disk_hi2lo givens RP) N M A = Some A' /\ zlen A' = N * M /\
    forall q, 0 <= q < M -> zero_from (N - ((q + 1) / 2) mod 2) N A' (N * q) 1 /\
      forall r, column_series (disk_factor P h) N (((q + 1) / 2) mod 2) A' (N * q) 1 r = column_series (disk_factor P h) N ((q + 1) / 2) A (N * q) 1 r.
Proof. intros HG HP Ha Hb HF junk N M RP A HN HR HM [LA HZ]. now apply (disk_driver tg p al be P h HG HP Ha Hb HF junk N M RP). Qed.
Lemma T_C67_tri_plan tg d1 d2 jk N al be ga : gamma_function tg -> (tg (1/2) * tg (1/2) = PI)%R -> 0 < N -> (-1 < al)%R -> (-1 < be)%R -> (-1 < ga)%R -> N <= zlen d1 -> N <= zlen d2 ->
  exists RP P0 P1 Q0 Q1, plan_tri2cheb_tables 0%R (fun x => x) tg (Rpower 2) d1 d2 jk N al be ga = Some (RP, (P0, P1), (Q0, Q1)).
Proof.
  intros HG Hpi HN Ha Hb Hg L1 L2. destruct (tri_plan tg d1 d2 jk N 1 al be ga HG Hpi ltac:(lia) Ha Hb Hg L1 L2 _ _ _ _ std_cheb (tri_family_exists tg al be ga HG Ha Hb Hg) (family_exists tg ga be HG Hg Hb) std_cheb_ok) as (RP & P0 & P1 & Q0 & Q1 & E & _). eauto 8.
Qed.
Lemma T_C67_disk_plan tg d1 d2 junk jk N al be : gamma_function tg -> (tg (1/2) * tg (1/2) = PI)%R -> 0 < N -> (-1 < al)%R -> (-1 < be)%R -> N <= zlen d1 -> N <= zlen d2 -> N <= zlen junk ->
  exists RP P0 P1 Q0 Q1, plan_disk2cxf_tables 0%R (fun x => x) tg (Rpower 2) PI d1 d2 junk jk N al be = Some (RP, (P0, P1), (Q0, Q1)).
Proof.
  intros HG Hpi HN Ha Hb L1 L2 L3. destruct (disk_plan tg d1 d2 junk jk N 1 al be HG Hpi HN Ha Hb L1 L2 L3 _ _ (disk_family_exists tg al be HG Ha Hb)) as (RP & P0 & P1 & Q0 & Q1 & E & _). eauto 8.
Qed.
Section TriValues.
Variables (BL : blas R) (tg : R -> R) (d1 d2 : list R) (jk : R) (N M : Z) (al be ga : R).
Hypotheses (OK : blas_ok BL) (HG : gamma_function tg) (Hpi : (tg (1/2) * tg (1/2) = PI)%R) (HM : 0 < M <= N)
  (Ha : (-1 < al)%R) (Hb : (-1 < be)%R) (Hg : (-1 < ga)%R) (L1 : N <= zlen d1) (L2 : N <= zlen d2).
Variables (P : Z -> Z -> R -> R) (h : Z -> Z -> R) (Pv : Z -> R -> R) (hv : Z -> R) (T : Z -> R -> R).
Hypotheses (HF : triangle_family tg (Rpower 2) al be ga P h) (HV : jacobi_family tg (Rpower 2) ga be Pv hv) (HT : is_chebyshev T).
Variables (RP : rotplan R) (P0 P1 Q0 Q1 : list R).
Hypothesis HP : plan_tri2cheb_tables 0%R (fun x => x) tg (Rpower 2) d1 d2 jk N al be ga = Some (RP, (P0, P1), (Q0, Q1)).
Let hi M := execute_tri_default (kernel_tri_hi2lo givens RP) N M.
Let lo M := execute_tri_default (kernel_tri_lo2hi givens_t RP) N M.
Lemma T_C67_tri A : triangular N M A -> exists A',
  tri2cheb BL (hi M) (lo M) (chebyshev_normalization_2d (/ sqrt 2)%R (2 / PI)%R N M) (tri_flag0 al be ga) (tri_flag1 be ga) P0 P1 false N M A = Some A' /\
  (forall x y, chebyshev_series2 T N M A' x y = triangle_series P h Pv hv N M A x y) /\
  cheb2tri BL (hi M) (lo M) (chebyshev_normalization_2d (sqrt 2) (PI / 2)%R N M) (tri_flag0 al be ga) (tri_flag1 be ga) Q0 Q1 false N M A' = Some A.
Proof.
  intros SA. destruct (tri_cheb BL tg d1 d2 jk N M al be ga OK HG Hpi HM Ha Hb Hg L1 L2 P h Pv hv T HF HV HT RP P0 P1 Q0 Q1 (lo M) A HP SA) as (A' & E' & L' & FS).
  exists A'. split; [exact E'|]. split; [exact FS|]. exact (tri_back BL tg d1 d2 jk N M al be ga OK HG Hpi HM Ha Hb Hg L1 L2 P h Pv hv T HF HV HT RP P0 P1 Q0 Q1 A A' HP (proj1 SA) E').
Qed.
End TriValues.
Lemma T_C67_tri_values BL tg d1 d2 jk N al be ga : blas_ok BL -> gamma_function tg -> (tg (1/2) * tg (1/2) = PI)%R -> 0 < N -> (-1 < al)%R -> (-1 < be)%R -> (-1 < ga)%R -> N <= zlen d1 -> N <= zlen d2 ->
  forall P h Pv hv, triangle_family tg (Rpower 2) al be ga P h -> jacobi_family tg (Rpower 2) ga be Pv hv -> forall FT, fftw_ok FT ->
  forall RP P0 P1 Q0 Q1, plan_tri2cheb_tables 0%R (fun x => x) tg (Rpower 2) d1 d2 jk N al be ga = Some (RP, (P0, P1), (Q0, Q1)) ->
  let hi := execute_tri_default (kernel_tri_hi2lo givens RP) N N in let lo := execute_tri_default (kernel_tri_lo2hi givens_t RP) N N in
  forall A, triangular N N A -> exists A' V,
    tri2cheb BL hi lo (chebyshev_normalization_2d (/ sqrt 2)%R (2 / PI)%R N N) (tri_flag0 al be ga) (tri_flag1 be ga) P0 P1 false N N A = Some A' /\
    tri_synthesis FT false true N N A' = Some V /\ zlen V = N * N /\
    (forall k j, 0 <= k < N -> 0 <= j < N -> nthZ 0%R V (k + j * N) = triangle_series P h Pv hv N N A (tri_x N k) (tri_y N k j)) /\
    tri_analysis FT false false N N V = Some A' /\
    cheb2tri BL hi lo (chebyshev_normalization_2d (sqrt 2) (PI / 2)%R N N) (tri_flag0 al be ga) (tri_flag1 be ga) Q0 Q1 false N N A' = Some A.
Proof.
  intros OK HG Hpi HN Ha Hb Hg L1 L2 P h Pv hv HF HV FT OF RP P0 P1 Q0 Q1 HP hi lo A SA. assert (HM : 0 < N <= N) by lia.
  destruct (tri_cheb BL tg d1 d2 jk N N al be ga OK HG Hpi HM Ha Hb Hg L1 L2 P h Pv hv std_cheb HF HV std_cheb_ok RP P0 P1 Q0 Q1 lo A HP SA) as (A' & E' & L' & FS).
  destruct (T_C39_triangle_square FT OF N HN A' L') as (V & EV & LV & VV).
  destruct (T_C38_triangle FT OF N N HN HN A' L') as ((V' & EV' & LV' & EA) & _). rewrite EV in EV'. injection EV' as <-.
  exists A', V. split; [exact E'|]. split; [exact EV|]. split; [exact LV|]. split.
  - intros k j Hk Hj. rewrite <- FS. rewrite (VV k j Hk Hj). rewrite tri_points; auto using std_cheb_ok.
  - split; [exact EA|]. exact (tri_back BL tg d1 d2 jk N N al be ga OK HG Hpi HM Ha Hb Hg L1 L2 P h Pv hv std_cheb HF HV std_cheb_ok RP P0 P1 Q0 Q1 A A' HP (proj1 SA) E').
Qed.

(** ** examples: the constant functions *)
Definition one_coefficient (N M : Z) : list R := 1%R :: zmake (N * M - 1) 0%R.
Lemma one_len N M : 0 < N -> 0 < M -> zlen (one_coefficient N M) = N * M.
Proof. intros. unfold one_coefficient. rewrite zlen_cons, zlen_zmake; nia. Qed.
Lemma one_0 N M k : 0 < k < N * M -> nthZ 0%R (one_coefficient N M) k = 0%R.
Proof. intros Hk. unfold one_coefficient, nthZ. rewrite zget_cons by lia. rewrite zget_zmake by nia. reflexivity. Qed.
Lemma one_tri N M : 0 < N -> 0 < M -> triangular N M (one_coefficient N M).
Proof. intros HN HM. split; [now apply one_len|]. intros q Hq i Hi Hi0. apply one_0. assert (0 < N * q + i * 1) by nia. nia. Qed.
Lemma one_disk N M : 0 < N -> 0 < M -> disk_array N M (one_coefficient N M).
Proof. intros HN HM. split; [now apply one_len|]. intros q Hq i Hi Hi0. apply one_0. assert (0 < N * q + i * 1). { destruct (Z.eq_dec q 0) as [->|]; [|nia]. change ((0 + 1) / 2 + 1) with 1 in Hi. change (1 / 2) with 0 in Hi. lia. } nia. Qed.
Lemma sum_one N M f : 0 < N -> 0 < M -> sumZ M (fun q => sumZ N (fun i => nthZ 0 (one_coefficient N M) (i + q * N)%Z * f q i))%R = f 0 0.
Proof.
  intros HN HM. rewrite (sumZ_first M) by auto. rewrite (sumZ_first N) by auto. rewrite (sumZ_zero (N - 1)), (sumZ_zero (M - 1)).
  - change (nthZ 0%R (one_coefficient N M) (0 + 0 * N)) with 1%R. ring.
  - intros q Hq. apply sumZ_zero. intros i Hi. rewrite one_0 by nia. ring.
  - intros i Hi. rewrite one_0 by nia. ring.
Qed.
Lemma mass_10 tg : gamma_function tg -> jacobi_mass tg (Rpower 2) (2 * 0 + 0 + 0 + 1) 0 = 2%R.
Proof.
  intros [g1 g2 g3]. unfold jacobi_mass. replace (2 * 0 + 0 + 0 + 1 + 0 + 1)%R with (1 + 1)%R by ring. replace (2 * 0 + 0 + 0 + 1 + 1)%R with (1 + 1)%R by ring. replace (2 * 0 + 0 + 0 + 1 + 0 + 2)%R with (1 + 1 + 1)%R by ring. replace (0 + 1)%R with 1%R by ring.
  rewrite (g3 (1 + 1)%R), !(g3 1%R), g2 by lra. rewrite Rpower_plus, Rpower_1 by lra. field.
Qed.
Lemma mass_00 tg : gamma_function tg -> jacobi_mass tg (Rpower 2) 0 0 = 2%R.
Proof. intros [g1 g2 g3]. unfold jacobi_mass. replace (0 + 0 + 1)%R with 1%R by ring. replace (0 + 0 + 2)%R with (1 + 1)%R by ring. replace (0 + 1)%R with 1%R by ring. rewrite (g3 1%R), g2 by lra. rewrite Rpower_1 by lra. field. Qed.
Lemma T_C67_tri_example N : 0 < N -> exists RP P0 P1 Q0 Q1 A' V,
  plan_tri2cheb_tables 0%R (fun x => x) ex_gamma2 (Rpower 2) (zmake N 0%R) (zmake N 0%R) 0%R N 0%R 0%R 0%R = Some (RP, (P0, P1), (Q0, Q1)) /\
  tri2cheb ref_blas (execute_tri_default (kernel_tri_hi2lo givens RP) N N) (execute_tri_default (kernel_tri_lo2hi givens_t RP) N N)
    (chebyshev_normalization_2d (/ sqrt 2)%R (2 / PI)%R N N) (tri_flag0 0%R 0%R 0%R) (tri_flag1 0%R 0%R) P0 P1 false N N (one_coefficient N N) = Some A' /\
  tri_synthesis ref_fftw false true N N A' = Some V /\ forall k j, 0 <= k < N -> 0 <= j < N -> nthZ 0%R V (k + j * N) = (1 / 2)%R.
Proof.
  intros HN. destruct ex_gamma2_ok as [HG Hpi]. assert (m : (-1 < 0)%R) by lra. assert (LZ : N <= zlen (zmake N 0%R)) by (rewrite zlen_zmake; lia).
  destruct (T_C67_tri_plan ex_gamma2 _ _ 0%R N 0 0 0 HG Hpi HN m m m LZ LZ) as (RP & P0 & P1 & Q0 & Q1 & E). exists RP, P0, P1, Q0, Q1.
  destruct (T_C67_tri_values ref_blas ex_gamma2 _ _ 0%R N 0 0 0 ref_blas_ok HG Hpi HN m m m LZ LZ _ _ _ _ (tri_family_exists ex_gamma2 0 0 0 HG m m m) (family_exists ex_gamma2 0 0 HG m m) ref_fftw ref_ok RP P0 P1 Q0 Q1 E _ (one_tri N N HN HN)) as (A' & V & E1 & E2 & _ & VV & _).
  exists A', V. split; [exact E|]. split; [exact E1|]. split; [exact E2|]. intros k j Hk Hj. rewrite VV by auto. unfold triangle_series. rewrite (sum_one N N (fun q i => tri_factor _ _ q i _ * fam true _ _ q _)%R) by auto.
  unfold tri_factor, fam, fam_h. change (Z.to_nat 0) with 0%nat. cbn [pow].
  change (std_jacobi_norms (2 * 0 + 0 + 0 + 1) 0 (jacobi_mass ex_gamma2 (Rpower 2) (2 * 0 + 0 + 0 + 1) 0) 0) with (jacobi_mass ex_gamma2 (Rpower 2) (2 * 0 + 0 + 0 + 1) 0).
  change (std_jacobi_norms 0 0 (jacobi_mass ex_gamma2 (Rpower 2) 0 0) 0) with (jacobi_mass ex_gamma2 (Rpower 2) 0 0). rewrite mass_10, mass_00 by auto.
  rewrite (jac_0 _ _ _ (std_jacobi_ok (2 * 0 + 0 + 0 + 1) 0 ltac:(lra) m)), (jac_0 _ _ _ (std_jacobi_ok 0 0 m m)).
  assert (S2 : (0 < sqrt 2)%R) by (apply sqrt_lt_R0; lra). assert (SS := sqrt_sqrt 2 ltac:(lra)). replace (1 * (1 / sqrt 2) * (1 / sqrt 2))%R with (/ (sqrt 2 * sqrt 2))%R by (field; lra). rewrite SS. field.
Qed.
Lemma T_C67_disk_example N M : 0 < N -> 0 < M -> M mod 2 = 1 -> exists RP P0 P1 Q0 Q1 A' V,
  plan_disk2cxf_tables 0%R (fun x => x) ex_gamma2 (Rpower 2) PI (zmake N 0%R) (zmake N 0%R) (zmake N 0%R) 0%R N 0%R 0%R = Some (RP, (P0, P1), (Q0, Q1)) /\
  sph2fourier ref_blas (execute_sph_default (kernel_disk_hi2lo givens RP) N M) (execute_sph_default (kernel_disk_lo2hi givens_t RP) N M) P0 P1 false N M (one_coefficient N M) = Some A' /\
  disk_synthesis ref_fftw real_const false (plan_disk_synthesis N M) (zmake (2 * (N * (M / 2 + 1))) 0%R) N M A' = Some V /\
  forall k j, 0 <= k < N -> 0 <= j < M -> nthZ 0%R V (k + j * N) = (/ sqrt PI)%R.
Proof.
  intros HN HM Ho. destruct ex_gamma2_ok as [HG Hpi]. assert (m : (-1 < 0)%R) by lra. assert (LZ : N <= zlen (zmake N 0%R)) by (rewrite zlen_zmake; lia).
  destruct (T_C67_disk_plan ex_gamma2 _ _ _ 0%R N 0 0 HG Hpi HN m m LZ LZ LZ) as (RP & P0 & P1 & Q0 & Q1 & E). exists RP, P0, P1, Q0, Q1.
  destruct (disk_values ref_blas ex_gamma2 _ _ _ 0%R N M 0 0 ref_blas_ok HG Hpi HN ltac:(lia) Ho m m LZ LZ LZ _ _ (disk_family_exists ex_gamma2 0 0 HG m m) ref_fftw (zmake (2 * (N * (M / 2 + 1))) 0%R) ref_ok ltac:(apply zlen_zmake; assert (0 <= M / 2) by (apply Z.div_pos; lia); nia) RP P0 P1 Q0 Q1 E _ (one_disk N M HN HM)) as (A' & V & E1 & _ & E2 & _ & VV & _).
  exists A', V. split; [exact E|]. split; [exact E1|]. split; [exact E2|]. intros k j Hk Hj. rewrite VV by auto. unfold zernike_series.
  rewrite (sum_one N M (fun q i => Rpower 2 ((0 + 0 + 2) / 2) * disk_factor _ _ ((q + 1) / 2)%Z i _ * azimuth q _)%R) by auto.
  change ((0 + 1) / 2) with 0. unfold disk_factor, fam, fam_h. change (Z.to_nat 0) with 0%nat. cbn [pow]. replace (0 + 0)%R with 0%R by ring.
  change (std_jacobi_norms 0 0 (jacobi_mass ex_gamma2 (Rpower 2) 0 0) 0) with (jacobi_mass ex_gamma2 (Rpower 2) 0 0). rewrite mass_00 by auto. rewrite (jac_0 _ _ _ (std_jacobi_ok 0 0 m m)).
  replace ((0 + 2) / 2)%R with 1%R by field. rewrite Rpower_1 by lra. unfold azimuth. cbn [Z.eqb]. pose proof PI_RGT_0 as PP. rewrite sqrt_mult by lra.
  assert (S2 : (0 < sqrt 2)%R) by (apply sqrt_lt_R0; lra). assert (SP : (0 < sqrt PI)%R) by now apply sqrt_lt_R0. assert (SS := sqrt_sqrt 2 ltac:(lra)).
  replace (2 * (1 * (1 / sqrt 2)) * / (sqrt 2 * sqrt PI))%R with (2 / (sqrt 2 * sqrt 2) * / sqrt PI)%R by (field; lra). rewrite SS. field. lra.
Qed.
