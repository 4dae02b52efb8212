(** * Conversions of vector fields on the sphere *)
From Coq Require Import ZArith List Lia Bool Reals Lra ZifyBool ZifyNat Factorial.
From Verif Require Import Base BaseFacts Arith SpecSum PSum SpecLin MRotations SpecRot PRotPlans PRotThms MDrivers MHarmonic SpecHarm PHarm4 SpecIso
  SpecClassical SpecConn PClass8 PPoly PPenU PPenC PDiag PTransforms2 SpecTransforms SpecGeo SpecGrad MFftw SpecFftw PFftwThms SpecConvert SpecConvert3 PConv3 PConv4 MDense PDense PDense2 PConv5 PConv6.
Import ListNotations.
Open Scope Z_scope.
Local Notation ord q := ((q + 1) / 2).

Lemma vorder_nn q : 0 <= q -> 0 <= vorder q.
Proof. intros. unfold vorder. destruct (Z.eqb_spec q 0); lia. Qed.

Section Driver.
Variables (junk : R) (N M : Z) (RP : rotplan R).
Hypotheses (HN : 0 <= N) (HP : plan_rotsphere junk N = Some RP) (HM : M mod 2 = 1) (HM1 : 0 <= M).
Definition vkeeps (d q : Z) (A X : list R) : Prop :=
  zero_from (N - d) N X (N * q) 1 /\ forall t, column_series polar N d X (N * q) 1 t = column_series polar N (vorder q) A (N * q) 1 t.
Lemma vstep_col A X q m : 0 <= q < M -> m = vorder q -> 2 <= m -> zlen X = N * M -> vkeeps m q A X ->
  exists X', kernel_sph_hi2lo givens RP (m mod 2) m X (N * q) 1 = Some X' /\ zlen X' = N * M /\ vkeeps (m mod 2) q A X' /\
    forall q', q' <> q -> forall i, 0 <= i < N -> nthZ 0%R X' (N * q' + i * 1) = nthZ 0%R X (N * q' + i * 1).
Proof.
  intros Hq Em Hm L [K1 K2].
  destruct (sph_conv N junk RP X (N * q) 1 (m mod 2) m HP HN) as (X' & E & O & Z1 & Z2); auto; try lia.
  - eapply col_fit; eauto.
  - exists X'. split; [exact E|]. split; [rewrite (occ_len _ _ _ _ O); exact L|]. split.
    + split; auto. intros t. now rewrite Z2.
    + intros q' Hq' i Hi. eapply occ_col; eauto.
Qed.
Lemma vkeeps_ext d q A X X' : (forall i, 0 <= i < N -> nthZ 0%R X' (N * q + i * 1) = nthZ 0%R X (N * q + i * 1)) -> vkeeps d q A X -> vkeeps d q A X'.
Proof. intros H [K1 K2]. split; [eapply zero_ext; eauto|]. intros t. rewrite <- K2. now apply series_ext. Qed.
Lemma vorder_odd m : 2 <= m -> vorder (2 * m + 1) = m.
Proof. intros. unfold vorder. replace (2 * m + 1 =? 0) with false by lia. lia. Qed.
Lemma vorder_even m : 2 <= m -> vorder (2 * m + 2) = m.
Proof. intros. unfold vorder. replace (2 * m + 2 =? 0) with false by lia. lia. Qed.
Lemma vdriver_conv A : zlen A = N * M -> (forall q, 0 <= q < M -> zero_from (N - vorder q) N A (N * q) 1) ->
  exists A', execute_sphv_default (kernel_sph_hi2lo givens RP) N M A = Some A' /\ zlen A' = N * M /\
    forall q, 0 <= q < M -> vkeeps (vorder q mod 2) q A A'.
Proof.
  intros L HZ. unfold execute_sphv_default.
  assert (K0 : forall q, 0 <= q < M -> vorder q < 2 -> vkeeps (vorder q mod 2) q A A).
  { intros q Hq H. pose proof (vorder_nn q ltac:(lia)). replace (vorder q mod 2) with (vorder q) by (symmetry; apply Z.mod_small; lia). split; auto. }
  destruct (Z_lt_ge_dec M 5) as [M3|M3].
  { rewrite for_up_nil by lia. exists A. split; auto. split; auto. intros q Hq. apply K0; auto. unfold vorder. destruct (q =? 0); lia. }
  match goal with |- exists A', for_up _ _ ?bd _ = _ /\ _ =>
  destruct (for_up_inv (fun k X => zlen X = N * M /\ forall q, 0 <= q < M -> vkeeps (if vorder q <? k then vorder q mod 2 else vorder q) q A X) 2 (M / 2 - 1 + 1) bd A) as (A' & E & H) end.
  - lia.
  - split; auto. intros q Hq. destruct (vorder q <? 2) eqn:E2; [apply K0; auto; lia|]. split; auto.
  - intros m X Hm [LX HX]. cbv beta.
    destruct (vstep_col A X (2 * m + 1) m) as (X1 & E1 & L1 & K1 & O1); auto; try lia.
    { rewrite vorder_odd; lia. }
    { specialize (HX (2 * m + 1) ltac:(lia)). rewrite vorder_odd in HX by lia. replace (m <? m) with false in HX by lia. exact HX. }
    rewrite E1. cbn [obind].
    destruct (vstep_col A X1 (2 * m + 2) m) as (X2 & E2 & L2 & K2 & O2); auto; try lia.
    { rewrite vorder_even; lia. }
    { apply (vkeeps_ext _ _ _ X); [apply O1; lia|]. specialize (HX (2 * m + 2) ltac:(lia)). rewrite vorder_even in HX by lia. replace (m <? m) with false in HX by lia. exact HX. }
    rewrite E2. exists X2. split; [reflexivity|]. split; auto. intros q Hq.
    destruct (Z.eq_dec q (2 * m + 2)) as [->|N1].
    { rewrite vorder_even by lia. replace (m <? m + 1) with true by lia. exact K2. }
    apply (vkeeps_ext _ _ _ X1); [apply O2; lia|].
    destruct (Z.eq_dec q (2 * m + 1)) as [->|N2].
    { rewrite vorder_odd by lia. replace (m <? m + 1) with true by lia. exact K1. }
    apply (vkeeps_ext _ _ _ X); [apply O1; lia|]. specialize (HX q Hq).
    assert (vorder q <> m) by (unfold vorder; destruct (Z.eqb_spec q 0); lia).
    replace (vorder q <? m + 1) with (vorder q <? m) by lia. exact HX.
  - destruct H as (LX & HX). exists A'. split; auto. split; auto. intros q Hq. specialize (HX q Hq).
    assert (vorder q < M / 2 - 1 + 1) by (unfold vorder; destruct (Z.eqb_spec q 0); lia).
    replace (vorder q <? M / 2 - 1 + 1) with true in HX by lia. exact HX.
Qed.
End Driver.

Lemma vsphP_polar m i t : vsphP m i t = (polar (if m =? 0 then 1 else m - 1) i t * sqrt ((if m =? 0 then 1 else 2) / (2 * PI)))%R.
Proof. reflexivity. Qed.
Lemma vseries_sum N M A t p : 0 <= N -> 0 <= M -> M mod 2 = 1 -> vectorial N M A ->
  sumZ M (fun z => (column_series polar N (vorder z) A (N * z) 1 t * azimuth z p)%R) = vector_series N (M / 2) A t p.
Proof.
  intros HN HM Ho [LA HZ]. set (h := M / 2). assert (Hh : M = 2 * h + 1) by (unfold h; lia). assert (PP := PI_RGT_0).
  rewrite (sumZ_first M) by lia. unfold vector_series. f_equal.
  - unfold vorder at 1. cbn [Z.eqb]. unfold column_series. rewrite <- sumZ_scal_r. apply sumZ_ext. intros i Hi. rewrite Z.mul_0_r, Z.add_0_l, Z.mul_1_r.
    unfold azimuth. cbn [Z.eqb]. rewrite vsphP_polar. cbn [Z.eqb]. replace (1 / (2 * PI))%R with (/ (2 * PI))%R by (field; lra). rewrite sqrt_inv. ring.
  - replace (M - 1) with (2 * h) by lia. rewrite sumZ_pairs' by lia. apply sumZ_ext. intros k Hk. cbv zeta. set (m := k + 1).
    replace (1 + 2 * k) with (2 * m - 1) by lia. replace (1 + (2 * k + 1)) with (2 * m) by lia.
    assert (V1 : vorder (2 * m - 1) = m - 1) by (unfold vorder; replace (2 * m - 1 =? 0) with false by lia; lia).
    assert (V2 : vorder (2 * m) = m - 1) by (unfold vorder; replace (2 * m =? 0) with false by lia; lia).
    rewrite V1, V2.
    assert (CS : forall q, 0 <= q < M -> vorder q = m - 1 -> (column_series polar N (m - 1) A (N * q) 1 t * / sqrt PI)%R = sumZ (N + 1 - m) (fun i => (vsphP m i t * nthZ 0 A (i + N * q)%Z)%R)).
    { intros q Hq Eq. unfold column_series. rewrite <- sumZ_scal_r.
      assert (SP : forall i, vsphP m i t = (polar (m - 1) i t * / sqrt PI)%R).
      { intros i. rewrite vsphP_polar. replace (m =? 0) with false by lia. replace (2 / (2 * PI))%R with (/ PI)%R by (field; lra). rewrite sqrt_inv. reflexivity. }
      destruct (Z_le_gt_dec (N + 1 - m) 0).
      - rewrite (sumZ_0 (N + 1 - m)) by auto. apply sumZ_zero. intros i Hi. rewrite (HZ q Hq i) by lia. ring.
      - rewrite (sumZ_split N (N + 1 - m)) by lia. rewrite (sumZ_zero (N - (N + 1 - m))), Rplus_0_r.
        2:{ intros i Hi. rewrite (HZ q Hq) by lia. ring. }
        apply sumZ_ext. intros i Hi. rewrite SP. replace (N * q + i * 1) with (i + N * q) by lia. ring. }
    unfold azimuth. replace (2 * m - 1 =? 0) with false by lia. replace (2 * m =? 0) with false by lia.
    replace (Z.odd (2 * m - 1)) with true by (symmetry; replace (2 * m - 1) with (2 * k + 1) by lia; rewrite Z.odd_add, Z.odd_mul; reflexivity).
    replace (Z.odd (2 * m)) with false by (symmetry; rewrite Z.odd_mul; reflexivity).
    replace ((2 * m - 1 + 1) / 2) with m by lia. replace (2 * m / 2) with m by lia.
    replace (column_series polar N (m - 1) A (N * (2 * m - 1)) 1 t * (sin (IZR m * p) / sqrt PI))%R with ((column_series polar N (m - 1) A (N * (2 * m - 1)) 1 t * / sqrt PI) * sin (IZR m * p))%R by (unfold Rdiv; ring).
    replace (column_series polar N (m - 1) A (N * (2 * m)) 1 t * (cos (IZR m * p) / sqrt PI))%R with ((column_series polar N (m - 1) A (N * (2 * m)) 1 t * / sqrt PI) * cos (IZR m * p))%R by (unfold Rdiv; ring).
    rewrite !CS by lia. rewrite <- !sumZ_scal_r, <- sumZ_plus. apply sumZ_ext. intros i Hi. ring.
Qed.

Section Sphere.
Variables (BL : blas R) (tgamma : R -> R) (jk : R) (N M : Z).
Hypotheses (OK : blas_ok BL) (HG : gamma_function tgamma) (HN : 0 < N) (HM : 0 <= M) (Ho : M mod 2 = 1).
Let idR := fun x : R => x.
Lemma vector_fourier RP P0 P1 Q0 Q1 lo A : plan_sph2fourier_tables 0%R idR tgamma jk N = Some (RP, (P0, P1), (Q0, Q1)) -> vectorial N M A -> exists A',
  sphv2fourier BL (execute_sphv_default (kernel_sph_hi2lo givens RP) N M) lo P0 P1 false N M A = Some A' /\ zlen A' = N * M /\
  forall t p, vector_fourier_series N M A' t p = vector_series N (M / 2) A t p.
Proof.
  intros E0 SA. destruct (fams tgamma HG) as (F1 & F2 & F3 & F4 & F5 & F6 & F7 & F8).
  destruct (sphere_plan tgamma jk N M HG HN) as (RP' & P0' & P1' & Q0' & Q1' & E & ER & Rn & Rt & Ru & T0 & T1 & _). unfold idR in E0. rewrite E0 in E. injection E as <- <- <- <- <-.
  destruct (vdriver_conv jk N M RP ltac:(lia) ER Ho A (proj1 SA) (proj2 SA)) as (A1 & E1 & L1 & K).
  destruct (H35_sphv BL OK _ lo P0 P1 N M A A1 HN HM (proj1 T0) (proj1 T1) E1 L1) as (A' & E' & (_ & L' & V)).
  exists A'. split; [exact E'|]. split; [lia|]. intros t p. rewrite <- vseries_sum by (auto; lia).
  unfold vector_fourier_series. apply sumZ_ext. intros z Hz.
  rewrite (sumZ_ext N _ (fun l => (nthZ 0 A' (l + z * N)%Z * sphv_polar N z l t) * azimuth z p)%R) by (intros; ring). rewrite sumZ_scal_r. f_equal.
  destruct (K z Hz) as [KZ KS]. rewrite <- KS.
  assert (VV : forall i, 0 <= i < N -> nthZ 0%R A' (i + z * N) = sumZ N (fun k => utri N (if (z mod 4 =? 0) || (z mod 4 =? 3) then P1 else P0) i k * nthZ 0%R A1 (N * z + k * 1))%R).
  { intros i Hi. specialize (V 0 i z ltac:(lia) Hi Hz). unfold entry in V. replace (i + z * N) with (0 + 1 * (i + N * z)) by lia. rewrite V. apply sumZ_ext. intros k Hk. do 2 f_equal. lia. }
  assert (VO : vorder z mod 2 = if (z mod 4 =? 0) || (z mod 4 =? 3) then 1 else 0).
  { unfold vorder. destruct (Z.eqb_spec z 0) as [->|]; [reflexivity|]. destruct ((z mod 4 =? 0) || (z mod 4 =? 3)) eqn:EE; lia. }
  unfold sphv_polar, even_order. rewrite VO in *. destruct ((z mod 4 =? 0) || (z mod 4 =? 3)).
  2:{ unfold column_series.
    rewrite (sumZ_ext N _ (fun l => nthZ 0 A' (l + z * N)%Z * fam false std_cheb (hc tgamma) l (cos t))%R).
    2:{ intros l Hl. f_equal. unfold fam, cosine. symmetry. apply cheb_cos; [auto|lia]. }
    rewrite (table_sum N P0 _ _ (fun k => nthZ 0%R A1 (N * z + k * 1)) _ (cos t) T0 VV).
    apply sumZ_ext. intros i Hi. f_equal. symmetry. apply polar_0; auto; lia. }
  unfold column_series.
    assert (LZ : nthZ 0%R A' (N - 1 + z * N) = 0%R).
    { rewrite VV by lia. apply sumZ_zero. intros k Hk. destruct (Z.eq_dec k (N - 1)) as [->|NE]; [rewrite KZ by lia; ring|]. unfold utri. replace (N - 1 <=? k) with false by lia. ring. }
    rewrite (sumZ_ext N _ (fun l => sin t * (nthZ 0 A' (l + z * N)%Z * fam false (std_ult 1) (h1 tgamma) l (cos t)))%R).
    2:{ intros l Hl. unfold sine. destruct (Z.eqb_spec l (N - 1)) as [->|]; [rewrite LZ; ring|]. rewrite <- (ult1_sin (std_ult 1) (std_ult_ok 1)) by lia. unfold fam. ring. }
    rewrite sumZ_scal. rewrite (table_sum N P1 _ _ (fun k => nthZ 0%R A1 (N * z + k * 1)) _ (cos t) T1 VV). rewrite <- sumZ_scal.
    apply sumZ_ext. intros i Hi. rewrite (polar_1 (std_ult (3/2)) (h3 tgamma)); auto using std_ult_ok; [ring|apply mass3; auto|lia].
Qed.

Variables (FT : fftw R) (Y : list R).
Hypotheses (OF : fftw_ok FT) (LY : zlen Y = 2 * (N * (M / 2 + 1))).
Lemma vector_values RP P0 P1 Q0 Q1 : plan_sph2fourier_tables 0%R idR tgamma jk N = Some (RP, (P0, P1), (Q0, Q1)) ->
  let hi := execute_sphv_default (kernel_sph_hi2lo givens RP) N M in let lo := execute_sphv_default (kernel_sph_lo2hi givens_t RP) N M in
  forall A, vectorial N M A -> exists A' V,
    sphv2fourier BL hi lo P0 P1 false N M A = Some A' /\ (forall t p, vector_fourier_series N M A' t p = vector_series N (M / 2) A t p) /\
    sphv_synthesis FT real_const false (plan_sphv_synthesis N M) Y N M A' = Some V /\ zlen V = N * M /\
    (forall k j, 0 <= k < N -> 0 <= j < M -> nthZ 0%R V (k + j * N) = vector_series N (M / 2) A (theta N k) (phi M j)) /\
    sphv_analysis FT real_const false (plan_sphv_analysis N M) Y N M V = Some A' /\
    fourier2sphv BL hi lo Q0 Q1 false N M A' = Some A.
Proof.
  intros E hi lo A SA. destruct (vector_fourier RP P0 P1 Q0 Q1 lo A E SA) as (A' & E' & L' & FS).
  destruct (sphere_plan tgamma jk N M HG HN) as (RP' & P0' & P1' & Q0' & Q1' & E2 & ER & Rn & Rt & Ru & T0 & T1 & I0 & I1). unfold idR in E. rewrite E in E2. injection E2 as <- <- <- <- <-.
  assert (HMp : 0 < M) by (destruct (Z.eq_dec M 0) as [e0|]; [rewrite e0 in Ho; discriminate|lia]). assert (OM : Z.odd M = true) by (rewrite Zodd_mod, Ho; reflexivity).
  destruct (T_C39_vector_sphere FT OF N M Y HN HMp OM LY A' L') as (V & EV & LV & VV).
  destruct (T_C38_vector_sphere FT OF N M Y HN HMp OM LY A' L') as ((V' & EV' & LV' & EA) & _). rewrite EV in EV'. injection EV' as <-.
  exists A', V. split; [exact E'|]. split; [exact FS|]. split; [exact EV|]. split; [exact LV|]. split.
  - intros k j Hk Hj. rewrite <- FS. rewrite (VV k j Hk Hj). unfold vector_fourier_series. apply sumZ_ext. intros z Hz. apply sumZ_ext. intros l Hl. ring.
  - split; [exact EA|].
    pose proof (H36_sphv BL OK RP M P0 P1 Q0 Q1 false) as X. cbv zeta in X. rewrite Rn in X. specialize (X HN HM Ho Rt Ru I0 I1 A (proj1 SA)).
    destruct X as ((X & EX & _ & EB) & _). fold hi lo in EX, EB. fold hi in E'. rewrite E' in EX. injection EX as <-. exact EB.
Qed.
End Sphere.
