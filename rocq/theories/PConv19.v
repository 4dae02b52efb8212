(** * From values of a vector field on the grid to its potentials *)
From Coq Require Import ZArith List Lia Bool Reals Lra ZifyBool ZifyNat Factorial.
From Verif Require Import Base BaseFacts Arith SpecSum PSum SpecLin MRotations SpecRot PRotPlans PRotThms MDrivers MHarmonic SpecHarm PHarm4 SpecIso MBanded MGrad
  SpecGeo SpecGrad PGrad5 PGrad6 PGrad9 MFftw SpecFftw MRefBlas PRefBlas PRefFftw SpecConvert SpecConvert3 PPermute MDense PConv5 PConv6 PConv7 PConv13 PConv17 PConv18.
Import ListNotations.
Open Scope Z_scope.

Lemma vector_plus N h A B t p : 1 <= N -> 0 <= h <= N ->
  vector_series N h (ztab (N * (2 * h + 1)) (fun k => nthZ 0 A k + nthZ 0 B k)%R) t p = (vector_series N h A t p + vector_series N h B t p)%R.
Proof.
  intros HN Hh. set (V := ztab _ _). assert (W : forall k, 0 <= k < N * (2 * h + 1) -> nthZ 0%R V k = (nthZ 0 A k + nthZ 0 B k)%R) by (intros k Hk; unfold V; now rewrite nthZ_ztab).
  unfold vector_series. match goal with |- (?a + ?b = (?c + ?d) + (?e + ?f))%R => replace ((c + d) + (e + f))%R with ((c + e) + (d + f))%R by ring end. f_equal.
  - rewrite <- sumZ_plus. apply sumZ_ext. intros i Hi. rewrite W by nia. ring.
  - rewrite <- sumZ_plus. apply sumZ_ext. intros k Hk. cbv zeta. rewrite <- sumZ_plus. apply sumZ_ext. intros i Hi. rewrite !W by nia. ring.
Qed.
Lemma vectorial_plus N M A B : vectorial N M A -> vectorial N M B -> 0 <= N -> 0 <= M -> vectorial N M (ztab (N * M) (fun k => nthZ 0 A k + nthZ 0 B k)%R).
Proof.
  intros [LA ZA] [LB ZB] HN HM. split; [apply zlen_ztab; nia|]. intros q Hq i Hi Hi0. assert (R : 0 <= N * q + i * 1 < N * M) by (assert (0 <= i < N) by lia; nia).
  rewrite nthZ_ztab by exact R. rewrite (ZA q Hq i Hi Hi0), (ZB q Hq i Hi Hi0). ring.
Qed.
Lemma grid_ext N M (a b : list R) : 0 < N -> zlen a = N * M -> zlen b = N * M -> (forall k j, 0 <= k < N -> 0 <= j < M -> nthZ 0%R a (k + j * N) = nthZ 0%R b (k + j * N)) -> a = b.
Proof.
  intros HN La Lb H. apply (nthZ_ext 0%R); [lia|]. intros p Hp. pose proof (Z.div_mod p N ltac:(lia)). pose proof (Z.mod_pos_bound p N HN).
  replace p with (p mod N + (p / N) * N) by lia. apply H; [lia|]. split; [apply Z.div_pos; lia|apply Z.div_lt_upper_bound; lia].
Qed.

Section Values.
Variables (BL : blas R) (tgamma : R -> R) (jk : R) (N M : Z).
Hypotheses (OK : blas_ok BL) (HG : gamma_function tgamma) (HN : 0 < N) (HM : 0 <= M) (Ho : M mod 2 = 1).
Variables (FT : fftw R) (Y : list R).
Hypotheses (OF : fftw_ok FT) (LY : zlen Y = 2 * (N * (M / 2 + 1))).
Lemma coeffs_of RP P0 P1 Q0 Q1 A V : plan_sph2fourier_tables 0%R (fun x => x) tgamma jk N = Some (RP, (P0, P1), (Q0, Q1)) -> vectorial N M A ->
  zlen V = N * M -> (forall k j, 0 <= k < N -> 0 <= j < M -> nthZ 0%R V (k + j * N) = vector_series N (M / 2) A (theta N k) (phi M j)) ->
  vector_coefficients BL FT Y RP Q0 Q1 N M V = Some A.
Proof.
  intros E VA LV HV. destruct (vector_values BL tgamma jk N M OK HG HN HM Ho FT Y OF LY RP P0 P1 Q0 Q1 E A VA) as (A' & V' & E1 & _ & E2 & LV' & VV & EA & EB).
  replace V with V'. { unfold vector_coefficients. rewrite EA. exact EB. }
  apply (grid_ext N M); auto. intros k j Hk Hj. now rewrite VV, HV.
Qed.
Lemma potentials RP P0 P1 Q0 Q1 jk' U1 U2 S1 S2 Wt Wp : plan_sph2fourier_tables 0%R (fun x => x) tgamma jk N = Some (RP, (P0, P1), (Q0, Q1)) ->
  M / 2 <= N - 1 -> spherical N M U1 -> spherical N M U2 -> nthZ 0%R U1 0 = 0%R -> nthZ 0%R U2 0 = 0%R -> zlen S1 = N * M -> zlen S2 = N * M -> zlen Wt = N * M -> zlen Wp = N * M ->
  (forall k j a b c d, 0 <= k < N -> 0 <= j < M ->
    derivable_pt_lim (fun t => harmonic_series sphP N (M / 2) U1 t (phi M j)) (theta N k) a -> derivable_pt_lim (fun p => harmonic_series sphP N (M / 2) U1 (theta N k) p) (phi M j) b ->
    derivable_pt_lim (fun t => harmonic_series sphP N (M / 2) U2 t (phi M j)) (theta N k) c -> derivable_pt_lim (fun p => harmonic_series sphP N (M / 2) U2 (theta N k) p) (phi M j) d ->
    nthZ 0%R Wt (k + j * N) = (a - d / sin (theta N k))%R /\ nthZ 0%R Wp (k + j * N) = (b / sin (theta N k) + c)%R) ->
  exists Vt Vp H st, vector_coefficients BL FT Y RP Q0 Q1 N M Wt = Some Vt /\ vector_coefficients BL FT Y RP Q0 Q1 N M Wp = Some Vp /\
    plan_sph_helmholtzhodge jk' N = Some H /\ execute_sph_helmholtzhodge H S1 S2 Vt Vp N M = Some st /\ zlen (h_U1 st) = N * M /\ zlen (h_U2 st) = N * M /\
    forall i q, 0 <= i -> 0 <= q < M -> i + (q + 1) / 2 < N -> nthZ 0%R (h_U1 st) (i + N * q) = nthZ 0%R U1 (i + N * q) /\ nthZ 0%R (h_U2 st) (i + N * q) = nthZ 0%R U2 (i + N * q).
Proof.
  intros E Hh SU1 SU2 Z1 Z2 LS1 LS2 LWt LWp HW. assert (OM : Z.odd M = true) by (rewrite Zodd_mod, Ho; reflexivity). pose proof (odd_half M OM) as HM'.
  assert (DU : forall U, spherical N M U -> degrees_up_to N M U).
  { intros U SU i q Hi Hq Hd. pose proof (proj2 SU q Hq i ltac:(lia) ltac:(lia)) as X. replace (i + N * q) with (N * q + i * 1) by lia. exact X. }
  pose proof (vectorial_zero N M ltac:(lia) HM) as V0. set (O := zmake (N * M) 0%R) in *. pose proof (proj1 V0) as LO.
  destruct (gradient_vectorial N M U1 O O ltac:(lia) OM ltac:(lia) (proj1 SU1) V0 V0 (DU _ SU1)) as (P & G1 & G2 & EP & EG & VG1 & VG2 & GG).
  destruct (curl_vectorial N M U2 O O ltac:(lia) OM ltac:(lia) (proj1 SU2) V0 V0 (DU _ SU2)) as (P' & C1 & C2 & EP' & EC & VC1 & VC2 & GC). rewrite EP in EP'. injection EP' as <-.
  destruct (C62_recovers_proof jk' N M U1 U2 O O O O S1 S2 ltac:(lia) OM ltac:(lia) (proj1 SU1) (proj1 SU2) LO LO LO LO LS1 LS2 (DU _ SU1) (DU _ SU2) Z1 Z2)
    as (P' & G1' & G2' & C1' & C2' & H & EP' & EG' & EC' & EH & REC).
  rewrite EP in EP'. injection EP' as <-. rewrite EG in EG'. injection EG' as <- <-. rewrite EC in EC'. injection EC' as <- <-.
  set (Vt := ztab (N * M) (fun k => nthZ 0 G1 k + nthZ 0 C1 k)%R). set (Vp := ztab (N * M) (fun k => nthZ 0 G2 k + nthZ 0 C2 k)%R).
  assert (VS : forall A B t p, vector_series N (M / 2) (ztab (N * M) (fun k => nthZ 0 A k + nthZ 0 B k)%R) t p = (vector_series N (M / 2) A t p + vector_series N (M / 2) B t p)%R).
  { intros A B t p. rewrite HM' at 2. apply vector_plus; lia. }
  destruct (REC Vt Vp) as (st & Est & L1 & L2 & RR).
  { apply zlen_ztab; nia. } { apply zlen_ztab; nia. }
  { intros p Hp. unfold Vt, Vp. rewrite !nthZ_ztab by lia. auto. }
  assert (X : forall k j, 0 <= k < N -> 0 <= j < M -> nthZ 0%R Wt (k + j * N) = vector_series N (M / 2) Vt (theta N k) (phi M j) /\ nthZ 0%R Wp (k + j * N) = vector_series N (M / 2) Vp (theta N k) (phi M j)).
  { intros k j Hk Hj. destruct (GG (theta N k) (phi M j)) as [g1 g2]. destruct (GC (theta N k) (phi M j)) as [c1 c2].
    pose proof (theta_range N k Hk) as TR. assert (SP : (0 < sin (theta N k))%R) by (apply sin_gt_0; lra).
    destruct (HW k j _ _ _ _ Hk Hj g1 g2 c2 c1) as [E1 E2]. rewrite E1, E2. unfold Vt, Vp. rewrite !VS. split; field; lra. }
  exists Vt, Vp, H, st. split; [|split; [|split; [exact EH|split; [exact Est|split; [exact L1|split; [exact L2|exact RR]]]]]].
  - eapply coeffs_of; eauto. { apply vectorial_plus; auto; lia. } intros k j Hk Hj. now apply X.
  - eapply coeffs_of; eauto. { apply vectorial_plus; auto; lia. } intros k j Hk Hj. now apply X.
Qed.
End Values.
Lemma T_C69_example N M : 2 <= N -> 0 <= M / 2 <= N - 1 -> M mod 2 = 1 -> 0 <= M -> exists RP P0 P1 Q0 Q1 Vt Vp H st,
  plan_sph2fourier_tables 0%R (fun x => x) ex_gamma 0%R N = Some (RP, (P0, P1), (Q0, Q1)) /\
  let coefficients := vector_coefficients ref_blas ref_fftw (zmake (2 * (N * (M / 2 + 1))) 0%R) RP Q0 Q1 N M in
  coefficients (ztab (N * M) (fun p => - sqrt (3 / (4 * PI)) * sin (theta N (p mod N)))%R) = Some Vt /\
  coefficients (zmake (N * M) 0%R) = Some Vp /\
  plan_sph_helmholtzhodge 7%R N = Some H /\ execute_sph_helmholtzhodge H (zmake (N * M) 7%R) (zmake (N * M) 7%R) Vt Vp N M = Some st /\
  forall i q, 0 <= i -> 0 <= q < M -> i + (q + 1) / 2 < N -> nthZ 0%R (h_U1 st) (i + N * q) = (if i + N * q =? 1 then 1%R else 0%R) /\ nthZ 0%R (h_U2 st) (i + N * q) = 0%R.
Proof.
  intros HN Hh Ho HM. assert (HM1 : 1 <= M) by lia. assert (HNM : 0 <= N * M) by nia.
  destruct (sphere_plan ex_gamma 0%R N M ex_gamma_ok ltac:(lia)) as (RP & P0 & P1 & Q0 & Q1 & E & _). exists RP, P0, P1, Q0, Q1.
  set (Wt := ztab (N * M) (fun p => - sqrt (3 / (4 * PI)) * sin (theta N (p mod N)))%R).
  assert (S0 : spherical N M (zmake (N * M) 0%R)).
  { split; [apply zlen_zmake; nia|]. intros q Hq i Hi Hi0. unfold nthZ. assert (0 <= (q + 1) / 2) by lia. rewrite zget_zmake by nia. reflexivity. }
  assert (Z0 : forall t p, harmonic_series sphP N (M / 2) (zmake (N * M) 0%R) t p = 0%R).
  { intros t p. assert (ZZ : forall k, nthZ 0%R (zmake (N * M) 0%R) k = 0%R).
    { intros k. unfold nthZ. destruct (Z_lt_ge_dec k 0); [rewrite zget_none by lia; reflexivity|]. destruct (Z_lt_ge_dec k (N * M)); [rewrite zget_zmake by lia; reflexivity|].
      rewrite zget_none by (rewrite zlen_zmake by lia; lia). reflexivity. }
    unfold harmonic_series. rewrite !sumZ_zero; [ring| |]; intros; cbv zeta; [apply sumZ_zero; intros|]; rewrite ?ZZ; ring. }
  destruct (potentials ref_blas ex_gamma 0%R N M ref_blas_ok ex_gamma_ok ltac:(lia) HM Ho ref_fftw (zmake (2 * (N * (M / 2 + 1))) 0%R) ref_ok ltac:(apply zlen_zmake; nia)
    RP P0 P1 Q0 Q1 7%R (zonal1 N M) (zmake (N * M) 0%R) (zmake (N * M) 7%R) (zmake (N * M) 7%R) Wt (zmake (N * M) 0%R) E ltac:(lia) (zonal1_sph N M HN HM1) S0) as (Vt & Vp & H & st & E1 & E2 & E3 & E4 & _ & _ & RR).
  - reflexivity.
  - unfold nthZ. rewrite zget_zmake by nia. reflexivity.
  - apply zlen_zmake; lia.
  - apply zlen_zmake; lia.
  - apply zlen_ztab; lia.
  - apply zlen_zmake; lia.
  - intros k j a b c d Hk Hj Da Db Dc Dd.
    assert (Ea : a = (- sqrt (3 / (4 * PI)) * sin (theta N k))%R).
    { eapply uniqueness_limite; [exact Da|]. replace (- sqrt (3 / (4 * PI)) * sin (theta N k))%R with (sqrt (3 / (4 * PI)) * - sin (theta N k))%R by ring.
      pose proof (derivable_pt_lim_scal cos (sqrt (3 / (4 * PI))) (theta N k) (- sin (theta N k)) (derivable_pt_lim_cos _)) as D.
      intros eps He. destruct (D eps He) as [dd Hd]. exists dd. intros x Hx Hxd. rewrite !zonal1_series by auto. exact (Hd x Hx Hxd). }
    assert (Eb : b = 0%R).
    { eapply uniqueness_limite; [exact Db|]. pose proof (derivable_pt_lim_const (sqrt (3 / (4 * PI)) * cos (theta N k))%R (phi M j)) as D.
      intros eps He. destruct (D eps He) as [dd Hd]. exists dd. intros x Hx Hxd. rewrite !zonal1_series by auto. exact (Hd x Hx Hxd). }
    assert (Ec : c = 0%R).
    { eapply uniqueness_limite; [exact Dc|]. pose proof (derivable_pt_lim_const 0%R (theta N k)) as D.
      intros eps He. destruct (D eps He) as [dd Hd]. exists dd. intros x Hx Hxd. rewrite !Z0. exact (Hd x Hx Hxd). }
    assert (Ed : d = 0%R).
    { eapply uniqueness_limite; [exact Dd|]. pose proof (derivable_pt_lim_const 0%R (phi M j)) as D.
      intros eps He. destruct (D eps He) as [dd Hd]. exists dd. intros x Hx Hxd. rewrite !Z0. exact (Hd x Hx Hxd). }
    assert (Hp : 0 <= k + j * N < N * M) by nia. split.
    + unfold Wt. rewrite nthZ_ztab by auto. rewrite Z.mod_add, Z.mod_small by lia. rewrite Ea, Ed. unfold Rdiv. ring.
    + unfold nthZ. rewrite zget_zmake by auto. rewrite Eb, Ec. unfold Rdiv. ring.
  - exists Vt, Vp, H, st. split; [exact E|]. split; [exact E1|]. split; [exact E2|]. split; [exact E3|]. split; [exact E4|]. intros i q Hi Hq Hd.
    destruct (RR i q Hi Hq Hd) as [-> ->]. assert (0 <= i + N * q < N * M) by (assert (0 <= (q + 1) / 2) by lia; nia). rewrite zonal1_val by auto. split; [reflexivity|]. unfold nthZ. rewrite zget_zmake by auto. reflexivity.
Qed.
