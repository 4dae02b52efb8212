(** * Values of the gradient and of the curl on the grid *)
From Coq Require Import ZArith List Lia Bool Reals Lra ZifyBool ZifyNat Factorial.
From Verif Require Import Base BaseFacts Arith SpecSum PSum SpecLin MRotations SpecRot PRotPlans PRotThms MDrivers MHarmonic SpecHarm PHarm4 SpecIso MBanded MGrad
  SpecGeo SpecGrad PGrad5 PGrad6 MFftw SpecFftw MRefBlas PRefBlas PRefFftw SpecConvert SpecConvert3 MDense PPermute PConv5 PConv6 PConv7 PConv17.
Import ListNotations.
Open Scope Z_scope.

(** the entries of the columns of order 1, .., h that are not coefficients *)
Definition pad_kept (N h : Z) (x y : list R) : Prop :=
  zlen y = zlen x /\ forall m i, 1 <= m <= h -> N + 1 - m <= i < N -> zget y (N * (2 * m - 1) + i) = zget x (N * (2 * m - 1) + i) /\ zget y (N * (2 * m) + i) = zget x (N * (2 * m) + i).
Lemma cols_pad (body : Z -> list R -> option (list R)) N h x : 1 <= N -> 0 <= h <= N ->
  (forall m y, 1 <= m <= h -> zlen y = zlen x -> exists y', body m y = Some y' /\ only_cols N m (N + 1 - m) y y') ->
  exists x', for_up 1 (h + 1) body x = Some x' /\ pad_kept N h x x'.
Proof.
  intros HN Hh Hb. destruct (for_up_inv (fun k y => pad_kept N h x y) 1 (h + 1) body x) as (x' & E & K).
  - lia.
  - split; auto.
  - intros k y Hk [L K]. destruct (Hb k y ltac:(lia) L) as (y' & E & L' & O'). exists y'. split; [exact E|]. split; [lia|]. intros m i Hm Hi.
    destruct (K m i Hm Hi) as [K1 K2]. split; rewrite O'; auto; destruct (Z.lt_trichotomy m k) as [|[->|]]; nia.
  - exists x'. auto.
Qed.
Lemma gradient_pad N h U Ut Up P : 1 <= N -> 0 <= h <= N -> N * (2 * h + 1) <= zlen U -> N * (2 * h + 1) <= zlen Ut -> N * (2 * h + 1) <= zlen Up ->
  (forall m, 1 <= m <= N -> plan_ok N P m) ->
  exists Ut' Up', execute_sph_gradient P U Ut Up N (2 * h + 1) = Some (Ut', Up') /\ pad_kept N h Ut Ut' /\ pad_kept N h Up Up'.
Proof.
  intros HN Hh HU HUt HUp HP. unfold execute_sph_gradient. replace ((2 * h + 1) / 2) with h by lia.
  destruct (grad_zonal_val U N Ut Up) as (a & b & E & La & Lb & _ & _ & _ & O); try nia. rewrite E. cbn [obind].
  destruct (cols_pad (grad_theta P U N) N h a HN Hh) as (a' & Ea & Ka).
  { intros m y Hm Ly. destruct (grad_theta_val N P m U y ltac:(lia) ltac:(apply HP; lia) ltac:(nia) ltac:(nia)) as (y' & Ey & Oy & _). eauto. }
  rewrite Ea. cbn [obind].
  destruct (cols_pad (grad_phi P U N) N h b HN Hh) as (b' & Eb & Kb).
  { intros m y Hm Ly. destruct (grad_phi_val N P m U y ltac:(lia) ltac:(apply HP; lia) ltac:(nia) ltac:(nia)) as (y' & Ey & Oy & _). eauto. }
  rewrite Eb. cbn [obind]. exists a', b'. split; [reflexivity|]. destruct Ka as [L1 K1], Kb as [L2 K2].
  split; (split; [lia|]); intros m i Hm Hi; [destruct (K1 m i Hm Hi) as [-> ->]|destruct (K2 m i Hm Hi) as [-> ->]]; split; apply O; nia.
Qed.
Lemma pad_vectorial N M h x y : M = 2 * h + 1 -> 1 <= N -> 0 <= h <= N -> vectorial N M x -> pad_kept N h x y -> nthZ 0%R y (N - 1) = 0%R -> vectorial N M y.
Proof.
  intros EM HN Hh [L Z] [L' K] H0. split; [lia|]. intros q Hq i Hi Hi0. specialize (Z q Hq i Hi Hi0). unfold vorder in *.
  destruct (Z.eqb_spec q 0) as [->|Hq0]; [replace (N * 0 + i * 1) with (N - 1) by lia; exact H0|].
  assert (C : exists m, 1 <= m <= h /\ (q = 2 * m - 1 \/ q = 2 * m)) by (exists ((q + 1) / 2); lia).
  destruct C as (m & Hm & Eq). destruct (K m i Hm ltac:(destruct Eq; lia)) as [K1 K2]. rewrite Z.mul_1_r in *. unfold nthZ in *.
  destruct Eq as [-> | ->]; [rewrite K1|rewrite K2]; exact Z.
Qed.
Lemma vectorial_zero N M : 0 <= N -> 0 <= M -> vectorial N M (zmake (N * M) 0%R).
Proof. intros HN HM. split; [apply zlen_zmake; nia|]. intros q Hq i Hi Hi0. unfold nthZ. rewrite zget_zmake by nia. reflexivity. Qed.
Lemma gradient_vectorial N M U Ut Up : 1 <= N -> Z.odd M = true -> 0 <= M / 2 <= N -> zlen U = N * M -> vectorial N M Ut -> vectorial N M Up -> degrees_up_to N M U ->
  exists P Ut' Up', plan_sph_gradient N = Some P /\ execute_sph_gradient P U Ut Up N M = Some (Ut', Up') /\ vectorial N M Ut' /\ vectorial N M Up' /\
    forall t phi, derivable_pt_lim (fun t => harmonic_series sphP N (M / 2) U t phi) t (vector_series N (M / 2) Ut' t phi) /\
                  derivable_pt_lim (fun phi => harmonic_series sphP N (M / 2) U t phi) phi (sin t * vector_series N (M / 2) Up' t phi)%R.
Proof.
  intros HN HM Hh LU VUt VUp HD. pose proof (odd_half M HM) as HM'. set (h := M / 2) in *. pose proof (proj1 VUt) as LUt. pose proof (proj1 VUp) as LUp.
  destruct (plan_val N HN) as (P & EP & HP). destruct (gradient_graded N h U Ut Up HN Hh ltac:(lia) ltac:(lia) ltac:(lia) P HP) as (a & b & E & La & Lb & G).
  destruct (gradient_pad N h U Ut Up P HN Hh ltac:(lia) ltac:(lia) ltac:(lia) HP) as (a' & b' & E' & Ka & Kb). rewrite E in E'. injection E' as <- <-.
  exists P, a, b. split; [exact EP|]. split; [rewrite HM'; exact E|]. pose proof (degrees_last N M h U HM' HN Hh HD) as HZ. pose proof G as (G1 & G2 & G3 & G4).
  split; [exact (pad_vectorial N M h Ut a HM' HN Hh VUt Ka G2)|]. split; [exact (pad_vectorial N M h Up b HM' HN Hh VUp Kb (G3 (N - 1) ltac:(lia)))|].
  intros t p. split; [eapply theta_derivative; eauto|eapply phi_derivative; eauto].
Qed.
Lemma curl_vectorial N M U Ut Up : 1 <= N -> Z.odd M = true -> 0 <= M / 2 <= N -> zlen U = N * M -> vectorial N M Ut -> vectorial N M Up -> degrees_up_to N M U ->
  exists P Ut' Up', plan_sph_gradient N = Some P /\ execute_sph_curl P U Ut Up N M = Some (Ut', Up') /\ vectorial N M Ut' /\ vectorial N M Up' /\
    forall t phi, derivable_pt_lim (fun phi => harmonic_series sphP N (M / 2) U t phi) phi (- (sin t * vector_series N (M / 2) Ut' t phi))%R /\
                  derivable_pt_lim (fun t => harmonic_series sphP N (M / 2) U t phi) t (vector_series N (M / 2) Up' t phi).
Proof.
  intros HN HM Hh LU VUt VUp HD. destruct (gradient_vectorial N M U Up Ut HN HM Hh LU VUp VUt HD) as (P & b & a & EP & E & Vb & Va & G).
  destruct (curl_val P N M U Ut Up a b (proj1 Va) ltac:(unfold zlen in LU; lia) E) as (a' & E' & La' & Wa).
  exists P, a', b. split; [exact EP|]. split; [exact E'|]. pose proof (odd_half M HM) as HM'. split; [|split; [exact Vb|]].
  - split; [exact La'|]. intros q Hq i Hi Hi0. rewrite Wa by nia. rewrite (proj2 Va q Hq i Hi Hi0). ring.
  - intros t phi. destruct (G t phi) as (D1 & D2). split; [|exact D1].
    rewrite (vector_opp N (M / 2) a a' t phi HN Hh) by (intros p Hp; apply Wa; lia). replace (- (sin t * - vector_series N (M / 2) a t phi))%R with (sin t * vector_series N (M / 2) a t phi)%R by ring. exact D2.
Qed.

Section Values.
Variables (BL : blas R) (tgamma : R -> R) (jk : R) (N M : Z).
Hypotheses (OK : blas_ok BL) (HG : gamma_function tgamma) (HN : 0 < N) (HM : 0 <= M) (Ho : M mod 2 = 1).
Variables (FT : fftw R) (Y : list R).
Hypotheses (OF : fftw_ok FT) (LY : zlen Y = 2 * (N * (M / 2 + 1))).
Lemma grid_of RP P0 P1 Q0 Q1 A : plan_sph2fourier_tables 0%R (fun x => x) tgamma jk N = Some (RP, (P0, P1), (Q0, Q1)) -> vectorial N M A ->
  exists V, vector_grid BL FT Y RP P0 P1 N M A = Some V /\ zlen V = N * M /\ forall k j, 0 <= k < N -> 0 <= j < M -> nthZ 0%R V (k + j * N) = vector_series N (M / 2) A (theta N k) (phi M j).
Proof.
  intros E VA. destruct (vector_values BL tgamma jk N M OK HG HN HM Ho FT Y OF LY RP P0 P1 Q0 Q1 E A VA) as (A' & V & E1 & _ & E2 & LV & VV & _).
  exists V. unfold vector_grid. rewrite E1. cbn [obind]. auto.
Qed.
Lemma gradient_grid RP P0 P1 Q0 Q1 U Ut Up : plan_sph2fourier_tables 0%R (fun x => x) tgamma jk N = Some (RP, (P0, P1), (Q0, Q1)) ->
  M / 2 <= N -> spherical N M U -> vectorial N M Ut -> vectorial N M Up ->
  exists P Ut' Up' Vt Vp, plan_sph_gradient N = Some P /\ execute_sph_gradient P U Ut Up N M = Some (Ut', Up') /\
    vector_grid BL FT Y RP P0 P1 N M Ut' = Some Vt /\ vector_grid BL FT Y RP P0 P1 N M Up' = Some Vp /\ zlen Vt = N * M /\ zlen Vp = N * M /\
    forall k j, 0 <= k < N -> 0 <= j < M ->
      derivable_pt_lim (fun t => harmonic_series sphP N (M / 2) U t (phi M j)) (theta N k) (nthZ 0%R Vt (k + j * N)) /\
      derivable_pt_lim (fun p => harmonic_series sphP N (M / 2) U (theta N k) p) (phi M j) (sin (theta N k) * nthZ 0 Vp (k + j * N)%Z)%R.
Proof.
  intros E Hh SU VUt VUp. assert (OM : Z.odd M = true) by (rewrite Zodd_mod, Ho; reflexivity).
  destruct (gradient_vectorial N M U Ut Up) as (P & Ut' & Up' & EP & EG & Vt & Vp & G); auto; try lia.
  { apply SU. }
  { intros i q Hi Hq Hd. pose proof (proj2 SU q Hq i ltac:(lia) ltac:(lia)) as X. replace (i + N * q) with (N * q + i * 1) by lia. exact X. }
  destruct (grid_of _ _ _ _ _ _ E Vt) as (Wt & Et & Lt & Gt). destruct (grid_of _ _ _ _ _ _ E Vp) as (Wp & Ep & Lp & Gp).
  exists P, Ut', Up', Wt, Wp. repeat (split; [assumption|]). intros k j Hk Hj. rewrite Gt, Gp by auto. apply G.
Qed.
Lemma curl_grid RP P0 P1 Q0 Q1 U Ut Up : plan_sph2fourier_tables 0%R (fun x => x) tgamma jk N = Some (RP, (P0, P1), (Q0, Q1)) ->
  M / 2 <= N -> spherical N M U -> vectorial N M Ut -> vectorial N M Up ->
  exists P Ut' Up' Vt Vp, plan_sph_gradient N = Some P /\ execute_sph_curl P U Ut Up N M = Some (Ut', Up') /\
    vector_grid BL FT Y RP P0 P1 N M Ut' = Some Vt /\ vector_grid BL FT Y RP P0 P1 N M Up' = Some Vp /\ zlen Vt = N * M /\ zlen Vp = N * M /\
    forall k j, 0 <= k < N -> 0 <= j < M ->
      derivable_pt_lim (fun p => harmonic_series sphP N (M / 2) U (theta N k) p) (phi M j) (- (sin (theta N k) * nthZ 0 Vt (k + j * N)%Z))%R /\
      derivable_pt_lim (fun t => harmonic_series sphP N (M / 2) U t (phi M j)) (theta N k) (nthZ 0%R Vp (k + j * N)).
Proof.
  intros E Hh SU VUt VUp. assert (OM : Z.odd M = true) by (rewrite Zodd_mod, Ho; reflexivity).
  destruct (curl_vectorial N M U Ut Up) as (P & Ut' & Up' & EP & EG & Vt & Vp & G); auto; try lia.
  { apply SU. }
  { intros i q Hi Hq Hd. pose proof (proj2 SU q Hq i ltac:(lia) ltac:(lia)) as X. replace (i + N * q) with (N * q + i * 1) by lia. exact X. }
  destruct (grid_of _ _ _ _ _ _ E Vt) as (Wt & Et & Lt & Gt). destruct (grid_of _ _ _ _ _ _ E Vp) as (Wp & Ep & Lp & Gp).
  exists P, Ut', Up', Wt, Wp. repeat (split; [assumption|]). intros k j Hk Hj. rewrite Gt, Gp by auto. apply G.
Qed.
End Values.

Definition zonal1 (N M : Z) : list R := 0%R :: 1%R :: zmake (N * M - 2) 0%R.
Lemma zonal1_val N M k : 2 <= N -> 1 <= M -> 0 <= k < N * M -> nthZ 0%R (zonal1 N M) k = if k =? 1 then 1%R else 0%R.
Proof.
  intros HN HM Hk. unfold nthZ, zonal1. destruct (Z.eqb_spec k 1) as [->|]; [reflexivity|]. destruct (Z.eq_dec k 0) as [->|]; [reflexivity|].
  rewrite !zget_cons by lia. rewrite zget_zmake by lia. reflexivity.
Qed.
Lemma zonal1_sph N M : 2 <= N -> 1 <= M -> spherical N M (zonal1 N M).
Proof.
  intros HN HM. split; [unfold zonal1; rewrite !zlen_cons, zlen_zmake; nia|]. intros q Hq i Hi Hi0. rewrite zonal1_val by nia.
  destruct (Z.eqb_spec (N * q + i * 1) 1); [|reflexivity]. exfalso. assert (q = 0) as -> by nia. cbn in Hi. lia.
Qed.
Lemma zonal1_series N M t p : 2 <= N -> 1 <= M -> M mod 2 = 1 -> harmonic_series sphP N (M / 2) (zonal1 N M) t p = (sqrt (3 / (4 * PI)) * cos t)%R.
Proof.
  intros HN HM Ho. assert (PP := PI_RGT_0). unfold harmonic_series.
  rewrite (sumZ_zero (M / 2)).
  2:{ intros k Hk. cbv zeta. apply sumZ_zero. intros i Hi. rewrite !zonal1_val by nia. replace (_ =? 1) with false by nia. replace (_ =? 1) with false by nia. ring. }
  rewrite (sumZ_split N 2) by lia. rewrite (sumZ_zero (N - 2)) by (intros i Hi; rewrite zonal1_val by nia; replace (2 + i =? 1) with false by lia; ring).
  change 2 with (0 + 1 + 1) at 1. rewrite !sumZ_S by lia. rewrite sumZ_0 by lia. rewrite !zonal1_val by nia. cbn [Z.eqb Z.add Pos.eqb]. rewrite !Rmult_0_r, !Rplus_0_r, !Rplus_0_l, Rmult_1_r.
  unfold sphP. change (Z.to_nat 0) with 0%nat. change (Z.to_nat 1) with 1%nat. change (Z.to_nat (2 * 0 + 1)) with 1%nat. cbn [Z.eqb]. change (fact 1) with 1%nat. change (INR 1) with 1%R.
  unfold legendre2. cbn [fst oddfact pow INR plus]. change (0 + 1)%Z with 1%Z.
  replace (sqrt ((1 + 1 / 2) * (1 / 1)))%R with (sqrt (3/2)) by (f_equal; field).
  match goal with |- (sqrt (3/2) * ?L * sqrt ?X)%R = _ => replace (sqrt (3/2) * L * sqrt X)%R with (sqrt (3/2) * sqrt X * L)%R by ring end.
  rewrite <- sqrt_mult by (try lra; apply Rlt_le, Rdiv_lt_0_compat; lra). f_equal; [f_equal; field; lra|]. field.
Qed.
Lemma T_C68_example N M : 2 <= N -> 0 <= M / 2 <= N -> M mod 2 = 1 -> 0 <= M -> exists RP P0 P1 Q0 Q1 P Ut Up Vt Vp,
  plan_sph2fourier_tables 0%R (fun x => x) ex_gamma 0%R N = Some (RP, (P0, P1), (Q0, Q1)) /\ plan_sph_gradient N = Some P /\
  execute_sph_gradient P (0%R :: 1%R :: zmake (N * M - 2) 0%R) (zmake (N * M) 0%R) (zmake (N * M) 0%R) N M = Some (Ut, Up) /\
  let grid := vector_grid ref_blas ref_fftw (zmake (2 * (N * (M / 2 + 1))) 0%R) RP P0 P1 N M in
  grid Ut = Some Vt /\ grid Up = Some Vp /\
  forall k j, 0 <= k < N -> 0 <= j < M -> nthZ 0%R Vt (k + j * N) = (- sqrt (3 / (4 * PI)) * sin (theta N k))%R /\ (sin (theta N k) * nthZ 0 Vp (k + j * N)%Z)%R = 0%R.
Proof.
  intros HN Hh Ho HM. assert (HM1 : 1 <= M) by lia.
  destruct (sphere_plan ex_gamma 0%R N M ex_gamma_ok ltac:(lia)) as (RP & P0 & P1 & Q0 & Q1 & E & _). exists RP, P0, P1, Q0, Q1.
  destruct (gradient_grid ref_blas ex_gamma 0%R N M ref_blas_ok ex_gamma_ok ltac:(lia) HM Ho ref_fftw (zmake (2 * (N * (M / 2 + 1))) 0%R) ref_ok ltac:(apply zlen_zmake; nia)
    RP P0 P1 Q0 Q1 (zonal1 N M) (zmake (N * M) 0%R) (zmake (N * M) 0%R) E ltac:(lia) (zonal1_sph N M HN HM1) (vectorial_zero N M ltac:(lia) HM) (vectorial_zero N M ltac:(lia) HM))
    as (P & Ut & Up & Vt & Vp & EP & EG & Et & Ep & _ & _ & G).
  exists P, Ut, Up, Vt, Vp. split; [exact E|]. split; [exact EP|]. split; [exact EG|]. split; [exact Et|]. split; [exact Ep|]. intros k j Hk Hj. destruct (G k j Hk Hj) as [D1 D2].
  split.
  - eapply uniqueness_limite; [exact D1|].
    replace (- sqrt (3 / (4 * PI)) * sin (theta N k))%R with (sqrt (3 / (4 * PI)) * - sin (theta N k))%R by ring.
    pose proof (derivable_pt_lim_scal cos (sqrt (3 / (4 * PI))) (theta N k) (- sin (theta N k)) (derivable_pt_lim_cos _)) as D.
    intros eps He. destruct (D eps He) as [d Hd]. exists d. intros x Hx Hxd. rewrite !zonal1_series by auto. exact (Hd x Hx Hxd).
  - eapply uniqueness_limite; [exact D2|].
    pose proof (derivable_pt_lim_const (sqrt (3 / (4 * PI)) * cos (theta N k))%R (phi M j)) as D.
    intros eps He. destruct (D eps He) as [d Hd]. exists d. intros x Hx Hxd. rewrite !zonal1_series by auto. exact (Hd x Hx Hxd).
Qed.

Lemma T_C68_padding N M U Ut Up : 1 <= N -> Z.odd M = true -> 0 <= M / 2 <= N -> zlen U = N * M -> zlen Ut = N * M -> zlen Up = N * M ->
  exists P Ut' Up', plan_sph_gradient N = Some P /\ execute_sph_gradient P U Ut Up N M = Some (Ut', Up') /\
    forall q i, 0 < q < M -> N - vorder q <= i < N -> nthZ 0%R Ut' (N * q + i) = nthZ 0%R Ut (N * q + i) /\ nthZ 0%R Up' (N * q + i) = nthZ 0%R Up (N * q + i).
Proof.
  intros HN HM Hh LU LUt LUp. pose proof (odd_half M HM) as HM'. set (h := M / 2) in *.
  destruct (plan_val N HN) as (P & EP & HP). destruct (gradient_pad N h U Ut Up P HN Hh ltac:(lia) ltac:(lia) ltac:(lia) HP) as (a & b & E & [_ Ka] & [_ Kb]).
  exists P, a, b. split; [exact EP|]. split; [rewrite HM'; exact E|]. intros q i Hq Hi. unfold vorder in Hi. replace (q =? 0) with false in Hi by lia.
  assert (C : exists m, 1 <= m <= h /\ (q = 2 * m - 1 \/ q = 2 * m)) by (exists ((q + 1) / 2); lia).
  destruct C as (m & Hm & Eq). destruct (Ka m i Hm ltac:(destruct Eq; lia)) as [K1 K2]. destruct (Kb m i Hm ltac:(destruct Eq; lia)) as [K3 K4]. unfold nthZ.
  destruct Eq as [-> | ->]; [now rewrite K1, K3|now rewrite K2, K4].
Qed.
