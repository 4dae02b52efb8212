(** * The rectangular disk: statements and examples for Properties_Convert4.v *)
From Coq Require Import ZArith List Lia Bool Reals Lra ZifyBool ZifyNat.
From Verif Require Import Base BaseFacts Arith SpecSum PSum SpecLin MRotations SpecRot MDrivers MHarmonic SpecHarm PHarm4 PPermute MRefBlas PRefBlas PRefFftw
  SpecClassical SpecConn PClass8 PPoly PPenU PPenC PDiag PTransforms2 SpecTransforms MFftw SpecFftw PFftwThms SpecConvert SpecConvert2 SpecConvert4 MTransforms MDense MDense3 PConv5 PConv7 PConv13 PConv16 PConv20 PConv21.
Import ListNotations.
Open Scope Z_scope.

Lemma T_C70_kernel tg be C h : gamma_function tg -> (-1 < be)%R -> rect_family tg be C h ->
  forall (n : Z) (junk : R) (RP : rotplan R) (A : list R) (oA S m1 m2 : Z), plan_rotrectdisk junk n be = Some RP -> 0 <= n -> 1 <= S -> 0 <= m1 <= m2 -> (m2 - m1) mod 2 = 0 ->
  columns_fit A oA S n 1 -> zero_from (n - m2) n A oA S ->
  exists A', kernel_sph_hi2lo givens RP m1 m2 A oA S = Some A' /\ only_columns_changed A A' oA S n 1 /\ zero_from (n - m1) n A' oA S /\
    forall x, (-1 <= x <= 1)%R -> column_series (rect_factor C h) n m1 A' oA S x = column_series (rect_factor C h) n m2 A oA S x.
Proof.
  intros HG Hb HF n junk RP A oA S m1 m2 HR Hn HS Hm Hp Ft HZ. destruct (rect_conv tg be C h HG Hb HF n junk RP A oA S m1 m2 HR Hn HS Hm Hp Ft HZ) as (A' & E & O & Z & X).
  exists A'. repeat (split; [assumption|]). intros x Hx. specialize (X (acos x)). unfold column_series in *.
  transitivity (sumZ n (fun i => nthZ 0 A' (oA + i * S)%Z * rpol C h m1 i (acos x))%R).
  - apply sumZ_ext. intros i Hi. now rewrite (rect_rpol C h m1 i x Hx).
  - rewrite X. apply sumZ_ext. intros i Hi. now rewrite (rect_rpol C h m2 i x Hx).
Qed.
Lemma T_C70_driver tg be C h : gamma_function tg -> (-1 < be)%R -> rect_family tg be C h ->
  forall (junk : R) (N M : Z) (RP : rotplan R) (A : list R), 0 <= N -> plan_rotrectdisk junk N be = Some RP -> triangular N M A ->
  exists A', execute_rectdisk_default (kernel_sph_hi2lo givens RP) N M A = Some A' /\ zlen A' = N * M /\
    forall q, 0 <= q < M -> zero_from (N - q mod 2) N A' (N * q) 1 /\
      forall x, (-1 <= x <= 1)%R -> column_series (rect_factor C h) N (q mod 2) A' (N * q) 1 x = column_series (rect_factor C h) N q A (N * q) 1 x.
Proof.
  intros HG Hb HF junk N M RP A HN HR [LA HZ]. destruct (rect_driver tg be C h HG Hb HF junk N M RP HN HR A LA HZ) as (A' & E & L & K). exists A'. split; [exact E|]. split; [exact L|].
  intros q Hq. destruct (K q Hq) as [K1 K2]. split; [exact K1|]. intros x Hx. specialize (K2 (acos x)). unfold column_series in *.
  transitivity (sumZ N (fun i => nthZ 0 A' (N * q + i * 1)%Z * rpol C h (q mod 2) i (acos x))%R).
  - apply sumZ_ext. intros i Hi. now rewrite (rect_rpol C h (q mod 2) i x Hx).
  - rewrite K2. apply sumZ_ext. intros i Hi. now rewrite (rect_rpol C h q i x Hx).
Qed.
(** ** the families exist *)
Definition ult_h (tg : R -> R) (la : R) : Z -> R := std_ult_norms la (tg (1 / 2) * tg (la + 1 / 2) / tg (la + 1))%R.
Lemma ult_family_exists tg la : gamma_function tg -> (- 1 / 2 < la)%R -> ultraspherical_family tg la (std_ult la) (ult_h tg la).
Proof.
  intros [g1 g2 g3] L. split; [apply std_ult_ok|]. split; [|reflexivity]. apply std_ult_norms_ok; auto. apply Rdiv_lt_0_compat; [apply Rmult_lt_0_compat|]; apply g1; lra.
Qed.
Lemma rect_family_exists tg be : gamma_function tg -> (-1 < be)%R -> rect_family tg be (fun m => std_ult (IZR m + be + 1)) (fun m => ult_h tg (IZR m + be + 1)).
Proof. intros HG Hb m Hm. assert (0 <= IZR m)%R by (now apply IZR_le). apply ult_family_exists; auto; lra. Qed.
Lemma T_C70_plan tg d1 d2 junk jk N be : gamma_function tg -> (tg (1/2) * tg (1/2) = PI)%R -> 0 < N -> (-1 / 2 < be)%R -> gamma_duplication tg (be + 1) -> gamma_duplication tg (be + 1 / 2) ->
  N <= zlen d1 -> N <= zlen d2 -> N <= zlen junk ->
  exists RP P0 P1 P2 Q0 Q1 Q2, plan_rectdisk2cheb_tables 0%R (fun x => x) tg (Rpower 2) PI d1 d2 junk jk N be = Some (RP, (P0, P1, P2), (Q0, Q1, Q2)).
Proof.
  intros HG Hpi HN Hb D1 D2 L1 L2 L3.
  destruct (rect_plan tg d1 d2 junk jk N 1 be HG Hpi ltac:(lia) Hb D1 D2 L1 L2 L3 _ _ _ _ std_cheb (std_ult 1) (rect_family_exists tg be HG ltac:(lra)) (ult_family_exists tg (be + 1 / 2) HG ltac:(lra)) std_cheb_ok (std_ult_ok 1)) as (RP & P0 & P1 & P2 & Q0 & Q1 & Q2 & E & _).
  do 7 eexists. exact E.
Qed.
Lemma T_C70_cheb BL tg d1 d2 junk jk N M be : blas_ok BL -> gamma_function tg -> (tg (1/2) * tg (1/2) = PI)%R -> 0 < M <= N -> (-1 / 2 < be)%R ->
  gamma_duplication tg (be + 1) -> gamma_duplication tg (be + 1 / 2) -> N <= zlen d1 -> N <= zlen d2 -> N <= zlen junk ->
  forall C h Cv hv T U, rect_family tg be C h -> ultraspherical_family tg (be + 1 / 2) Cv hv -> is_chebyshev T -> is_ultraspherical 1 U ->
  forall RP P0 P1 P2 Q0 Q1 Q2, plan_rectdisk2cheb_tables 0%R (fun x => x) tg (Rpower 2) PI d1 d2 junk jk N be = Some (RP, (P0, P1, P2), (Q0, Q1, Q2)) ->
  let hi := execute_rectdisk_default (kernel_sph_hi2lo givens RP) N M in let lo := execute_rectdisk_default (kernel_sph_lo2hi givens_t RP) N M in
  forall A, triangular N M A -> exists A',
    rectdisk2cheb BL hi lo P0 P1 P2 false N M A = Some A' /\
    (forall x y, (-1 <= x <= 1)%R -> rect_cheb_series T U N M A' x y = rectdisk_series C h Cv hv N M A x y) /\
    cheb2rectdisk BL hi lo Q0 Q1 Q2 false N M A' = Some A.
Proof.
  intros OK HG Hpi HM Hb D1 D2 L1 L2 L3 C h Cv hv T U HF HV HT HU RP P0 P1 P2 Q0 Q1 Q2 HP hi lo A SA.
  destruct (rect_cheb BL tg d1 d2 junk jk N M be OK HG Hpi HM Hb D1 D2 L1 L2 L3 C h Cv hv T U HF HV HT HU RP P0 P1 P2 Q0 Q1 Q2 lo A HP SA) as (A' & E' & L' & _ & FS).
  exists A'. split; [exact E'|]. split; [exact FS|].
  exact (rect_back BL tg d1 d2 junk jk N M be OK HG Hpi HM Hb D1 D2 L1 L2 L3 C h Cv hv T U HF HV HT HU RP P0 P1 P2 Q0 Q1 Q2 A A' HP (proj1 SA) E').
Qed.
Lemma T_C70_values BL tg d1 d2 junk jk N M be : blas_ok BL -> gamma_function tg -> (tg (1/2) * tg (1/2) = PI)%R -> 0 < M <= N -> (-1 / 2 < be)%R ->
  gamma_duplication tg (be + 1) -> gamma_duplication tg (be + 1 / 2) -> N <= zlen d1 -> N <= zlen d2 -> N <= zlen junk ->
  forall C h Cv hv, rect_family tg be C h -> ultraspherical_family tg (be + 1 / 2) Cv hv -> forall FT, fftw_ok FT ->
  forall RP P0 P1 P2 Q0 Q1 Q2, plan_rectdisk2cheb_tables 0%R (fun x => x) tg (Rpower 2) PI d1 d2 junk jk N be = Some (RP, (P0, P1, P2), (Q0, Q1, Q2)) ->
  let hi := execute_rectdisk_default (kernel_sph_hi2lo givens RP) N M in let lo := execute_rectdisk_default (kernel_sph_lo2hi givens_t RP) N M in
  forall A, triangular N M A -> exists A' V,
    rectdisk2cheb BL hi lo P0 P1 P2 false N M A = Some A' /\
    rectdisk_synthesis FT false (plan_rectdisk_synthesis N M) N M A' = Some V /\ zlen V = N * M /\
    (forall k j, 0 <= k < N -> 0 <= j < M -> nthZ 0%R V (k + j * N) = rectdisk_series C h Cv hv N M A (rect_x N k) (rect_y N M k j)) /\
    rectdisk_analysis FT false (plan_rectdisk_analysis N M) N M V = Some A' /\
    cheb2rectdisk BL hi lo Q0 Q1 Q2 false N M A' = Some A.
Proof.
  intros OK HG Hpi HM Hb D1 D2 L1 L2 L3 C h Cv hv HF HV FT OF RP P0 P1 P2 Q0 Q1 Q2 HP hi lo A SA. pose proof std_cheb_ok as HT. pose proof (std_ult_ok 1) as HU.
  destruct (rect_cheb BL tg d1 d2 junk jk N M be OK HG Hpi HM Hb D1 D2 L1 L2 L3 C h Cv hv std_cheb (std_ult 1) HF HV HT HU RP P0 P1 P2 Q0 Q1 Q2 lo A HP SA) as (A' & E' & L' & LZ & FS).
  destruct (T_C39_rectdisk FT OF N M ltac:(lia) ltac:(lia) A' L') as (V & EV & LV & VV).
  destruct (T_C38_rectdisk FT OF N M ltac:(lia) ltac:(lia) A' L') as ((V' & EV' & LV' & EA) & _). rewrite EV in EV'. injection EV' as <-.
  exists A', V. split; [exact E'|]. split; [exact EV|]. split; [exact LV|]. split.
  - intros k j Hk Hj. pose proof (theta_range N k Hk) as TR. set (t := theta N k) in *. assert (ST : (0 < sin t)%R) by (apply sin_gt_0; lra).
    rewrite <- FS by (unfold rect_x; apply COS_bound). rewrite (VV k j Hk Hj). unfold rect_cheb_series. apply sumZ_ext. intros z Hz. apply sumZ_ext. intros l Hl.
    unfold rect_x, rect_y. fold t. assert (SQ : sqrt (1 - cos t * cos t) = sin t).
    { pose proof (sin2_cos2 t) as P. unfold Rsqr in P. replace (1 - cos t * cos t)%R with (sin t * sin t)%R by lra. apply sqrt_square. lra. }
    rewrite SQ. replace (sin t * cos (theta M j) / sin t)%R with (cos (theta M j)) by (field; lra). rewrite !(cheb_cos std_cheb HT) by lia. unfold rectdisk_first, cosine, sine.
    destruct (Z.even z) eqn:EZ; [ring|]. rewrite (ult1_sin (std_ult 1) HU) by lia. destruct (Z.eqb_spec l (N - 1)) as [->|]; [rewrite (LZ z Hz EZ)|]; ring.
  - split; [exact EA|].
    exact (rect_back BL tg d1 d2 junk jk N M be OK HG Hpi HM Hb D1 D2 L1 L2 L3 C h Cv hv std_cheb (std_ult 1) HF HV HT HU RP P0 P1 P2 Q0 Q1 Q2 A A' HP (proj1 SA) E').
Qed.

(** ** example: the constant function, be = 0 *)
Lemma dup_1 tg : gamma_function tg -> gamma_duplication tg (0 + 1).
Proof.
  intros [g1 g2 g3]. unfold gamma_duplication. replace (2 * (0 + 1))%R with (1 + 1)%R by ring. replace (0 + 1)%R with 1%R by ring. replace (1 + 1 / 2)%R with (1 / 2 + 1)%R by ring.
  rewrite (g3 (1 / 2)%R), (g3 1%R), g2 by lra. rewrite Rpower_plus, Rpower_1 by lra. field.
Qed.
Lemma dup_half tg : gamma_function tg -> gamma_duplication tg (0 + 1 / 2).
Proof.
  intros [g1 g2 g3]. unfold gamma_duplication. replace (2 * (0 + 1 / 2))%R with 1%R by field. replace (0 + 1 / 2 + 1 / 2)%R with 1%R by field. replace (0 + 1 / 2)%R with (1 / 2)%R by field. rewrite g2, Rpower_1 by lra. ring.
Qed.
Lemma T_C70_example N M : 0 < M <= N -> exists RP P0 P1 P2 Q0 Q1 Q2 A' V,
  plan_rectdisk2cheb_tables 0%R (fun x => x) ex_gamma2 (Rpower 2) PI (zmake N 0%R) (zmake N 0%R) (zmake N 0%R) 0%R N 0%R = Some (RP, (P0, P1, P2), (Q0, Q1, Q2)) /\
  rectdisk2cheb ref_blas (execute_rectdisk_default (kernel_sph_hi2lo givens RP) N M) (execute_rectdisk_default (kernel_sph_lo2hi givens_t RP) N M) P0 P1 P2 false N M (one_coefficient N M) = Some A' /\
  rectdisk_synthesis ref_fftw false (plan_rectdisk_synthesis N M) N M A' = Some V /\
  forall k j, 0 <= k < N -> 0 <= j < M -> nthZ 0%R V (k + j * N) = (/ sqrt PI)%R.
Proof.
  intros HM. destruct ex_gamma2_ok as [HG Hpi]. assert (m : (-1 / 2 < 0)%R) by lra. assert (LZ : N <= zlen (zmake N 0%R)) by (rewrite zlen_zmake; lia).
  destruct (T_C70_plan ex_gamma2 _ _ _ 0%R N 0 HG Hpi ltac:(lia) m (dup_1 _ HG) (dup_half _ HG) LZ LZ LZ) as (RP & P0 & P1 & P2 & Q0 & Q1 & Q2 & E). exists RP, P0, P1, P2, Q0, Q1, Q2.
  assert (m2 : (- 1 / 2 < 0 + 1 / 2)%R) by lra. assert (m1 : (-1 < 0)%R) by lra.
  destruct (T_C70_values ref_blas ex_gamma2 _ _ _ 0%R N M 0 ref_blas_ok HG Hpi HM m (dup_1 _ HG) (dup_half _ HG) LZ LZ LZ _ _ _ _ (rect_family_exists ex_gamma2 0 HG m1) (ult_family_exists ex_gamma2 (0 + 1 / 2) HG m2) ref_fftw ref_ok RP P0 P1 P2 Q0 Q1 Q2 E _ (one_tri N M ltac:(lia) ltac:(lia))) as (A' & V & E1 & E2 & _ & VV & _).
  exists A', V. split; [exact E|]. split; [exact E1|]. split; [exact E2|]. intros k j Hk Hj. rewrite VV by auto. unfold rectdisk_series. rewrite (sum_one N M (fun q i => rect_factor _ _ q i _ * fam true _ _ q _)%R) by lia.
  unfold rect_factor, fam, ult_h. change (Z.to_nat 0) with 0%nat. cbn [pow].
  change (std_ult_norms (0 + 0 + 1) (ex_gamma2 (1 / 2) * ex_gamma2 (0 + 0 + 1 + 1 / 2) / ex_gamma2 (0 + 0 + 1 + 1)) 0) with (ex_gamma2 (1 / 2) * ex_gamma2 (0 + 0 + 1 + 1 / 2) / ex_gamma2 (0 + 0 + 1 + 1))%R.
  change (std_ult_norms (0 + 1 / 2) (ex_gamma2 (1 / 2) * ex_gamma2 (0 + 1 / 2 + 1 / 2) / ex_gamma2 (0 + 1 / 2 + 1)) 0) with (ex_gamma2 (1 / 2) * ex_gamma2 (0 + 1 / 2 + 1 / 2) / ex_gamma2 (0 + 1 / 2 + 1))%R.
  rewrite (ult_0 _ _ (std_ult_ok (0 + 0 + 1))), (ult_0 _ _ (std_ult_ok (0 + 1 / 2))). destruct HG as [g1 g2 g3].
  replace (0 + 0 + 1 + 1 / 2)%R with (1 / 2 + 1)%R by field. replace (0 + 0 + 1 + 1)%R with (1 + 1)%R by ring. replace (0 + 1 / 2 + 1 / 2)%R with 1%R by field. replace (0 + 1 / 2 + 1)%R with (1 / 2 + 1)%R by ring.
  rewrite !(g3 (1 / 2)%R), (g3 1%R), g2 by lra. set (u := ex_gamma2 (1 / 2)) in *. assert (U : (0 < u)%R) by (apply g1; lra).
  replace (u * (1 / 2 * u) / (1 * 1))%R with (u * u / 2)%R by field. rewrite Hpi. replace (u * 1 / (1 / 2 * u))%R with 2%R by (field; lra).
  pose proof PI_RGT_0 as PP. assert (S2 : (0 < sqrt 2)%R) by (apply sqrt_lt_R0; lra). assert (SP : (0 < sqrt PI)%R) by now apply sqrt_lt_R0. rewrite sqrt_div by lra. field. lra.
Qed.
