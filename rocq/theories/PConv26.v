(** * The tetrahedron with other gamma, delta: the function is not kept *)
From Coq Require Import ZArith List Lia Bool Reals Lra ZifyBool ZifyNat.
From Verif Require Import Base BaseFacts Arith SpecSum PSum SpecLin MRotations SpecRot PRotPlans PRotThms MDrivers MHarmonic SpecHarm PHarm4 PPermute MRefBlas PRefBlas PRefFftw
  SpecClassical SpecConn PClass8 PPoly PPenU PPenC PDiag PTransforms2 PTransforms3 SpecTransforms MFftw SpecFftw PFftwThms SpecConvert SpecConvert2 SpecConvert5 PConv3 PConv4 MTransforms MDense MDense2 MDense4 PDense PDense2 PConv5 PConv11 PConv12 PConv13 PConv16 PConv23 PConv24 PConv25.
Import ListNotations.
Open Scope Z_scope.

Lemma sumZ2 f : sumZ 2 f = (f 0%Z + f 1%Z)%R.
Proof. change 2 with (0 + 1 + 1). rewrite !sumZ_S, sumZ_0 by lia. cbn. ring. Qed.
Lemma sumZ1 f : sumZ 1 f = f 0%Z.
Proof. change 1 with (0 + 1). rewrite sumZ_S, sumZ_0 by lia. ring. Qed.
Lemma hi_id RP0 RP1 (A : list R) : execute_tet_hi2lo (kernel_tri_hi2lo givens RP0) (kernel_tet_hi2lo givens RP1) 2 1 2 A = Some A.
Proof. reflexivity. Qed.
Lemma corner V (X Y : Z -> R -> R) : table 2 V X Y -> (forall x, X 0 x <> 0%R) -> utri 2 V 0 0 <> 0%R.
Proof.
  intros T HX E. apply (HX 0%R). rewrite (utri_mat 2 V X Y) in E by (auto; lia). destruct T as [_ [C1 C2]]. rewrite (C2 0 0%R) by lia. unfold expansion. rewrite sumZ2, E, (C1 1 0) by lia. ring.
Qed.
Lemma fam0_nz a b X c t : jacobi_family t (Rpower 2) a b X c -> forall x, fam true X c 0 x <> 0%R.
Proof.
  intros (A1 & A2 & _) x. unfold fam. rewrite (jac_0 _ _ _ A1). assert (0 < sqrt (c 0%Z))%R by (apply sqrt_lt_R0; apply A2). apply Rgt_not_eq. apply Rdiv_lt_0_compat; lra.
Qed.
Lemma T_C71_refuted : ~ (forall (BL : blas R) (tg : R -> R) (d1 d2 : list R) (jk : R) (N L : Z) (al be ga de : R), blas_ok BL -> gamma_function tg -> (tg (1/2) * tg (1/2) = PI)%R -> 0 < L <= N -> (-1 < al)%R -> (-1 < be)%R -> (-1 < ga)%R -> (-1 < de)%R -> N <= zlen d1 -> N <= zlen d2 ->
  forall P h Q g W e T, triangle_family tg (Rpower 2) al be (ga + de + 1) P h -> triangle_family tg (Rpower 2) be ga de Q g -> jacobi_family tg (Rpower 2) de ga W e -> is_chebyshev T ->
  forall RP0 RP1 P0 P1 P2 Q0 Q1 Q2, plan_tet2cheb_tables 0%R (fun x => x) tg (Rpower 2) d1 d2 jk N al be ga de = Some (RP0, RP1, (P0, P1, P2), (Q0, Q1, Q2)) ->
  let hi := execute_tet_hi2lo (kernel_tri_hi2lo givens RP0) (kernel_tet_hi2lo givens RP1) N L N in
  let lo := execute_tet_lo2hi (kernel_tri_lo2hi givens_t RP0) (kernel_tet_lo2hi givens_t RP1) N L N in
  forall A, tet_array N L N A -> exists A',
    tet2cheb BL hi lo (chebyshev_normalization_3d (/ sqrt 2)%R (2 / PI * sqrt (2 / PI))%R N L N) (tet_flag0 al be ga de) (tet_flag1 be ga de) (tet_flag2 ga de) P0 P1 P2 false N L N A = Some A' /\
    (forall x y z, product_series3 T T T N L N A' x y z = tet_series P h Q g W e N L N A x y z)).
Proof.
  intros H. destruct ex_gamma2_ok as [HG Hpi]. assert (m : (-1 < 0)%R) by lra. assert (mh : (-1 < -1/2)%R) by lra.
  set (d := zmake 2 0%R). assert (LZ : 2 <= zlen d) by (unfold d; rewrite zlen_zmake; lia).
  pose proof (tri_family_exists ex_gamma2 0 0 (-1/2 + 0 + 1) HG m m ltac:(lra)) as HF. pose proof (tri_family_exists ex_gamma2 0 (-1/2) 0 HG m mh m) as HQ. pose proof (family_exists ex_gamma2 0 (-1/2) HG m mh) as HW.
  assert (HL : 0 < 1 <= 2) by lia.
  destruct (tet_plan ex_gamma2 d d 0%R 2 1 0 0 (-1/2) 0 HG Hpi HL m m mh m LZ LZ _ _ _ _ _ _ std_cheb HF HQ HW std_cheb_ok) as (RP0 & RP1 & P0 & P1 & P2 & Q0 & Q1 & Q2 & E & _ & _ & _ & _ & T0 & T1 & T2 & _).
  set (A := [1; 0; 0; 0]%R).
  assert (HA : tet_array 2 1 2 A).
  { split; [reflexivity|]. intros l q Hl Hq i Hi H0. assert (l = 0) as -> by lia. assert (C : q = 0 \/ q = 1) by lia. destruct C as [-> | ->].
    - cbn in Hi. lia.
    - assert (C : i = 0 \/ i = 1) by (cbn in Hi; lia). destruct C as [-> | ->]; reflexivity. }
  destruct (H ref_blas ex_gamma2 d d 0%R 2 1 0%R 0%R (-1/2)%R 0%R ref_blas_ok HG Hpi HL m m mh m LZ LZ _ _ _ _ _ _ std_cheb HF HQ HW std_cheb_ok RP0 RP1 P0 P1 P2 Q0 Q1 Q2 E A HA) as (A' & E' & FS). clear H.
  set (lo := execute_tet_lo2hi (kernel_tri_lo2hi givens_t RP0) (kernel_tet_lo2hi givens_t RP1) 2 1 2) in *.
  destruct (H35_tet ref_blas ref_blas_ok _ lo P0 P1 P2 (tet_flag0 0 0 (-1/2) 0)%R (tet_flag1 0 (-1/2) 0)%R (tet_flag2 (-1/2) 0)%R 2 1 A A HL (proj1 T0) (proj1 T1) (proj1 T2) (hi_id RP0 RP1 A) eq_refl) as (A2 & A3 & A4 & A'' & E'' & C0 & C1 & C2 & (L' & S2)).
  rewrite E' in E''. injection E'' as <-.
  assert (F0 : tet_flag0 0%R 0%R (-1/2)%R 0%R = true).
  { unfold tet_flag0. cbn [eqb R_arith add opp div ofZ]. unfold R_eqb. destruct (Req_EM_T (0 + -1 / 2 + 0) (- (5 / 2))) as [e1|]; [lra|reflexivity]. }
  assert (F1 : tet_flag1 0%R (-1/2)%R 0%R = true).
  { unfold tet_flag1. cbn [eqb R_arith add opp div ofZ]. unfold R_eqb. destruct (Req_EM_T (-1 / 2 + 0) (- (3 / 2))) as [e1|]; [lra|reflexivity]. }
  assert (F2 : tet_flag2 (-1/2)%R 0%R = true).
  { unfold tet_flag2. cbn [eqb R_arith add opp div ofZ]. unfold half, R_eqb. cbn [div ofZ R_arith]. destruct (Req_EM_T 0 (- (1 / 2))) as [e1|]; [lra|reflexivity]. }
  rewrite F0 in C0. rewrite F1 in C1. rewrite F2 in C2.
  (* the entries *)
  assert (K0 : utri 2 P0 0 0 <> 0%R). { eapply corner; [exact T0|]. exact (fam0_nz _ _ _ _ _ (HF 0 ltac:(lia))). }
  assert (K1 : utri 2 P1 0 0 <> 0%R). { eapply corner; [exact T1|]. exact (fam0_nz _ _ _ _ _ (HQ 0 ltac:(lia))). }
  assert (K2 : utri 2 P2 0 1 <> 0%R).
  { intros Z. rewrite (utri_mat 2 P2 _ _ 0 1 T2) in Z by lia. destruct T2 as [_ [_ U]]. pose proof (U 1 1%R ltac:(lia)) as U1. pose proof (U 1 (-1)%R ltac:(lia)) as U2. unfold expansion in U1, U2. rewrite !sumZ2, Z in U1, U2.
    destruct HW as (W1 & W2 & _). unfold fam in U1, U2. rewrite !(jac_1 _ _ _ W1) in *. rewrite !(che_1 _ std_cheb_ok) in *.
    assert (SP : (0 < sqrt (fam_h ex_gamma2 0 (-1/2) 1%Z))%R) by (apply sqrt_lt_R0; pose proof (jn_0 _ _ _ W2); pose proof (jn_1 _ _ _ W2); lra).
    set (s := sqrt (fam_h ex_gamma2 0 (-1/2) 1%Z)) in *. set (t := (1 / sqrt (hT ex_gamma2 1%Z))%R) in *.
    assert (B : ((0 + 1 + (0 + -1 / 2 + 2) * (1 - 1) / 2) / s + (0 + 1 + (0 + -1 / 2 + 2) * (-1 - 1) / 2) / s = 0)%R) by (rewrite U1, U2; unfold t, Rdiv; ring).
    apply (Rmult_eq_compat_r s) in B. field_simplify in B; lra. }
  assert (FC : forall w, fam true (std_jacobi 0 (-1/2)) (fam_h ex_gamma2 0 (-1/2)) 0 w = (1 / sqrt (fam_h ex_gamma2 0 (-1/2) 0%Z))%R) by (intros w; unfold fam; now rewrite (jac_0 _ _ _ (proj1 HW))).
  assert (V : forall z, product_series3 std_cheb std_cheb std_cheb 2 1 2 A' 0 0 z = product_series3 std_cheb std_cheb std_cheb 2 1 2 A' 0 0 0).
  { intros z. rewrite !FS. unfold tet_series. rewrite !sumZ2, !sumZ1, !sumZ2. cbn [Z.add Z.mul Z.of_nat Pos.mul Pos.add].
    change (nthZ 0%R A 0) with 1%R. change (nthZ 0%R A 1) with 0%R. change (nthZ 0%R A 2) with 0%R. change (nthZ 0%R A 3) with 0%R.
    rewrite !FC. ring. }
  specialize (V 1%R). unfold product_series3 in V. rewrite !sumZ2, !sumZ1, !sumZ2 in V. rewrite !(che_0 _ std_cheb_ok), !(che_1 _ std_cheb_ok) in V.
  destruct C0 as (_ & _ & C0). destruct C1 as (_ & _ & C1). destruct C2 as (_ & _ & C2). unfold entry in C0, C1, C2.
  assert (X : nthZ 0%R A' 2 <> 0%R /\ nthZ 0%R A' 3 = 0%R).
  { pose proof (S2 0 0 1 ltac:(lia) ltac:(lia) ltac:(lia)) as Y0. pose proof (S2 1 0 1 ltac:(lia) ltac:(lia) ltac:(lia)) as Y1. cbn [Z.add Z.mul Pos.mul Pos.add Z.eqb Pos.eqb] in Y0, Y1. rewrite Y0, Y1.
    pose proof (C2 0 1 0 ltac:(lia) ltac:(lia) ltac:(lia)) as D0. pose proof (C2 1 1 0 ltac:(lia) ltac:(lia) ltac:(lia)) as D1. rewrite !sumZ2 in D0, D1. unfold transp in D0, D1. cbn [Z.add Z.mul Pos.mul Pos.add] in D0, D1. rewrite D0, D1.
    pose proof (C1 0 0 0 ltac:(lia) ltac:(lia) ltac:(lia)) as B0. pose proof (C1 1 0 0 ltac:(lia) ltac:(lia) ltac:(lia)) as B1. pose proof (C1 0 0 1 ltac:(lia) ltac:(lia) ltac:(lia)) as B2. pose proof (C1 1 0 1 ltac:(lia) ltac:(lia) ltac:(lia)) as B3. rewrite !sumZ1 in B0, B1, B2, B3. cbn [Z.add Z.mul Pos.mul Pos.add] in B0, B1, B2, B3. rewrite B0, B1, B2, B3.
    pose proof (C0 0 0 0 ltac:(lia) ltac:(lia) ltac:(lia)) as G0. pose proof (C0 0 1 0 ltac:(lia) ltac:(lia) ltac:(lia)) as G1. pose proof (C0 0 0 1 ltac:(lia) ltac:(lia) ltac:(lia)) as G2. pose proof (C0 0 1 1 ltac:(lia) ltac:(lia) ltac:(lia)) as G3. rewrite !sumZ2 in G0, G1, G2, G3. cbn [Z.add Z.mul Pos.mul Pos.add] in G0, G1, G2, G3. rewrite G0, G1, G2, G3.
    change (nthZ 0%R A 0) with 1%R. change (nthZ 0%R A 1) with 0%R. change (nthZ 0%R A 2) with 0%R. change (nthZ 0%R A 3) with 0%R. change (utri 2 P0 1 0) with 0%R.
    split; [|ring]. pose proof PI_RGT_0. assert (0 < 2 / PI)%R by (apply Rdiv_lt_0_compat; lra). assert (0 < sqrt (2 / PI))%R by now apply sqrt_lt_R0. assert (0 < / sqrt 2)%R by (apply Rinv_0_lt_compat, sqrt_lt_R0; lra).
    replace (_ * _)%R with ((2 / PI) * sqrt (2 / PI) * / sqrt 2 * / sqrt 2 * (utri 2 P2 0 1 * (utri 2 P1 0 0 * utri 2 P0 0 0)))%R by ring.
    repeat apply Rmult_integral_contrapositive_currified; auto; lra. }
  destruct X as [X1 X2]. cbn [Z.add Z.mul Pos.mul Pos.add] in V. rewrite X2 in V. apply X1. field_simplify in V. lra.
Qed.
