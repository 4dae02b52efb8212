(** * The tetrahedron: the planner, and the conversion for gamma = delta = -1/2 *)
From Coq Require Import ZArith List Lia Bool Reals Lra ZifyBool ZifyNat.
From Verif Require Import Base BaseFacts Arith SpecSum PSum SpecLin MRotations SpecRot PRotPlans PRotThms MDrivers MHarmonic SpecHarm PHarm4
  SpecClassical SpecConn PClass8 PPoly PPenU PPenC PDiag PTransforms2 SpecTransforms MFftw SpecFftw PFftwThms SpecConvert SpecConvert2 SpecConvert5 PConv3 PConv4 MTransforms MDense MDense2 MDense4 PDense PDense2 PConv5 PConv11 PConv12 PConv13 PConv23.
Import ListNotations.
Open Scope Z_scope.

Section Tet.
Variables (BL : blas R) (tg : R -> R) (d1 d2 : list R) (jk : R) (N L : Z) (al be ga de : R).
Hypotheses (OK : blas_ok BL) (HG : gamma_function tg) (Hpi : (tg (1/2) * tg (1/2) = PI)%R) (HL : 0 < L <= N)
  (Ha : (-1 < al)%R) (Hb : (-1 < be)%R) (Hg : (-1 < ga)%R) (Hd : (-1 < de)%R) (L1 : N <= zlen d1) (L2 : N <= zlen d2).
Let idR := fun x : R => x.
Variables (P : Z -> Z -> R -> R) (h : Z -> Z -> R) (Q : Z -> Z -> R -> R) (g : Z -> Z -> R) (W : Z -> R -> R) (e : Z -> R) (T : Z -> R -> R).
Hypotheses (HF : triangle_family tg (Rpower 2) al be (ga + de + 1) P h) (HQ : triangle_family tg (Rpower 2) be ga de Q g) (HW : jacobi_family tg (Rpower 2) de ga W e) (HT : is_chebyshev T).
Local Notation hT := (hT tg).

Lemma pair_tables a b X c : (-1 < a)%R -> (-1 < b)%R -> jacobi_family tg (Rpower 2) a b X c -> exists V Vi,
  dense_jacobi_to_jacobi 0%R idR tg (Rpower 2) d1 d2 true true N a b (opp half) (opp half) = Some V /\
  dense_jacobi_to_jacobi 0%R idR tg (Rpower 2) d1 d2 true true N (opp half) (opp half) a b = Some Vi /\
  table N V (fam true X c) (fam true T hT) /\ inverse_tables N V Vi.
Proof.
  intros Ka Kb (A1 & A2 & A3). destruct (hT_ok tg Hpi) as [T1 T2]. assert (HN0 : 0 <= N) by lia. pose proof (special_pow tg HG) as SP. assert (Hpi' : PI = (tg (1/2) * tg (1/2))%R) by auto.
  destruct (jac2che_dense tg (Rpower 2) SP PI d1 d2 (zmake N 0%R) N HN0 L1 L2 ltac:(rewrite zlen_zmake; lia) Hpi' true true a b X T c hT Ka Kb A1 HT A2 T1 A3 T2) as (P0 & E0 & T0').
  destruct (che2jac_dense tg (Rpower 2) SP PI d1 d2 (zmake N 0%R) N HN0 L1 L2 ltac:(rewrite zlen_zmake; lia) Hpi' true true a b T X hT c Ka Kb HT A1 T1 A2 T2 A3) as (Q0 & E2 & T2').
  assert (U : forall X Y : option (list R), (do V <- X; Some V) = Y -> X = Y) by (intros [x|] Y; auto).
  unfold dense_jacobi_to_chebyshev, dense_chebyshev_to_jacobi in E0, E2. apply U in E0, E2.
  exists P0, Q0. split; [exact E0|]. split; [exact E2|]. split; [exact T0'|].
  apply (tables_inverse N P0 Q0 _ _ HN0 T0' T2').
  - apply (jac_one true true N a b a b); auto; lra.
  - apply (one_conn N true true _ _ T T hT hT (cheb_graded _ N HT) (cheb_graded _ N HT)); apply chn_pos; auto.
Qed.
Lemma fam_P : jacobi_family tg (Rpower 2) (be + ga + de + 2) al (P 0) (h 0).
Proof. pose proof (HF 0 ltac:(lia)) as X. replace (2 * 0 + be + (ga + de + 1) + 1)%R with (be + ga + de + 2)%R in X by ring. exact X. Qed.
Lemma fam_Q : jacobi_family tg (Rpower 2) (ga + de + 1) be (Q 0) (g 0).
Proof. pose proof (HQ 0 ltac:(lia)) as X. replace (2 * 0 + ga + de + 1)%R with (ga + de + 1)%R in X by ring. exact X. Qed.
Lemma tet_plan : exists RP0 RP1 P0 P1 P2 Q0 Q1 Q2, plan_tet2cheb_tables 0%R idR tg (Rpower 2) d1 d2 jk N al be ga de = Some (RP0, RP1, (P0, P1, P2), (Q0, Q1, Q2)) /\
  plan_rottriangle jk N al be (ga + de + 1)%R = Some RP0 /\ plan_rottriangle jk N be ga de = Some RP1 /\ 
  (rp_n RP0 = N /\ tri_tables RP0 /\ unit_tri RP0) /\ (rp_n RP1 = N /\ tri_tables RP1 /\ unit_tri RP1) /\
  table N P0 (fam true (P 0) (h 0)) (fam true T hT) /\ table N P1 (fam true (Q 0) (g 0)) (fam true T hT) /\ table N P2 (fam true W e) (fam true T hT) /\
  inverse_tables N P0 Q0 /\ inverse_tables N P1 Q1 /\ inverse_tables N P2 Q2.
Proof.
  assert (HN0 : 0 <= N) by lia. assert (Hgd : (-1 < ga + de + 1)%R) by lra.
  destruct (rottriangle_ok N jk al be (ga + de + 1) HN0 Ha Hb Hgd) as (RP0 & E & _). pose proof (planned_tri N jk al be (ga + de + 1) RP0 HN0 Ha Hb Hgd E) as R0.
  destruct (rottriangle_ok N jk be ga de HN0 Hb Hg Hd) as (RP1 & E' & _). pose proof (planned_tri N jk be ga de RP1 HN0 Hb Hg Hd E') as R1.
  destruct (pair_tables (be + ga + de + 2) al (P 0) (h 0) ltac:(lra) Ha fam_P) as (P0 & Q0 & E1 & E2 & T0 & I0).
  destruct (pair_tables (ga + de + 1) be (Q 0) (g 0) ltac:(lra) Hb fam_Q) as (P1 & Q1 & E3 & E4 & T1 & I1).
  destruct (pair_tables de ga W e Hd Hg HW) as (P2 & Q2 & E5 & E6 & T2 & I2).
  exists RP0, RP1, P0, P1, P2, Q0, Q1, Q2. unfold plan_tet2cheb_tables. cbn [add ofZ R_arith]. rewrite E, E'. cbn [obind]. rewrite E1, E3, E5. cbn [obind]. rewrite E2, E4, E6. cbn [obind].
  repeat (split; [solve [auto]|]). auto.
Qed.
Local Notation hi RP0 RP1 := (execute_tet_hi2lo (kernel_tri_hi2lo givens RP0) (kernel_tet_hi2lo givens RP1) N L N).
Local Notation lo RP0 RP1 := (execute_tet_lo2hi (kernel_tri_lo2hi givens_t RP0) (kernel_tet_lo2hi givens_t RP1) N L N).
Lemma tet_cheb RP0 RP1 P0 P1 P2 Q0 Q1 Q2 lo A : ga = (-1/2)%R -> de = (-1/2)%R ->
  plan_tet2cheb_tables 0%R idR tg (Rpower 2) d1 d2 jk N al be ga de = Some (RP0, RP1, (P0, P1, P2), (Q0, Q1, Q2)) -> tet_array N L N A -> exists A',
  tet2cheb BL (hi RP0 RP1) lo (chebyshev_normalization_3d (/ sqrt 2)%R (2 / PI * sqrt (2 / PI))%R N L N) (tet_flag0 al be ga de) (tet_flag1 be ga de) (tet_flag2 ga de) P0 P1 P2 false N L N A = Some A' /\
  zlen A' = N * L * N /\ forall x y z, product_series3 T T T N L N A' x y z = tet_series P h Q g W e N L N A x y z.
Proof.
  intros Eg Ed E0 HA. destruct tet_plan as (RP0' & RP1' & P0' & P1' & P2' & Q0' & Q1' & Q2' & E & ER0 & ER1 & _ & _ & T0 & T1 & T2 & _). rewrite E0 in E. injection E as <- <- <- <- <- <- <- <-.
  destruct (tet_driver tg (Rpower 2) al be ga de P h Q g HG pow2_ok Ha Hb Hg Hd HF HQ jk jk N L N RP0 RP1 ltac:(lia) ltac:(lia) ER0 ER1 A ltac:(lia) HA) as (A1 & E1 & LA1 & K).
  assert (LA1' : zlen A1 = N * L * N) by (rewrite LA1; ring).
  assert (F0 : tet_flag0 al be ga de = true).
  { unfold tet_flag0. cbn [eqb R_arith add opp div ofZ]. unfold R_eqb. destruct (Req_EM_T (be + ga + de) (- (5 / 2))) as [e1|]; [lra|reflexivity]. }
  assert (F1 : tet_flag1 be ga de = true).
  { unfold tet_flag1. cbn [eqb R_arith add opp div ofZ]. unfold R_eqb. destruct (Req_EM_T (ga + de) (- (3 / 2))) as [e1|]; [lra|reflexivity]. }
  assert (F2 : tet_flag2 ga de = false).
  { unfold tet_flag2. cbn [eqb R_arith add opp div ofZ]. unfold half, R_eqb. cbn [div ofZ R_arith]. destruct (Req_EM_T de (- (1 / 2))) as [e1|]; [|lra]. destruct (Req_EM_T ga (- (1 / 2))) as [e2|]; [reflexivity|lra]. }
  destruct (H35_tet BL OK _ lo P0 P1 P2 (tet_flag0 al be ga de) (tet_flag1 be ga de) (tet_flag2 ga de) N L A A1 HL (proj1 T0) (proj1 T1) (proj1 T2) E1 LA1') as (A2 & A3 & A4 & A' & E' & C0 & C1 & C2 & (L' & S2)).
  exists A'. split; [exact E'|]. split; [exact L'|]. intros x y z. rewrite F0 in C0. rewrite F1 in C1. rewrite F2 in C2. subst A4.
  rewrite (tet_slices P h Q g N L N).
  set (u := (2 * x - 1)%R). set (v := (2 * (y / (1 - x)) - 1)%R). set (w := (2 * (z / (1 - x - y)) - 1)%R). set (f := fam true T hT).
  assert (FW : forall m, 0 <= m -> fam true W e m w = f m w).
  { intros m Hm. destruct HW as (B1 & B2 & B3). destruct (hT_ok tg Hpi) as [U1 U2]. assert (Eg' : ga = (- (1 / 2))%R) by lra. assert (Ed' : de = (- (1 / 2))%R) by lra. rewrite Eg', Ed' in B1, B2, B3.
    apply jac_che_fam; auto. rewrite B3, U2. apply PTransforms3.che_mass. now apply special_pow. }
  unfold product_series3. fold u v w. apply sumZ_ext. intros m Hm.
  transitivity (sumZ L (fun l => sumZ N (fun k => nthZ 0 A3 (N * L * m + N * l + k)%Z * f k u)%R * f l v)%R * f m w)%R.
  { rewrite <- sumZ_scal_r. apply sumZ_ext. intros l Hl. rewrite <- !sumZ_scal_r. apply sumZ_ext. intros k Hk.
    replace (k + N * (l + L * m)) with (k + (l + m * L) * N) by ring. rewrite S2 by auto. replace (N * L * m + N * l + k) with (k + (l + m * L) * N) by ring.
    unfold f. rewrite <- !(norm_ch tg ga Hpi T) by lia.
    pose proof PI_RGT_0 as PP. assert (SS : (sqrt (2 / PI) * sqrt (2 / PI) = 2 / PI)%R) by (apply sqrt_sqrt; apply Rlt_le, Rdiv_lt_0_compat; lra). set (s := sqrt (2 / PI)) in *. rewrite <- SS. ring. }
  rewrite FW by lia. f_equal. rewrite (slice_swap (fun k => f k u) (fun l => f l v)).
  transitivity (sumZ N (fun k => sumZ L (fun l => nthZ 0 A2 (N * L * m + N * l + k)%Z * fam true (Q 0) (g 0) l v)%R * f k u)%R).
  { apply sumZ_ext. intros k Hk. f_equal. destruct C1 as (_ & _ & V).
    apply (table_sum_sub N L P1 _ _ (fun l => nthZ 0%R A2 (N * L * m + N * l + k)) (fun l => nthZ 0%R A3 (N * L * m + N * l + k)) v ltac:(lia) T1).
    intros l Hl. specialize (V k l m Hk Hl Hm). unfold entry in V. replace (N * L * m + N * l + k) with (k + N * (l + L * m)) by ring. rewrite V. apply sumZ_ext. intros l' Hl'. do 2 f_equal. ring. }
  rewrite <- (slice_swap (fun k => f k u) (fun l => fam true (Q 0) (g 0) l v)). rewrite <- (K m Hm). unfold slice, column_series. apply sumZ_ext. intros l Hl.
  replace (tri_factor Q g 0 l v) with (fam true (Q 0) (g 0) l v) by (unfold tri_factor; change (Z.to_nat 0) with 0%nat; cbn [pow]; ring). f_equal.
  transitivity (sumZ N (fun k => nthZ 0 A1 (N * (l + L * m) + k * 1)%Z * fam true (P 0) (h 0) k u)%R).
  - destruct C0 as (_ & _ & V). apply (table_sum N P0 _ _ (fun k => nthZ 0%R A1 (N * (l + L * m) + k * 1)) (fun k => nthZ 0%R A2 (N * L * m + N * l + k)) u T0).
    intros k Hk. specialize (V 0 k (l + L * m) ltac:(lia) Hk ltac:(nia)). unfold entry in V. replace (N * L * m + N * l + k) with (0 + 1 * (k + N * (l + L * m))) by ring. rewrite V. apply sumZ_ext. intros k' Hk'. do 2 f_equal. ring.
  - apply sumZ_ext. intros k Hk. unfold tri_factor. change (Z.to_nat 0) with 0%nat. cbn [pow]. ring.
Qed.
Lemma tet_back RP0 RP1 P0 P1 P2 Q0 Q1 Q2 c0 c1 c2 A A' : plan_tet2cheb_tables 0%R idR tg (Rpower 2) d1 d2 jk N al be ga de = Some (RP0, RP1, (P0, P1, P2), (Q0, Q1, Q2)) -> zlen A = N * L * N ->
  tet2cheb BL (hi RP0 RP1) (lo RP0 RP1) (chebyshev_normalization_3d (/ sqrt 2)%R (2 / PI * sqrt (2 / PI))%R N L N) c0 c1 c2 P0 P1 P2 false N L N A = Some A' ->
  cheb2tet BL (hi RP0 RP1) (lo RP0 RP1) (chebyshev_normalization_3d (sqrt 2) (PI / 2 * sqrt (PI / 2))%R N L N) c0 c1 c2 Q0 Q1 Q2 false N L N A' = Some A.
Proof.
  intros E0 LA E'. destruct tet_plan as (RP0' & RP1' & P0' & P1' & P2' & Q0' & Q1' & Q2' & E & ER0 & ER1 & (Rn0 & Rt0 & Ru0) & (Rn1 & Rt1 & Ru1) & _ & _ & _ & I0 & I1 & I2). rewrite E0 in E. injection E as <- <- <- <- <- <- <- <-.
  pose proof (H36_tet BL OK RP0 RP1 L P0 P1 P2 Q0 Q1 Q2 c0 c1 c2 false) as X. cbv zeta in X. rewrite Rn0 in X. specialize (X Rn1 HL Rt0 Ru0 Rt1 Ru1 I0 I1 I2 A LA).
  destruct X as ((X & EX & _ & EB) & _). rewrite E' in EX. injection EX as <-. exact EB.
Qed.
End Tet.
