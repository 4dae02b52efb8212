(** * The triangle: from coefficients to products of Chebyshev polynomials and to values on the grid *)
From Coq Require Import ZArith List Lia Bool Reals Lra ZifyBool ZifyNat.
From Verif Require Import Base BaseFacts Arith SpecSum PSum SpecLin MRotations SpecRot PRotPlans PRotThms MDrivers MHarmonic SpecHarm PHarm4
  SpecClassical SpecConn PClass8 PPoly PPenU PPenC PDiag PTransforms2 SpecTransforms MFftw SpecFftw PFftwThms SpecConvert SpecConvert2 PConv3 PConv4 MTransforms MDense MDense2 PDense PDense2 PConv5 PConv11 PConv12.
Import ListNotations.
Open Scope Z_scope.

Lemma pow2_ok : power_of_two (Rpower 2).
Proof.
  split. { intros x. unfold Rpower. apply exp_pos. }
  intros x. rewrite Rpower_plus, Rpower_1 by lra. ring.
Qed.
Lemma special_pow tg : gamma_function tg -> special tg (Rpower 2).
Proof. intros [g1 g2 g3]. split; auto. - apply pow2_ok. - apply Rpower_O. lra. Qed.

(** a table of order N is one of order M for M <= N *)
Lemma connects_sub N M U P Q : M <= N -> connects N U P Q -> connects M U P Q.
Proof.
  intros H [C1 C2]. split. { intros i j Hj Hi. apply C1; lia. }
  intros j x Hj. rewrite (C2 j x) by lia. unfold expansion. rewrite (sumZ_split N M) by lia. rewrite (sumZ_zero (N - M)), Rplus_0_r; [reflexivity|].
  intros i Hi. rewrite C1 by lia. ring.
Qed.
Lemma table_sum_sub N M V P Q (c d : Z -> R) x : M <= N -> table N V P Q -> (forall i, 0 <= i < M -> d i = sumZ M (fun k => utri N V i k * c k)%R) ->
  sumZ M (fun i => d i * Q i x)%R = sumZ M (fun i => c i * P i x)%R.
Proof.
  intros H T D. pose proof (connects_sub N M _ _ _ H (proj2 T)) as C. change (expansion M d Q x = expansion M c P x). apply (PTransforms.expansion_conn M (mat 0 N V) P Q c d C).
  intros i Hi. rewrite D by auto. unfold matvec. apply sumZ_ext. intros k Hk. now rewrite (utri_mat N V P Q) by (auto; lia).
Qed.

Section Triangle.
Variables (BL : blas R) (tg : R -> R) (d1 d2 : list R) (jk : R) (N M : Z) (al be ga : R).
Hypotheses (OK : blas_ok BL) (HG : gamma_function tg) (Hpi : (tg (1/2) * tg (1/2) = PI)%R) (HM : 0 < M <= N)
  (Ha : (-1 < al)%R) (Hb : (-1 < be)%R) (Hg : (-1 < ga)%R) (L1 : N <= zlen d1) (L2 : N <= zlen d2).
Let idR := fun x : R => x.
Variables (P : Z -> Z -> R -> R) (h : Z -> Z -> R) (Pv : Z -> R -> R) (hv : Z -> R) (T : Z -> R -> R).
Hypotheses (HF : triangle_family tg (Rpower 2) al be ga P h) (HV : jacobi_family tg (Rpower 2) ga be Pv hv) (HT : is_chebyshev T).
Definition hT : Z -> R := std_cheb_norms (tg (1/2) * tg (1/2)).
Lemma hT_ok : chebyshev_norms hT /\ hT 0 = (tg (1/2) * tg (1/2))%R.
Proof. split; [apply std_cheb_norms_ok; rewrite Hpi; apply PI_RGT_0|reflexivity]. Qed.
Lemma F0 : jacobi_family tg (Rpower 2) (be + ga + 1) al (P 0) (h 0).
Proof. pose proof (HF 0 ltac:(lia)) as X. replace (2 * 0 + be + ga + 1)%R with (be + ga + 1)%R in X by ring. exact X. Qed.

Lemma tri_plan : exists RP P0 P1 Q0 Q1, plan_tri2cheb_tables 0%R idR tg (Rpower 2) d1 d2 jk N al be ga = Some (RP, (P0, P1), (Q0, Q1)) /\
  plan_rottriangle jk N al be ga = Some RP /\ rp_n RP = N /\ tri_tables RP /\ unit_tri RP /\
  table N P0 (fam true (P 0) (h 0)) (fam true T hT) /\ table N P1 (fam true Pv hv) (fam true T hT) /\
  inverse_tables N P0 Q0 /\ inverse_tables N P1 Q1.
Proof.
  destruct hT_ok as [T1 T2]. destruct F0 as (A1 & A2 & A3). destruct HV as (B1 & B2 & B3). assert (HN0 : 0 <= N) by lia. pose proof (special_pow tg HG) as SP.
  destruct (rottriangle_ok N jk al be ga HN0 Ha Hb Hg) as (RP & E & _). destruct (planned_tri N jk al be ga RP HN0 Ha Hb Hg E) as (R1 & R2 & R3).
  assert (Hpi' : PI = (tg (1/2) * tg (1/2))%R) by auto. assert (Hc : (-1 < be + ga + 1)%R) by lra.
  destruct (jac2che_dense tg (Rpower 2) SP PI d1 d2 (zmake N 0%R) N HN0 L1 L2 ltac:(rewrite zlen_zmake; lia) Hpi' true true (be + ga + 1) al (P 0) T (h 0) hT Hc Ha A1 HT A2 T1 A3 T2) as (P0 & E0 & T0').
  destruct (jac2che_dense tg (Rpower 2) SP PI d1 d2 (zmake N 0%R) N HN0 L1 L2 ltac:(rewrite zlen_zmake; lia) Hpi' true true ga be Pv T hv hT Hg Hb B1 HT B2 T1 B3 T2) as (P1 & E1 & T1').
  destruct (che2jac_dense tg (Rpower 2) SP PI d1 d2 (zmake N 0%R) N HN0 L1 L2 ltac:(rewrite zlen_zmake; lia) Hpi' true true (be + ga + 1) al T (P 0) hT (h 0) Hc Ha HT A1 T1 A2 T2 A3) as (Q0 & E2 & T2').
  destruct (che2jac_dense tg (Rpower 2) SP PI d1 d2 (zmake N 0%R) N HN0 L1 L2 ltac:(rewrite zlen_zmake; lia) Hpi' true true ga be T Pv hT hv Hg Hb HT B1 T1 B2 T2 B3) as (Q1 & E3 & T3').
  assert (U : forall X Y : option (list R), (do V <- X; Some V) = Y -> X = Y) by (intros [x|] Y; auto).
  unfold dense_jacobi_to_chebyshev, dense_chebyshev_to_jacobi in E0, E1, E2, E3. apply U in E0, E1, E2, E3.
  exists RP, P0, P1, Q0, Q1. unfold plan_tri2cheb_tables, idR. rewrite E. cbn [obind]. cbn [add ofZ R_arith]. unfold idR in *. rewrite E0. cbn [obind]. rewrite E1. cbn [obind]. rewrite E2. cbn [obind]. rewrite E3. cbn [obind].
  repeat (split; [solve [auto]|]). split.
  - apply (tables_inverse N P0 Q0 _ _ HN0 T0' T2').
    + apply (jac_one true true N (be + ga + 1) al (be + ga + 1) al); auto; lra.
    + apply (one_conn N true true _ _ T T hT hT (cheb_graded _ N HT) (cheb_graded _ N HT)); apply chn_pos; auto.
  - apply (tables_inverse N P1 Q1 _ _ HN0 T1' T3').
    + apply (jac_one true true N ga be ga be); auto; lra.
    + apply (one_conn N true true _ _ T T hT hT (cheb_graded _ N HT) (cheb_graded _ N HT)); apply chn_pos; auto.
Qed.

Lemma hT_S i : 1 <= i -> hT i = (PI / 2)%R.
Proof.
  intros Hi. destruct hT_ok as [C C0]. assert (X : forall k, 0 <= k -> hT (k + 1) = (PI / 2)%R).
  { apply (natlike_ind (fun k => hT (k + 1) = (PI / 2)%R)).
    - pose proof (chn_S _ C 1 ltac:(lia)) as U. cbn [Z.sub] in U. change (0 + 1) with 1. rewrite <- Hpi, <- C0. lra.
    - intros k Hk IH. pose proof (chn_S _ C (Z.succ k + 1) ltac:(lia)) as U. pose proof (chn_S _ C (k + 1) ltac:(lia)) as U'. unfold Z.succ in *. lra. }
  replace i with (i - 1 + 1) by lia. apply X. lia.
Qed.
Lemma norm_ch i x : 0 <= i -> (sqrt (2 / PI) * (if i =? 0 then / sqrt 2 else 1) * T i x = fam true T hT i x)%R.
Proof.
  intros Hi. pose proof PI_RGT_0 as PP. unfold fam. assert (S2 : (0 < sqrt 2)%R) by (apply sqrt_lt_R0; lra). assert (SP : (0 < sqrt PI)%R) by now apply sqrt_lt_R0.
  destruct (Z.eqb_spec i 0) as [->|Hi0].
  - rewrite (proj2 hT_ok), Hpi. rewrite sqrt_div by lra. field. lra.
  - rewrite hT_S by lia. rewrite !sqrt_div by lra. field. lra.
Qed.
Lemma flag0_false : tri_flag0 al be ga = false -> forall i x, 0 <= i -> fam true (P 0) (h 0) i x = fam true T hT i x.
Proof.
  unfold tri_flag0. cbn [eqb R_arith add opp div ofZ]. unfold half, R_eqb. cbn [div ofZ R_arith].
  destruct (Req_EM_T (be + ga) (- (3 / 2))) as [e1|]; [|discriminate]. destruct (Req_EM_T al (- (1 / 2))) as [e2|]; [|discriminate]. intros _ i x Hi.
  destruct F0 as (A1 & A2 & A3). assert (e3 : (be + ga + 1 = - (1 / 2))%R) by lra. rewrite e3, e2 in *. destruct hT_ok as [T1 T2].
  apply jac_che_fam; auto. rewrite A3, T2. apply PTransforms3.che_mass. now apply special_pow.
Qed.
Lemma flag1_false : tri_flag1 be ga = false -> forall i x, 0 <= i -> fam true Pv hv i x = fam true T hT i x.
Proof.
  unfold tri_flag1. cbn [eqb R_arith add opp div ofZ]. unfold half, R_eqb. cbn [div ofZ R_arith].
  destruct (Req_EM_T ga (- (1 / 2))) as [e1|]; [|discriminate]. destruct (Req_EM_T be (- (1 / 2))) as [e2|]; [|discriminate]. intros _ i x Hi.
  destruct HV as (A1 & A2 & A3). rewrite e1, e2 in *. destruct hT_ok as [T1 T2].
  apply jac_che_fam; auto. rewrite A3, T2. apply PTransforms3.che_mass. now apply special_pow.
Qed.

Lemma tri_cheb RP P0 P1 Q0 Q1 lo A : plan_tri2cheb_tables 0%R idR tg (Rpower 2) d1 d2 jk N al be ga = Some (RP, (P0, P1), (Q0, Q1)) -> triangular N M A -> exists A',
  tri2cheb BL (execute_tri_default (kernel_tri_hi2lo givens RP) N M) lo (chebyshev_normalization_2d (/ sqrt 2)%R (2 / PI)%R N M) (tri_flag0 al be ga) (tri_flag1 be ga) P0 P1 false N M A = Some A' /\
  zlen A' = N * M /\ forall x y, chebyshev_series2 T N M A' x y = triangle_series P h Pv hv N M A x y.
Proof.
  intros E0 [LA HZ]. destruct tri_plan as (RP' & P0' & P1' & Q0' & Q1' & E & ER & Rn & Rt & Ru & T0 & T1 & _). rewrite E0 in E. injection E as <- <- <- <- <-.
  destruct (tri_driver tg (Rpower 2) al be ga P h HG pow2_ok Ha Hb Hg HF jk N M RP ltac:(lia) ER A LA HZ) as (A1 & E1 & LA1 & K).
  destruct (H35_tri BL OK _ lo P0 P1 (tri_flag0 al be ga) (tri_flag1 be ga) N M A A1 HM (proj1 T0) (proj1 T1) E1 LA1) as (A2 & A3 & A' & E' & C0 & C1 & (L' & S2)).
  exists A'. split; [exact E'|]. split; [exact L'|]. intros x y. set (u := (2 * x - 1)%R). set (v := (2 * y / (1 - x) - 1)%R).
  set (f := fam true T hT).
  assert (W0 : forall q, 0 <= q < M -> sumZ N (fun i => nthZ 0 A2 (i + q * N)%Z * f i u)%R = sumZ N (fun i => nthZ 0 A (i + q * N)%Z * tri_factor P h q i u)%R).
  { intros q Hq. transitivity (column_series (tri_factor P h) N 0 A1 (N * q) 1 u).
    - unfold column_series. transitivity (sumZ N (fun i => nthZ 0 A1 (N * q + i * 1)%Z * fam true (P 0) (h 0) i u)%R).
      + destruct (tri_flag0 al be ga) eqn:FL.
        * destruct C0 as (_ & _ & V). apply (table_sum N P0 _ _ (fun k => nthZ 0%R A1 (N * q + k * 1)) (fun i => nthZ 0%R A2 (i + q * N)) u T0).
          intros i Hi. specialize (V 0 i q ltac:(lia) Hi Hq). unfold entry in V. replace (i + q * N) with (0 + 1 * (i + N * q)) by lia. rewrite V. apply sumZ_ext. intros k Hk. do 2 f_equal. lia.
        * subst A2. apply sumZ_ext. intros i Hi. unfold f. rewrite <- (flag0_false FL) by lia. do 2 f_equal. lia.
      + apply sumZ_ext. intros i Hi. unfold tri_factor. change (Z.to_nat 0) with 0%nat. cbn [pow]. ring.
    - rewrite K by auto. unfold column_series. apply sumZ_ext. intros i Hi. do 2 f_equal. lia. }
  assert (W1 : forall i, 0 <= i < N -> sumZ M (fun q => nthZ 0 A3 (i + q * N)%Z * f q v)%R = sumZ M (fun q => nthZ 0 A2 (i + q * N)%Z * fam true Pv hv q v)%R).
  { intros i Hi. destruct (tri_flag1 be ga) eqn:FL.
    - destruct C1 as (_ & _ & V). apply (table_sum_sub N M P1 _ _ (fun q => nthZ 0%R A2 (i + q * N)) (fun q => nthZ 0%R A3 (i + q * N)) v ltac:(lia) T1).
      intros q Hq. specialize (V i q 0 Hi Hq ltac:(lia)). unfold entry in V. replace (i + q * N) with (i + N * (q + M * 0)) by lia. rewrite V. apply sumZ_ext. intros k Hk. do 2 f_equal. lia.
    - subst A3. apply sumZ_ext. intros q Hq. unfold f. rewrite <- (flag1_false FL) by lia. reflexivity. }
  unfold chebyshev_series2, triangle_series. fold u v.
  transitivity (sumZ M (fun q => sumZ N (fun i => nthZ 0 A3 (i + q * N)%Z * f q v * f i u)%R)).
  { apply sumZ_ext. intros q Hq. apply sumZ_ext. intros i Hi. rewrite S2 by auto. unfold f. rewrite <- !norm_ch by lia.
    pose proof PI_RGT_0 as PP. assert (SS : (sqrt (2 / PI) * sqrt (2 / PI) = 2 / PI)%R) by (apply sqrt_sqrt; apply Rlt_le, Rdiv_lt_0_compat; lra). set (w := sqrt (2 / PI)) in *. rewrite <- SS. ring. }
  rewrite sumZ_swap.
  transitivity (sumZ N (fun i => sumZ M (fun q => nthZ 0 A2 (i + q * N)%Z * fam true Pv hv q v * f i u)%R)).
  { apply sumZ_ext. intros i Hi. rewrite !sumZ_scal_r. f_equal. now apply W1. }
  rewrite sumZ_swap. apply sumZ_ext. intros q Hq.
  rewrite (sumZ_ext N _ (fun i => nthZ 0 A2 (i + q * N)%Z * f i u * fam true Pv hv q v)%R) by (intros; ring). rewrite sumZ_scal_r, W0 by auto. rewrite <- sumZ_scal_r. apply sumZ_ext. intros i Hi. ring.
Qed.
Lemma tri_back RP P0 P1 Q0 Q1 A A' : plan_tri2cheb_tables 0%R idR tg (Rpower 2) d1 d2 jk N al be ga = Some (RP, (P0, P1), (Q0, Q1)) -> zlen A = N * M ->
  let hi := execute_tri_default (kernel_tri_hi2lo givens RP) N M in let lo := execute_tri_default (kernel_tri_lo2hi givens_t RP) N M in
  tri2cheb BL hi lo (chebyshev_normalization_2d (/ sqrt 2)%R (2 / PI)%R N M) (tri_flag0 al be ga) (tri_flag1 be ga) P0 P1 false N M A = Some A' ->
  cheb2tri BL hi lo (chebyshev_normalization_2d (sqrt 2) (PI / 2)%R N M) (tri_flag0 al be ga) (tri_flag1 be ga) Q0 Q1 false N M A' = Some A.
Proof.
  intros E0 LA hi lo E'. destruct tri_plan as (RP' & P0' & P1' & Q0' & Q1' & E & ER & Rn & Rt & Ru & T0 & T1 & I0 & I1). rewrite E0 in E. injection E as <- <- <- <- <-.
  pose proof (H36_tri BL OK RP M P0 P1 Q0 Q1 (tri_flag0 al be ga) (tri_flag1 be ga) false) as X. cbv zeta in X. rewrite Rn in X. specialize (X HM Rt Ru I0 I1 A LA).
  destruct X as ((X & EX & _ & EB) & _). fold hi lo in EX, EB. rewrite E' in EX. injection EX as <-. exact EB.
Qed.
End Triangle.

Lemma theta_range N k : 0 <= k < N -> (0 < theta N k < PI)%R.
Proof.
  intros Hk. unfold theta. pose proof PI_RGT_0. assert (0 <= IZR k)%R by (apply IZR_le; lia). assert (IZR k + 1 <= IZR N)%R by (rewrite <- plus_IZR; apply IZR_le; lia).
  assert (0 < / IZR N)%R by (apply Rinv_0_lt_compat; lra). split.
  - unfold Rdiv. apply Rmult_lt_0_compat; auto. nra.
  - apply (Rmult_lt_reg_r (IZR N)); [lra|]. replace (PI * (IZR k + / 2) / IZR N * IZR N)%R with (PI * (IZR k + / 2))%R by (field; lra). apply Rmult_lt_compat_l; lra.
Qed.
Lemma cos_lt_1 t : (0 < t < PI)%R -> (cos t < 1)%R.
Proof. intros Ht. rewrite <- cos_0. apply cos_decreasing_1; lra. Qed.
Lemma tri_points T N k j A : is_chebyshev T -> 0 <= k < N -> chebyshev_series2 T N N A (tri_x N k) (tri_y N k j) =
  sumZ N (fun z => sumZ N (fun l => cosine N l (theta N k) * cosine N z (theta N j) * nthZ 0 A (l + z * N)%Z)%R).
Proof.
  intros HT Hk. pose proof (cos_lt_1 _ (theta_range N k Hk)) as C. unfold chebyshev_series2. apply sumZ_ext. intros z Hz. apply sumZ_ext. intros l Hl.
  replace (2 * tri_x N k - 1)%R with (cos (theta N k)) by (unfold tri_x; field). replace (2 * tri_y N k j / (1 - tri_x N k) - 1)%R with (cos (theta N j)) by (unfold tri_y, tri_x; field; lra).
  rewrite !(cheb_cos T HT) by lia. unfold cosine. ring.
Qed.
