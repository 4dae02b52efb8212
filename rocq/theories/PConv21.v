(** * The rectangular disk: the driver, the plan, the series and the values *)
From Coq Require Import ZArith List Lia Bool Reals Lra ZifyBool ZifyNat.
From Verif Require Import Base BaseFacts Arith SpecSum PSum SpecLin MRotations SpecRot PRotPlans PRotThms MDrivers MHarmonic SpecHarm PHarm4
  SpecClassical SpecConn PClass8 PPoly PPenU PPenC PDiag PTransforms2 SpecTransforms MFftw SpecFftw PFftwThms SpecConvert SpecConvert2 SpecConvert4 PConv3 PConv4 MTransforms MDense MDense3 PDense PDense2 PConv5 PConv6 PConv11 PConv12 PConv13 PConv20.
Import ListNotations.
Open Scope Z_scope.

Section Driver.
Variables (tg : R -> R) (be : R) (C : Z -> Z -> R -> R) (h : Z -> Z -> R).
Hypotheses (HG : gamma_function tg) (Hb : (-1 < be)%R) (HF : rect_family tg be C h).
Variables (junk : R) (N M : Z) (RP : rotplan R).
Hypotheses (HN : 0 <= N) (HR : plan_rotrectdisk junk N be = Some RP).
Lemma rect_driver A : zlen A = N * M -> (forall q, 0 <= q < M -> zero_from (N - q) N A (N * q) 1) ->
  exists A', execute_rectdisk_default (kernel_sph_hi2lo givens RP) N M A = Some A' /\ zlen A' = N * M /\
    forall q, 0 <= q < M -> zero_from (N - q mod 2) N A' (N * q) 1 /\ forall x, column_series (rpol C h) N (q mod 2) A' (N * q) 1 x = column_series (rpol C h) N q A (N * q) 1 x.
Proof.
  intros L HZ. unfold execute_rectdisk_default. destruct (Z_lt_ge_dec M 3) as [M3|M3].
  { rewrite for_up_nil by lia. exists A. split; auto. split; auto. intros q Hq. replace (q mod 2) with q by (assert (q = 0 \/ q = 1) as [-> | ->] by lia; reflexivity). split; [now apply HZ|reflexivity]. }
  destruct (for_up_inv (fun k X => zlen X = N * M /\ forall q, 0 <= q < M -> kept N (rpol C h) (fun m => m) (fun q => q) (if q <? k then q mod 2 else q) q A X) 2 M (rectdisk_body (kernel_sph_hi2lo givens RP) N) A) as (A' & E & H).
  - lia.
  - split; auto. intros q Hq. assert (X : (if q <? 2 then q mod 2 else q) = q). { destruct (q <? 2) eqn:E2; auto. assert (q = 0 \/ q = 1) as [-> | ->] by lia; reflexivity. }
    rewrite X. split; [apply HZ; lia|reflexivity].
  - intros m X Hm [LX HX]. unfold rectdisk_body. pose proof (Z.mod_pos_bound m 2 ltac:(lia)) as MB.
    destruct (kept_step N M (rpol C h) (fun m => m) (fun q => q) HN (kernel_sph_hi2lo givens RP) A X m (m mod 2) m) as (X1 & E1 & L1 & K1 & O1); auto; try lia.
    { intros Cf Z. apply (rect_conv tg be C h HG Hb HF N junk RP X (N * m) 1 (m mod 2) m HR HN); auto; try lia. }
    { specialize (HX m ltac:(lia)). replace (m <? m) with false in HX by lia. exact HX. }
    exists X1. split; [exact E1|]. split; auto. intros q Hq.
    destruct (Z.eq_dec q m) as [->|N1].
    { replace (m <? m + 1) with true by lia. exact K1. }
    eapply kept_ext; [apply O1; lia|]. specialize (HX q Hq). replace (q <? m + 1) with (q <? m) by lia. exact HX.
  - destruct H as (LX & HX). exists A'. split; auto. split; auto. intros q Hq. specialize (HX q Hq). replace (q <? M) with true in HX by lia. exact HX.
Qed.
End Driver.

(** tables between families of fixed parity have zeros where i + j is odd *)
Definition has_parity (P : Z -> R -> R) : Prop := forall i x, 0 <= i -> P i (- x)%R = (if Z.even i then P i x else - P i x)%R.
Lemma parity_rec (P : Z -> R -> R) (a b : Z -> R) : (forall x, P 0 x = 1%R) -> (exists c, forall x, P 1 x = (c * x)%R) ->
  (forall n x, 1 <= n -> P (n + 1) x = (a n * x * P n x - b n * P (n - 1)%Z x)%R) -> has_parity P.
Proof.
  intros P0 [c P1] PS. assert (X : forall n, 0 <= n -> (forall x, P n (- x)%R = (if Z.even n then P n x else - P n x)%R) /\ forall x, P (n + 1) (- x)%R = (if Z.even (n + 1) then P (n + 1)%Z x else - P (n + 1)%Z x)%R).
  { apply natlike_ind.
    - split; intros x; cbn [Z.even Z.add Pos.add]; [now rewrite !P0|]. rewrite !P1. ring.
    - intros n Hn [I1 I2]. replace (Z.succ n) with (n + 1) by lia. split; [exact I2|]. intros x. rewrite (PS (n + 1) x), (PS (n + 1) (- x)%R) by lia. replace (n + 1 - 1) with n by lia. rewrite I1, I2.
      rewrite !Z.even_add. cbn [Z.even]. destruct (Z.even n); simpl; ring. }
  intros i x Hi. now apply X.
Qed.
Lemma ult_parity l P : is_ultraspherical l P -> has_parity P.
Proof.
  intros HP. apply (parity_rec P (fun n => 2 * (IZR n + l) / (IZR n + 1))%R (fun n => (IZR n + 2 * l - 1) / (IZR n + 1))%R).
  - apply (ult_0 _ _ HP).
  - exists (2 * l)%R. apply (ult_1 _ _ HP).
  - intros n x Hn. rewrite (PUltra.ut_S l P HP n x Hn). apply IZR_le in Hn. field. lra.
Qed.
Lemma che_parity P : is_chebyshev P -> has_parity P.
Proof.
  intros HP. apply (parity_rec P (fun n => 2)%R (fun n => 1)%R).
  - apply (che_0 _ HP).
  - exists 1%R. intros. rewrite (che_1 _ HP). ring.
  - intros n x Hn. rewrite (che_S _ HP) by lia. ring.
Qed.
Lemma fam_parity n P h : has_parity P -> has_parity (fam n P h).
Proof. intros H i x Hi. unfold fam. destruct n; rewrite H by auto; destruct (Z.even i); unfold Rdiv; ring. Qed.
Lemma table_parity n V P Q : table n V P Q -> has_parity P -> has_parity Q -> one_connection n P Q ->
  forall i j, 0 <= i < n -> 0 <= j < n -> Z.even i <> Z.even j -> mat 0 n V i j = 0%R.
Proof.
  intros [_ [C1 C2]] HP HQ [_ O] i j Hi Hj Hij. 
  set (W := fun i j => if Bool.eqb (Z.even i) (Z.even j) then mat 0 n V i j else (- mat 0 n V i j)%R).
  assert (X : mat 0 n V i j = W i j).
  { apply O; auto. { split; assumption. } split.
    - intros a b Hb Ha. unfold W. rewrite C1 by auto. destruct (Bool.eqb _ _); ring.
    - intros b x Hb. transitivity (if Z.even b then P b (- x) else - P b (- x))%R.
      { rewrite HP by lia. destruct (Z.even b); ring. }
      rewrite C2 by auto. unfold expansion. 
      assert (Y : sumZ n (fun a => W a b * Q a x)%R = sumZ n (fun a => (if Z.even b then 1 else -1) * (mat 0 n V a b * Q a (- x)))%R).
      { apply sumZ_ext. intros a Ha. rewrite HQ by lia. unfold W. destruct (Z.even a), (Z.even b); cbn [Bool.eqb]; ring. }
      rewrite Y, sumZ_scal. destruct (Z.even b); ring. }
  unfold W in X. destruct (Bool.eqb (Z.even i) (Z.even j)) eqn:EE; [apply eqb_prop in EE; contradiction|]. lra.
Qed.

Lemma dup_mass tg la : gamma_function tg -> (0 < la)%R -> gamma_duplication tg la -> (tg (1 / 2) * tg (la + 1 / 2) / tg (la + 1) = jacobi_mass tg (Rpower 2) (la - 1 / 2) (la - 1 / 2))%R.
Proof.
  intros [g1 g2 g3] L D. unfold gamma_duplication in D. unfold jacobi_mass. replace (la - 1 / 2 + (la - 1 / 2) + 1)%R with (2 * la)%R by field. replace (la - 1 / 2 + 1)%R with (la + 1 / 2)%R by field.
  replace (la - 1 / 2 + (la - 1 / 2) + 2)%R with (2 * la + 1)%R by field. rewrite (g3 la), (g3 (2 * la)%R) by lra.
  pose proof (g1 la L). pose proof (g1 (1 / 2)%R ltac:(lra)). pose proof (g1 (la + 1 / 2)%R ltac:(lra)). assert (0 < Rpower 2 (2 * la))%R by (unfold Rpower; apply exp_pos).
  set (u := tg (1 / 2)%R) in *. set (w := tg (la + 1 / 2)%R) in *. set (p := Rpower 2 (2 * la)) in *.
  assert (E : tg (2 * la)%R = (p * tg la * w / (2 * u))%R) by (rewrite D; field; lra). rewrite E. field. lra.
Qed.

Section Rect.
Variables (BL : blas R) (tg : R -> R) (d1 d2 junk : list R) (jk : R) (N M : Z) (be : R).
Hypotheses (OK : blas_ok BL) (HG : gamma_function tg) (Hpi : (tg (1/2) * tg (1/2) = PI)%R) (HM : 0 < M <= N)
  (Hb : (-1 / 2 < be)%R) (D1 : gamma_duplication tg (be + 1)) (D2 : gamma_duplication tg (be + 1 / 2)) (L1 : N <= zlen d1) (L2 : N <= zlen d2) (L3 : N <= zlen junk).
Let idR := fun x : R => x.
Variables (C : Z -> Z -> R -> R) (h : Z -> Z -> R) (Cv : Z -> R -> R) (hv : Z -> R) (T U : Z -> R -> R).
Hypotheses (HF : rect_family tg be C h) (HV : ultraspherical_family tg (be + 1 / 2) Cv hv) (HT : is_chebyshev T) (HU : is_ultraspherical 1 U).
Let hC := hT tg.
Let hU := std_ult_norms 1 (tg (1/2) * tg (1 + 1/2) / tg (1 + 1))%R.
Lemma K0 : ultraspherical_family tg (be + 1) (C 0) (h 0).
Proof. pose proof (HF 0 ltac:(lia)) as X. replace (0 + be + 1)%R with (be + 1)%R in X by ring. exact X. Qed.
Lemma K1 : ultraspherical_family tg (be + 2) (C 1) (h 1).
Proof. pose proof (HF 1 ltac:(lia)) as X. replace (1 + be + 1)%R with (be + 2)%R in X by ring. exact X. Qed.
Lemma hU_ok : ultraspherical_norms 1 hU.
Proof.
  destruct HG as [g1 g2 g3]. apply std_ult_norms_ok; [lra|]. apply Rdiv_lt_0_compat; [apply Rmult_lt_0_compat|]; apply g1; lra.
Qed.

Lemma rect_plan : exists RP P0 P1 P2 Q0 Q1 Q2, plan_rectdisk2cheb_tables 0%R idR tg (Rpower 2) PI d1 d2 junk jk N be = Some (RP, (P0, P1, P2), (Q0, Q1, Q2)) /\
  plan_rotrectdisk jk N be = Some RP /\ rp_n RP = N /\ tri_tables RP /\ unit_tri RP /\
  table N P0 (fam true (C 0) (h 0)) (fam false T hC) /\ table N P1 (fam true (C 1) (h 1)) (fam false U hU) /\ table N P2 (fam true Cv hv) (fam false T hC) /\
  inverse_tables N P0 Q0 /\ inverse_tables N P1 Q1 /\ inverse_tables N P2 Q2.
Proof.
  destruct (hT_ok tg Hpi) as [T1 T2]. fold hC in T1, T2. destruct K0 as (A1 & A2 & A3). destruct K1 as (B1 & B2 & B3). destruct HV as (V1 & V2 & V3). assert (HN0 : 0 <= N) by lia. pose proof (special_pow tg HG) as SP. pose proof hU_ok as U2.
  assert (Hpi' : PI = (tg (1/2) * tg (1/2))%R) by auto.
  assert (Hb1 : (-1 < be)%R) by lra. destruct (rotrectdisk_ok N jk be HN0 Hb1) as (RP & E & _). destruct (planned_rectdisk N jk be RP HN0 Hb1 E) as (R1 & R2 & R3).
  assert (A3' := A3). rewrite (dup_mass tg (be + 1) HG ltac:(lra) D1) in A3'. assert (V3' := V3). rewrite (dup_mass tg (be + 1 / 2) HG ltac:(lra) D2) in V3'.
  destruct (ult2che_dense tg (Rpower 2) SP PI d1 d2 junk N HN0 L1 L2 L3 Hpi' true false (be + 1) (C 0) T (h 0) hC) as (P0 & E0 & T0'); auto; try lra.
  destruct (ult_dense tg _ SP N HN0 true false (be + 2) 1 (C 1) U (h 1) hU) as (P1 & E1 & T1'); auto; try lra.
  destruct (ult2che_dense tg (Rpower 2) SP PI d1 d2 junk N HN0 L1 L2 L3 Hpi' true false (be + 1 / 2) Cv T hv hC) as (P2 & E2 & T2'); auto; try lra.
  destruct (che2ult_dense tg (Rpower 2) SP PI d1 d2 junk N HN0 L1 L2 L3 Hpi' false true (be + 1) T (C 0) hC (h 0)) as (Q0 & E3 & T3'); auto; try lra.
  destruct (ult_dense tg _ SP N HN0 false true 1 (be + 2) U (C 1) hU (h 1)) as (Q1 & E4 & T4'); auto; try lra.
  destruct (che2ult_dense tg (Rpower 2) SP PI d1 d2 junk N HN0 L1 L2 L3 Hpi' false true (be + 1 / 2) T Cv hC hv) as (Q2 & E5 & T5'); auto; try lra.
  exists RP, P0, P1, P2, Q0, Q1, Q2. unfold plan_rectdisk2cheb_tables, idR, half. rewrite E. cbn [obind]. cbn [add ofZ div R_arith].
  rewrite E0. cbn [obind]. rewrite E1. cbn [obind]. rewrite E2. cbn [obind]. rewrite E3. cbn [obind]. rewrite E4. cbn [obind]. rewrite E5. cbn [obind].
  assert (TT : one_connection N (fam false T hC) (fam false T hC)) by (apply (one_conn N false false _ _ T T hC hC (cheb_graded _ N HT) (cheb_graded _ N HT)); apply chn_pos; auto).
  repeat (split; [solve [auto]|]). split; [|split].
  - apply (tables_inverse N P0 Q0 _ _ HN0 T0' T3'); auto. apply (ult_one true true N (be + 1) (be + 1)); auto; lra.
  - apply (tables_inverse N P1 Q1 _ _ HN0 T1' T4'); [apply (ult_one true true N (be + 2) (be + 2))|apply (ult_one false false N 1 1)]; auto; lra.
  - apply (tables_inverse N P2 Q2 _ _ HN0 T2' T5'); auto. apply (ult_one true true N (be + 1 / 2) (be + 1 / 2)); auto; lra.
Qed.

(** the factor in x at x = cos t, 0 <= t <= pi *)
Lemma rect_rpol m i x : (-1 <= x <= 1)%R -> rect_factor C h m i x = rpol C h m i (acos x).
Proof. intros Hx. unfold rect_factor, rpol. rewrite cos_acos, sin_acos by lra. unfold Rsqr. reflexivity. Qed.

Lemma rect_cheb RP P0 P1 P2 Q0 Q1 Q2 lo A : plan_rectdisk2cheb_tables 0%R idR tg (Rpower 2) PI d1 d2 junk jk N be = Some (RP, (P0, P1, P2), (Q0, Q1, Q2)) -> triangular N M A -> exists A',
  rectdisk2cheb BL (execute_rectdisk_default (kernel_sph_hi2lo givens RP) N M) lo P0 P1 P2 false N M A = Some A' /\
  zlen A' = N * M /\ (forall q, 0 <= q < M -> Z.even q = false -> nthZ 0%R A' (N - 1 + q * N) = 0%R) /\
  forall x y, (-1 <= x <= 1)%R -> rect_cheb_series T U N M A' x y = rectdisk_series C h Cv hv N M A x y.
Proof.
  intros E0 [LA HZ]. destruct rect_plan as (RP' & P0' & P1' & P2' & Q0' & Q1' & Q2' & E & ER & Rn & Rt & Ru & T0 & T1 & T2 & _). rewrite E0 in E. injection E as <- <- <- <- <- <- <-.
  destruct (rect_driver tg be C h HG ltac:(lra) HF jk N M RP ltac:(lia) ER A LA HZ) as (A1 & E1 & LA1 & K).
  destruct (H35_rectdisk BL OK _ lo P0 P1 P2 N M A A1 HM (proj1 T0) (proj1 T1) (proj1 T2) E1 LA1) as (A2 & A' & E' & (_ & _ & V1) & (_ & L' & V2)).
  exists A'. split; [exact E'|]. split; [lia|].
  destruct (hT_ok tg Hpi) as [C1 C2]. fold hC in C1, C2.
  assert (PAR : forall i j, 0 <= i < N -> 0 <= j < N -> Z.even i <> Z.even j -> utri N P2 i j = 0%R).
  { intros i j Hi Hj Hij. rewrite (utri_mat N P2 _ _ i j T2) by auto. destruct HV as (W1 & W2 & _). apply (table_parity N P2 _ _ T2); auto.
    - apply fam_parity. now apply (ult_parity (be + 1 / 2)).
    - apply fam_parity. now apply che_parity.
    - eapply one_conn; [apply (ult_graded (be + 1 / 2)); auto; lra|apply cheb_graded; auto|apply (un_pos (be + 1 / 2)); auto; lra|apply chn_pos; auto]. }
  assert (VV : forall q i, 0 <= q < M -> 0 <= i < N -> nthZ 0%R A2 (i + q * N) = sumZ N (fun k => utri N (if q mod 2 =? 0 then P0 else P1) i k * nthZ 0%R A1 (N * q + k * 1))%R).
  { intros q i Hq Hi. specialize (V1 0 i q ltac:(lia) Hi Hq). unfold entry in V1. replace (i + q * N) with (0 + 1 * (i + N * q)) by lia. rewrite V1. apply sumZ_ext. intros k Hk. do 2 f_equal. lia. }
  assert (WW : forall q i, 0 <= q < M -> 0 <= i < N -> nthZ 0%R A' (i + q * N) = sumZ M (fun k => utri N P2 q k * nthZ 0%R A2 (i + k * N))%R).
  { intros q i Hq Hi. specialize (V2 i q 0 Hi Hq ltac:(lia)). unfold entry in V2. replace (i + q * N) with (i + N * (q + M * 0)) by lia. rewrite V2. apply sumZ_ext. intros k Hk. do 2 f_equal. lia. }
  split.
  - intros q Hq Oq. rewrite WW by lia. apply sumZ_zero. intros k Hk. destruct (Z.even k) eqn:Ok.
    { rewrite PAR by (lia || congruence). ring. }
    assert (Mk : k mod 2 = 1). { rewrite Zmod_even, Ok. reflexivity. }
    rewrite VV by lia. rewrite Mk. change (1 =? 0) with false. cbv iota. rewrite sumZ_zero; [ring|]. intros i Hi. destruct (Z.eq_dec i (N - 1)) as [->|].
    + destruct (K k Hk) as [ZK _]. rewrite Mk in ZK. rewrite (ZK (N - 1)) by lia. ring.
    + unfold utri. replace (N - 1 <=? i) with false by lia. ring.
  - intros x y Hx. set (v := (y / sqrt (1 - x * x))%R). unfold rect_cheb_series, rectdisk_series. fold v.
    set (g := fun q i => (if Z.even q then T i x else sqrt (1 - x * x) * U i x)%R).
    assert (W0 : forall q, 0 <= q < M -> sumZ N (fun i => nthZ 0 A2 (i + q * N)%Z * g q i)%R = sumZ N (fun i => nthZ 0 A (i + q * N)%Z * rect_factor C h q i x)%R).
    { intros q Hq. destruct (K q Hq) as [_ KS]. specialize (KS (acos x)).
      transitivity (column_series (rpol C h) N q A (N * q) 1 (acos x)).
      2:{ unfold column_series. apply sumZ_ext. intros i Hi. rewrite rect_rpol by auto. do 2 f_equal. lia. }
      rewrite <- KS. unfold column_series. unfold g. specialize (VV q). rewrite (Zmod_even q) in VV |- *. destruct (Z.even q).
      - change (0 =? 0) with true in VV. cbv iota in VV.
        transitivity (sumZ N (fun i => nthZ 0 A1 (N * q + i * 1)%Z * fam true (C 0) (h 0) i x)%R).
        + apply (table_sum N P0 _ (fam false T hC) (fun k => nthZ 0%R A1 (N * q + k * 1)) (fun i => nthZ 0%R A2 (i + q * N)) x T0). intros i Hi. now apply VV.
        + apply sumZ_ext. intros i Hi. unfold rpol. rewrite cos_acos by lra. change (Z.to_nat 0) with 0%nat. cbn [pow]. ring.
      - change (1 =? 0) with false in VV. cbv iota in VV.
        rewrite (sumZ_ext N _ (fun i => sqrt (1 - x * x) * (nthZ 0 A2 (i + q * N)%Z * U i x))%R) by (intros; ring). rewrite sumZ_scal.
        transitivity (sqrt (1 - x * x) * sumZ N (fun i => nthZ 0 A1 (N * q + i * 1)%Z * fam true (C 1) (h 1) i x))%R.
        + f_equal. apply (table_sum N P1 _ (fam false U hU) (fun k => nthZ 0%R A1 (N * q + k * 1)) (fun i => nthZ 0%R A2 (i + q * N)) x T1). intros i Hi. now apply VV.
        + rewrite <- sumZ_scal. apply sumZ_ext. intros i Hi. unfold rpol. rewrite cos_acos, sin_acos by lra. unfold Rsqr. change (Z.to_nat 1) with 1%nat. cbn [pow]. ring. }
    rewrite sumZ_swap.
    transitivity (sumZ N (fun i => sumZ M (fun q => nthZ 0 A2 (i + q * N)%Z * g q i * fam true Cv hv q v)%R)).
    { apply sumZ_ext. intros i Hi.
      rewrite <- (table_sum_sub N M P2 _ (fam false T hC) (fun q => nthZ 0 A2 (i + q * N)%Z * g q i)%R (fun q => nthZ 0 A' (i + q * N)%Z * g q i)%R v ltac:(lia) T2).
      - apply sumZ_ext. intros q Hq. unfold fam, g. ring.
      - intros q Hq. rewrite WW by auto. rewrite <- sumZ_scal_r. apply sumZ_ext. intros k Hk. destruct (Bool.bool_dec (Z.even q) (Z.even k)) as [EQ|NE].
        + unfold g. rewrite EQ. ring.
        + rewrite PAR by (auto; lia). ring. }
    rewrite sumZ_swap. apply sumZ_ext. intros q Hq. rewrite sumZ_scal_r, W0 by auto. rewrite <- sumZ_scal_r. apply sumZ_ext. intros i Hi. ring.
Qed.
Lemma rect_back RP P0 P1 P2 Q0 Q1 Q2 A A' : plan_rectdisk2cheb_tables 0%R idR tg (Rpower 2) PI d1 d2 junk jk N be = Some (RP, (P0, P1, P2), (Q0, Q1, Q2)) -> zlen A = N * M ->
  let hi := execute_rectdisk_default (kernel_sph_hi2lo givens RP) N M in let lo := execute_rectdisk_default (kernel_sph_lo2hi givens_t RP) N M in
  rectdisk2cheb BL hi lo P0 P1 P2 false N M A = Some A' -> cheb2rectdisk BL hi lo Q0 Q1 Q2 false N M A' = Some A.
Proof.
  intros E0 LA hi lo E'. destruct rect_plan as (RP' & P0' & P1' & P2' & Q0' & Q1' & Q2' & E & ER & Rn & Rt & Ru & T0 & T1 & T2 & I0 & I1 & I2). rewrite E0 in E. injection E as <- <- <- <- <- <- <-.
  pose proof (H36_rectdisk BL OK RP M P0 P1 P2 Q0 Q1 Q2 false) as X. cbv zeta in X. rewrite Rn in X. specialize (X HM Rt Ru I0 I1 I2 A LA).
  destruct X as ((X & EX & _ & EB) & _). fold hi lo in EX, EB. rewrite E' in EX. injection EX as <-. exact EB.
Qed.
End Rect.
