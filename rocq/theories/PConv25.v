(** * The tetrahedron: statements, values on the grid and examples *)
From Coq Require Import ZArith List Lia Bool Reals Lra ZifyBool ZifyNat.
From Verif Require Import Base BaseFacts Arith SpecSum PSum SpecLin MRotations SpecRot PRotPlans PRotThms MDrivers MHarmonic SpecHarm PHarm4 PPermute MRefBlas PRefBlas PRefFftw
  SpecClassical SpecConn PClass8 PPoly PPenU PPenC PDiag PTransforms2 PTransforms3 SpecTransforms MFftw SpecFftw PFftwThms SpecConvert SpecConvert2 SpecConvert5 PConv3 PConv4 MTransforms MDense MDense2 MDense4 PDense PDense2 PConv5 PConv11 PConv12 PConv13 PConv16 PConv23 PConv24.
Import ListNotations.
Open Scope Z_scope.

Lemma T_C71_kernel tg p al be ga P h : gamma_function tg -> power_of_two p -> (-1 < al)%R -> (-1 < be)%R -> (-1 < ga)%R -> triangle_family tg p al be ga P h ->
  forall n (junk : R) RP A oA L m, plan_rottriangle junk n al be ga = Some RP -> 0 <= L <= n -> 0 <= m ->
  columns_fit A oA n L n -> (forall k, 0 <= k < n -> zero_from (L - m) L A (oA + k) n) ->
  exists A', kernel_tet_hi2lo givens RP L m A oA = Some A' /\ only_columns_changed A A' oA n L n /\
    forall k x, 0 <= k < n -> column_series (tri_factor P h) L 0 A' (oA + k) n x = column_series (tri_factor P h) L m A (oA + k) n x.
Proof. intros HG HP Ha Hb Hg HF n junk RP A oA L m. exact (tet_conv tg p al be ga P h HG HP Ha Hb Hg HF n junk RP A oA L m). Qed.
Lemma T_C71_driver tg p al be ga de P h Q g : gamma_function tg -> power_of_two p -> (-1 < al)%R -> (-1 < be)%R -> (-1 < ga)%R -> (-1 < de)%R ->
  triangle_family tg p al be (ga + de + 1) P h -> triangle_family tg p be ga de Q g ->
  forall (W : Z -> R -> R) (e : Z -> R) (j1 j2 : R) N L M RP1 RP2 A, 0 <= L <= N -> 0 <= M -> plan_rottriangle j1 N al be (ga + de + 1)%R = Some RP1 -> plan_rottriangle j2 N be ga de = Some RP2 -> tet_array N L M A ->
  exists A', execute_tet_hi2lo (kernel_tri_hi2lo givens RP1) (kernel_tet_hi2lo givens RP2) N L M A = Some A' /\ zlen A' = N * (L * M) /\
    forall x y z, product_series3 (fam true (P 0) (h 0)) (fam true (Q 0) (g 0)) (fam true W e) N L M A' x y z = tet_series P h Q g W e N L M A x y z.
Proof.
  intros HG HP Ha Hb Hg Hd HF HQ W e j1 j2 N L M RP1 RP2 A HL HM E1 E2 HA.
  destruct (tet_driver tg p al be ga de P h Q g HG HP Ha Hb Hg Hd HF HQ j1 j2 N L M RP1 RP2 ltac:(lia) HL E1 E2 A HM HA) as (A' & E & LA & K).
  exists A'. split; [exact E|]. split; [exact LA|]. intros x y z. rewrite product_slices, tet_slices. apply sumZ_ext. intros m Hm. now rewrite K.
Qed.
Lemma T_C71_plan tg d1 d2 jk N al be ga de : gamma_function tg -> (tg (1/2) * tg (1/2) = PI)%R -> 0 < N -> (-1 < al)%R -> (-1 < be)%R -> (-1 < ga)%R -> (-1 < de)%R -> N <= zlen d1 -> N <= zlen d2 ->
  exists RP0 RP1 P0 P1 P2 Q0 Q1 Q2, plan_tet2cheb_tables 0%R (fun x => x) tg (Rpower 2) d1 d2 jk N al be ga de = Some (RP0, RP1, (P0, P1, P2), (Q0, Q1, Q2)).
Proof.
  intros HG Hpi HN Ha Hb Hg Hd L1 L2. destruct (tet_plan tg d1 d2 jk N 1 al be ga de HG Hpi ltac:(lia) Ha Hb Hg Hd L1 L2 _ _ _ _ _ _ std_cheb
    (tri_family_exists tg al be (ga + de + 1) HG Ha Hb ltac:(lra)) (tri_family_exists tg be ga de HG Hb Hg Hd) (family_exists tg de ga HG Hd Hg) std_cheb_ok) as (RP0 & RP1 & P0 & P1 & P2 & Q0 & Q1 & Q2 & E & _). eauto 12.
Qed.
Lemma T_C71_conversion BL tg d1 d2 jk N L al be : blas_ok BL -> gamma_function tg -> (tg (1/2) * tg (1/2) = PI)%R -> 0 < L <= N -> (-1 < al)%R -> (-1 < be)%R -> N <= zlen d1 -> N <= zlen d2 ->
  forall P h Q g W e T, triangle_family tg (Rpower 2) al be (-1/2 + -1/2 + 1) P h -> triangle_family tg (Rpower 2) be (-1/2) (-1/2) Q g -> jacobi_family tg (Rpower 2) (-1/2) (-1/2) W e -> is_chebyshev T ->
  forall RP0 RP1 P0 P1 P2 Q0 Q1 Q2, plan_tet2cheb_tables 0%R (fun x => x) tg (Rpower 2) d1 d2 jk N al be (-1/2)%R (-1/2)%R = Some (RP0, RP1, (P0, P1, P2), (Q0, Q1, Q2)) ->
  let hi := execute_tet_hi2lo (kernel_tri_hi2lo givens RP0) (kernel_tet_hi2lo givens RP1) N L N in
  let lo := execute_tet_lo2hi (kernel_tri_lo2hi givens_t RP0) (kernel_tet_lo2hi givens_t RP1) N L N in
  let c0 := tet_flag0 al be (-1/2)%R (-1/2)%R in let c1 := tet_flag1 be (-1/2)%R (-1/2)%R in let c2 := tet_flag2 (-1/2)%R (-1/2)%R in
  forall A, tet_array N L N A -> exists A',
    tet2cheb BL hi lo (chebyshev_normalization_3d (/ sqrt 2)%R (2 / PI * sqrt (2 / PI))%R N L N) c0 c1 c2 P0 P1 P2 false N L N A = Some A' /\
    (forall x y z, product_series3 T T T N L N A' x y z = tet_series P h Q g W e N L N A x y z) /\
    cheb2tet BL hi lo (chebyshev_normalization_3d (sqrt 2) (PI / 2 * sqrt (PI / 2))%R N L N) c0 c1 c2 Q0 Q1 Q2 false N L N A' = Some A.
Proof.
  intros OK HG Hpi HL Ha Hb L1 L2 P h Q g W e T HF HQ HW HT RP0 RP1 P0 P1 P2 Q0 Q1 Q2 HP hi lo c0 c1 c2 A SA. assert (Hm : (-1 < -1/2)%R) by lra.
  destruct (tet_cheb BL tg d1 d2 jk N L al be (-1/2) (-1/2) OK HG Hpi HL Ha Hb Hm Hm L1 L2 P h Q g W e T HF HQ HW HT RP0 RP1 P0 P1 P2 Q0 Q1 Q2 lo A eq_refl eq_refl HP SA) as (A' & E' & L' & FS).
  exists A'. split; [exact E'|]. split; [exact FS|].
  apply (tet_back BL tg d1 d2 jk N L al be (-1/2) (-1/2) OK HG Hpi HL Ha Hb Hm Hm L1 L2 P h Q g W e T HF HQ HW HT RP0 RP1 P0 P1 P2 Q0 Q1 Q2 c0 c1 c2 A A' HP); [rewrite (proj1 SA); ring|exact E'].
Qed.
Lemma tet_points T N k j i A : is_chebyshev T -> 0 <= k < N -> 0 <= j < N -> product_series3 T T T N N N A (tri_x N k) (tri_y N k j) (tet_z N k j i) =
  sumZ N (fun c => sumZ N (fun b => sumZ N (fun a => (cosine N a (theta N k) * cosine N b (theta N j) * cosine N c (theta N i) * nthZ 0%R A (a + (b + c * N) * N)%Z)%R))).
Proof.
  intros HT Hk Hj. pose proof (cos_lt_1 _ (theta_range N k Hk)) as C1. pose proof (cos_lt_1 _ (theta_range N j Hj)) as C2. unfold product_series3.
  assert (D : (1 - tri_x N k - tri_y N k j <> 0)%R).
  { unfold tri_y, tri_x. set (a := cos (theta N k)) in *. set (b := cos (theta N j)) in *. replace (1 - (1 + a) / 2 - (1 - (1 + a) / 2) * (1 + b) / 2)%R with ((1 - a) * (1 - b) / 4)%R by field. nra. }
  assert (D1 : (1 - tri_x N k <> 0)%R) by (unfold tri_x; lra).
  replace (2 * tri_x N k - 1)%R with (cos (theta N k)) by (unfold tri_x; field). replace (2 * (tri_y N k j / (1 - tri_x N k)) - 1)%R with (cos (theta N j)) by (unfold tri_y; field; auto).
  replace (2 * (tet_z N k j i / (1 - tri_x N k - tri_y N k j)) - 1)%R with (cos (theta N i)) by (unfold tet_z; field; auto).
  apply sumZ_ext. intros c Hc. apply sumZ_ext. intros b Hb. apply sumZ_ext. intros a Ha.
  rewrite !(cheb_cos T HT) by lia. unfold cosine. replace (a + N * (b + N * c)) with (a + (b + c * N) * N) by ring. ring.
Qed.
Lemma T_C71_values BL tg d1 d2 jk N al be : blas_ok BL -> gamma_function tg -> (tg (1/2) * tg (1/2) = PI)%R -> 0 < N -> (-1 < al)%R -> (-1 < be)%R -> N <= zlen d1 -> N <= zlen d2 ->
  forall P h Q g W e, triangle_family tg (Rpower 2) al be (-1/2 + -1/2 + 1) P h -> triangle_family tg (Rpower 2) be (-1/2) (-1/2) Q g -> jacobi_family tg (Rpower 2) (-1/2) (-1/2) W e -> forall FT, fftw_ok FT ->
  forall RP0 RP1 P0 P1 P2 Q0 Q1 Q2, plan_tet2cheb_tables 0%R (fun x => x) tg (Rpower 2) d1 d2 jk N al be (-1/2)%R (-1/2)%R = Some (RP0, RP1, (P0, P1, P2), (Q0, Q1, Q2)) ->
  let hi := execute_tet_hi2lo (kernel_tri_hi2lo givens RP0) (kernel_tet_hi2lo givens RP1) N N N in
  let lo := execute_tet_lo2hi (kernel_tri_lo2hi givens_t RP0) (kernel_tet_lo2hi givens_t RP1) N N N in
  let c0 := tet_flag0 al be (-1/2)%R (-1/2)%R in let c1 := tet_flag1 be (-1/2)%R (-1/2)%R in let c2 := tet_flag2 (-1/2)%R (-1/2)%R in
  forall A, tet_array N N N A -> exists A' V,
    tet2cheb BL hi lo (chebyshev_normalization_3d (/ sqrt 2)%R (2 / PI * sqrt (2 / PI))%R N N N) c0 c1 c2 P0 P1 P2 false N N N A = Some A' /\
    tet_synthesis FT false true N N N A' = Some V /\ zlen V = N * N * N /\
    (forall k j i, 0 <= k < N -> 0 <= j < N -> 0 <= i < N -> nthZ 0%R V (k + (j + i * N) * N) = tet_series P h Q g W e N N N A (tri_x N k) (tri_y N k j) (tet_z N k j i)) /\
    tet_analysis FT false false N N N V = Some A' /\
    cheb2tet BL hi lo (chebyshev_normalization_3d (sqrt 2) (PI / 2 * sqrt (PI / 2))%R N N N) c0 c1 c2 Q0 Q1 Q2 false N N N A' = Some A.
Proof.
  intros OK HG Hpi HN Ha Hb L1 L2 P h Q g W e HF HQ HW FT OF RP0 RP1 P0 P1 P2 Q0 Q1 Q2 HP hi lo c0 c1 c2 A SA. assert (Hm : (-1 < -1/2)%R) by lra. assert (HL : 0 < N <= N) by lia.
  destruct (tet_cheb BL tg d1 d2 jk N N al be (-1/2) (-1/2) OK HG Hpi HL Ha Hb Hm Hm L1 L2 P h Q g W e std_cheb HF HQ HW std_cheb_ok RP0 RP1 P0 P1 P2 Q0 Q1 Q2 lo A eq_refl eq_refl HP SA) as (A' & E' & L' & FS).
  destruct (T_C39_tetrahedron_cube FT OF N HN A' L') as (V & EV & LV & VV).
  destruct (T_C38_tetrahedron FT OF N N N HN HN HN A' L') as ((V' & EV' & LV' & EA) & _). rewrite EV in EV'. injection EV' as <-.
  exists A', V. split; [exact E'|]. split; [exact EV|]. split; [exact LV|]. split.
  - intros k j i Hk Hj Hi. rewrite <- FS. rewrite (VV k j i Hk Hj Hi). rewrite tet_points; auto using std_cheb_ok.
  - split; [exact EA|]. apply (tet_back BL tg d1 d2 jk N N al be (-1/2) (-1/2) OK HG Hpi HL Ha Hb Hm Hm L1 L2 P h Q g W e std_cheb HF HQ HW std_cheb_ok RP0 RP1 P0 P1 P2 Q0 Q1 Q2 c0 c1 c2 A A' HP); [rewrite (proj1 SA); ring|exact E'].
Qed.

(** ** example: the constant functions *)
Lemma one_tet N : 0 < N -> tet_array N N N (one_coefficient N (N * N)).
Proof.
  intros HN. split; [apply one_len; nia|]. intros l m Hl Hm i Hi Hi0. apply one_0.
  assert (0 <= l + N * m < N * N) by nia. assert (0 < N * (l + N * m) + i * 1); [|nia].
  destruct (Z.eq_dec (l + N * m) 0) as [E|E]; [|nia]. assert (l = 0 /\ m = 0) as [-> ->] by nia. replace (0 + 0 <? N) with true in Hi by lia. lia.
Qed.
Lemma sum_one3 N (f : Z -> Z -> Z -> R) : 0 < N -> sumZ N (fun m => sumZ N (fun l => sumZ N (fun k => nthZ 0 (one_coefficient N (N * N)) (k + N * (l + N * m))%Z * f m l k)))%R = f 0 0 0.
Proof.
  intros HN. rewrite (sumZ_first N) by auto. rewrite (sumZ_first N) by auto. rewrite (sumZ_first N) by auto. rewrite !(sumZ_zero (N - 1)).
  - change (nthZ 0%R (one_coefficient N (N * N)) (0 + N * (0 + N * 0))) with (nthZ 0%R (one_coefficient N (N * N)) (N * (N * 0))). replace (N * (N * 0)) with 0 by ring. change (nthZ 0%R (one_coefficient N (N * N)) 0) with 1%R. ring.
  - intros m Hm. apply sumZ_zero. intros l Hl. apply sumZ_zero. intros k Hk. rewrite one_0; [ring|]. assert (0 < l + N * (1 + m) < N * N) by nia. nia.
  - intros l Hl. apply sumZ_zero. intros k Hk. rewrite one_0; [ring|]. nia.
  - intros k Hk. rewrite one_0; [ring|]. nia.
Qed.
Lemma T_C71_example N : 0 < N -> exists RP0 RP1 P0 P1 P2 Q0 Q1 Q2 A' V,
  plan_tet2cheb_tables 0%R (fun x => x) ex_gamma2 (Rpower 2) (zmake N 0%R) (zmake N 0%R) 0%R N 0%R 0%R (-1/2)%R (-1/2)%R = Some (RP0, RP1, (P0, P1, P2), (Q0, Q1, Q2)) /\
  tet2cheb ref_blas (execute_tet_hi2lo (kernel_tri_hi2lo givens RP0) (kernel_tet_hi2lo givens RP1) N N N) (execute_tet_lo2hi (kernel_tri_lo2hi givens_t RP0) (kernel_tet_lo2hi givens_t RP1) N N N)
    (chebyshev_normalization_3d (/ sqrt 2)%R (2 / PI * sqrt (2 / PI))%R N N N) (tet_flag0 0%R 0%R (-1/2)%R (-1/2)%R) (tet_flag1 0%R (-1/2)%R (-1/2)%R) (tet_flag2 (-1/2)%R (-1/2)%R) P0 P1 P2 false N N N (one_coefficient N (N * N)) = Some A' /\
  tet_synthesis ref_fftw false true N N N A' = Some V /\ forall k j i, 0 <= k < N -> 0 <= j < N -> 0 <= i < N -> nthZ 0%R V (k + (j + i * N) * N) = (1 / (2 * sqrt PI))%R.
Proof.
  intros HN. destruct ex_gamma2_ok as [HG Hpi]. assert (m : (-1 < 0)%R) by lra. assert (mh : (-1 < -1/2)%R) by lra. assert (LZ : N <= zlen (zmake N 0%R)) by (rewrite zlen_zmake; lia).
  destruct (T_C71_plan ex_gamma2 _ _ 0%R N 0 0 (-1/2) (-1/2) HG Hpi HN m m mh mh LZ LZ) as (RP0 & RP1 & P0 & P1 & P2 & Q0 & Q1 & Q2 & E). exists RP0, RP1, P0, P1, P2, Q0, Q1, Q2.
  pose proof (tri_family_exists ex_gamma2 0 0 (-1/2 + -1/2 + 1) HG m m ltac:(lra)) as HF. pose proof (tri_family_exists ex_gamma2 0 (-1/2) (-1/2) HG m mh mh) as HQ. pose proof (family_exists ex_gamma2 (-1/2) (-1/2) HG mh mh) as HW.
  destruct (T_C71_values ref_blas ex_gamma2 _ _ 0%R N 0 0 ref_blas_ok HG Hpi HN m m LZ LZ _ _ _ _ _ _ HF HQ HW ref_fftw ref_ok RP0 RP1 P0 P1 P2 Q0 Q1 Q2 E _ (one_tet N HN)) as (A' & V & E1 & E2 & _ & VV & _).
  exists A', V. split; [exact E|]. split; [exact E1|]. split; [exact E2|]. intros k j i Hk Hj Hi. rewrite VV by auto. unfold tet_series. 
  rewrite (sum_one3 N (fun m l k => tri_factor _ _ (l + m) k _ * tri_factor _ _ m l _ * fam true _ _ m _)%R) by auto.
  unfold tri_factor, fam. change (Z.to_nat (0 + 0)) with 0%nat. change (Z.to_nat 0) with 0%nat. change (0 + 0) with 0. cbn [pow].
  destruct (HF 0 ltac:(lia)) as (F1 & F2 & F3). destruct (HQ 0 ltac:(lia)) as (G1 & G2 & G3). destruct HW as (W1 & W2 & W3). cbv beta in F1, F3, G1, G3.
  rewrite F3, G3, W3, (jac_0 _ _ _ F1), (jac_0 _ _ _ G1), (jac_0 _ _ _ W1).
  replace (2 * 0 + 0 + (-1 / 2 + -1 / 2 + 1) + 1)%R with (2 * 0 + 0 + 0 + 1)%R by field. replace (2 * 0 + -1 / 2 + -1 / 2 + 1)%R with 0%R by field. rewrite mass_10, mass_00 by auto.
  replace (jacobi_mass ex_gamma2 (Rpower 2) (-1 / 2) (-1 / 2)) with PI.
  2:{ replace (-1 / 2)%R with (- (1 / 2))%R by field. rewrite (che_mass ex_gamma2 (Rpower 2) (special_pow _ HG)). auto. }
  assert (S2 : (0 < sqrt 2)%R) by (apply sqrt_lt_R0; lra). assert (SP : (0 < sqrt PI)%R) by (apply sqrt_lt_R0, PI_RGT_0). assert (SS := sqrt_sqrt 2 ltac:(lra)).
  replace (2 * sqrt PI)%R with (sqrt 2 * sqrt 2 * sqrt PI)%R by (rewrite SS; ring). field. lra.
Qed.
