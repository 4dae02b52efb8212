(** * The rotations of the tetrahedron: every slice keeps its function *)
From Coq Require Import ZArith List Lia Bool Reals Lra ZifyBool.
From Verif Require Import Base BaseFacts Arith SpecSum PSum MRotations SpecRot PRot PRotBlock PRotKernels PRotFam PRotInv PRotPlans PRotMore PRotThms MDrivers PClass8 PConv9 PConv10 SpecClassical SpecTransforms SpecConvert SpecConvert2 SpecConvert5 PConv1 PConv4 PConv11 PConv12.
Import ListNotations.
Open Scope Z_scope.

Section Kernel.
Variables (tg p : R -> R) (al be ga : R) (P : Z -> Z -> R -> R) (h : Z -> Z -> R).
Hypotheses (HG : gamma_function tg) (HP2 : power_of_two p) (Ha : (-1 < al)%R) (Hb : (-1 < be)%R) (Hg : (-1 < ga)%R) (HF : triangle_family tg p al be ga P h).
Lemma tet_conv n (junk : R) RP A oA L m : plan_rottriangle junk n al be ga = Some RP -> 0 <= L <= n -> 0 <= m ->
  columns_fit A oA n L n -> (forall k, 0 <= k < n -> zero_from (L - m) L A (oA + k) n) ->
  exists A', kernel_tet_hi2lo givens RP L m A oA = Some A' /\ only_columns_changed A A' oA n L n /\
    forall k x, 0 <= k < n -> column_series (tri_factor P h) L 0 A' (oA + k) n x = column_series (tri_factor P h) L m A (oA + k) n x.
Proof.
  intros E HL Hm Ft HZ. assert (Hn : 0 <= n) by lia. pose proof (tri_tabs al be ga n junk RP Hn E) as HT. destruct (planned_tri n junk al be ga RP Hn Ha Hb Hg E) as (Hrn & Tt & Ut).
  pose proof (real_tet_hi2lo givens RP Tt L oA ltac:(lia) A m) as R1. rewrite Hrn in R1.
  assert (I : minv oA n L n A A) by (apply minv_refl; exact Ft).
  destruct (R1 A I) as (A' & E1 & I1 & V). exists A'. split; [exact E1|]. split.
  { destruct I1 as (Ln & _ & O). split; auto. intros p' Hp'. apply O. intros (r & i & Hr & Hi & E'). apply (Hp' r i Hr Hi). exact E'. }
  intros k t Hk. unfold LD in V. rewrite Hrn in V.
  set (g := mview oA n L A k).
  replace m with (0 + Z.of_nat (Z.to_nat m) * 1) in V, HZ |- * by lia.
  assert (CS : sumZ L (fun i => (run (opsD 1 1 (topL L) (fnRC givens RP (sidx n)) 0 (0 + Z.of_nat (Z.to_nat m) * 1)) g i * tri_factor P h 0 i t)%R) = sumZ L (fun i => (g i * tri_factor P h (0 + Z.of_nat (Z.to_nat m) * 1) i t)%R) /\
     forall i, topL L 0 + 1 < i < L -> 0 <= i -> run (opsD 1 1 (topL L) (fnRC givens RP (sidx n)) 0 (0 + Z.of_nat (Z.to_nat m) * 1)) g i = 0%R).
  { apply (ops_sum 1 1 L (topL L) (fnRC givens RP (sidx n)) (fun k j => js (2 * IZR j + be + ga + 1) al k) (fun k j => jc (2 * IZR j + be + ga + 1) al k) ltac:(lia) ltac:(lia) (stepL' L)) with (M := fun j k => tri_mix al be ga h j k t) (f := fun j k => tri_factor P h j k t).
    - intros j Hj. unfold topL. lia.
    - intros k' j x y Hj Hk'. unfold topL in Hk'. destruct (HT k' j ltac:(lia) ltac:(lia) ltac:(lia)) as (T1 & T2). unfold fnRC, sc, givens. cbn [fst snd zero R_arith]. rewrite T1, T2. reflexivity.
    - intros j k' Hj Hk'. apply (tri_1 tg p); auto; lia.
    - intros j k' Hj Hk'. apply (tri_2 tg p al be ga P h); auto; lia.
    - intros j k' Hj Hk'. replace k' with 0 by lia. apply (tri_0 tg p); auto; lia.
    - lia.
    - intros i Hi H0i. unfold g, mview, topL, addr in *. replace ((0 <=? i) && (i <? L)) with true by lia.
      replace (oA + i * n + k) with (oA + k + i * n) by lia. apply (HZ k Hk); lia. }
  destruct CS as [C1 _]. unfold column_series.
  transitivity (sumZ L (fun i => (run (opsD 1 1 (topL L) (fnRC givens RP (sidx n)) 0 (0 + Z.of_nat (Z.to_nat m) * 1)) g i * tri_factor P h 0 i t)%R)).
  - apply sumZ_ext. intros i Hi. specialize (V k i Hk). fold g in V. rewrite <- V. unfold mview, addr. replace ((0 <=? i) && (i <? L)) with true by lia.
    cbn [zero R_arith]. replace (oA + i * n + k) with (oA + k + i * n) by lia. reflexivity.
  - rewrite C1. apply sumZ_ext. intros i Hi. unfold g, mview, addr. replace ((0 <=? i) && (i <? L)) with true by lia.
    cbn [zero R_arith]. replace (oA + i * n + k) with (oA + k + i * n) by lia. reflexivity.
Qed.
End Kernel.

Lemma slice_swap (f g : Z -> R) N L o (A : list R) : sumZ L (fun l => (sumZ N (fun k => nthZ 0 A (o + N * l + k) * f k) * g l)%R) = sumZ N (fun k => (sumZ L (fun l => nthZ 0 A (o + N * l + k) * g l) * f k)%R).
Proof.
  transitivity (sumZ L (fun l => sumZ N (fun k => (nthZ 0 A (o + N * l + k) * f k * g l)%R))).
  { apply sumZ_ext. intros l Hl. now rewrite sumZ_scal_r. }
  rewrite sumZ_swap. apply sumZ_ext. intros k Hk. rewrite <- sumZ_scal_r. apply sumZ_ext. intros l Hl. ring.
Qed.
Section Driver.
Variables (tg p : R -> R) (al be ga de : R) (P : Z -> Z -> R -> R) (h : Z -> Z -> R) (Q : Z -> Z -> R -> R) (g : Z -> Z -> R).
Hypotheses (HG : gamma_function tg) (HP2 : power_of_two p) (Ha : (-1 < al)%R) (Hb : (-1 < be)%R) (Hg : (-1 < ga)%R) (Hd : (-1 < de)%R).
Hypotheses (HF : triangle_family tg p al be (ga + de + 1) P h) (HQ : triangle_family tg p be ga de Q g).
Variables (j1 j2 : R) (N L M : Z) (RP1 RP2 : rotplan R).
Hypotheses (HN : 0 <= N) (HL : 0 <= L <= N) (HR1 : plan_rottriangle j1 N al be (ga + de + 1)%R = Some RP1) (HR2 : plan_rottriangle j2 N be ga de = Some RP2).
Local Notation F := (tri_factor P h).
Local Notation G := (tri_factor Q g).
Definition slice (d : bool) (A : list R) (m : Z) (x y : R) : R :=
  sumZ L (fun l => (column_series F N (if d then l + m else 0) A (N * (l + L * m)) 1 x * G (if d then m else 0) l y)%R).
Lemma slice_ext d A A' m x y : (forall l i, 0 <= l < L -> 0 <= i < N -> nthZ 0%R A' (N * (l + L * m) + i * 1) = nthZ 0%R A (N * (l + L * m) + i * 1)) -> slice d A' m x y = slice d A m x y.
Proof. intros H. unfold slice. apply sumZ_ext. intros l Hl. f_equal. apply series_ext. intros i Hi. now apply H. Qed.
Lemma tet_inner X m : 0 <= m < M -> zlen X = N * (L * M) ->
  (forall l, 0 <= l < L -> zero_from (if l + m <? L then N - (l + m) else 0) N X (N * (l + L * m)) 1) ->
  exists Y, for_up 0 (L - m) (fun l A => kernel_tri_hi2lo givens RP1 0 (l + m) A (N * (l + L * m)) 1) X = Some Y /\ zlen Y = N * (L * M) /\
    (forall q i, 0 <= i < N -> ~ (L * m <= q < L * m + (L - m)) -> nthZ 0%R Y (N * q + i * 1) = nthZ 0%R X (N * q + i * 1)) /\
    forall l, 0 <= l < L - m -> forall x, column_series F N 0 Y (N * (l + L * m)) 1 x = column_series F N (l + m) X (N * (l + L * m)) 1 x.
Proof.
  intros Hm LX HZ. destruct (Z_le_dec (L - m) 0) as [D|D].
  { rewrite for_up_nil by lia. exists X. repeat split; auto. intros l Hl. lia. }
  destruct (for_up_inv (fun l0 Y => zlen Y = N * (L * M) /\
    (forall q i, 0 <= i < N -> ~ (L * m <= q < L * m + l0) -> nthZ 0%R Y (N * q + i * 1) = nthZ 0%R X (N * q + i * 1)) /\
    forall l, 0 <= l < l0 -> forall x, column_series F N 0 Y (N * (l + L * m)) 1 x = column_series F N (l + m) X (N * (l + L * m)) 1 x)
    0 (L - m) (fun l A => kernel_tri_hi2lo givens RP1 0 (l + m) A (N * (l + L * m)) 1) X) as (Y & E & H).
  - lia.
  - repeat split; auto. intros l Hl. lia.
  - intros l0 Y Hl0 (LY & U & K).
    assert (SY : forall i, 0 <= i < N -> nthZ 0%R Y (N * (l0 + L * m) + i * 1) = nthZ 0%R X (N * (l0 + L * m) + i * 1)) by (intros i Hi; apply U; [lia|lia]).
    assert (B : 0 <= l0 + L * m < L * M) by nia.
    destruct (tri_conv tg p al be (ga + de + 1)%R P h HG HP2 Ha Hb ltac:(lra) HF N j1 RP1 Y (N * (l0 + L * m)) 1 0 (l0 + m) HR1 HN ltac:(lia) ltac:(lia)) as (Y' & E & O & _ & S).
    { exact (col_fit Y N (L * M) (l0 + L * m) HN LY B). }
    { specialize (HZ l0 ltac:(lia)). replace (l0 + m <? L) with true in HZ by lia. eapply zero_ext; [exact SY|exact HZ]. }
    exists Y'. split; [exact E|]. split; [rewrite (occ_len _ _ _ _ O); exact LY|]. split.
    + intros q i Hi Hq. rewrite (occ_col Y Y' N (l0 + L * m) q HN) by (auto; lia). apply U; auto; lia.
    + intros l Hl x. destruct (Z.eq_dec l l0) as [->|D1].
      * rewrite S. now apply series_ext.
      * transitivity (column_series F N 0 Y (N * (l + L * m)) 1 x); [|apply K; lia]. apply series_ext. apply (occ_col Y Y' N (l0 + L * m) (l + L * m) HN); auto; lia.
  - destruct H as (LY & U & K). exists Y. auto.
Qed.
Lemma tet_body X m : 0 <= m < M -> zlen X = N * (L * M) ->
  (forall l, 0 <= l < L -> zero_from (if l + m <? L then N - (l + m) else 0) N X (N * (l + L * m)) 1) ->
  exists Y, tet_hi2lo_body (kernel_tri_hi2lo givens RP1) (kernel_tet_hi2lo givens RP2) N L m X = Some Y /\ zlen Y = N * (L * M) /\
    (forall l m' i, 0 <= l < L -> 0 <= i < N -> m' <> m -> nthZ 0%R Y (N * (l + L * m') + i * 1) = nthZ 0%R X (N * (l + L * m') + i * 1)) /\
    forall x y, slice false Y m x y = slice true X m x y.
Proof.
  intros Hm LX HZ. destruct (tet_inner X m Hm LX HZ) as (X1 & E1 & L1 & U1 & K1). unfold tet_hi2lo_body. rewrite E1. cbn [obind].
  assert (Z1 : forall l i, L - m <= l < L -> 0 <= l -> 0 <= i < N -> nthZ 0%R X1 (N * (l + L * m) + i * 1) = 0%R).
  { intros l i Hl H0 Hi. rewrite U1 by (auto; lia). specialize (HZ l ltac:(lia)). replace (l + m <? L) with false in HZ by lia. apply HZ; lia. }
  destruct (tet_conv tg p be ga de Q g HG HP2 Hb Hg Hd HQ N j2 RP2 X1 (N * L * m) L m HR2 HL ltac:(lia)) as (Y & E2 & O2 & S2).
  - intros r i Hr Hi. rewrite L1. assert (0 <= r * N) by nia. assert (r * N + i < N * L) by nia. assert (N * L * m + N * L <= N * (L * M)) by nia. assert (0 <= N * L * m) by nia. lia.
  - intros k Hk i Hi H0. replace (N * L * m + k + i * N) with (N * (i + L * m) + k * 1) by ring. apply Z1; lia.
  - exists Y. split; [exact E2|]. split; [rewrite (proj1 O2); exact L1|]. split.
    + intros l m' i Hl Hi D. transitivity (nthZ 0%R X1 (N * (l + L * m') + i * 1)).
      * unfold nthZ. rewrite (proj2 O2); [reflexivity|]. intros r i' Hr Hi' E. assert (i + N * (l + L * m') = i' + N * (r + L * m)) by lia.
        assert (l + L * m' = r + L * m) by nia. nia.
      * apply U1; auto. nia.
    + intros x y.
      assert (T : forall X d, slice false X m x y = slice false X m x y -> sumZ L (fun l => (column_series F N 0 X (N * (l + L * m)) 1 x * G d l y)%R) = sumZ N (fun k => (column_series G L d X (N * L * m + k) N y * F 0 k x)%R)).
      { intros Z d _. unfold column_series. transitivity (sumZ L (fun l => (sumZ N (fun k => nthZ 0 Z (N * L * m + N * l + k) * F 0 k x) * G d l y)%R)).
        - apply sumZ_ext. intros l Hl. f_equal. apply sumZ_ext. intros k Hk. f_equal. f_equal. ring.
        - rewrite (slice_swap (fun k => F 0 k x) (fun l => G d l y)). apply sumZ_ext. intros k Hk. f_equal. apply sumZ_ext. intros l Hl. f_equal. f_equal. ring. }
      unfold slice. rewrite (T Y 0 eq_refl). transitivity (sumZ N (fun k => (column_series G L m X1 (N * L * m + k) N y * F 0 k x)%R)).
      { apply sumZ_ext. intros k Hk. f_equal. now apply S2. }
      rewrite <- (T X1 m eq_refl). apply sumZ_ext. intros l Hl. f_equal. destruct (Z_lt_ge_dec l (L - m)) as [D|D]; [apply K1; lia|].
      unfold column_series. rewrite !sumZ_zero; [reflexivity| |].
      * intros i Hi. rewrite <- (U1 (l + L * m) i) by (auto; lia). rewrite Z1 by lia. ring.
      * intros i Hi. rewrite Z1 by lia. ring.
Qed.
Lemma tet_driver A : 0 <= M -> tet_array N L M A ->
  exists A', execute_tet_hi2lo (kernel_tri_hi2lo givens RP1) (kernel_tet_hi2lo givens RP2) N L M A = Some A' /\ zlen A' = N * (L * M) /\
    forall m, 0 <= m < M -> forall x y, slice false A' m x y = slice true A m x y.
Proof.
  intros HM [LA HZ]. unfold execute_tet_hi2lo.
  destruct (for_up_inv (fun k X => zlen X = N * (L * M) /\ (forall l m i, 0 <= l < L -> 0 <= i < N -> k <= m -> nthZ 0%R X (N * (l + L * m) + i * 1) = nthZ 0%R A (N * (l + L * m) + i * 1)) /\
     forall m, 0 <= m < k -> forall x y, slice false X m x y = slice true A m x y) 0 M (tet_hi2lo_body (kernel_tri_hi2lo givens RP1) (kernel_tet_hi2lo givens RP2) N L) A) as (A' & E & H).
  - lia.
  - repeat split; auto. intros m Hm. lia.
  - intros m X Hm (LX & U & K). destruct (tet_body X m Hm LX) as (Y & EY & LY & UY & KY).
    { intros l Hl. eapply zero_ext; [|apply (HZ l m Hl Hm)]. intros i Hi. apply U; auto; lia. }
    exists Y. split; [exact EY|]. split; [exact LY|]. split.
    + intros l m' i Hl Hi Hm'. rewrite UY by (auto; lia). apply U; auto; lia.
    + intros m' Hm' x y. destruct (Z.eq_dec m' m) as [->|D].
      * rewrite KY. apply slice_ext. intros l i Hl Hi. apply U; auto; lia.
      * rewrite (slice_ext false X) by (intros l i Hl Hi; apply UY; auto). apply K; lia.
  - destruct H as (LX & _ & K). exists A'. auto.
Qed.
Lemma tet_slices W e A x y z : tet_series P h Q g W e N L M A x y z = sumZ M (fun m => (slice true A m (2 * x - 1) (2 * (y / (1 - x)) - 1) * fam true W e m (2 * (z / (1 - x - y)) - 1))%R).
Proof.
  unfold tet_series, slice, column_series. apply sumZ_ext. intros m Hm. rewrite <- sumZ_scal_r. apply sumZ_ext. intros l Hl. rewrite <- !sumZ_scal_r. apply sumZ_ext. intros k Hk.
  replace (N * (l + L * m) + k * 1) with (k + N * (l + L * m)) by ring. ring.
Qed.
Lemma product_slices W A x y z : product_series3 (fam true (P 0) (h 0)) (fam true (Q 0) (g 0)) W N L M A x y z = sumZ M (fun m => (slice false A m (2 * x - 1) (2 * (y / (1 - x)) - 1) * W m (2 * (z / (1 - x - y)) - 1))%R).
Proof.
  unfold product_series3, slice, column_series. apply sumZ_ext. intros m Hm. rewrite <- sumZ_scal_r. apply sumZ_ext. intros l Hl. rewrite <- !sumZ_scal_r. apply sumZ_ext. intros k Hk.
  unfold tri_factor. cbn [Z.to_nat pow]. replace (N * (l + L * m) + k * 1) with (k + N * (l + L * m)) by ring. ring.
Qed.
End Driver.
