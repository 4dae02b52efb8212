(** * The driver of the sphere: every column keeps its function *)
From Coq Require Import ZArith List Lia Bool Reals Lra ZifyBool.
From Verif Require Import Base BaseFacts Arith SpecSum PSum MRotations SpecRot MDrivers SpecGeo SpecConvert PConv3.
Import ListNotations.
Open Scope Z_scope.

(** order of a column of the sphere: 0, 1, 1, 2, 2, ... *)
Local Notation ord q := ((q + 1) / 2).

Lemma occ_len A A' oA n : only_columns_changed (F := R) A A' oA 1 n 1 -> zlen A' = zlen A.
Proof. now intros []. Qed.
Lemma occ_col (A A' : list R) N q q' : 0 <= N -> q <> q' -> only_columns_changed A A' (N * q) 1 N 1 ->
  forall i, 0 <= i < N -> nthZ 0%R A' (N * q' + i * 1) = nthZ 0%R A (N * q' + i * 1).
Proof. intros HN Hq [_ H] i Hi. unfold nthZ. rewrite H; [reflexivity|]. intros r k Hr Hk. nia. Qed.
Lemma series_ext f n m (A A' : list R) o S t : (forall i, 0 <= i < n -> nthZ 0%R A' (o + i * S) = nthZ 0%R A (o + i * S)) ->
  column_series f n m A' o S t = column_series f n m A o S t.
Proof. intros H. unfold column_series. apply sumZ_ext. intros i Hi. now rewrite H. Qed.
Lemma zero_ext k n (A A' : list R) o S : (forall i, 0 <= i < n -> nthZ 0%R A' (o + i * S) = nthZ 0%R A (o + i * S)) ->
  zero_from k n A o S -> zero_from k n A' o S.
Proof. intros H Z i Hi H0. rewrite H by lia. now apply Z. Qed.
Lemma col_fit (A : list R) N M q : 0 <= N -> zlen A = N * M -> 0 <= q < M -> columns_fit A (N * q) 1 N 1.
Proof. intros HN L Hq r i Hr Hi. rewrite L. nia. Qed.

Section Driver.
Variables (junk : R) (N M : Z) (RP : rotplan R).
Hypotheses (HN : 0 <= N) (HP : plan_rotsphere junk N = Some RP) (HM : M mod 2 = 1) (HM1 : 0 <= M).

(** column q of X holds the function of column q of A, at order d *)
Definition keeps (d q : Z) (A X : list R) : Prop :=
  zero_from (N - d) N X (N * q) 1 /\ forall t, column_series polar N d X (N * q) 1 t = column_series polar N (ord q) A (N * q) 1 t.

Lemma step_col A X q m : 0 <= q < M -> m = ord q -> 2 <= m -> zlen X = N * M -> keeps m q A X ->
  exists X', kernel_sph_hi2lo givens RP (m mod 2) m X (N * q) 1 = Some X' /\ zlen X' = N * M /\ keeps (m mod 2) q A X' /\
    forall q', q' <> q -> forall i, 0 <= i < N -> nthZ 0%R X' (N * q' + i * 1) = nthZ 0%R X (N * q' + i * 1).
Proof.
  intros Hq Em Hm L [K1 K2].
  destruct (sph_conv N junk RP X (N * q) 1 (m mod 2) m HP HN) as (X' & E & O & Z1 & Z2); auto; try lia.
  - eapply col_fit; eauto.
  - exists X'. split; [exact E|]. split; [rewrite (occ_len _ _ _ _ O); exact L|]. split.
    + split; auto. intros t. now rewrite Z2.
    + intros q' Hq' i Hi. eapply occ_col; eauto.
Qed.

Lemma keeps_ext d q A X X' : (forall i, 0 <= i < N -> nthZ 0%R X' (N * q + i * 1) = nthZ 0%R X (N * q + i * 1)) -> keeps d q A X -> keeps d q A X'.
Proof. intros H [K1 K2]. split; [eapply zero_ext; eauto|]. intros t. rewrite <- K2. now apply series_ext. Qed.

Lemma driver_conv A : zlen A = N * M -> (forall q, 0 <= q < M -> zero_from (N - ord q) N A (N * q) 1) ->
  exists A', execute_sph_default (kernel_sph_hi2lo givens RP) N M A = Some A' /\ zlen A' = N * M /\
    forall q, 0 <= q < M -> keeps (ord q mod 2) q A A'.
Proof.
  intros L HZ. unfold execute_sph_default. destruct (Z_lt_ge_dec M 3) as [M3|M3].
  { rewrite for_up_nil by lia. exists A. split; auto. split; auto. intros q Hq. assert (q = 0) as -> by lia. change ((0 + 1) / 2 mod 2) with ((0 + 1) / 2). split; [apply HZ; lia|reflexivity]. }
  destruct (for_up_inv (fun k X => zlen X = N * M /\ forall q, 0 <= q < M -> keeps (if ord q <? k then ord q mod 2 else ord q) q A X) 2 (M / 2 + 1) (sph_body (kernel_sph_hi2lo givens RP) N) A) as (A' & E & H).
  - lia.
  - split; auto. intros q Hq. destruct (ord q <? 2) eqn:E2.
    + assert (D : ord q = 0 \/ ord q = 1) by lia. replace (ord q mod 2) with (ord q) by (destruct D as [-> | ->]; reflexivity). split; auto.
    + split; auto.
  - intros m X Hm [LX HX]. unfold sph_body.
    destruct (step_col A X (2 * m - 1) m) as (X1 & E1 & L1 & K1 & O1); auto; try lia.
    { specialize (HX (2 * m - 1) ltac:(lia)). replace ((2 * m - 1 + 1) / 2) with m in HX by (replace (2 * m - 1 + 1) with (m * 2) by lia; now rewrite Z.div_mul). replace (m <? m) with false in HX by lia. exact HX. }
    rewrite E1. cbn [obind].
    destruct (step_col A X1 (2 * m) m) as (X2 & E2 & L2 & K2 & O2); auto; try lia.
    { apply (keeps_ext _ _ _ X); [apply O1; lia|]. specialize (HX (2 * m) ltac:(lia)). replace ((2 * m + 1) / 2) with m in HX by lia. replace (m <? m) with false in HX by lia. exact HX. }
    rewrite E2. exists X2. split; [reflexivity|]. split; auto. intros q Hq.
    destruct (Z.eq_dec q (2 * m)) as [->|N1].
    { replace ((2 * m + 1) / 2) with m by lia. replace (m <? m + 1) with true by lia. exact K2. }
    apply (keeps_ext _ _ _ X1); [apply O2; lia|].
    destruct (Z.eq_dec q (2 * m - 1)) as [->|N2].
    { replace ((2 * m - 1 + 1) / 2) with m by lia. replace (m <? m + 1) with true by lia. exact K1. }
    apply (keeps_ext _ _ _ X); [apply O1; lia|]. specialize (HX q Hq). replace (ord q <? m + 1) with (ord q <? m) by lia. exact HX.
  - destruct H as (LX & HX). exists A'. split; auto. split; auto. intros q Hq. specialize (HX q Hq). replace (ord q <? M / 2 + 1) with true in HX by lia. exact HX.
Qed.
End Driver.
