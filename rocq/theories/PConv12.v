(** * The drivers of the triangle and of the disk: every column keeps its function *)
From Coq Require Import ZArith List Lia Bool Reals Lra ZifyBool.
From Verif Require Import Base BaseFacts Arith SpecSum PSum MRotations SpecRot MDrivers SpecConvert SpecConvert2 PConv4 PConv11.
Import ListNotations.
Open Scope Z_scope.

Section Gen.
Variables (N M : Z) (f : Z -> Z -> R -> R) (cut ord : Z -> Z).
Hypothesis HN : 0 <= N.
(** column q of X holds the function of column q of A, at order d *)
Definition kept (d q : Z) (A X : list R) : Prop :=
  zero_from (N - cut d) N X (N * q) 1 /\ forall t, column_series f N d X (N * q) 1 t = column_series f N (ord q) A (N * q) 1 t.
Lemma kept_ext d q A X X' : (forall i, 0 <= i < N -> nthZ 0%R X' (N * q + i * 1) = nthZ 0%R X (N * q + i * 1)) -> kept d q A X -> kept d q A X'.
Proof. intros H [K1 K2]. split; [eapply zero_ext; eauto|]. intros t. rewrite <- K2. now apply series_ext. Qed.
Lemma kept_step (k : Z -> Z -> list R -> Z -> Z -> option (list R)) A X q d m : 0 <= q < M -> zlen X = N * M ->
  (columns_fit X (N * q) 1 N 1 -> zero_from (N - cut m) N X (N * q) 1 -> exists X', k d m X (N * q) 1 = Some X' /\ only_columns_changed X X' (N * q) 1 N 1 /\
     zero_from (N - cut d) N X' (N * q) 1 /\ forall t, column_series f N d X' (N * q) 1 t = column_series f N m X (N * q) 1 t) ->
  kept m q A X ->
  exists X', k d m X (N * q) 1 = Some X' /\ zlen X' = N * M /\ kept d q A X' /\
    forall q', q' <> q -> forall i, 0 <= i < N -> nthZ 0%R X' (N * q' + i * 1) = nthZ 0%R X (N * q' + i * 1).
Proof.
  intros Hq L H [K1 K2]. destruct H as (X' & E & O & Z1 & Z2); auto.
  - eapply col_fit; eauto.
  - exists X'. split; [exact E|]. split; [rewrite (occ_len _ _ _ _ O); exact L|]. split.
    + split; auto. intros t. now rewrite Z2.
    + intros q' Hq' i Hi. eapply occ_col; eauto.
Qed.
End Gen.

Section Tri.
Variables (tg p : R -> R) (al be ga : R) (P : Z -> Z -> R -> R) (h : Z -> Z -> R).
Hypotheses (HG : gamma_function tg) (HP2 : power_of_two p) (Ha : (-1 < al)%R) (Hb : (-1 < be)%R) (Hg : (-1 < ga)%R) (HF : triangle_family tg p al be ga P h).
Variables (junk : R) (N M : Z) (RP : rotplan R).
Hypotheses (HN : 0 <= N) (HR : plan_rottriangle junk N al be ga = Some RP).
Lemma tri_driver A : zlen A = N * M -> (forall q, 0 <= q < M -> zero_from (N - q) N A (N * q) 1) ->
  exists A', execute_tri_default (kernel_tri_hi2lo givens RP) N M A = Some A' /\ zlen A' = N * M /\
    forall q, 0 <= q < M -> forall x, column_series (tri_factor P h) N 0 A' (N * q) 1 x = column_series (tri_factor P h) N q A (N * q) 1 x.
Proof.
  intros L HZ. unfold execute_tri_default. destruct (Z_lt_ge_dec M 2) as [M3|M3].
  { rewrite for_up_nil by lia. exists A. split; auto. split; auto. intros q Hq. assert (q = 0) as -> by lia. reflexivity. }
  destruct (for_up_inv (fun k X => zlen X = N * M /\ forall q, 0 <= q < M -> kept N (tri_factor P h) (fun m => m) (fun q => q) (if q <? k then 0 else q) q A X) 1 M (tri_body (kernel_tri_hi2lo givens RP) N) A) as (A' & E & H).
  - lia.
  - split; auto. intros q Hq. destruct (q <? 1) eqn:E2.
    + assert (q = 0) as -> by lia. split; [exact (HZ 0 ltac:(lia))|reflexivity].
    + split; [apply HZ; lia|reflexivity].
  - intros m X Hm [LX HX]. unfold tri_body.
    destruct (kept_step N M (tri_factor P h) (fun m => m) (fun q => q) HN (kernel_tri_hi2lo givens RP) A X m 0 m) as (X1 & E1 & L1 & K1 & O1); auto; try lia.
    { intros C Z. apply (tri_conv tg p al be ga P h HG HP2 Ha Hb Hg HF N junk RP X (N * m) 1 0 m HR HN); auto; lia. }
    { specialize (HX m ltac:(lia)). replace (m <? m) with false in HX by lia. exact HX. }
    exists X1. split; [exact E1|]. split; auto. intros q Hq.
    destruct (Z.eq_dec q m) as [->|N1].
    { replace (m <? m + 1) with true by lia. exact K1. }
    eapply kept_ext; [apply O1; lia|]. specialize (HX q Hq). replace (q <? m + 1) with (q <? m) by lia. exact HX.
  - destruct H as (LX & HX). exists A'. split; auto. split; auto. intros q Hq. specialize (HX q Hq). replace (q <? M) with true in HX by lia. apply HX.
Qed.
End Tri.

Section Disk.
Variables (tg p : R -> R) (al be : R) (P : Z -> Z -> R -> R) (h : Z -> Z -> R).
Hypotheses (HG : gamma_function tg) (HP2 : power_of_two p) (Ha : (-1 < al)%R) (Hb : (-1 < be)%R) (HF : disk_family tg p al be P h).
Variables (junk : R) (N M : Z) (RP : rotplan R).
Hypotheses (HN : 0 < N) (HR : plan_rotdisk junk N al be = Some RP) (HM : M mod 2 = 1).
Local Notation ord q := ((q + 1) / 2).
Local Notation kp := (kept N (disk_factor P h) (fun m => (m + 1) / 2) (fun q => ord q)).
Lemma disk_driver A : zlen A = N * M -> (forall q, 0 <= q < M -> zero_from (N - (ord q + 1) / 2) N A (N * q) 1) ->
  exists A', execute_sph_default (kernel_disk_hi2lo givens RP) N M A = Some A' /\ zlen A' = N * M /\
    forall q, 0 <= q < M -> zero_from (N - (ord q) mod 2) N A' (N * q) 1 /\
      forall r, column_series (disk_factor P h) N (ord q mod 2) A' (N * q) 1 r = column_series (disk_factor P h) N (ord q) A (N * q) 1 r.
Proof.
  intros L HZ. unfold execute_sph_default. destruct (Z_lt_ge_dec M 3) as [M3|M3].
  { rewrite for_up_nil by lia. exists A. split; auto. split; auto. intros q Hq. assert (q = 0) as -> by lia. split; [exact (HZ 0 ltac:(lia))|reflexivity]. }
  destruct (for_up_inv (fun k X => zlen X = N * M /\ forall q, 0 <= q < M -> kp (if ord q <? k then ord q mod 2 else ord q) q A X) 2 (M / 2 + 1) (sph_body (kernel_disk_hi2lo givens RP) N) A) as (A' & E & H).
  - lia.
  - split; auto. intros q Hq. destruct (ord q <? 2) eqn:E2.
    + assert (D : ord q = 0 \/ ord q = 1) by lia. replace (ord q mod 2) with (ord q) by (destruct D as [-> | ->]; reflexivity). split; [apply HZ; lia|reflexivity].
    + split; [apply HZ; lia|reflexivity].
  - intros m X Hm [LX HX]. unfold sph_body.
    assert (ST : forall X q, 0 <= q < M -> columns_fit X (N * q) 1 N 1 -> zero_from (N - (m + 1) / 2) N X (N * q) 1 ->
      exists X', kernel_disk_hi2lo givens RP (m mod 2) m X (N * q) 1 = Some X' /\ only_columns_changed X X' (N * q) 1 N 1 /\
       zero_from (N - (m mod 2 + 1) / 2) N X' (N * q) 1 /\ forall t, column_series (disk_factor P h) N (m mod 2) X' (N * q) 1 t = column_series (disk_factor P h) N m X (N * q) 1 t).
    { intros X0 q Hq C Z. apply (disk_conv tg p al be P h HG HP2 Ha Hb HF N junk RP X0 (N * q) 1 (m mod 2) m HR HN); auto; lia. }
    destruct (kept_step N M (disk_factor P h) (fun m => (m + 1) / 2) (fun q => ord q) ltac:(lia) (kernel_disk_hi2lo givens RP) A X (2 * m - 1) (m mod 2) m) as (X1 & E1 & L1 & K1 & O1); auto; try lia.
    { intros C Z. apply ST; auto; lia. }
    { specialize (HX (2 * m - 1) ltac:(lia)). cbv beta in HX. replace ((2 * m - 1 + 1) / 2) with m in HX by lia. replace (m <? m) with false in HX by lia. exact HX. }
    rewrite E1. cbn [obind].
    destruct (kept_step N M (disk_factor P h) (fun m => (m + 1) / 2) (fun q => ord q) ltac:(lia) (kernel_disk_hi2lo givens RP) A X1 (2 * m) (m mod 2) m) as (X2 & E2 & L2 & K2 & O2); auto; try lia.
    { intros C Z. apply ST; auto; lia. }
    { eapply kept_ext; [apply O1; lia|]. specialize (HX (2 * m) ltac:(lia)). replace ((2 * m + 1) / 2) with m in HX by lia. replace (m <? m) with false in HX by lia. exact HX. }
    rewrite E2. exists X2. split; [reflexivity|]. split; auto. intros q Hq.
    destruct (Z.eq_dec q (2 * m)) as [->|N1].
    { replace ((2 * m + 1) / 2) with m by lia. replace (m <? m + 1) with true by lia. exact K2. }
    eapply kept_ext; [apply O2; lia|].
    destruct (Z.eq_dec q (2 * m - 1)) as [->|N2].
    { replace ((2 * m - 1 + 1) / 2) with m by lia. replace (m <? m + 1) with true by lia. exact K1. }
    eapply kept_ext; [apply O1; lia|]. specialize (HX q Hq). replace (ord q <? m + 1) with (ord q <? m) by lia. exact HX.
  - destruct H as (LX & HX). exists A'. split; auto. split; auto. intros q Hq. destruct (HX q Hq) as [Z K]. replace (ord q <? M / 2 + 1) with true in * by lia.
    split; [|exact K]. replace ((ord q) mod 2) with ((ord q mod 2 + 1) / 2); [exact Z|].
    assert (D : ord q mod 2 = 0 \/ ord q mod 2 = 1) by lia. destruct D as [-> | ->]; reflexivity.
Qed.
End Disk.
