(** * Proofs: the operator Clenshaw algorithm *)
From Coq Require Import ZArith List Lia Bool ZifyBool ZifyNat Reals Lra.
From Verif Require Import Arith Base BaseFacts SpecSum PSum SpecLin MBanded SpecBanded PTri PBand.
Import ListNotations.
Open Scope Z_scope.

Definition meq (m : Z) (U V : Z -> Z -> R) : Prop := forall i j, 0 <= i < m -> 0 <= j < m -> U i j = V i j.
Lemma matmul_meq m U U' V V' : meq m U U' -> meq m V V' -> meq m (matmul m U V) (matmul m U' V').
Proof. intros HU HV i j Hi Hj. unfold matmul. apply sumZ_ext. intros k Hk. now rewrite HU, HV. Qed.
Lemma matmul_assoc m n U V W i j : matmul m (matmul n U V) W i j = matmul n U (matmul m V W) i j.
Proof.
  unfold matmul. transitivity (sumZ m (fun k => sumZ n (fun l => (U i l * V l k * W k j)%R))).
  - apply sumZ_ext. intros k Hk. now rewrite sumZ_scal_r.
  - rewrite sumZ_swap. apply sumZ_ext. intros l Hl. rewrite <- sumZ_scal. apply sumZ_ext. intros. lra.
Qed.
Lemma matmul_delta_l m V i j : 0 <= i < m -> matmul m delta V i j = V i j.
Proof.
  intros Hi. unfold matmul. rewrite (sumZ_single m i); auto.
  - unfold delta. rewrite Z.eqb_refl. lra.
  - intros k Hk Hne. unfold delta. replace (i =? k) with false by lia. lra.
Qed.
Lemma matmul_delta_r m V i j : 0 <= j < m -> matmul m V delta i j = V i j.
Proof.
  intros Hi. unfold matmul. rewrite (sumZ_single m j); auto.
  - unfold delta. rewrite Z.eqb_refl. lra.
  - intros k Hk Hne. unfold delta. replace (k =? j) with false by lia. lra.
Qed.
Lemma matmul_lin_l m a b U V W i j : matmul m (fun p q => (a * U p q + b * V p q)%R) W i j = (a * matmul m U W i j + b * matmul m V W i j)%R.
Proof. unfold matmul. rewrite <- !sumZ_scal, <- sumZ_plus. apply sumZ_ext. intros. lra. Qed.
Lemma matmul_lin_r m a b U V W i j : matmul m W (fun p q => (a * U p q + b * V p q)%R) i j = (a * matmul m W U i j + b * matmul m W V i j)%R.
Proof. unfold matmul. rewrite <- !sumZ_scal, <- sumZ_plus. apply sumZ_ext. intros. lra. Qed.
Lemma matmul_zero_r m U V i j : (forall k, 0 <= k < m -> V k j = 0%R) -> matmul m U V i j = 0%R.
Proof. intros. unfold matmul. apply sumZ_zero. intros. rewrite H by auto. lra. Qed.
Lemma matmul_zero_l m U V i j : (forall k, 0 <= k < m -> U i k = 0%R) -> matmul m U V i j = 0%R.
Proof. intros. unfold matmul. apply sumZ_zero. intros. rewrite H by auto. lra. Qed.

Section Clen.
Variables (n m : Z) (A B C c : Z -> R) (X : Z -> Z -> R).
Let PQ k := mpoly2 m A B C X (Z.to_nat k).
Let P k := snd (PQ k).
Let Q k := fst (PQ k).
Lemma PQ_S k : 0 <= k -> Q (k + 1) = P k /\ P (k + 1) = fun i j => (A k * matmul m (P k) X i j + B k * P k i j - C k * Q k i j)%R.
Proof.
  intros Hk. unfold P, Q, PQ. replace (Z.to_nat (k + 1)) with (S (Z.to_nat k)) by lia. cbn [mpoly2].
  destruct (mpoly2 m A B C X (Z.to_nat k)) as [q p]. cbn. rewrite Z2Nat.id by lia. auto.
Qed.
Definition clen_inv (k : Z) (b b2 : Z -> Z -> R) : Prop :=
  forall i j, 0 <= i < m -> 0 <= j < m ->
    sumZ n (fun l => (c l * P l i j)%R) =
    (sumZ k (fun l => (c l * P l i j)%R) + matmul m (P k) b i j - C k * matmul m (Q k) b2 i j)%R.
Lemma clen_step k b b2 b' : 0 <= k -> clen_inv (k + 1) b b2 ->
  (forall i j, 0 <= i < m -> 0 <= j < m -> b' i j = (A k * matmul m X b i j + B k * b i j - C (k + 1) * b2 i j + c k * delta i j)%R) ->
  clen_inv k b' b.
Proof.
  intros Hk H Hb i j Hi Hj. rewrite H by auto. destruct (PQ_S k Hk) as [EQ EP].
  rewrite EQ, EP. rewrite sumZ_S by lia.
  assert (E1 : matmul m (fun p q => (A k * matmul m (P k) X p q + B k * P k p q - C k * Q k p q)%R) b i j =
    (A k * matmul m (P k) (matmul m X b) i j + B k * matmul m (P k) b i j - C k * matmul m (Q k) b i j)%R).
  { rewrite <- matmul_assoc. unfold matmul at 1 3 5 6. rewrite <- !sumZ_scal, <- sumZ_plus, <- sumZ_minus. apply sumZ_ext. intros. lra. }
  assert (E2 : matmul m (P k) b' i j = (A k * matmul m (P k) (matmul m X b) i j + B k * matmul m (P k) b i j - C (k + 1) * matmul m (P k) b2 i j + c k * P k i j)%R).
  { rewrite <- (matmul_delta_r m (P k) i j) by auto. unfold matmul at 1 2 4 5 6. rewrite <- !sumZ_scal, <- sumZ_plus, <- sumZ_minus, <- sumZ_plus.
    apply sumZ_ext. intros l Hl. rewrite Hb by auto. lra. }
  rewrite E1, E2. lra.
Qed.
Lemma clen_start b b2 : 0 <= n -> (forall i j, 0 <= i < m -> 0 <= j < m -> b i j = 0%R) -> (forall i j, 0 <= i < m -> 0 <= j < m -> b2 i j = 0%R) -> clen_inv n b b2.
Proof.
  intros Hn Hb Hb2 i j Hi Hj. rewrite (matmul_zero_r m (P n) b), (matmul_zero_r m (Q n) b2); auto. lra.
Qed.
Lemma clen_end b b2 : clen_inv 0 b b2 -> forall i j, 0 <= i < m -> 0 <= j < m -> sumZ n (fun l => (c l * P l i j)%R) = b i j.
Proof.
  intros H i j Hi Hj. rewrite H by auto. rewrite sumZ_0 by lia. unfold P, Q, PQ. cbn.
  rewrite matmul_delta_l, matmul_zero_l by auto. lra.
Qed.
End Clen.

Lemma copy_loop {F} N (s d : list F) : 0 <= N -> zlen s = N -> zlen d = N ->
  for_up 0 N (fun i d => do v <- zget s i; zset d i v) d = Some s.
Proof.
  intros HN Hs Hd.
  destruct (for_up_inv (fun k d1 => zlen d1 = N /\ forall i, 0 <= i < k -> zget d1 i = zget s i) 0 N (fun i d => do v <- zget s i; zset d i v) d) as [d1 [E (L & G)]]; auto.
  - split; auto. intros; lia.
  - intros i d1 Hi (L & G). destruct (zget_ex s i) as [v Ev]; [lia|]. rewrite Ev. cbn [obind]. rewrite zset_some by lia.
    eexists; split; [reflexivity|]. split; [now rewrite zlen_zupd|]. intros k Hk. rewrite zget_zupd by lia.
    destruct (Z.eqb_spec i k); [subst; now rewrite Ev|apply G; lia].
  - rewrite E. f_equal. apply zget_ext_in; [lia|]. intros i Hi. apply G. lia.
Qed.

Lemma operator_clenshaw_proof n c incc A B C X phi0 :
  1 <= n -> bd_ok X -> bd_m X = bd_n X -> bd_l X = 1 -> bd_u X = 1 ->
  n <= zlen A -> n <= zlen B -> n + 1 <= zlen C -> strided n c incc ->
  exists M, operator_clenshaw n c incc A B C X phi0 = Some M /\
    bd_ok M /\ bd_m M = bd_m X /\ bd_n M = bd_m X /\ bd_l M = n - 1 /\ bd_u M = n - 1 /\
    forall i j, 0 <= i < bd_m X -> 0 <= j < bd_m X ->
      bd_mat M i j = (phi0 * sumZ n (fun k => nthZ 0%R c (k * incc) * mpoly (bd_m X) (nthZ 0%R A) (nthZ 0%R B) (nthZ 0%R C) (bd_mat X) k i j))%R.
Proof.
  intros Hn HX Hmn Hl Hu HA HB HC Hc. pose proof HX as (X1 & X2 & X3). unfold operator_clenshaw. set (m := bd_m X) in *.
  set (Z0 := calloc_banded m m (n - 1) (n - 1)).
  assert (OZ : bd_ok Z0) by (apply calloc_bd_ok; lia).
  assert (LZ : zlen (bd_data Z0) = m * (2 * n - 1)).
  { unfold Z0, calloc_banded. cbn [bd_data]. rewrite zlen_zmake by (apply Z.mul_nonneg_nonneg; lia). f_equal. lia. }
  assert (GZ : forall i j, bG Z0 i j = 0%R).
  { intros i j. assert (H : bd_get Z0 i j = Some zero) by (apply calloc_bd_get; lia). rewrite bd_get_val in H by auto. now injection H. }
  set (shp := fun M : banded R => bd_ok M /\ bd_m M = m /\ bd_n M = m /\ bd_l M = n - 1 /\ bd_u M = n - 1 /\ zlen (bd_data M) = m * (2 * n - 1)).
  set (inv := clen_inv n m (nthZ 0%R A) (nthZ 0%R B) (nthZ 0%R C) (fun k => nthZ 0%R c (k * incc)) (bG X)).
  match goal with |- context[for_dn (n - 1) 0 ?b ?s] =>
  destruct (for_dn_inv (fun k (st : banded R * banded R * banded R) => let '(Bk, Bk1, Bk2) := st in
     shp Bk /\ shp Bk1 /\ shp Bk2 /\ Bk1 = Bk /\ band_within (n - 2 - k) (n - 2 - k) Bk /\ band_within (n - 2 - k) (n - 2 - k) Bk2 /\
     inv (k + 1) (bG Bk) (bG Bk2)) (n - 1) 0 b s) as [[[Bk Bk1] Bk2] [E (SB & _ & _ & _ & _ & _ & HI)]] end.
  - lia.
  - assert (shp Z0) by (split; [auto|repeat split; auto]). assert (band_within (n - 2 - (n - 1)) (n - 2 - (n - 1)) Z0) by (intros i j _ _ _; apply GZ).
    split; [auto|split; [auto|split; [auto|split; [auto|split; [auto|split; [auto|]]]]]].
    replace (n - 1 + 1) with n by lia. apply clen_start; try lia; auto.
  - intros k [[Bk Bk1] Bk2] Hk (SB & SB1 & SB2 & -> & W & W2 & HI).
    rewrite (zget_nthZ 0%R A) by lia. cbn [obind]. rewrite (zget_nthZ 0%R B) by lia. cbn [obind]. rewrite (zget_nthZ 0%R C) by lia. cbn [obind].
    rewrite (zget_nthZ 0%R c) by (apply Hc; lia). cbn [obind].
    destruct SB as (O1 & M1 & N1 & L1 & U1 & D1). destruct SB2 as (O2 & M2 & N2 & L2 & U2 & D2).
    destruct (tri_mult_proof (nthZ 0%R A k) X (nthZ 0%R B k) Bk (n - k - 2) (n - k - 2)) as [T (ET & OT & ST & DT & WT & GT)]; auto; try lia.
    { replace (n - k - 2) with (n - 2 - k) by lia. auto. }
    rewrite ET. cbn [obind].
    destruct (scaling_add_proof (opp (nthZ 0%R C (k + 1))) Bk2 (nthZ 0%R c (k * incc))) as [S2 (ES & OS & SS & DS & GS)]; auto; try lia.
    rewrite ES. cbn [obind].
    destruct ST as (T1 & T2 & T3 & T4). destruct SS as (S1 & S3 & S4 & S5).
    destruct (banded_add_inplace_proof 1%R 1%R S2 T) as [V (EV & OV & SV & DV & GV)]; auto; try lia.
    change (@one R R_arith) with 1%R. rewrite EV. cbn [obind]. destruct SV as (V1 & V2 & V3 & V4).
    rewrite copy_loop; try lia.
    cbn [obind].
    replace (Banded (bd_data V) (bd_m S2) (bd_n S2) (bd_l S2) (bd_u S2)) with V.
    2:{ destruct V; cbn in *. f_equal; lia. }
    eexists; split; [reflexivity|]. cbv beta iota.
    assert (SV : shp V) by (split; [auto|repeat split; lia]).
    assert (GV' : forall i j, 0 <= i < m -> 0 <= j < m -> bG V i j = (nthZ 0 A k * matmul m (bG X) (bG Bk) i j + nthZ 0 B k * bG Bk i j - nthZ 0 C (k + 1) * bG Bk2 i j + nthZ 0 c (k * incc) * delta i j)%R).
    { intros i j Hi Hj. rewrite GV, GT, GS by lia. cbn [opp R_arith]. rewrite M1. lra. }
    split; [auto|split; [auto|split; [exact SB1|split; [auto|split; [|split]]]]].
    + intros i j Hi Hj Hout. rewrite GV. rewrite (WT i j) by lia. rewrite GS by lia.
      rewrite (W2 i j) by lia. unfold delta. replace (i =? j) with false by lia. lra.
    + intros i j Hi Hj Hout. apply W; lia.
    + replace (k - 1 + 1) with k by lia. eapply clen_step; [lia|exact HI|]. exact GV'.
  - rewrite E. cbn [obind]. destruct SB as (O1 & M1 & N1 & L1 & U1 & D1).
    destruct (scaling_add_proof phi0 Bk zero) as [V (EV & OV & SV & DV & GV)]; auto; try lia.
    rewrite EV. exists V. destruct SV as (V1 & V2 & V3 & V4). split; [auto|split; [auto|split; [lia|split; [lia|split; [lia|split; [lia|]]]]]].
    intros i j Hi Hj. rewrite <- bG_in, GV by lia. replace (0 - 1 + 1) with 0 in HI by lia.
    pose proof (clen_end _ _ _ _ _ _ _ _ _ HI i j Hi Hj) as H. cbv beta in H. rewrite <- H. cbn [zero R_arith].
    rewrite (sumZ_ext n _ (fun k => nthZ 0 c (k * incc) * mpoly m (nthZ 0 A) (nthZ 0 B) (nthZ 0 C) (bd_mat X) k i j)%R); [lra|].
    intros k Hk. f_equal. unfold mpoly. clear - Hi Hj Hmn.
    assert (HH : forall q, meq m (fst (mpoly2 m (nthZ 0%R A) (nthZ 0%R B) (nthZ 0%R C) (bG X) q)) (fst (mpoly2 m (nthZ 0%R A) (nthZ 0%R B) (nthZ 0%R C) (bd_mat X) q)) /\
                         meq m (snd (mpoly2 m (nthZ 0%R A) (nthZ 0%R B) (nthZ 0%R C) (bG X) q)) (snd (mpoly2 m (nthZ 0%R A) (nthZ 0%R B) (nthZ 0%R C) (bd_mat X) q))).
    { induction q as [|q IH]; [split; intros a b Ha Hb; reflexivity|]. destruct IH as [I1 I2]. cbn [mpoly2].
      destruct (mpoly2 m _ _ _ (bG X) q) as [q1 p1]. destruct (mpoly2 m _ _ _ (bd_mat X) q) as [q2 p2]. cbn in I1, I2 |- *. split; auto.
      intros a b Ha Hb. rewrite (I1 a b), (I2 a b) by auto. f_equal. f_equal. f_equal. apply matmul_meq; auto.
      intros a' b' Ha' Hb'. apply bG_in; unfold m in *; lia. }
    apply HH; auto.
Qed.
