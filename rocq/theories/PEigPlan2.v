(** * Proofs about the divide-and-conquer eigenvector planners: Y, leaves, sorting *)
From Coq Require Import ZArith List Lia Bool Reals Lra ZifyBool ZifyNat.
From Verif Require Import Arith Base BaseFacts SpecSum PSum SpecLin SpecBanded PTri PTri2 MBanded MHier MSort SpecSort PPerm PSort PSortThms MEig SpecEig PEig PEigThms MButter SpecButter PButter2 PHier2 MEigPlan PEigPlan.
Import ListNotations.
Open Scope Z_scope.

Lemma eig_rows_spec M n s b (Y : list R) : tb_ok M -> tb_n M = n -> tb_b M = b -> 0 <= b <= s -> s <= n - s -> (n - s) * b <= zlen Y ->
  (forall p, nthZ 0%R Y p = 0%R) ->
  exists Y', eig_rows M (n - s) s b Y = Some Y' /\ zlen Y' = zlen Y /\
    (forall c k, 0 <= c < n - s -> 0 <= k < b -> mat 0 (n - s) Y' c k = tb_mat M (s - b + k) (s + c)) /\
    (forall p, (n - s) * b <= p -> nthZ 0%R Y' p = 0%R).
Proof.
  intros HM Hn Hb Hbs Hsn HY H0. set (m := n - s) in *. unfold eig_rows.
  pose (val := fun c k => tb_mat M (s - b + k) (s + c)).
  assert (Hin : forall j (Y1 : list R), 0 <= j < b -> zlen Y1 = zlen Y ->
    exists Y2, for_up j b (fun k Y => do v <- tb_get M (k + s - b) (j + s); zset Y (j + k * m) v) Y1 = Some Y2 /\ zlen Y2 = zlen Y /\
      (forall c k, 0 <= c < m -> 0 <= k -> mat 0 m Y2 c k = if (c =? j) && (j <=? k) && (k <? b) then val c k else mat 0 m Y1 c k)).
  { intros j Y1 Hj L1.
    destruct (for_up_inv (fun q Y2 => zlen Y2 = zlen Y /\ forall c k, 0 <= c < m -> 0 <= k -> mat 0 m Y2 c k = if (c =? j) && (j <=? k) && (k <? q) then val c k else mat 0 m Y1 c k)
      j b (fun k Y => do v <- tb_get M (k + s - b) (j + s); zset Y (j + k * m) v) Y1) as (Y2 & E & L2 & P2).
    - lia.
    - split; auto. intros c k Hc Hk. replace ((c =? j) && (j <=? k) && (k <? j)) with false by lia. reflexivity.
    - intros k Y2 Hk (L2 & P2). rewrite (qget n) by (auto; lia). cbn [obind].
      assert (k * m + m <= m * b) by nia. assert (0 <= k * m) by nia. rewrite zset_some by lia. eexists; split; [reflexivity|]. split; [now rewrite zlen_zupd|].
      intros c k' Hc Hk'. unfold mat. rewrite nthZ_zupd by lia. rewrite Z.add_0_l. destruct (Z.eqb_spec (j + k * m) (c + k' * m)) as [He|Hne].
      + apply idx2_inj in He; [|lia|lia]. destruct He as [<- <-]. replace ((j =? j) && (j <=? k) && (k <? k + 1)) with true by lia. unfold val. f_equal; lia.
      + specialize (P2 c k' Hc Hk'). unfold mat in P2. rewrite Z.add_0_l in P2. rewrite P2.
        assert (Hx : ~ (c = j /\ k' = k)) by (intros [-> ->]; apply Hne; reflexivity).
        replace ((c =? j) && (j <=? k') && (k' <? k)) with ((c =? j) && (j <=? k') && (k' <? k + 1)) by lia. reflexivity.
    - exists Y2. auto. }
  destruct (for_up_inv (fun q Y2 => zlen Y2 = zlen Y /\ forall c k, 0 <= c < m -> 0 <= k -> mat 0 m Y2 c k = if (c <? q) && (c <=? k) && (k <? b) then val c k else 0%R)
    0 b (fun j Y => for_up j b (fun k Y => do v <- tb_get M (k + s - b) (j + s); zset Y (j + k * m) v) Y) Y) as (Y2 & E & L2 & P2).
  - lia.
  - split; auto. intros c k Hc Hk. replace ((c <? 0) && (c <=? k) && (k <? b)) with false by lia. unfold mat. apply H0.
  - intros j Y1 Hj (L1 & P1). destruct (Hin j Y1 Hj L1) as (Y2 & E & L2 & P2). exists Y2. split; auto. split; auto. intros c k Hc Hk.
    rewrite P2, P1 by auto. destruct (Z.eq_dec c j) as [->|].
    + rewrite Z.eqb_refl. replace ((j <? j)) with false by lia. replace (j <? j + 1) with true by lia. cbn [andb]. reflexivity.
    + replace (c =? j) with false by lia. cbn [andb]. replace (c <? j + 1) with (c <? j) by lia. reflexivity.
  - exists Y2. split; auto. split; auto. split.
    + intros c k Hc Hk. rewrite P2 by lia. destruct ((c <? b) && (c <=? k) && (k <? b)) eqn:Ec; [reflexivity|].
      symmetry. apply outB. lia.
    + intros p Hp. destruct (Z.eq_dec m 0).
      { assert (b = 0) by lia. rewrite for_up_nil in E by lia. injection E as <-. apply H0. }
      destruct (Z_lt_dec p 0); [apply nthZ_default; lia|].
      pose proof (Z.mod_pos_bound p m ltac:(lia)). pose proof (Z.div_mod p m ltac:(lia)).
      assert (Hq : b <= p / m) by (apply Z.div_le_lower_bound; lia).
      specialize (P2 (p mod m) (p / m) ltac:(lia) ltac:(lia)). unfold mat in P2. replace (0 + (p mod m + p / m * m)) with p in P2 by lia. rewrite P2.
      replace ((p mod m <? b) && (p mod m <=? p / m) && (p / m <? b)) with false by lia. reflexivity.
Qed.

Section BuildY.
Variables (mulT : list R -> Z -> option (list R)) (A B : tbanded R) (n s : Z) (la : list R) (V2 : Z -> Z -> R) (l2 : Z -> R).
Let m := n - s. Let b := tb_b A.
Hypothesis HA : tb_ok A. Hypothesis HB : tb_ok B. Hypothesis HnA : tb_n A = n. Hypothesis HnB : tb_n B = n.
Hypothesis Hb : tb_b B <= b. Hypothesis Hbs : b <= s. Hypothesis Hsm : 0 <= s <= m.
Hypothesis Hla : zlen la = m. Hypothesis Hl2 : forall c, 0 <= c < m -> nthZ 0%R la c = l2 c.
Hypothesis Hmul : forall x o, fits o m x -> exists x', mulT x o = Some x' /\ acts o m x x' (isprod m (transp V2)).
Lemma colmul N Y : 0 <= N -> m * N <= zlen Y -> exists Y', columnwise mulT Y m N = Some Y' /\ acts_columns m N m Y Y' (isprod m (transp V2)).
Proof.
  intros HN HY. apply columnwise_proof; auto; try lia.
  - split; [lia|]. split; [lia|]. intros. nia.
  - intros v v' w w' Hv Hw HP i Hi. rewrite <- Hw, HP by auto. unfold matvec. apply sumZ_ext. intros k Hk. now rewrite Hv.
Qed.
Lemma eig_Y_spec : exists Y, eig_Y mulT A B n s la = Some Y /\ zlen Y = m * b /\
  forall c k, 0 <= c < m -> 0 <= k < b -> mat 0 m Y c k = sumZ m (fun r => (tb_mat A (s - b + k) (s + r) - l2 c * tb_mat B (s - b + k) (s + r)) * V2 r c)%R.
Proof.
  pose proof HA as (_ & HbA & _). pose proof HB as (_ & HbB & _). unfold eig_Y. fold b in HbA |- *.
  replace (Z.max b (tb_b B)) with b by lia. fold m.
  assert (0 <= m * b) by nia. assert (0 <= m * tb_b B) by nia.
  assert (Zz : forall N p, 0 <= N -> nthZ 0%R (zmake N 0%R) p = 0%R).
  { intros N p HN. destruct (Z_lt_dec p 0); [apply nthZ_default; lia|]. destruct (Z_lt_dec p N); [apply nthZ_zmake; lia|]. apply nthZ_default. rewrite zlen_zmake by lia. lia. }
  cbn [zero R_arith].
  destruct (eig_rows_spec A n s b (zmake (m * b) 0%R)) as (Ya & Ea & La & Pa & Za); auto; try lia; [fold m; rewrite zlen_zmake by lia; lia|].
  fold m in Ea, Pa, Za. rewrite Ea. cbn [obind].
  destruct (eig_rows_spec B n s (tb_b B) (zmake (m * tb_b B) 0%R)) as (Yb & Eb & Lb & Pb & Zb); auto; try lia; [fold m; rewrite zlen_zmake by lia; lia|].
  fold m in Eb, Pb, Zb. rewrite Eb. cbn [obind]. rewrite zlen_zmake in La, Lb by lia.
  destruct (colmul b Ya) as (Yc & Ec & Lc & Pc & Oc); [lia|lia|]. rewrite Ec. cbn [obind].
  destruct (colmul (tb_b B) Yb) as (Yd & Ed & Ld & Pd & Od); [lia|lia|]. rewrite Ed. cbn [obind].
  set (b2 := tb_b B) in *.
  assert (Qa : forall c k, 0 <= c < m -> 0 <= k < b -> mat 0 m Yc c k = sumZ m (fun r => tb_mat A (s - b + k) (s + r) * V2 r c)%R).
  { intros c k Hc Hk. specialize (Pc k Hk c Hc). unfold vec in Pc at 1. unfold mat. replace (0 + (c + k * m)) with (k * m + c) by lia. rewrite Pc.
    unfold matvec. apply sumZ_ext. intros r Hr. unfold transp. specialize (Pa r k Hr Hk). unfold mat in Pa. unfold vec. replace (k * m + r) with (0 + (r + k * m)) by lia. rewrite Pa. ring. }
  assert (Qb : forall c k, 0 <= c < m -> 0 <= k < b2 -> mat 0 m Yd c k = sumZ m (fun r => tb_mat B (s - b2 + k) (s + r) * V2 r c)%R).
  { intros c k Hc Hk. specialize (Pd k Hk c Hc). unfold vec in Pd at 1. unfold mat. replace (0 + (c + k * m)) with (k * m + c) by lia. rewrite Pd.
    unfold matvec. apply sumZ_ext. intros r Hr. unfold transp. specialize (Pb r k Hr Hk). unfold mat in Pb. unfold vec. replace (k * m + r) with (0 + (r + k * m)) by lia. rewrite Pb. ring. }
  pose (fin := fun c k => (mat 0 m Yc c k - l2 c * mat 0 m Yd c (k - (b - b2)))%R).
  match goal with |- context [for_up 0 b2 ?f Yc] =>
    destruct (for_up_inv (fun j Y => zlen Y = m * b /\ forall c k, 0 <= c < m -> 0 <= k < b -> mat 0 m Y c k = if (b - b2 <=? k) && (k <? b - b2 + j) then fin c k else mat 0 m Yc c k) 0 b2 f Yc) as (Y & E & L & P) end.
  - lia.
  - split; [lia|]. intros c k Hc Hk. replace ((b - b2 <=? k) && (k <? b - b2 + 0)) with false by lia. reflexivity.
  - intros j Y1 Hj (L1 & P1).
    match goal with |- context [for_up 0 m ?f Y1] =>
      destruct (for_up_inv (fun i Y => zlen Y = m * b /\ forall c k, 0 <= c < m -> 0 <= k < b -> mat 0 m Y c k = if (k =? b - b2 + j) && (c <? i) then fin c k else mat 0 m Y1 c k) 0 m f Y1) as (Y & E & L & P) end.
    + lia.
    + split; auto. intros c k Hc Hk. replace ((k =? b - b2 + j) && (c <? 0)) with false by lia. reflexivity.
    + intros i Y2 Hi (L2 & P2).
      assert (0 <= (j + b - b2) * m) by nia. assert ((j + b - b2) * m + m <= m * b) by nia. assert (0 <= j * m) by nia. assert (j * m + m <= m * b2) by nia.
      rewrite (zget_nthZ 0%R Y2) by lia. cbn [obind]. rewrite (zget_nthZ 0%R la) by lia. cbn [obind]. rewrite (zget_nthZ 0%R Yd) by lia. cbn [obind].
      rewrite zset_some by lia. eexists; split; [reflexivity|]. split; [now rewrite zlen_zupd|]. intros c k Hc Hk.
      unfold mat at 1. rewrite nthZ_zupd by lia. rewrite Z.add_0_l. destruct (Z.eqb_spec (i + (j + b - b2) * m) (c + k * m)) as [He|Hne].
      * apply idx2_inj in He; [|lia|lia]. destruct He as [<- <-]. replace ((j + b - b2 =? b - b2 + j) && (i <? i + 1)) with true by lia.
        cbn [sub mul R_arith]. unfold fin. rewrite Hl2 by lia. f_equal.
        -- specialize (P2 i (j + b - b2) ltac:(lia) ltac:(lia)). unfold mat in P2 at 1. rewrite Z.add_0_l in P2. rewrite P2.
           replace ((j + b - b2 =? b - b2 + j) && (i <? i)) with false by lia. rewrite P1 by lia.
           replace ((b - b2 <=? j + b - b2) && (j + b - b2 <? b - b2 + j)) with false by lia. reflexivity.
        -- f_equal. unfold mat. f_equal. lia.
      * specialize (P2 c k Hc Hk). unfold mat in P2 at 1. rewrite Z.add_0_l in P2. rewrite P2.
        assert (Hx : ~ (c = i /\ k = b - b2 + j)) by (intros [-> ->]; apply Hne; f_equal; lia).
        replace ((k =? b - b2 + j) && (c <? i)) with ((k =? b - b2 + j) && (c <? i + 1)) by lia. reflexivity.
    + exists Y. split; auto. split; auto. intros c k Hc Hk. rewrite P, P1 by auto. destruct (Z.eq_dec k (b - b2 + j)) as [->|].
      * replace ((b - b2 + j =? b - b2 + j) && (c <? m)) with true by lia. replace ((b - b2 <=? b - b2 + j) && (b - b2 + j <? b - b2 + (j + 1))) with true by lia. reflexivity.
      * replace ((k =? b - b2 + j) && (c <? m)) with false by lia. replace ((b - b2 <=? k) && (k <? b - b2 + (j + 1))) with ((b - b2 <=? k) && (k <? b - b2 + j)) by lia. reflexivity.
  - exists Y. split; auto. split; auto. intros c k Hc Hk. rewrite P by auto.
    rewrite (sumZ_ext m _ (fun r => tb_mat A (s - b + k) (s + r) * V2 r c - l2 c * (tb_mat B (s - b + k) (s + r) * V2 r c))%R) by (intros; ring).
    rewrite sumZ_minus, sumZ_scal. rewrite <- Qa by auto. destruct (Z_le_dec (b - b2) k).
    + replace ((b - b2 <=? k) && (k <? b - b2 + b2)) with true by lia. unfold fin. rewrite Qb by lia. do 2 f_equal. apply sumZ_ext. intros r Hr. do 2 f_equal. lia.
    + replace ((b - b2 <=? k) && (k <? b - b2 + b2)) with false by lia. rewrite (sumZ_zero m); [lra|]. intros r Hr. rewrite outB by lia. lra.
Qed.
End BuildY.
