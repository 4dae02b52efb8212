(** * Proofs: scaling rows and columns of the eigenvector plans *)
From Coq Require Import ZArith List Lia Bool Reals Lra ZifyBool ZifyNat.
From Verif Require Import Arith Base BaseFacts SpecSum PSum SpecLin SpecBanded PTri PTri2 MBanded MHier SpecHier PHier2 PHier4 PHierThms MButter SpecButter PButter PButter2.
Import ListNotations.
Open Scope Z_scope.

Lemma scale_leaf_spec (c : bool) alpha x o n V : 0 <= n -> n * n <= zlen V -> fits o n x ->
  exists V', scale_leaf c alpha x o n V = Some V' /\ zlen V' = zlen V /\
    forall i j, 0 <= i < n -> 0 <= j < n -> mat 0 n V' i j = if i <=? j then (alpha * vec o x (if c then j else i) * mat 0 n V i j)%R else mat 0 n V i j.
Proof.
  intros Hn HV [Hx0 Hx1]. unfold scale_leaf.
  set (val := fun i j => (alpha * vec o x (if c then j else i) * mat 0 n V i j)%R).
  assert (IB : forall i j, 0 <= i < n -> 0 <= j < n -> 0 <= i + j * n < zlen V) by (intros; nia).
  match goal with |- context [for_up 0 n ?f V] => destruct (for_up_inv (fun k V1 => zlen V1 = zlen V /\ forall i j, 0 <= i < n -> 0 <= j < n -> mat 0 n V1 i j = if (i <=? j) && (j <? k) then val i j else mat 0 n V i j) 0 n f V) as (V' & E & L & G) end; auto.
  - split; auto. intros i j Hi Hj. replace ((i <=? j) && (j <? 0)) with false by lia. auto.
  - intros k V1 Hk (L1 & G1).
    match goal with |- context [for_up 0 (k + 1) ?f V1] => destruct (for_up_inv (fun q V2 => zlen V2 = zlen V /\ forall i j, 0 <= i < n -> 0 <= j < n -> mat 0 n V2 i j = if (i <=? j) && ((j <? k) || ((j =? k) && (i <? q))) then val i j else mat 0 n V i j) 0 (k + 1) f V1) as (V' & E & L & G) end; try lia.
    + split; auto. intros i j Hi Hj. rewrite G1 by auto. replace ((i <=? j) && ((j <? k) || (j =? k) && (i <? 0))) with ((i <=? j) && (j <? k)) by lia. auto.
    + intros q V2 Hq (L2 & G2). rewrite (zget_nthZ 0%R V2) by (rewrite L2; apply IB; lia). cbn [obind].
      rewrite (zget_nthZ 0%R x) by (destruct c; lia). cbn [obind]. rewrite zset_some by (rewrite L2; apply IB; lia). eexists; split; [reflexivity|]. split; [now rewrite zlen_zupd|].
      intros i j Hi Hj. rewrite mat0, nthZ_zupd by (rewrite L2; apply IB; lia). pose proof (G2 i j Hi Hj) as G2'. destruct (Z.eqb_spec (q + k * n) (i + j * n)) as [Eq|Ne].
      * apply idx2_inj in Eq; try lia. destruct Eq as [-> ->]. rewrite <- (mat0 n V2 i j), G2'. replace ((i <=? j) && ((j <? j) || (j =? j) && (i <? i))) with false by lia. replace ((i <=? j) && ((j <? j) || (j =? j) && (i <? i + 1))) with true by lia.
        unfold val, vec. cbn. destruct c; lra.
      * rewrite <- mat0, G2'. destruct (Z.eq_dec j k).
        -- subst j. assert (i <> q) by lia. replace ((i <=? k) && ((k <? k) || (k =? k) && (i <? q + 1))) with ((i <=? k) && ((k <? k) || (k =? k) && (i <? q))) by lia. reflexivity.
        -- replace ((i <=? j) && ((j <? k) || (j =? k) && (i <? q + 1))) with ((i <=? j) && ((j <? k) || (j =? k) && (i <? q))) by lia. reflexivity.
    + exists V'. split; auto. split; auto. intros i j Hi Hj. rewrite G by auto. replace ((i <=? j) && ((j <? k) || (j =? k) && (i <? k + 1))) with ((i <=? j) && (j <? k + 1)) by lia. auto.
  - exists V'. split; auto. split; auto. intros i j Hi Hj. rewrite G by auto. replace ((i <=? j) && (j <? n)) with (i <=? j) by lia. reflexivity.
Qed.

Lemma block_rows s V1 W V2 V1' W' V2' (g : Z -> R) n : 0 <= s <= n ->
  (forall i j, 0 <= i < s -> 0 <= j < s -> V1' i j = (g i * V1 i j)%R) -> (forall i j, 0 <= i < s -> 0 <= j < n - s -> W' i j = W i j) ->
  (forall i j, 0 <= i < n - s -> 0 <= j < n - s -> V2' i j = (g (s + i)%Z * V2 i j)%R) ->
  forall i j, 0 <= i < n -> 0 <= j < n -> block_mat s V1' W' V2' i j = (g i * block_mat s V1 W V2 i j)%R.
Proof.
  intros Hs H1 HW H2 i j Hi Hj. unfold block_mat. destruct (Z.ltb_spec i s), (Z.ltb_spec j s).
  - apply H1; lia.
  - unfold matmul. rewrite <- sumZ_scal. apply sumZ_ext. intros k Hk. rewrite H1, HW by lia. lra.
  - lra.
  - rewrite H2 by lia. now replace (s + (i - s)) with i by lia.
Qed.
Lemma block_cols s V1 W V2 V1' W' V2' (al : R) (g : Z -> R) n : 0 <= s <= n -> (forall i, 0 <= i < n -> g i <> 0%R) ->
  (forall i j, 0 <= i < s -> 0 <= j < s -> V1' i j = (al * g j * V1 i j)%R) -> (forall i j, 0 <= i < s -> 0 <= j < n - s -> W' i j = (g (s + j)%Z / g i * W i j)%R) ->
  (forall i j, 0 <= i < n - s -> 0 <= j < n - s -> V2' i j = (al * g (s + j)%Z * V2 i j)%R) ->
  forall i j, 0 <= i < n -> 0 <= j < n -> block_mat s V1' W' V2' i j = (al * g j * block_mat s V1 W V2 i j)%R.
Proof.
  intros Hs Hg H1 HW H2 i j Hi Hj. unfold block_mat. destruct (Z.ltb_spec i s), (Z.ltb_spec j s).
  - apply H1; lia.
  - unfold matmul. rewrite <- sumZ_scal. apply sumZ_ext. intros k Hk. rewrite H1, HW by lia. replace (s + (j - s)) with j by lia. field. apply Hg. lia.
  - lra.
  - rewrite H2 by lia. now replace (s + (j - s)) with j by lia.
Qed.

Theorem scale_rows_tb_proof BS tn alpha x E : tb_wf BS tn E -> forall o, fits o (tbeig_n E) x ->
  exists E', scale_rows_tb BS alpha x o E = Some E' /\ tb_wf BS tn E' /\ tbeig_n E' = tbeig_n E /\
    forall i j, 0 <= i < tbeig_n E -> 0 <= j < tbeig_n E -> tb_V E' i j = (alpha * vec o x i * tb_V E i j)%R.
Proof.
  induction E as [n V|n b F0 X Y p1 p2 Sp t1 t2 F1 IH1 F2 IH2]; intros Hw o Hx; cbn [scale_rows_tb tbeig_n] in *.
  - destruct Hw as [Hn HV]. rewrite (proj2 (Z.ltb_lt n BS)) by lia. destruct (scale_leaf_spec false alpha x o n V) as (V' & E & L & G); auto; try lia.
    rewrite E. cbn [obind]. eexists; split; [reflexivity|]. split; [cbn; lia|]. split; auto. intros i j Hi Hj. cbn [tb_V]. unfold upper. rewrite G by auto. destruct (i <=? j); lra.
  - destruct Hw as (Hn & HBS & Hb & HF & Hr & Hc & HX & HY & Hp1 & Hp2 & HS & Ht1 & Ht2 & N1 & N2 & w1 & w2). rewrite (proj2 (Z.ltb_ge n BS)) by lia. destruct Hx as [X1 X2].
    destruct (IH1 w1 o) as (G1 & E1 & A1 & B1 & C1). { split; lia. } rewrite E1. cbn [obind].
    destruct (IH2 w2 (o + n / 2)) as (G2 & E2 & A2 & B2 & C2). { split; lia. } rewrite E2. cbn [obind]. rewrite N1 in C1. rewrite N2 in C2.
    eexists; split; [reflexivity|]. split. { cbn [tb_wf]. rewrite B1, B2. repeat (split; [assumption|]). assumption. }
    split; auto. cbn [tb_V]. apply (block_rows (n / 2) _ _ _ _ _ _ (fun i => alpha * vec o x i)%R); auto; try lia.
    intros i j Hi Hj. rewrite C2 by auto. now rewrite <- vec_shift.
Qed.
Lemma scale_cols_XY n s b (x : list R) o X Y : 0 <= s <= n -> 0 <= b -> s * b <= zlen X -> (n - s) * b <= zlen Y -> fits o n x ->
  exists X' Y', for_up 0 b (fun k XY =>
      let '(X, Y) := XY in
      do X <- for_up 0 s (fun i X => do u <- zget X (i + k * s); do xi <- zget x (o + i); zset X (i + k * s) (div u xi)) X;
      do Y <- for_up 0 (n - s) (fun i Y => do u <- zget Y (i + k * (n - s)); do xi <- zget x (o + (i + s)); zset Y (i + k * (n - s)) (mul u xi)) Y;
      Some (X, Y)) (X, Y) = Some (X', Y') /\ zlen X' = zlen X /\ zlen Y' = zlen Y /\
    (forall i k, 0 <= i < s -> 0 <= k < b -> mat 0 s X' i k = (mat 0 s X i k / vec o x i)%R) /\
    (forall i k, 0 <= i < n - s -> 0 <= k < b -> mat 0 (n - s) Y' i k = (mat 0 (n - s) Y i k * vec o x (s + i)%Z)%R).
Proof.
  intros Hs Hb HX HY [Hx0 Hx1].
  assert (G : forall m k (g : Z -> R -> R) (bd : Z -> list R -> option (list R)) (A : list R), 0 <= m -> 0 <= k < b -> m * b <= zlen A ->
     (forall i A', 0 <= i < m -> zlen A' = zlen A -> bd i A' = Some (zupd A' (i + k * m) (g i (mat 0 m A' i k)))) ->
     exists A', for_up 0 m bd A = Some A' /\ zlen A' = zlen A /\ forall i l, 0 <= i < m -> 0 <= l < b -> mat 0 m A' i l = if l =? k then g i (mat 0 m A i l) else mat 0 m A i l).
  { intros m k g bd A Hm Hk HA Hbd.
    assert (IB : forall i j, 0 <= i < m -> 0 <= j < b -> 0 <= i + j * m < zlen A) by (intros; nia).
    destruct (for_up_inv (fun q A1 => zlen A1 = zlen A /\ forall i l, 0 <= i < m -> 0 <= l < b -> mat 0 m A1 i l = if (l =? k) && (i <? q) then g i (mat 0 m A i l) else mat 0 m A i l) 0 m bd A) as (A' & E & L & V); auto.
    - split; auto. intros i l Hi Hl. replace ((l =? k) && (i <? 0)) with false by lia. auto.
    - intros q A1 Hq (L1 & V1). rewrite Hbd by auto. eexists; split; [reflexivity|]. split; [now rewrite zlen_zupd|]. intros i l Hi Hl. rewrite (mat0 m (zupd _ _ _)), nthZ_zupd by (rewrite L1; apply IB; lia).
      destruct (Z.eqb_spec (q + k * m) (i + l * m)) as [Eq|Ne].
      + apply idx2_inj in Eq; try lia. destruct Eq as [-> ->]. rewrite V1 by lia. replace ((l =? l) && (i <? i)) with false by lia. replace ((l =? l) && (i <? i + 1)) with true by lia. auto.
      + rewrite <- mat0, V1 by auto. destruct (Z.eq_dec l k); [subst l; assert (i <> q) by lia; replace (i <? q + 1) with (i <? q) by lia; auto|]. replace (l =? k) with false by lia. auto.
    - exists A'. split; auto. split; auto. intros i l Hi Hl. rewrite V by auto. replace ((l =? k) && (i <? m)) with (l =? k) by lia. auto. }
  match goal with |- context [for_up 0 b ?f (X, Y)] => destruct (for_up_inv (fun q (XY : list R * list R) => let '(X1, Y1) := XY in zlen X1 = zlen X /\ zlen Y1 = zlen Y /\
     (forall i k, 0 <= i < s -> 0 <= k < b -> mat 0 s X1 i k = if k <? q then (mat 0 s X i k / vec o x i)%R else mat 0 s X i k) /\
     (forall i k, 0 <= i < n - s -> 0 <= k < b -> mat 0 (n - s) Y1 i k = if k <? q then (mat 0 (n - s) Y i k * vec o x (s + i)%Z)%R else mat 0 (n - s) Y i k)) 0 b f (X, Y)) as [[X' Y'] (E & L1 & L2 & V1 & V2)] end; auto.
  - split; auto. split; auto. split; intros i k Hi Hk; replace (k <? 0) with false by lia; auto.
  - intros k [X1 Y1] Hk (L1 & L2 & V1 & V2).
    match goal with |- context [for_up 0 s ?f X1] => destruct (G s k (fun i u => u / vec o x i)%R f X1) as (X2 & E2 & L3 & V3) end; auto; try lia.
    { intros i A' Hi HA'. assert (0 <= i + k * s < zlen A') by (clear - Hi Hk HX HA' L1; nia). rewrite (zget_nthZ 0%R A') by lia. cbn [obind]. rewrite (zget_nthZ 0%R x) by lia. cbn [obind]. now rewrite zset_some by lia. }
    rewrite E2. cbn [obind].
    match goal with |- context [for_up 0 (n - s) ?f Y1] => destruct (G (n - s) k (fun i u => u * vec o x (s + i)%Z)%R f Y1) as (Y2 & E3 & L4 & V4) end; auto; try lia.
    { intros i A' Hi HA'. assert (0 <= i + k * (n - s) < zlen A') by (clear - Hi Hk HY HA' L2; nia). rewrite (zget_nthZ 0%R A') by lia. cbn [obind]. rewrite (zget_nthZ 0%R x) by lia. cbn [obind]. rewrite zset_some by lia. unfold vec. now replace (o + (s + i)) with (o + (i + s)) by lia. }
    rewrite E3. cbn [obind]. eexists; split; [reflexivity|]. split; [lia|]. split; [lia|]. split; intros i l Hi Hl.
    + rewrite V3, V1 by auto. destruct (Z.eqb_spec l k); [subst; replace (k <? k) with false by lia; now replace (k <? k + 1) with true by lia|]. now replace (l <? k + 1) with (l <? k) by lia.
    + rewrite V4, V2 by auto. destruct (Z.eqb_spec l k); [subst; replace (k <? k) with false by lia; now replace (k <? k + 1) with true by lia|]. now replace (l <? k + 1) with (l <? k) by lia.
  - exists X', Y'. split; auto. split; auto. split; auto. split; intros i k Hi Hk; [rewrite V1 by auto|rewrite V2 by auto]; replace (k <? b) with true by lia; auto.
Qed.
Theorem scale_columns_tb_proof BS tn alpha x E : tb_wf BS tn E -> no_sparse E -> forall o, fits o (tbeig_n E) x -> (forall i, 0 <= i < tbeig_n E -> vec o x i <> 0%R) ->
  exists E', scale_columns_tb BS alpha x o E = Some E' /\ tb_wf BS tn E' /\ tbeig_n E' = tbeig_n E /\
    forall i j, 0 <= i < tbeig_n E -> 0 <= j < tbeig_n E -> tb_V E' i j = (alpha * vec o x j * tb_V E i j)%R.
Proof.
  induction E as [n V|n b F0 X Y p1 p2 Sp t1 t2 F1 IH1 F2 IH2]; intros Hw Hns o Hx Hnz; cbn [scale_columns_tb tbeig_n no_sparse] in *.
  - destruct Hw as [Hn HV]. rewrite (proj2 (Z.ltb_lt n BS)) by lia. destruct (scale_leaf_spec true alpha x o n V) as (V' & E & L & G); auto; try lia.
    rewrite E. cbn [obind]. eexists; split; [reflexivity|]. split; [cbn; lia|]. split; auto. intros i j Hi Hj. cbn [tb_V]. unfold upper. rewrite G by auto. destruct (i <=? j); lra.
  - destruct Hw as (Hn & HBS & Hb & HF & Hr & Hc & HX & HY & Hp1 & Hp2 & HS & Ht1 & Ht2 & N1 & N2 & w1 & w2). destruct Hns as (S0 & S1 & S2). rewrite (proj2 (Z.ltb_ge n BS)) by lia.
    assert (Hs : 0 <= n / 2 <= n) by lia.
    destruct (scale_cols_XY n (n / 2) b x o X Y) as (X' & Y' & EXY & LX & LY & VX & VY); auto. rewrite EXY. cbn [obind]. destruct Hx as [X1 X2].
    destruct (IH1 w1 S1 o) as (G1 & E1 & A1 & B1 & C1). { split; lia. } { intros i Hi. apply Hnz. lia. } rewrite E1. cbn [obind].
    destruct (IH2 w2 S2 (o + n / 2)) as (G2 & E2 & A2 & B2 & C2). { split; lia. } { intros i Hi. rewrite <- vec_shift. apply Hnz. lia. } rewrite E2. cbn [obind]. rewrite N1 in C1. rewrite N2 in C2.
    eexists; split; [reflexivity|]. split. { cbn [tb_wf]. rewrite B1, B2, LX, LY. repeat (split; [assumption|]). assumption. }
    split; auto. cbn [tb_V]. apply (block_cols (n / 2) _ _ _ _ _ _ alpha (vec o x)); auto; try lia.
    + intros i j Hi Hj. unfold coupling, sp_mat. rewrite S0, !(sumZ_0 0) by lia.
      rewrite (sumZ_ext b _ (fun k => (vec o x (n / 2 + j)%Z / vec o x i) * (mat 0 (n / 2) X i k * mat 0 (n - n / 2) Y j k))%R).
      * rewrite sumZ_scal. lra.
      * intros k Hk. rewrite VX, VY by auto. field. apply Hnz. lia.
    + intros i j Hi Hj. rewrite C2 by auto. now rewrite <- vec_shift.
Qed.
Theorem scale_rows_ad_proof BS alpha x E : ad_wf BS E -> forall o, fits o (tbadi_n E) x ->
  exists E', scale_rows_ad BS alpha x o E = Some E' /\ ad_wf BS E' /\ tbadi_n E' = tbadi_n E /\
    forall i j, 0 <= i < tbadi_n E -> 0 <= j < tbadi_n E -> ad_V E' i j = (alpha * vec o x i * ad_V E i j)%R.
Proof.
  induction E as [n V|n F0 F1 IH1 F2 IH2]; intros Hw o Hx; cbn [scale_rows_ad tbadi_n] in *.
  - destruct Hw as [Hn HV]. rewrite (proj2 (Z.ltb_lt n BS)) by lia. destruct (scale_leaf_spec false alpha x o n V) as (V' & E & L & G); auto; try lia.
    rewrite E. cbn [obind]. eexists; split; [reflexivity|]. split; [cbn; lia|]. split; auto. intros i j Hi Hj. cbn [ad_V]. unfold upper. rewrite G by auto. destruct (i <=? j); lra.
  - destruct Hw as (Hn & HBS & HF & Hr & Hc & N1 & N2 & w1 & w2). rewrite (proj2 (Z.ltb_ge n BS)) by lia. destruct Hx as [X1 X2].
    destruct (IH1 w1 o) as (G1 & E1 & A1 & B1 & C1). { split; lia. } rewrite E1. cbn [obind].
    destruct (IH2 w2 (o + n / 2)) as (G2 & E2 & A2 & B2 & C2). { split; lia. } rewrite E2. cbn [obind]. rewrite N1 in C1. rewrite N2 in C2.
    eexists; split; [reflexivity|]. split. { cbn [ad_wf]. rewrite B1, B2. repeat (split; [assumption|]). assumption. }
    split; auto. cbn [ad_V]. apply (block_rows (n / 2) _ _ _ _ _ _ (fun i => alpha * vec o x i)%R); auto; try lia.
    intros i j Hi Hj. rewrite C2 by auto. now rewrite <- vec_shift.
Qed.
Lemma lr_scale_rows alpha L x ox : lr_ok L -> fits ox (lr_m L) x -> exists L', scale_rows_lowrank alpha x ox L = Some L' /\ lr_ok L' /\ lr_m L' = lr_m L /\ lr_n L' = lr_n L /\
  forall i j, 0 <= i < lr_m L -> 0 <= j < lr_n L -> lr_mat L' i j = (alpha * vec ox x i * lr_mat L i j)%R.
Proof.
  intros HL Hx. destruct (scale_rows_proof alpha (HLow L) x ox) as (H' & E & S1 & S2 & S3 & S4); [now constructor|auto|]. cbn [scale_rows] in E.
  destruct (scale_rows_lowrank alpha x ox L) as [L'|]; cbn [obind] in E; [|discriminate]. injection E as <-. exists L'. split; auto. inversion S1; subst. split; auto.
Qed.
Lemma lr_scale_columns alpha L x ox : lr_ok L -> fits ox (lr_n L) x -> exists L', scale_columns_lowrank alpha x ox L = Some L' /\ lr_ok L' /\ lr_m L' = lr_m L /\ lr_n L' = lr_n L /\
  forall i j, 0 <= i < lr_m L -> 0 <= j < lr_n L -> lr_mat L' i j = (alpha * vec ox x j * lr_mat L i j)%R.
Proof.
  intros HL Hx. destruct (scale_columns_proof alpha (HLow L) x ox) as (H' & E & S1 & S2 & S3 & S4); [now constructor|auto|]. cbn [scale_columns] in E.
  destruct (scale_columns_lowrank alpha x ox L) as [L'|]; cbn [obind] in E; [|discriminate]. injection E as <-. exists L'. split; auto. inversion S1; subst. split; auto.
Qed.
Theorem scale_columns_ad_proof BS alpha x E : ad_wf BS E -> forall o, fits o (tbadi_n E) x -> (forall i, 0 <= i < tbadi_n E -> vec o x i <> 0%R) ->
  exists E', scale_columns_ad BS alpha x o E = Some E' /\ ad_wf BS E' /\ tbadi_n E' = tbadi_n E /\
    forall i j, 0 <= i < tbadi_n E -> 0 <= j < tbadi_n E -> ad_V E' i j = (alpha * vec o x j * ad_V E i j)%R.
Proof.
  induction E as [n V|n F0 F1 IH1 F2 IH2]; intros Hw o Hx Hnz; cbn [scale_columns_ad tbadi_n] in *.
  - destruct Hw as [Hn HV]. rewrite (proj2 (Z.ltb_lt n BS)) by lia. destruct (scale_leaf_spec true alpha x o n V) as (V' & E & L & G); auto; try lia.
    rewrite E. cbn [obind]. eexists; split; [reflexivity|]. split; [cbn; lia|]. split; auto. intros i j Hi Hj. cbn [ad_V]. unfold upper. rewrite G by auto. destruct (i <=? j); lra.
  - destruct Hw as (Hn & HBS & HF & Hr & Hc & N1 & N2 & w1 & w2). rewrite (proj2 (Z.ltb_ge n BS)) by lia. destruct Hx as [X1 X2].
    assert (Hs : 0 <= n / 2 <= n) by lia.
    destruct (lr_scale_columns one F0 x (o + n / 2)) as (L1 & EL1 & K1 & Km1 & Kn1 & KV1); auto. { split; lia. } rewrite EL1. cbn [obind].
    assert (ET : exists t, for_up 0 (n / 2) (fun i t => do xi <- zget x (o + i); zset t i (div one xi)) (zmake (n / 2) zero) = Some t /\ zlen t = n / 2 /\ forall i, 0 <= i < n / 2 -> vec 0 t i = (1 / vec o x i)%R).
    { match goal with |- context [for_up 0 (n / 2) ?f ?t0] => destruct (for_up_inv (fun q t => zlen t = n / 2 /\ forall i, 0 <= i < q -> vec 0 t i = (1 / vec o x i)%R) 0 (n / 2) f t0) as (t & E & L & G) end; try lia.
      - split; [rewrite zlen_zmake by lia; auto|]. intros; lia.
      - intros i t Hi (L & G). rewrite (zget_nthZ 0%R x) by lia. cbn [obind]. rewrite zset_some by lia. eexists; split; [reflexivity|]. split; [now rewrite zlen_zupd|].
        intros q Hq. unfold vec at 1. rewrite nthZ_zupd by lia. destruct (Z.eqb_spec i (0 + q)); [replace q with i by lia; reflexivity|]. apply G. lia.
      - eexists; split; [exact E|]. split; auto. }
    destruct ET as (t & ET & LT & VT). rewrite ET. cbn [obind].
    destruct (lr_scale_rows one L1 t 0) as (L2 & EL2 & K2 & Km2 & Kn2 & KV2); auto. { split; lia. } rewrite EL2. cbn [obind].
    destruct (IH1 w1 o) as (G1 & E1 & A1 & B1 & C1). { split; lia. } { intros i Hi. apply Hnz. lia. } rewrite E1. cbn [obind].
    destruct (IH2 w2 (o + n / 2)) as (G2 & E2 & A2 & B2 & C2). { split; lia. } { intros i Hi. rewrite <- vec_shift. apply Hnz. lia. } rewrite E2. cbn [obind]. rewrite N1 in C1. rewrite N2 in C2.
    eexists; split; [reflexivity|]. split. { cbn [ad_wf]. rewrite B1, B2, Km2, Km1, Kn2, Kn1. repeat (split; [assumption|]). assumption. }
    split; auto. cbn [ad_V]. apply (block_cols (n / 2) _ _ _ _ _ _ alpha (vec o x)); auto; try lia.
    + intros i j Hi Hj. rewrite KV2 by lia. rewrite KV1 by lia. rewrite VT by lia. rewrite <- vec_shift. cbn. field. apply Hnz. lia.
    + intros i j Hi Hj. rewrite C2 by auto. now rewrite <- vec_shift.
Qed.
