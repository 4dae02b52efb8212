(** * Proofs: scaling of hierarchical matrices *)
From Coq Require Import ZArith List Lia Bool ZifyBool ZifyNat Reals Lra.
From Verif Require Import Arith Base BaseFacts SpecSum PSum SpecLin MBanded SpecBanded PTri MHier SpecHier PHier PHier2 PHier3.
Import ListNotations.
Open Scope Z_scope.

Lemma before_ext n f g : (forall k, 0 <= k < n -> f k = g k) -> before n f = before n g.
Proof.
  intros H. unfold before. assert (G : forall k, Z.of_nat k <= n -> beforen k f = beforen k g).
  { induction k; intros Hk; cbn [beforen]; auto. rewrite IHk by lia. rewrite H by lia. auto. }
  destruct (Z_le_gt_dec n 0); [now replace (Z.to_nat n) with 0%nat by lia|]. apply G. lia.
Qed.
Lemma placed_ext p q r c U V i j : (0 <= i - p < r -> 0 <= j - q < c -> U (i - p) (j - q) = V (i - p) (j - q)) -> placed p q r c U i j = placed p q r c V i j.
Proof. intros H. unfold placed. destruct ((p <=? i) && (i <? p + r) && (q <=? j) && (j <? q + c)) eqn:E; auto. apply H; lia. Qed.

Lemma mat0 m A i j : mat 0 m A i j = nthZ 0%R A (i + j * m).
Proof. reflexivity. Qed.
Lemma scale_mat_loop m n (body : Z -> Z -> list R -> option (list R)) (g : Z -> Z -> R) (A : list R) : 0 <= m -> 0 <= n -> m * n <= zlen A ->
  (forall i j A', 0 <= i < m -> 0 <= j < n -> zlen A' = zlen A -> body j i A' = Some (zupd A' (i + j * m) (mat 0 m A' i j * g i j)%R)) ->
  exists A', for_up 0 n (fun j => for_up 0 m (body j)) A = Some A' /\ zlen A' = zlen A /\
    forall i j, 0 <= i < m -> 0 <= j < n -> mat 0 m A' i j = (g i j * mat 0 m A i j)%R.
Proof.
  intros Hm Hn Hl Hb.
  assert (IB : forall i j, 0 <= i < m -> 0 <= j < n -> 0 <= i + j * m < zlen A) by (intros; nia).
  set (I := fun k0 A' => zlen A' = zlen A /\ forall i j, 0 <= i < m -> 0 <= j < n -> mat 0 m A' i j = if i + j * m <? k0 then (g i j * mat 0 m A i j)%R else mat 0 m A i j).
  destruct (for_up_inv (fun j => I (j * m)) 0 n (fun j => for_up 0 m (body j)) A) as (A' & E & L & V); auto.
  - split; auto. intros i j Hi Hj. replace (i + j * m <? 0 * m) with false by nia. auto.
  - intros j A1 Hj I1.
    destruct (for_up_inv (fun i => I (i + j * m)) 0 m (body j) A1) as (A2 & E2 & I2); auto.
    + intros i A2 Hi (L2 & V2). rewrite Hb by auto. eexists; split; [reflexivity|]. split; [now rewrite zlen_zupd|].
      intros i' j' Hi' Hj'. rewrite !(mat0 m (zupd _ _ _)). rewrite nthZ_zupd by (rewrite L2; auto). pose proof (V2 i' j' Hi' Hj') as V2'. destruct (Z.eqb_spec (i + j * m) (i' + j' * m)) as [Eq|Ne].
      * apply idx2_inj in Eq; try lia. destruct Eq as [-> ->]. rewrite V2'. replace (i' + j' * m <? i' + j' * m) with false by lia. replace (i' + j' * m <? i' + 1 + j' * m) with true by lia. lra.
      * rewrite <- mat0, V2'. replace (i' + j' * m <? i + 1 + j * m) with (i' + j' * m <? i + j * m) by lia. reflexivity.
    + exists A2. split; auto. destruct I2 as (L2 & V2). split; auto. intros i' j' Hi' Hj'. rewrite V2 by auto. now replace ((j + 1) * m) with (m + j * m) by lia.
  - exists A'. split; auto. split; auto. intros i j Hi Hj. rewrite V by auto. replace (i + j * m <? n * m) with true by nia. reflexivity.
Qed.
Lemma scale_rows_mat_val m n alpha x ox A : 0 <= m -> 0 <= n -> m * n <= zlen A -> fits ox m x ->
  exists A', scale_rows_mat m n alpha x ox A = Some A' /\ zlen A' = zlen A /\ forall i j, 0 <= i < m -> 0 <= j < n -> mat 0 m A' i j = (alpha * vec ox x i * mat 0 m A i j)%R.
Proof.
  intros Hm Hn Hl Hx. unfold scale_rows_mat. apply (scale_mat_loop m n (fun j i A => do a <- zget A (i + j * m); do xi <- zget x (ox + i); zset A (i + j * m) (mul a (mul alpha xi))) (fun i j => (alpha * vec ox x i)%R)); auto.
  intros i j A' Hi Hj L. assert (0 <= i + j * m < zlen A) by nia. rewrite (zget_nthZ 0%R) by lia. cbn [obind]. rewrite (zget_vec ox x i m) by auto. cbn [obind]. now rewrite zset_some by lia.
Qed.

Section Tree.
Variables (m n M N : Z) (bl bl' : list (hmat R)) (g : Z -> Z -> R).
Hypothesis ok : h_ok (HTree m n M N bl).
Hypothesis Hl : zlen bl' = zlen bl.
Hypothesis Hs : forall a b X, 0 <= a < M -> 0 <= b < N -> zget bl (a + b * M) = Some X ->
  exists X', zget bl' (a + b * M) = Some X' /\ scaled (fun i j => g (before a (rsize bl) + i) (before b (csize bl M) + j)) X X'.
Lemma tree_scaled : scaled g (HTree m n M N bl) (HTree m n M N bl').
Proof.
  destruct (tree_facts m n M N bl ok) as (HM & HN & HL & Em & En & Hb & G & Ra & Cb & Ba & Bb).
  assert (RS : forall a, 0 <= a < M -> rsize bl' a = rsize bl a).
  { intros a Ha. destruct (G a 0 Ha ltac:(lia)) as (X & EX & _). destruct (Hs a 0 X Ha ltac:(lia) EX) as (X' & EX' & _ & R1 & _).
    unfold rsize. replace (a + 0 * M) with a in EX, EX' by lia. rewrite (nthZ_zget _ _ _ _ EX), (nthZ_zget _ _ _ _ EX'). auto. }
  assert (CS : forall b, 0 <= b < N -> csize bl' M b = csize bl M b).
  { intros b Hb'. destruct (G 0 b ltac:(lia) Hb') as (X & EX & _). destruct (Hs 0 b X ltac:(lia) Hb' EX) as (X' & EX' & _ & _ & R1 & _).
    unfold csize. replace (0 + b * M) with (b * M) in EX, EX' by lia. rewrite (nthZ_zget _ _ _ _ EX), (nthZ_zget _ _ _ _ EX'). auto. }
  split; [|split; [reflexivity|split; [reflexivity|]]].
  - constructor; auto; try lia.
    + intros k X' EX'. assert (Hk : 0 <= k < M * N) by (apply zget_range in EX'; lia).
      assert (Q : k = k mod M + k / M * M) by (pose proof (Z.div_mod k M ltac:(lia)); lia).
      assert (Qm : 0 <= k mod M < M) by (apply Z.mod_pos_bound; lia). assert (Qd : 0 <= k / M < N) by (split; [apply Z.div_pos; lia|apply Z.div_lt_upper_bound; lia]).
      destruct (G (k mod M) (k / M) Qm Qd) as (X & EX & _). destruct (Hs _ _ X Qm Qd EX) as (X2 & EX2 & O & _). rewrite <- Q in EX2. congruence.
    + intros a b X' Ha Hb' EX'. destruct (G a b Ha Hb') as (X & EX & _ & RX & CX). destruct (Hs a b X Ha Hb' EX) as (X2 & EX2 & _ & R1 & C1 & _).
      assert (X2 = X') by congruence. subst X2. rewrite RS, CS by auto. split; congruence.
    + rewrite Em. apply before_ext. intros; now rewrite RS.
    + rewrite En. apply before_ext. intros; now rewrite CS.
  - intros i j Hi Hj. rewrite !h_mat_tree. rewrite <- sumZ_scal. apply sumZ_ext. intros b Hb'. rewrite <- sumZ_scal. apply sumZ_ext. intros a Ha.
    unfold pb. destruct (G a b Ha Hb') as (X & EX & _ & RX & CX). destruct (Hs a b X Ha Hb' EX) as (X2 & EX2 & _ & R1 & C1 & V).
    rewrite RS, CS by auto. rewrite (before_ext a (rsize bl') (rsize bl)) by (intros; apply RS; lia). rewrite (before_ext b (csize bl' M) (csize bl M)) by (intros; apply CS; lia).
    replace (nthZ (fun _ _ => 0%R) (map h_mat bl') (a + b * M)) with (h_mat X2) by (symmetry; apply nthZ_zget; now rewrite zget_map, EX2).
    replace (nthZ (fun _ _ => 0%R) (map h_mat bl) (a + b * M)) with (h_mat X) by (symmetry; apply nthZ_zget; now rewrite zget_map, EX).
    unfold placed. destruct ((before a (rsize bl) <=? i) && (i <? before a (rsize bl) + rsize bl a) && (before b (csize bl M) <=? j) && (j <? before b (csize bl M) + csize bl M b)) eqn:E; [|lra].
    rewrite V by lia. f_equal. f_equal; lia.
Qed.
End Tree.

Theorem scale_rows_proof alpha H x ox : h_ok H -> fits ox (hrows H) x ->
  exists H', scale_rows alpha H x ox = Some H' /\ scaled (fun i j => (alpha * vec ox x i)%R) H H'.
Proof.
  intros ok. revert ox. induction ok as [A HA|L HL|m n M N bl HM HN Hl Hb IH Hs Em En]; intros ox Hx.
  - destruct HA as (A1 & A2 & A3). cbn [scale_rows hrows] in *. unfold scale_rows_dense. destruct (scale_rows_mat_val (de_m A) (de_n A) alpha x ox (de_A A)) as (D & E & L & V); auto. rewrite E. cbn [obind].
    eexists; split; [reflexivity|]. split; [constructor; split; [auto|split; [auto|cbn; lia]]|]. split; auto.
  - pose proof HL as (L1 & L2 & L3 & L4 & L5 & L6 & L7 & L8). cbn [scale_rows hrows] in *. unfold scale_rows_lowrank. destruct (scale_rows_mat_val (lr_m L) (lr_r L) alpha x ox (lr_U L)) as (D & E & LL & V); auto. rewrite E. cbn [obind].
    eexists; split; [reflexivity|]. split; [constructor; repeat split; cbn; auto; lia|]. split; auto. split; auto. intros i j Hi Hj. cbn [h_mat hrows hcols] in *. unfold lr_mat. cbn.
    destruct (lr_three L); unfold matmul; rewrite <- sumZ_scal; apply sumZ_ext; intros; rewrite V by auto; lra.
  - assert (ok : h_ok (HTree m n M N bl)) by (constructor; auto).
    destruct (tree_facts m n M N bl ok) as (_ & _ & _ & _ & _ & _ & G & Ra & Cb & Ba & Bb). cbn [scale_rows hrows] in *.
    set (Rel := fun a b bl' => forall X, zget bl (a + b * M) = Some X -> exists X', zget bl' (a + b * M) = Some X' /\ scaled (fun i j => (alpha * vec ox x (before a (rsize bl) + i))%R) X X').
    set (I := fun k0 bl' => zlen bl' = zlen bl /\ forall a b, 0 <= a < M -> 0 <= b < N -> a + b * M < k0 -> Rel a b bl').
    match goal with |- context [for_up 0 N ?bd bl] =>
      destruct (for_up_inv (fun b => I (b * M)) 0 N bd bl) as (bl' & E & L & V); auto end; try lia.
    + split; auto. intros a b Ha Hb' Hk. nia.
    + intros b bl1 Hb' I1.
      match goal with |- context [for_up 0 M ?bd (bl1, 0)] =>
        destruct (for_up_inv (fun a st => snd st = before a (rsize bl) /\ I (a + b * M) (fst st)) 0 M bd (bl1, 0)) as ([bl2 p] & E2 & _ & I2); auto; try lia end.
      * intros a [bl2 p] Ha (Hp & L2 & V2). cbn [fst snd] in *. subst p. destruct (G a b Ha Hb') as (X & EX & okX & RX & CX). rewrite zget_map, EX. cbn [obind].
        destruct (IH _ X EX (ox + before a (rsize bl))) as (X' & EX' & SX). { pose proof (Ba a Ha). destruct Hx. split; lia. }
        rewrite EX'. cbn [obind]. assert (0 <= a + b * M < zlen bl) by nia. rewrite zset_some by lia. cbn [obind]. rewrite (tree_rows m n M N bl ok a Ha). cbn [obind].
        eexists; split; [reflexivity|]. cbn [fst snd]. split; [now rewrite before_S by lia|]. split; [now rewrite zlen_zupd|].
        intros a' b' Ha' Hb2 Hk. intros X2 EX2. destruct (Z.eq_dec (a' + b' * M) (a + b * M)) as [Eq|Ne].
        -- apply idx2_inj in Eq; try lia. destruct Eq as [-> ->]. rewrite zget_zupd_same by lia. exists X'. split; auto. assert (X2 = X) by congruence. subst X2.
           destruct SX as (S1 & S2 & S3 & S4). do 3 (split; auto). intros i j Hi Hj. rewrite S4 by auto. f_equal. f_equal. unfold vec. f_equal. lia.
        -- rewrite zget_zupd_other by lia. apply (V2 a' b'); auto. lia.
      * rewrite E2. cbn [obind fst]. eexists; split; [reflexivity|]. cbn [fst] in I2. now replace ((b + 1) * M) with (M + b * M) by lia.
    + rewrite E. cbn [obind]. eexists; split; [reflexivity|]. apply tree_scaled; auto.
      intros a b X Ha Hb' EX. apply (V a b); auto. nia.
Qed.

Theorem scale_columns_proof alpha H x ox : h_ok H -> fits ox (hcols H) x ->
  exists H', scale_columns alpha H x ox = Some H' /\ scaled (fun i j => (alpha * vec ox x j)%R) H H'.
Proof.
  intros ok. revert ox. induction ok as [A HA|L HL|m n M N bl HM HN Hl Hb IH Hs Em En]; intros ox Hx.
  - destruct HA as (A1 & A2 & A3). cbn [scale_columns hcols] in *. unfold scale_columns_dense.
    destruct (scale_mat_loop (de_m A) (de_n A) (fun j i D => do a <- zget D (i + j * de_m A); zset D (i + j * de_m A) (mul a (alpha * vec ox x j)%R)) (fun i j => (alpha * vec ox x j)%R) (de_A A)) as (D & E & L & V); auto.
    { intros i j A' Hi Hj L. assert (0 <= i + j * de_m A < zlen (de_A A)) by nia. rewrite (zget_nthZ 0%R) by lia. cbn [obind]. now rewrite zset_some by lia. }
    erewrite for_up_ext.
    2:{ intros j D' Hj. rewrite (zget_vec ox x j (de_n A)) by auto. cbn [obind]. reflexivity. }
    change (@mul R R_arith alpha) with (Rmult alpha). cbv beta zeta in E |- *.
    match goal with |- context [obind (for_up 0 (de_n A) ?b ?s) _] => replace (for_up 0 (de_n A) b s) with (Some D) by (symmetry; exact E) end. cbn [obind].
    eexists; split; [reflexivity|]. split; [constructor; split; [auto|split; [auto|cbn; lia]]|]. split; auto.
  - pose proof HL as (L1 & L2 & L3 & L4 & L5 & L6 & L7 & L8). cbn [scale_columns hcols] in *. unfold scale_columns_lowrank. destruct (scale_rows_mat_val (lr_n L) (lr_r L) alpha x ox (lr_V L)) as (D & E & LL & V); auto. rewrite E. cbn [obind].
    eexists; split; [reflexivity|]. split; [constructor; repeat split; cbn; auto; lia|]. split; auto. split; auto. intros i j Hi Hj. cbn [h_mat hrows hcols] in *. unfold lr_mat. cbn.
    destruct (lr_three L); unfold matmul; rewrite <- sumZ_scal; apply sumZ_ext; intros.
    + unfold transp. rewrite (sumZ_ext _ _ (fun k0 => (mat 0 (lr_r L) (lr_S L) i0 k0 * (alpha * vec ox x j * mat 0 (lr_n L) (lr_V L) j k0))%R)) by (intros; rewrite V by auto; reflexivity).
      rewrite (sumZ_ext _ _ (fun k0 => (alpha * vec ox x j * (mat 0 (lr_r L) (lr_S L) i0 k0 * mat 0 (lr_n L) (lr_V L) j k0))%R)) by (intros; lra). rewrite sumZ_scal. lra.
    + unfold transp. rewrite V by auto. lra.
  - assert (ok : h_ok (HTree m n M N bl)) by (constructor; auto).
    destruct (tree_facts m n M N bl ok) as (_ & _ & _ & _ & _ & _ & G & Ra & Cb & Ba & Bb). cbn [scale_columns hcols] in *.
    set (Rel := fun a b bl' => forall X, zget bl (a + b * M) = Some X -> exists X', zget bl' (a + b * M) = Some X' /\ scaled (fun i j => (alpha * vec ox x (before b (csize bl M) + j))%R) X X').
    set (I := fun k0 bl' => zlen bl' = zlen bl /\ forall a b, 0 <= a < M -> 0 <= b < N -> a + b * M < k0 -> Rel a b bl').
    match goal with |- context [for_up 0 N ?bd (bl, 0)] =>
      destruct (for_up_inv (fun b st => snd st = before b (csize bl M) /\ I (b * M) (fst st)) 0 N bd (bl, 0)) as ([bl' q] & E & _ & L & V); auto end; try lia.
    + split; auto. split; auto. intros a b Ha Hb' Hk. nia.
    + intros b [bl1 q] Hb' (Hq & I1). cbn [fst snd] in *. subst q.
      match goal with |- context [for_up 0 M ?bd bl1] =>
        destruct (for_up_inv (fun a => I (a + b * M)) 0 M bd bl1) as (bl2 & E2 & I2); auto; try lia end.
      * intros a bl2 Ha (L2 & V2). destruct (G a b Ha Hb') as (X & EX & okX & RX & CX). rewrite zget_map, EX. cbn [obind].
        destruct (IH _ X EX (ox + before b (csize bl M))) as (X' & EX' & SX). { pose proof (Bb b Hb'). destruct Hx. split; lia. }
        rewrite EX'. cbn [obind]. assert (0 <= a + b * M < zlen bl) by nia. rewrite zset_some by lia.
        eexists; split; [reflexivity|]. split; [now rewrite zlen_zupd|].
        intros a' b' Ha' Hb2 Hk. intros X2 EX2. destruct (Z.eq_dec (a' + b' * M) (a + b * M)) as [Eq|Ne].
        -- apply idx2_inj in Eq; try lia. destruct Eq as [-> ->]. rewrite zget_zupd_same by lia. exists X'. split; auto. assert (X2 = X) by congruence. subst X2.
           destruct SX as (S1 & S2 & S3 & S4). do 3 (split; auto). intros i j Hi Hj. rewrite S4 by auto. f_equal. f_equal. unfold vec. f_equal. lia.
        -- rewrite zget_zupd_other by lia. apply (V2 a' b'); auto. lia.
      * rewrite E2. cbn [obind]. rewrite (tree_cols m n M N bl ok b Hb'). cbn [obind]. eexists; split; [reflexivity|]. cbn [fst snd]. split; [now rewrite before_S by lia|]. now replace ((b + 1) * M) with (M + b * M) by lia.
    + rewrite E. cbn [obind fst]. eexists; split; [reflexivity|]. apply tree_scaled; auto.
      intros a b X Ha Hb' EX. apply (V a b); auto. cbn. nia.
Qed.
