(** * Filling banded matrices column by column; sums of a column *)
From Coq Require Import ZArith List Lia Bool Reals Lra ZifyBool.
From Verif Require Import Base BaseFacts Arith SpecSum PSum PTri SpecLin SpecBanded MBanded PBand MClassical.
Import ListNotations.
Open Scope Z_scope.

Fixpoint lk (col : list (Z * R)) (p : Z) : R :=
  match col with [] => 0%R | iv :: t => if fst iv =? p then snd iv else lk t p end.
Fixpoint colsum (m : Z) (col : list (Z * R)) (q : Z -> R) : R :=
  match col with [] => 0%R | iv :: t => ((if (0 <=? fst iv) && (fst iv <? m) then snd iv * q (fst iv) else 0) + colsum m t q)%R end.
Definition look (col : list (Z * R)) (p : Z) (d : R) : R := fold_left (fun d iv => if fst iv =? p then snd iv else d) col d.

Lemma look_notin col p d : ~ In p (map fst col) -> look col p d = d.
Proof.
  revert d. induction col as [|[i v] t IH]; intros d H; cbn; auto. cbn in H. destruct (Z.eqb_spec i p); [tauto|]. apply IH. tauto.
Qed.
Lemma look_lk col p : NoDup (map fst col) -> look col p 0%R = lk col p.
Proof.
  induction col as [|[i v] t IH]; intros H; cbn; auto. cbn in H. inversion H; subst. destruct (Z.eqb_spec i p).
  - subst. change (look t p v = v). now apply look_notin.
  - apply IH; auto.
Qed.
Lemma lk_notin col p : ~ In p (map fst col) -> lk col p = 0%R.
Proof. induction col as [|[i v] t IH]; intros H; cbn in *; auto. destruct (Z.eqb_spec i p); [tauto|]. apply IH. tauto. Qed.
Lemma lk_sum m col q : NoDup (map fst col) -> sumZ m (fun i => (lk col i * q i)%R) = colsum m col q.
Proof.
  induction col as [|[i v] t IH]; intros H; cbn [lk colsum fst snd].
  - apply sumZ_zero. intros. lra.
  - cbn in H. inversion H; subst. rewrite <- IH by auto.
    rewrite (sumZ_ext m _ (fun k => ((if i =? k then v * q i else 0) + lk t k * q k)%R)).
    2:{ intros k Hk. destruct (Z.eqb_spec i k); subst; [rewrite lk_notin by auto|]; lra. }
    rewrite sumZ_plus. f_equal. destruct ((0 <=? i) && (i <? m)) eqn:E.
    + rewrite (sumZ_single m i); [now rewrite Z.eqb_refl|lia|]. intros k Hk Hk2. destruct (Z.eqb_spec i k); [lia|reflexivity].
    + apply sumZ_zero. intros k Hk. destruct (Z.eqb_spec i k); [lia|reflexivity].
Qed.

Lemma set_col_val j col (A : banded R) : bd_ok A ->
  exists A', set_col j col A = Some A' /\ bd_ok A' /\ same_shape A' A /\ zlen (bd_data A') = zlen (bd_data A) /\
    forall p q, bG A' p q = if (q =? j) && bd_in A p q then look col p (bG A p q) else bG A p q.
Proof.
  revert A. induction col as [|[i v] t IH]; intros A HA.
  - exists A. split; [reflexivity|]. split; [auto|split; [repeat split|split; [auto|]]]. intros. cbn. now destruct (_ && _).
  - destruct (bd_set_val A v i j HA) as [A1 (E1 & O1 & S1 & L1 & G1)].
    destruct (IH A1 O1) as [A2 (E2 & O2 & S2 & L2 & G2)].
    exists A2. split. { unfold set_col. cbn [fold_left obind fst snd]. rewrite E1. exact E2. }
    split; [auto|]. split. { destruct S1 as (?&?&?&?), S2 as (?&?&?&?). repeat split; congruence. }
    split; [congruence|]. intros p q. rewrite G2, (bd_in_shape A1 A) by auto. rewrite G1.
    destruct (Z.eqb_spec q j) as [->|]; cbn [andb].
    + destruct (bd_in A p j) eqn:Ep; cbn [andb].
      * unfold look. cbn [fold_left fst snd]. f_equal. destruct (Z.eqb_spec i p) as [->|].
        -- rewrite Ep, Z.eqb_refl. reflexivity.
        -- destruct (Z.eqb_spec p i); [lia|]. now rewrite andb_false_r.
      * destruct (Z.eqb_spec p i) as [->|]; [rewrite Ep; reflexivity|]. now rewrite andb_false_r.
    + now rewrite andb_false_r.
Qed.
Lemma set_cols_val lo hi col (A : banded R) : bd_ok A -> lo <= hi ->
  exists A', set_cols lo hi col A = Some A' /\ bd_ok A' /\ same_shape A' A /\ zlen (bd_data A') = zlen (bd_data A) /\
    forall p q, bG A' p q = if (lo <=? q) && (q <? hi) && bd_in A p q then look (col q) p (bG A p q) else bG A p q.
Proof.
  intros HA Hh. unfold set_cols.
  destruct (for_up_inv (fun k A' => bd_ok A' /\ same_shape A' A /\ zlen (bd_data A') = zlen (bd_data A) /\
    forall p q, bG A' p q = if (lo <=? q) && (q <? k) && bd_in A p q then look (col q) p (bG A p q) else bG A p q) lo hi (fun j A => set_col j (col j) A) A)
    as [A' [E HA']]; auto.
  - split; [auto|split; [repeat split|split; auto]]. intros p q. now replace ((lo <=? q) && (q <? lo)) with false by lia.
  - intros j A1 Hj (O1 & S1 & L1 & G1). destruct (set_col_val j (col j) A1 O1) as [A2 (E2 & O2 & S2 & L2 & G2)].
    exists A2. split; auto. split; [auto|]. split. { destruct S1 as (?&?&?&?), S2 as (?&?&?&?). repeat split; congruence. }
    split; [congruence|]. intros p q. rewrite G2, (bd_in_shape A1 A) by auto. rewrite !G1.
    destruct (Z.eqb_spec q j) as [->|].
    + replace ((lo <=? j) && (j <? j)) with false by lia. replace ((lo <=? j) && (j <? j + 1)) with true by lia. reflexivity.
    + cbn [andb]. now replace (q <? j + 1) with (q <? j) by lia.
  - eauto.
Qed.
(** the columns of a matrix made from calloc_banded *)
Lemma set_cols_sum m n l u col : 0 <= m -> 0 <= n -> 0 <= l + u + 1 ->
  (forall j, 0 <= j < n -> NoDup (map fst (col j)) /\ forall i, In i (map fst (col j)) -> 0 <= i < m -> - l <= j - i <= u) ->
  exists A, set_cols 0 n col (calloc_banded m n l u) = Some A /\ bd_ok A /\ same_shape A (calloc_banded (F:=R) m n l u) /\
    (forall i j, 0 <= i < m -> 0 <= j < n -> bd_mat A i j = lk (col j) i) /\
    forall j q, 0 <= j < n -> sumZ m (fun i => (bd_mat A i j * q i)%R) = colsum m (col j) q.
Proof.
  intros Hm Hn Hl Hc.
  destruct (set_cols_val 0 n col (calloc_banded m n l u)) as [A (E & O & S & L & G)]; auto.
  { now apply calloc_bd_ok. }
  assert (HM : forall i j, 0 <= i < m -> 0 <= j < n -> bd_mat A i j = lk (col j) i).
  { intros i j Hi Hj. pose proof S as (S1 & S2 & S3 & S4). cbn in S1, S2, S3, S4.
    rewrite <- bG_in by lia. rewrite G.
    assert (Z0 : bG (calloc_banded m n l u) i j = 0%R).
    { assert (HH := bd_get_val (calloc_banded m n l u) i j (calloc_bd_ok m n l u Hm Hn Hl)). rewrite calloc_bd_get in HH by auto. now injection HH. }
    rewrite Z0. destruct (Hc j Hj) as [Hd Hb].
    destruct (bd_in (calloc_banded m n l u) i j) eqn:Ei; unfold bd_in in Ei; cbn in Ei.
    - replace ((0 <=? j) && (j <? n)) with true by lia. cbn [andb]. now apply look_lk.
    - rewrite andb_false_r. symmetry. apply lk_notin. intros Hin. apply Hb in Hin; lia. }
  exists A. split; [auto|split; [auto|split; [auto|split; [auto|]]]].
  intros j q Hj. destruct (Hc j Hj). rewrite <- lk_sum by auto. apply sumZ_ext. intros i Hi. rewrite HM by auto. reflexivity.
Qed.
(** a matrix with one diagonal, in a block of arbitrary contents *)
Lemma derivative_loop_sum data m n order (v : Z -> R) vo : 0 <= m -> 0 <= n -> 0 <= order -> n <= zlen data ->
  (forall j, order <= j < n -> vo j = Some (v j)) ->
  exists A, derivative_loop n order vo (malloc_banded data m n (- order) order) = Some A /\ bd_ok A /\
    same_shape A (malloc_banded data m n (- order) order) /\
    (forall i j, 0 <= i < m -> 0 <= j < n -> bd_mat A i j = if j - order =? i then v j else 0%R) /\
    forall j q, 0 <= j < n -> sumZ m (fun i => (bd_mat A i j * q i)%R) = if (0 <=? j - order) && (j - order <? m) then (v j * q (j - order)%Z)%R else 0%R.
Proof.
  intros Hm Hn Ho Hd Hv. set (A0 := malloc_banded data m n (- order) order).
  assert (O0 : bd_ok A0). { split; [|split]; cbn; auto. replace (- order + order + 1) with 1 by lia. lia. }
  assert (HA : exists A, derivative_loop n order vo A0 = Some A /\ bd_ok A /\ same_shape A A0 /\
     forall p q, bG A p q = if (order <=? q) && (q <? n) && (q - order =? p) && bd_in A0 p q then v q else bG A0 p q).
  { unfold derivative_loop. destruct (Z_le_dec order n).
    2:{ rewrite for_up_nil by lia. exists A0. split; [auto|split; [auto|split; [repeat split|]]]. intros.
        now replace ((order <=? q) && (q <? n)) with false by lia. }
    match goal with |- exists A, for_up order n ?b A0 = _ /\ _ =>
    destruct (for_up_inv (fun k A => bd_ok A /\ same_shape A A0 /\ forall p q, bG A p q = if (order <=? q) && (q <? k) && (q - order =? p) && bd_in A0 p q then v q else bG A0 p q)
      order n b A0) as [A [E HA]] end; auto.
    - split; [auto|split; [repeat split|]]. intros. now replace ((order <=? q) && (q <? order)) with false by lia.
    - intros j A1 Hj (O1 & S1 & G1). rewrite Hv by lia. cbn [obind].
      destruct (bd_set_val A1 (v j) (j - order) j O1) as [A2 (E2 & O2 & S2 & L2 & G2)]. exists A2. split; auto. split; [auto|].
      split. { destruct S1 as (?&?&?&?), S2 as (?&?&?&?). repeat split; congruence. }
      intros p q. rewrite G2, (bd_in_shape A1 A0), G1 by auto.
      destruct (Z.eqb_spec q j) as [->|].
      + replace ((order <=? j) && (j <? j)) with false by lia. replace ((order <=? j) && (j <? j + 1)) with true by lia. cbn [andb].
        rewrite andb_true_r. destruct (Z.eqb_spec p (j - order)) as [->|].
        * rewrite Z.eqb_refl. cbn [andb]. now rewrite andb_true_r.
        * destruct (Z.eqb_spec (j - order) p); [lia|]. now rewrite andb_false_r.
      + rewrite andb_false_r. now replace (q <? j + 1) with (q <? j) by lia.
    - eauto. }
  destruct HA as [A (E & O & S & G)].
  assert (HM : forall i j, 0 <= i < m -> 0 <= j < n -> bd_mat A i j = if j - order =? i then v j else 0%R).
  { intros i j Hi Hj. pose proof S as (S1 & S2 & S3 & S4). cbn in S1, S2, S3, S4. rewrite <- bG_in by lia. rewrite G.
    destruct (Z.eqb_spec (j - order) i).
    - assert (Hin : bd_in A0 i j = true) by (unfold bd_in; cbn; lia). rewrite Hin. now replace ((order <=? j) && (j <? n) && true && true) with true by lia.
    - rewrite andb_false_r. cbn [andb]. apply bG_band. cbn. lia. }
  exists A. split; [auto|split; [auto|split; [auto|split; [auto|]]]].
  intros j q Hj. rewrite (sumZ_ext m _ (fun i => ((if j - order =? i then v j else 0) * q i)%R)).
  2:{ intros i Hi. now rewrite HM by auto. }
  destruct ((0 <=? j - order) && (j - order <? m)) eqn:Ej.
  - rewrite (sumZ_single m (j - order)); [now rewrite Z.eqb_refl|lia|]. intros i Hi Hi2. destruct (Z.eqb_spec (j - order) i); [lia|lra].
  - apply sumZ_zero. intros i Hi. destruct (Z.eqb_spec (j - order) i); [lia|lra].
Qed.
