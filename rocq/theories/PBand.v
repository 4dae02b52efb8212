(** * Proofs: banded storage, products, sums and the operator Clenshaw algorithm *)
From Coq Require Import ZArith List Lia Bool ZifyBool ZifyNat Reals Lra.
From Verif Require Import Arith Base BaseFacts SpecSum PSum SpecLin MBanded SpecBanded PTri.
Import ListNotations.
Open Scope Z_scope.

(** ** Storage, for any element type *)
Section Storage.
Context {F : Type} {AF : Arith F}.

Lemma bd_in_pos (A : banded F) i j : bd_ok A -> bd_in A i j = true ->
  0 <= bd_u A + i + j * (bd_l A + bd_u A) < zlen (bd_data A).
Proof.
  intros (H1 & H2 & H3) H. unfold bd_in in H.
  replace (bd_u A + i + j * (bd_l A + bd_u A)) with ((bd_u A + i - j) + j * (bd_l A + bd_u A + 1)) by lia.
  pose proof (idx2 (bd_u A + i - j) j (bd_l A + bd_u A + 1) (bd_n A)). lia.
Qed.
Lemma bd_pos_inj (A : banded F) i j p q : bd_in A i j = true -> bd_in A p q = true ->
  bd_u A + i + j * (bd_l A + bd_u A) = bd_u A + p + q * (bd_l A + bd_u A) -> i = p /\ j = q.
Proof.
  unfold bd_in. intros H1 H2 E.
  pose proof (idx2_inj (bd_u A + i - j) j (bd_u A + p - q) q (bd_l A + bd_u A + 1)). lia.
Qed.
Lemma bd_get_some (A : banded F) i j : bd_ok A -> exists v, bd_get A i j = Some v.
Proof.
  intros HA. unfold bd_get. destruct (bd_in A i j) eqn:E; eauto.
  pose proof (bd_in_pos A i j HA E) as Hp. eapply zget_ex; eauto.
Qed.
Lemma bd_in_shape (A B : banded F) i j : same_shape A B -> bd_in A i j = bd_in B i j.
Proof. intros (H1 & H2 & H3 & H4). unfold bd_in. now rewrite H1, H2, H3, H4. Qed.
Lemma bd_set_proof (A : banded F) v i j : bd_ok A ->
  exists A', bd_set A v i j = Some A' /\ bd_ok A' /\ same_shape A' A /\ zlen (bd_data A') = zlen (bd_data A) /\
    forall p q, bd_get A' p q = if bd_in A i j && (p =? i) && (q =? j) then Some v else bd_get A p q.
Proof.
  intros HA. unfold bd_set. destruct (bd_in A i j) eqn:E.
  - pose proof (bd_in_pos A i j HA E). rewrite zset_some by auto. cbn [obind]. eexists; split; [reflexivity|].
    split; [|split; [|split]].
    + destruct HA as (H1 & H2 & H3). split; [|split]; cbn; auto. now rewrite zlen_zupd.
    + repeat split.
    + cbn. apply zlen_zupd.
    + intros p q. unfold bd_get. rewrite (bd_in_shape _ A) by (repeat split). cbn [bd_data bd_l bd_u bd_m bd_n].
      destruct (bd_in A p q) eqn:E2.
      * rewrite zget_zupd by auto. cbn [andb]. destruct (Z.eqb_spec (bd_u A + i + j * (bd_l A + bd_u A)) (bd_u A + p + q * (bd_l A + bd_u A))) as [Ep|Ep].
        -- destruct (bd_pos_inj A i j p q); auto. subst. now rewrite !Z.eqb_refl.
        -- destruct (Z.eqb_spec p i), (Z.eqb_spec q j); subst; cbn; congruence.
      * cbn [andb]. destruct (Z.eqb_spec p i), (Z.eqb_spec q j); subst; cbn; congruence.
  - exists A. split; [auto|split; [auto|split; [repeat split|split; [auto|]]]]. intros. reflexivity.
Qed.

Lemma tb_in_pos (A : tbanded F) i j : tb_ok A -> tb_in A i j = true -> 0 <= i + (j + 1) * tb_b A < zlen (tb_data A).
Proof.
  intros (H1 & H2 & H3) H. unfold tb_in in H. pose proof (idx2 (tb_b A + i - j) j (tb_b A + 1) (tb_n A)). lia.
Qed.
Lemma tb_pos_inj (A : tbanded F) i j p q : tb_in A i j = true -> tb_in A p q = true ->
  i + (j + 1) * tb_b A = p + (q + 1) * tb_b A -> i = p /\ j = q.
Proof. unfold tb_in. intros H1 H2 E. pose proof (idx2_inj (tb_b A + i - j) j (tb_b A + p - q) q (tb_b A + 1)). lia. Qed.
Lemma tb_get_some (A : tbanded F) i j : tb_ok A -> exists v, tb_get A i j = Some v.
Proof.
  intros HA. unfold tb_get. destruct (tb_in A i j) eqn:E; eauto.
  pose proof (tb_in_pos A i j HA E). eapply zget_ex; eauto.
Qed.
Lemma tb_set_proof (A : tbanded F) v i j : tb_ok A ->
  exists A', tb_set A v i j = Some A' /\ tb_ok A' /\ tb_n A' = tb_n A /\ tb_b A' = tb_b A /\
    forall p q, tb_get A' p q = if tb_in A i j && (p =? i) && (q =? j) then Some v else tb_get A p q.
Proof.
  intros HA. unfold tb_set. destruct (tb_in A i j) eqn:E.
  - pose proof (tb_in_pos A i j HA E). rewrite zset_some by auto. cbn [obind]. eexists; split; [reflexivity|].
    split; [|split; [|split]]; auto.
    + destruct HA as (H1 & H2 & H3). split; [|split]; cbn; auto. now rewrite zlen_zupd.
    + intros p q. unfold tb_get. change (tb_in _ p q) with (tb_in A p q). cbn [tb_data tb_b tb_n].
      destruct (tb_in A p q) eqn:E2.
      * rewrite zget_zupd by auto. cbn [andb]. destruct (Z.eqb_spec (i + (j + 1) * tb_b A) (p + (q + 1) * tb_b A)) as [Ep|Ep].
        -- destruct (tb_pos_inj A i j p q); auto. subst. now rewrite !Z.eqb_refl.
        -- destruct (Z.eqb_spec p i), (Z.eqb_spec q j); subst; cbn; congruence.
      * cbn [andb]. destruct (Z.eqb_spec p i), (Z.eqb_spec q j); subst; cbn; congruence.
  - exists A. split; [auto|split; [auto|split; [auto|split; [auto|]]]]. intros. reflexivity.
Qed.

Lemma calloc_tb_ok n b : 0 <= n -> 0 <= b -> tb_ok (calloc_tbanded (F:=F) n b).
Proof. intros. split; [|split]; cbn; auto. rewrite zlen_zmake by (apply Z.mul_nonneg_nonneg; lia). lia. Qed.
Lemma calloc_tb_get n b i j : 0 <= n -> 0 <= b -> tb_get (calloc_tbanded (F:=F) n b) i j = Some zero.
Proof.
  intros Hn Hb. unfold tb_get. destruct (tb_in _ i j) eqn:E; auto.
  pose proof (tb_in_pos _ i j (calloc_tb_ok n b Hn Hb) E) as Hp. cbn in *.
  rewrite zlen_zmake in Hp by (apply Z.mul_nonneg_nonneg; lia). apply zget_zmake. lia.
Qed.
Lemma calloc_bd_ok m n l u : 0 <= m -> 0 <= n -> 0 <= l + u + 1 -> bd_ok (calloc_banded (F:=F) m n l u).
Proof. intros. split; [|split]; cbn; auto. rewrite zlen_zmake by (apply Z.mul_nonneg_nonneg; lia). lia. Qed.
Lemma calloc_bd_get m n l u i j : 0 <= m -> 0 <= n -> 0 <= l + u + 1 -> bd_get (calloc_banded (F:=F) m n l u) i j = Some zero.
Proof.
  intros Hm Hn Hb. unfold bd_get. destruct (bd_in _ i j) eqn:E; auto.
  pose proof (bd_in_pos _ i j (calloc_bd_ok m n l u Hm Hn Hb) E) as Hp. cbn in *.
  rewrite zlen_zmake in Hp by (apply Z.mul_nonneg_nonneg; lia). apply zget_zmake. lia.
Qed.

(** create_I_triangular_banded *)
Lemma create_I_proof n b : 0 <= n -> 0 <= b ->
  exists A, create_I_tbanded (F:=F) n b = Some A /\ tb_ok A /\ tb_n A = n /\ tb_b A = b /\
    forall i j, tb_get A i j = Some (if (i =? j) && (0 <=? i) && (i <? n) then one else zero).
Proof.
  intros Hn Hb. unfold create_I_tbanded.
  destruct (for_up_inv (fun j data => zlen data = n * (b + 1) /\
     forall p q, 0 <= q < n -> 0 <= q - p <= b -> zget data (p + (q + 1) * b) = Some (if (p =? q) && (p <? j) then one else zero))
     0 n (fun j data => zset data (b + j * (b + 1)) one) (zmake (n * (b + 1)) zero)) as [d [E (L & G)]]; auto.
  - split. { apply zlen_zmake. apply Z.mul_nonneg_nonneg; lia. }
    intros p q Hq Hpq. rewrite zget_zmake.
    + f_equal. destruct (Z.eqb_spec p q); cbn; auto. now replace (p <? 0) with false by lia.
    + pose proof (idx2 (b + p - q) q (b + 1) n). lia.
  - intros j d Hj (L & G). rewrite zset_some. 2:{ pose proof (idx2 b j (b + 1) n). lia. }
    eexists; split; [reflexivity|]. split; [now rewrite zlen_zupd|].
    intros p q Hq Hpq. rewrite zget_zupd. 2:{ pose proof (idx2 b j (b + 1) n). lia. }
    destruct (Z.eqb_spec (b + j * (b + 1)) (p + (q + 1) * b)) as [Ep|Ep].
    + pose proof (idx2_inj b j (b + p - q) q (b + 1)). replace ((p =? q) && (p <? j + 1)) with true by lia. reflexivity.
    + rewrite G by auto. f_equal. destruct (Z.eqb_spec p q); cbn; auto. subst.
      destruct (Z.eq_dec q j); [subst; lia|]. now replace (q <? j + 1) with (q <? j) by lia.
  - rewrite E. cbn [obind]. eexists; split; [reflexivity|]. split; [|split; [|split]]; auto.
    + split; [|split]; cbn; lia.
    + intros i j. unfold tb_get. destruct (tb_in _ i j) eqn:Ei; unfold tb_in in Ei; cbn in Ei |- *.
      * rewrite G by lia. f_equal. replace (0 <=? i) with true by lia. now rewrite andb_true_r.
      * destruct (Z.eqb_spec i j); cbn; auto. subst. replace ((0 <=? j) && (j <? n)) with false by lia. reflexivity.
Qed.

(** ** realloc_triangular_banded *)
Lemma tb_get_inb (A : tbanded F) i j : tb_in A i j = true -> tb_get A i j = zget (tb_data A) ((tb_b A + i - j) + j * (tb_b A + 1)).
Proof. intros H. unfold tb_get. rewrite H. f_equal. lia. Qed.
Lemma fill2 (src : Z -> Z -> option F) (pos : Z -> Z -> Z) n h len (d0 : list F) :
  0 <= n -> 0 <= h -> zlen d0 = len ->
  (forall i j, 0 <= j < n -> 0 <= i < h -> exists v, src i j = Some v) ->
  (forall i j, 0 <= j < n -> 0 <= i < h -> 0 <= pos i j < len) ->
  (forall i j i' j', 0 <= j < n -> 0 <= i < h -> 0 <= j' < n -> 0 <= i' < h -> pos i j = pos i' j' -> i = i' /\ j = j') ->
  exists d, for_up 0 n (fun j d => for_up 0 h (fun i d => do v <- src i j; zset d (pos i j) v) d) d0 = Some d /\
    zlen d = len /\ (forall i j, 0 <= j < n -> 0 <= i < h -> zget d (pos i j) = src i j) /\
    (forall p, (forall i j, 0 <= j < n -> 0 <= i < h -> p <> pos i j) -> zget d p = zget d0 p).
Proof.
  intros Hn Hh L0 Hs Hp Hi.
  destruct (for_up_inv (fun j d => zlen d = len /\ (forall i j', 0 <= j' < j -> 0 <= i < h -> zget d (pos i j') = src i j') /\
    (forall p, (forall i j', 0 <= j' < j -> 0 <= i < h -> p <> pos i j') -> zget d p = zget d0 p)) 0 n
    (fun j d => for_up 0 h (fun i d => do v <- src i j; zset d (pos i j) v) d) d0) as [d [E (L & G & O)]]; auto.
  - split; [auto|split]; [intros; lia|auto].
  - intros j d Hj (L & G & O).
    destruct (for_up_inv (fun k d1 => zlen d1 = len /\ (forall i, 0 <= i < k -> zget d1 (pos i j) = src i j) /\
      (forall p, (forall i, 0 <= i < k -> p <> pos i j) -> zget d1 p = zget d p)) 0 h
      (fun i d => do v <- src i j; zset d (pos i j) v) d) as [d1 [E1 (L1 & G1 & O1)]]; auto.
    + split; [auto|split]; [intros; lia|auto].
    + intros k d1 Hk (L1 & G1 & O1). destruct (Hs k j) as [v Ev]; auto. rewrite Ev. cbn [obind].
      pose proof (Hp k j ltac:(lia) ltac:(lia)).
      rewrite zset_some by lia. eexists; split; [reflexivity|]. split; [now rewrite zlen_zupd|split].
      * intros i Hi2. rewrite zget_zupd by lia. destruct (Z.eqb_spec (pos k j) (pos i j)) as [E2|E2].
        -- apply Hi in E2; try lia. destruct E2 as [-> _]. auto.
        -- apply G1. destruct (Z.eq_dec i k); [subst; lia|lia].
      * intros p Hp2. rewrite zget_zupd_other by (apply not_eq_sym, Hp2; lia). apply O1. intros; apply Hp2; lia.
    + rewrite E1. eexists; split; [reflexivity|]. split; [auto|split].
      * intros i j' Hj' Hi'. destruct (Z.eq_dec j' j) as [->|]; [apply G1; auto|].
        rewrite O1; [apply G; lia|]. intros k Hk Ek. apply Hi in Ek; lia.
      * intros p Hp2. rewrite O1; [apply O|]; intros; apply Hp2; lia.
  - exists d. auto.
Qed.
Lemma realloc_grow_proof (A : tbanded F) b : tb_ok A -> tb_b A < b ->
  exists A', realloc_tbanded A b = Some A' /\ tb_ok A' /\ tb_n A' = tb_n A /\ tb_b A' = b /\
    forall i j, tb_get A' i j = tb_get A i j.
Proof.
  intros HA Hb. pose proof HA as (H1 & H2 & H3). unfold realloc_tbanded. replace (tb_b A <? b) with true by lia.
  destruct (fill2 (fun i j => zget (tb_data A) (i + j * (tb_b A + 1))) (fun i j => i + b - tb_b A + j * (b + 1)) (tb_n A) (tb_b A + 1)
    (tb_n A * (b + 1)) (zmake (tb_n A * (b + 1)) zero)) as [d [E (L & G & O)]]; auto; try lia.
  - apply zlen_zmake, Z.mul_nonneg_nonneg; lia.
  - intros i j Hj Hi. pose proof (idx2 i j (tb_b A + 1) (tb_n A)). eapply zget_ex. lia.
  - intros i j Hj Hi. pose proof (idx2 (i + b - tb_b A) j (b + 1) (tb_n A)). lia.
  - intros i j i' j' Hj Hi Hj' Hi' E. pose proof (idx2_inj (i + b - tb_b A) j (i' + b - tb_b A) j' (b + 1)). lia.
  - rewrite E. cbn [obind]. eexists; split; [reflexivity|]. split; [|split; [|split]]; auto.
    + split; [|split]; cbn; lia.
    + intros i j. unfold tb_get at 1. destruct (tb_in _ i j) eqn:Ei; unfold tb_in in Ei; cbn [tb_n tb_b tb_data] in Ei |- *.
      * destruct (tb_in A i j) eqn:Ea; unfold tb_in in Ea.
        -- rewrite tb_get_inb by auto. rewrite <- G by lia. f_equal. lia.
        -- unfold tb_get, tb_in. rewrite Ea. rewrite O.
           ++ apply zget_zmake. pose proof (idx2 (b + i - j) j (b + 1) (tb_n A)). lia.
           ++ intros i' j' Hj' Hi' Ec. pose proof (idx2_inj (b + i - j) j (i' + b - tb_b A) j' (b + 1)). lia.
      * unfold tb_get, tb_in. match goal with |- _ = if ?c then _ else _ => replace c with false by lia end. reflexivity.
Qed.
Lemma realloc_shrink_proof (A : tbanded F) b : tb_ok A -> 0 <= b < tb_b A ->
  exists A', realloc_tbanded A b = Some A' /\ tb_ok A' /\ tb_n A' = tb_n A /\ tb_b A' = b /\
    forall i j, tb_get A' i j = if j - i <=? b then tb_get A i j else Some zero.
Proof.
  intros HA Hb. pose proof HA as (H1 & H2 & H3). unfold realloc_tbanded. replace (tb_b A <? b) with false by lia. replace (b <? tb_b A) with true by lia.
  destruct (fill2 (fun i j => zget (tb_data A) (i + tb_b A - b + j * (tb_b A + 1))) (fun i j => i + j * (b + 1)) (tb_n A) (b + 1)
    (tb_n A * (b + 1)) (zmake (tb_n A * (b + 1)) zero)) as [d [E (L & G & O)]]; auto; try lia.
  - apply zlen_zmake, Z.mul_nonneg_nonneg; lia.
  - intros i j Hj Hi. pose proof (idx2 (i + tb_b A - b) j (tb_b A + 1) (tb_n A)). eapply zget_ex. lia.
  - intros i j Hj Hi. pose proof (idx2 i j (b + 1) (tb_n A)). lia.
  - intros i j i' j' Hj Hi Hj' Hi' E. pose proof (idx2_inj i j i' j' (b + 1)). lia.
  - rewrite E. cbn [obind]. eexists; split; [reflexivity|]. split; [|split; [|split]]; auto.
    + split; [|split]; cbn; lia.
    + intros i j. unfold tb_get at 1. destruct (tb_in _ i j) eqn:Ei; unfold tb_in in Ei; cbn [tb_n tb_b tb_data] in Ei |- *.
      * replace (j - i <=? b) with true by lia. rewrite tb_get_inb by (unfold tb_in; lia).
        replace (i + (j + 1) * b) with ((b + i - j) + j * (b + 1)) by lia. rewrite G by lia. f_equal. lia.
      * destruct (j - i <=? b) eqn:Eb; auto. unfold tb_get, tb_in. match goal with |- _ = if ?c then _ else _ => replace c with false by lia end. reflexivity.
Qed.
Lemma realloc_same_proof (A : tbanded F) : tb_ok A ->
  exists A', realloc_tbanded A (tb_b A) = Some A' /\ forall i j, tb_get A' i j = Some zero.
Proof.
  intros (H1 & H2 & H3). unfold realloc_tbanded. rewrite Z.ltb_irrefl. cbn [obind]. eexists; split; [reflexivity|].
  intros. apply calloc_tb_get; auto.
Qed.

(** ** Conversions and views *)
Lemma tb_to_banded_proof (A : tbanded F) : tb_ok A -> bd_ok (tb_to_banded A) /\ forall i j, bd_get (tb_to_banded A) i j = tb_get A i j.
Proof.
  intros (H1 & H2 & H3). split. { split; [|split]; cbn; lia. }
  intros. unfold bd_get, tb_get, bd_in, tb_in, tb_to_banded. cbn [bd_m bd_n bd_l bd_u bd_data].
  match goal with |- (if ?a then _ else _) = (if ?b then _ else _) => replace a with b by lia; destruct b end; auto. f_equal. lia.
Qed.
Lemma zget_skipn (a : list F) k i : 0 <= k -> 0 <= i -> zget (skipn (Z.to_nat k) a) i = zget a (k + i).
Proof.
  intros Hk Hi. unfold zget. replace (i <? 0) with false by lia. replace (k + i <? 0) with false by lia.
  replace (Z.to_nat (k + i)) with (Z.to_nat k + Z.to_nat i)%nat by lia.
  generalize (Z.to_nat k), (Z.to_nat i). clear. intros k i. revert a. induction k; intros a; cbn; auto. destruct a; auto. now destruct i.
Qed.
Lemma zlen_skipn (a : list F) k : 0 <= k <= zlen a -> zlen (skipn (Z.to_nat k) a) = zlen a - k.
Proof. intros. unfold zlen in *. rewrite skipn_length. lia. Qed.
Lemma view_tb_proof (A : tbanded F) start stop : tb_ok A -> 0 <= start <= stop -> stop <= tb_n A ->
  tb_ok (view_tbanded A start stop) /\ tb_n (view_tbanded A start stop) = stop - start /\
  forall i j, 0 <= i < stop - start -> 0 <= j < stop - start ->
    tb_get (view_tbanded A start stop) i j = tb_get A (start + i) (start + j).
Proof.
  intros (H1 & H2 & H3) Hs Hn. assert (Hp : 0 <= start * (tb_b A + 1) <= tb_n A * (tb_b A + 1)).
  { split; [apply Z.mul_nonneg_nonneg; lia|apply Z.mul_le_mono_nonneg_r; lia]. }
  split; [|split]; auto.
  - split; [|split]; cbn; try lia. rewrite zlen_skipn by lia.
    pose proof (Z.mul_le_mono_nonneg_r stop (tb_n A) (tb_b A + 1)). lia.
  - intros i j Hi Hj. unfold tb_get, tb_in. cbn [tb_n tb_b tb_data view_tbanded].
    match goal with |- (if ?a then _ else _) = (if ?b then _ else _) => replace a with b by lia; destruct b eqn:E end; auto.
    rewrite zget_skipn; try lia. f_equal. lia.
Qed.
Lemma banded_to_tb_proof (A : banded F) : bd_ok A -> bd_m A = bd_n A -> 0 <= bd_u A -> bd_l A <= 0 -> 0 <= bd_l A + bd_u A + 1 ->
  exists A', banded_to_tb A = Some A' /\ tb_ok A' /\ tb_n A' = bd_n A /\ tb_b A' = bd_u A /\
    forall i j, tb_get A' i j = bd_get A i j.
Proof.
  intros HA Hm Hu Hl Hw. pose proof HA as (H1 & H2 & H3). unfold banded_to_tb. destruct (Z.eqb_spec (bd_l A) 0) as [E0|E0].
  - eexists; split; [reflexivity|]. split; [|split; [|split]]; auto.
    + rewrite E0 in H3. split; [|split]; cbn; lia.
    + intros. unfold bd_get, tb_get, bd_in, tb_in. cbn [tb_n tb_b tb_data].
      match goal with |- (if ?a then _ else _) = (if ?b then _ else _) => replace a with b by lia; destruct b end; auto.
      f_equal. rewrite E0. lia.
  - replace (Z.min 0 (bd_l A)) with (bd_l A) by lia.
    destruct (fill2 (fun i j => zget (bd_data A) (i + j * (bd_l A + bd_u A + 1))) (fun i j => i + j * (bd_u A + 1)) (bd_n A) (bd_u A + 1 + bd_l A)
      ((bd_u A + 1) * bd_n A) (zmake ((bd_u A + 1) * bd_n A) zero)) as [d [E (L & G & O)]]; auto; try lia.
    + apply zlen_zmake, Z.mul_nonneg_nonneg; lia.
    + intros i j Hj Hi. pose proof (idx2 i j (bd_l A + bd_u A + 1) (bd_n A)). eapply zget_ex. lia.
    + intros i j Hj Hi. pose proof (idx2 i j (bd_u A + 1) (bd_n A)). lia.
    + intros i j i' j' Hj Hi Hj' Hi' E. pose proof (idx2_inj i j i' j' (bd_u A + 1)). lia.
    + rewrite E. cbn [obind]. eexists; split; [reflexivity|]. split; [|split; [|split]]; auto.
      * split; [|split]; cbn; lia.
      * intros i j. unfold tb_get. destruct (tb_in _ i j) eqn:Ei; unfold tb_in in Ei; cbn [tb_n tb_b tb_data] in Ei |- *.
        -- replace (i + (j + 1) * bd_u A) with ((bd_u A + i - j) + j * (bd_u A + 1)) by lia.
           unfold bd_get. destruct (bd_in A i j) eqn:Ea; unfold bd_in in Ea.
           ++ rewrite G by lia. f_equal. lia.
           ++ rewrite O.
              ** apply zget_zmake. pose proof (idx2 (bd_u A + i - j) j (bd_u A + 1) (bd_n A)). lia.
              ** intros i' j' Hj' Hi' Ec. pose proof (idx2_inj (bd_u A + i - j) j i' j' (bd_u A + 1)). lia.
        -- unfold bd_get, bd_in. match goal with |- _ = if ?c then _ else _ => replace c with false by lia end. reflexivity.
Qed.
End Storage.

(** ** Products over the reals *)
(** total entry: 0 outside the shape *)
Definition bG (A : banded R) (i j : Z) : R :=
  if (0 <=? i) && (i <? bd_m A) && (0 <=? j) && (j <? bd_n A) then bd_mat A i j else 0%R.
Lemma bd_get_val A i j : bd_ok A -> bd_get A i j = Some (bG A i j).
Proof.
  intros HA. unfold bd_get, bd_in, bG.
  destruct ((0 <=? i) && (i <? bd_m A) && (0 <=? j) && (j <? bd_n A)) eqn:E.
  - match goal with |- (if ?c then _ else _) = _ => destruct c eqn:E2 end.
    + apply bd_pos; auto; lia.
    + unfold bd_mat. replace ((- bd_l A <=? j - i) && (j - i <=? bd_u A)) with false by lia. reflexivity.
  - match goal with |- (if ?c then _ else _) = _ => replace c with false by lia end. reflexivity.
Qed.
Lemma bG_in A i j : 0 <= i < bd_m A -> 0 <= j < bd_n A -> bG A i j = bd_mat A i j.
Proof. intros. unfold bG. now replace ((0 <=? i) && (i <? bd_m A) && (0 <=? j) && (j <? bd_n A)) with true by lia. Qed.
Lemma bG_out A i j : ~ (0 <= i < bd_m A /\ 0 <= j < bd_n A) -> bG A i j = 0%R.
Proof. intros. unfold bG. now replace ((0 <=? i) && (i <? bd_m A) && (0 <=? j) && (j <? bd_n A)) with false by lia. Qed.
Lemma bG_band A i j : ~ (- bd_l A <= j - i <= bd_u A) -> bG A i j = 0%R.
Proof.
  intros. unfold bG, bd_mat. replace ((- bd_l A <=? j - i) && (j - i <=? bd_u A)) with false by lia.
  now destruct (_ && _).
Qed.
Lemma bd_set_val A v i j : bd_ok A ->
  exists A', bd_set A v i j = Some A' /\ bd_ok A' /\ same_shape A' A /\ zlen (bd_data A') = zlen (bd_data A) /\
    forall p q, bG A' p q = if bd_in A i j && (p =? i) && (q =? j) then v else bG A p q.
Proof.
  intros HA. destruct (bd_set_proof A v i j HA) as [A' (E & O & S & L & G)]. exists A'. split; [auto|split; [auto|split; [auto|split; [auto|]]]].
  intros p q. specialize (G p q). rewrite !bd_get_val in G by auto. destruct (_ && _); now injection G.
Qed.
Lemma bd_in_iff (A : banded R) i j : bd_in A i j = true <-> 0 <= i < bd_m A /\ 0 <= j < bd_n A /\ - bd_l A <= j - i <= bd_u A.
Proof. unfold bd_in. lia. Qed.

Lemma gbmv_proof alpha A x beta y : bd_ok A -> bd_n A <= zlen x -> bd_m A <= zlen y ->
  exists y', gbmv alpha A x beta y = Some y' /\
    writes 0 (bd_m A) y y' (fun i => (alpha * matvec (bd_n A) (bd_mat A) (vec 0 x) i + beta * vec 0 y i)%R).
Proof.
  intros HA Hx Hy. pose proof HA as (H1 & H2 & H3). unfold gbmv.
  destruct (for_up_inv (fun k y1 => zlen y1 = zlen y /\ (forall i, 0 <= i < k -> zget y1 i = Some (beta * vec 0 y i)%R) /\
     (forall i, k <= i -> zget y1 i = zget y i)) 0 (bd_m A) (fun i y => do yi <- zget y i; zset y i (mul beta yi)) y) as [y1 [E1 (L1 & G1 & O1)]]; auto.
  { split; [auto|split; auto]. intros; lia. }
  { intros i y1 Hi (L & G & O). rewrite O by lia. rewrite (zget_nthZ 0%R) by lia. cbn [obind]. rewrite zset_some by lia.
    eexists; split; [reflexivity|]. split; [now rewrite zlen_zupd|split].
    - intros k Hk. rewrite zget_zupd by lia. destruct (Z.eqb_spec i k); [subst; reflexivity|apply G; lia].
    - intros k Hk. rewrite zget_zupd_other by lia. apply O. lia. }
  rewrite E1. cbn [obind].
  match goal with |- exists y', for_up 0 _ ?b y1 = _ /\ _ =>
  destruct (for_up_inv (fun k y2 => zlen y2 = zlen y /\ (forall i, 0 <= i < k -> zget y2 i = Some (alpha * matvec (bd_n A) (bd_mat A) (vec 0 x) i + beta * vec 0 y i)%R) /\
     (forall i, k <= i -> zget y2 i = zget y1 i)) 0 (bd_m A) b y1) as [y2 [E2 (L2 & G2 & O2)]] end; auto.
  { split; [auto|split; auto]. intros; lia. }
  { intros i y2 Hi (L2 & G2 & O2). set (lo := Z.max 0 (i - bd_l A)). set (hi := Z.min (bd_n A) (i + bd_u A + 1)).
    assert (Hw : sumZ (bd_n A) (fun k => (bd_mat A i k * vec 0 x k)%R) = sumZ (hi - lo) (fun q => (bd_mat A i (lo + q) * vec 0 x (lo + q))%R)).
    { apply sumZ_window; try lia. intros k Hk Hk2. unfold bd_mat. replace ((- bd_l A <=? k - i) && (k - i <=? bd_u A)) with false by lia. lra. }
    destruct (Z_le_dec hi lo) as [Hle|Hle].
    { rewrite for_up_nil by lia. eexists; split; [reflexivity|]. split; [auto|split].
      - intros k Hk. destruct (Z.eq_dec k i) as [->|]; [|apply G2; lia]. rewrite O2, G1 by lia. f_equal.
        unfold matvec. rewrite Hw, sumZ_0 by lia. lra.
      - intros k Hk. apply O2. lia. }
    match goal with |- exists y', for_up lo hi ?b y2 = _ /\ _ =>
    destruct (for_up_inv (fun k y3 => zlen y3 = zlen y /\ zget y3 i = Some (alpha * sumZ (k - lo) (fun q => bd_mat A i (lo + q) * vec 0 x (lo + q)) + beta * vec 0 y i)%R /\
     (forall p, p <> i -> zget y3 p = zget y2 p)) lo hi b y2) as [y3 [E3 (L3 & G3 & O3)]] end.
    - lia.
    - split; [auto|split; auto]. rewrite O2, G1 by lia. f_equal. rewrite sumZ_0 by lia. lra.
    - intros k y3 Hk (L3 & G3 & O3). rewrite G3. cbn [obind]. rewrite bd_get_val by auto. cbn [obind]. rewrite (zget_nthZ 0%R x) by lia. cbn [obind].
      rewrite zset_some by lia. eexists; split; [reflexivity|]. split; [now rewrite zlen_zupd|split].
      + rewrite zget_zupd_same by lia. f_equal. replace (k + 1 - lo) with (k - lo + 1) by lia. rewrite sumZ_S by lia.
        replace (lo + (k - lo)) with k by lia. rewrite bG_in by lia. unfold vec. cbn [add mul R_arith]. rewrite (Z.add_0_l k), (Z.add_0_l i). lra.
      + intros p Hp. rewrite zget_zupd_other by lia. apply O3. auto.
    - rewrite E3. eexists; split; [reflexivity|]. split; [auto|split].
      + intros k Hk. destruct (Z.eq_dec k i) as [->|]; [|rewrite O3 by lia; apply G2; lia].
        rewrite G3. unfold matvec. now rewrite Hw.
      + intros k Hk. rewrite O3 by lia. apply O2. lia. }
  rewrite E2. exists y2. split; auto. split; [auto|split]. { intros i Hi. rewrite Z.add_0_l. apply G2. lia. }
  intros p Hp. destruct Hp as [Hp|Hp].
  - rewrite !zget_none by lia. reflexivity.
  - rewrite O2, O1 by lia. reflexivity.
Qed.

(** column-by-column fill of a banded matrix *)
Lemma bd_fill (f : banded R -> Z -> Z -> option R) (g : Z -> Z -> R) C lo hi :
  bd_ok C ->
  (forall j, 0 <= j < bd_n C -> 0 <= lo j /\ hi j <= bd_m C) ->
  (forall i j, 0 <= j < bd_n C -> lo j <= i < hi j -> - bd_l C <= j - i <= bd_u C) ->
  (forall D i j, bd_ok D -> same_shape D C -> bG D i j = bG C i j -> 0 <= j < bd_n C -> lo j <= i < hi j -> f D i j = Some (g i j)) ->
  exists D, for_up 0 (bd_n C) (fun j C => for_up (lo j) (hi j) (fun i C => do v <- f C i j; bd_set C v i j) C) C = Some D /\
    bd_ok D /\ same_shape D C /\ zlen (bd_data D) = zlen (bd_data C) /\
    forall i j, bG D i j = if (0 <=? j) && (j <? bd_n C) && (lo j <=? i) && (i <? hi j) then g i j else bG C i j.
Proof.
  intros HC Hr Hb Hf. pose proof HC as (H1 & H2 & H3).
  match goal with |- exists D, for_up 0 _ ?b C = _ /\ _ =>
  destruct (for_up_inv (fun k D => bd_ok D /\ same_shape D C /\ zlen (bd_data D) = zlen (bd_data C) /\
    forall i j, bG D i j = if (0 <=? j) && (j <? k) && (lo j <=? i) && (i <? hi j) then g i j else bG C i j) 0 (bd_n C) b C) as [D [E HD]] end; auto.
  - split; [auto|split; [repeat split|split; auto]]. intros i j. now replace ((0 <=? j) && (j <? 0) && (lo j <=? i) && (i <? hi j)) with false by lia.
  - intros j D Hj (OD & SD & LD & GD).
    destruct (Z_le_dec (hi j) (lo j)).
    { rewrite for_up_nil by lia. eexists; split; [reflexivity|]. split; [auto|split; [auto|split; auto]].
      intros i q. rewrite GD. destruct (Z.eq_dec q j) as [->|].
      - replace ((0 <=? j) && (j <? j + 1) && (lo j <=? i) && (i <? hi j)) with false by lia.
        now replace ((0 <=? j) && (j <? j) && (lo j <=? i) && (i <? hi j)) with false by lia.
      - now replace (q <? j + 1) with (q <? j) by lia. }
    match goal with |- exists D', for_up (lo j) _ ?b D = _ /\ _ =>
    destruct (for_up_inv (fun k D' => bd_ok D' /\ same_shape D' C /\ zlen (bd_data D') = zlen (bd_data C) /\
      forall i q, bG D' i q = if (q =? j) && (lo j <=? i) && (i <? k) then g i q else bG D i q) (lo j) (hi j) b D) as [D' [E (OD' & SD' & LD' & GD')]] end.
    + lia.
    + split; [auto|split; [auto|split; auto]]. intros i q. now replace ((q =? j) && (lo j <=? i) && (i <? lo j)) with false by lia.
    + intros k D1 Hk (O1 & S1 & L1 & G1). rewrite (Hf D1 k j); auto; try lia.
      2:{ rewrite G1, GD. replace ((j =? j) && (lo j <=? k) && (k <? k)) with false by lia. now replace ((0 <=? j) && (j <? j) && (lo j <=? k) && (k <? hi j)) with false by lia. }
      cbn [obind]. destruct (bd_set_val D1 (g k j) k j O1) as [D2 (E2 & O2 & S2 & L2 & G2)].
      rewrite E2. eexists; split; [reflexivity|]. destruct S1 as (Sa & Sb & Sc & Sd). destruct S2 as (Se & Sf & Sg & Sh).
      split; [auto|split; [repeat split; congruence|split; [lia|]]].
      assert (Hin : bd_in D1 k j = true).
      { apply bd_in_iff. rewrite Sa, Sb, Sc, Sd. pose proof (Hr j). pose proof (Hb k j). lia. }
      intros i q. rewrite G2, G1, Hin. cbn [andb]. destruct (Z.eqb_spec i k), (Z.eqb_spec q j); subst; cbn [andb].
      * now replace ((lo j <=? k) && (k <? k + 1)) with true by lia.
      * reflexivity.
      * now replace (i <? k + 1) with (i <? k) by lia.
      * reflexivity.
    + rewrite E. eexists; split; [reflexivity|]. split; [auto|split; [auto|split; auto]].
      intros i q. rewrite GD', GD. destruct (Z.eqb_spec q j); subst; cbn [andb].
      * replace ((0 <=? j) && (j <? j + 1)) with true by lia. replace ((0 <=? j) && (j <? j)) with false by lia. cbn [andb]. reflexivity.
      * now replace (q <? j + 1) with (q <? j) by lia.
  - exists D. exact (conj E HD).
Qed.

Lemma matmul_window n A B i j lo hi : 0 <= lo -> hi <= n ->
  (forall k, 0 <= k < n -> ~ (lo <= k < hi) -> A i k = 0%R \/ B k j = 0%R) ->
  matmul n A B i j = sumZ (hi - lo) (fun q => (A i (lo + q)%Z * B (lo + q)%Z j)%R).
Proof.
  intros H0 H1 Hz. unfold matmul. apply sumZ_window; auto. intros k Hk Hk2. destruct (Hz k Hk Hk2) as [->| ->]; lra.
Qed.

Lemma bG_ext_mat A A' i j : same_shape A' A -> 0 <= i < bd_m A -> 0 <= j < bd_n A -> bG A' i j = bd_mat A' i j.
Proof. intros (S1 & S2 & _) Hi Hj. apply bG_in; lia. Qed.

Lemma gbmm_proof alpha A B beta C : bd_ok A -> bd_ok B -> bd_ok C ->
  bd_m C = bd_m A -> bd_m B = bd_n A -> bd_n C = bd_n B ->
  bd_l A + bd_l B <= bd_l C -> bd_u A + bd_u B <= bd_u C ->
  exists C', gbmm alpha A B beta C = Some C' /\ bd_ok C' /\ same_shape C' C /\
    forall i j, 0 <= i < bd_m C -> 0 <= j < bd_n C ->
      bd_mat C' i j = (alpha * matmul (bd_n A) (bd_mat A) (bd_mat B) i j + beta * bd_mat C i j)%R.
Proof.
  intros HA HB HC Em En Ep El Eu. pose proof HA as (A1 & A2 & A3). pose proof HC as (C1 & C2 & C3). unfold gbmm.
  replace (negb (bd_m C =? bd_m A) || negb (bd_m B =? bd_n A) || negb (bd_n C =? bd_n B)) with false by lia.
  replace ((bd_l C <? bd_l A + bd_l B) || (bd_u C <? bd_u A + bd_u B)) with false by lia.
  destruct (bd_fill (fun D i j =>
        do ab <- for_up (Z.max (Z.max 0 (i - bd_l A)) (j - bd_u B)) (Z.min (Z.min (bd_n A) (i + bd_u A + 1)) (j + bd_l B + 1)) (fun k ab =>
                   do a <- bd_get A i k; do b <- bd_get B k j; Some (add ab (mul a b))) zero;
        do c <- bd_get D i j; Some (add (mul alpha ab) (mul beta c)))
      (fun i j => (alpha * matmul (bd_n A) (bd_mat A) (bd_mat B) i j + beta * bG C i j)%R) C
      (fun j => Z.max 0 (j - bd_u C)) (fun j => Z.min (bd_m A) (j + bd_l C + 1))) as [D (E & OD & SD & LD & GD)]; auto.
  - intros. lia.
  - intros. lia.
  - intros D i j OD SD ED Hj Hi.
    set (lo := Z.max (Z.max 0 (i - bd_l A)) (j - bd_u B)). set (hi := Z.min (Z.min (bd_n A) (i + bd_u A + 1)) (j + bd_l B + 1)).
    assert (Hs : for_up lo hi (fun k ab => do a <- bd_get A i k; do b <- bd_get B k j; Some (add ab (mul a b))) zero =
                 Some (matmul (bd_n A) (bd_mat A) (bd_mat B) i j)).
    { rewrite (matmul_window _ _ _ _ _ lo hi); try lia.
      2:{ intros k Hk Hk2. unfold bd_mat. destruct ((- bd_l A <=? k - i) && (k - i <=? bd_u A)) eqn:E1; auto.
          replace ((- bd_l B <=? j - k) && (j - k <=? bd_u B)) with false by lia. auto. }
      destruct (Z_le_dec hi lo). { rewrite for_up_nil, sumZ_0 by lia. reflexivity. }
      match goal with |- for_up _ _ ?b ?s = _ =>
      destruct (for_up_inv (fun k ab => ab = sumZ (k - lo) (fun q => (bd_mat A i (lo + q) * bd_mat B (lo + q) j)%R)) lo hi b s) as [ab [E ->]] end; auto.
      - lia.
      - rewrite sumZ_0 by lia. reflexivity.
      - intros k ab Hk ->. rewrite !bd_get_val by auto. cbn [obind]. eexists; split; [reflexivity|].
        rewrite !bG_in by lia. replace (k + 1 - lo) with (k - lo + 1) by lia. rewrite sumZ_S by lia.
        replace (lo + (k - lo)) with k by lia. reflexivity. }
    rewrite Hs. cbn [obind]. rewrite bd_get_val by auto. cbn [obind]. rewrite ED. reflexivity.
  - assert (E' : for_up 0 (bd_n B) (fun j C0 => for_up (Z.max 0 (j - bd_u C)) (Z.min (bd_m A) (j + bd_l C + 1)) (fun i C0 =>
        do ab <- for_up (Z.max (Z.max 0 (i - bd_l A)) (j - bd_u B)) (Z.min (Z.min (bd_n A) (i + bd_u A + 1)) (j + bd_l B + 1)) (fun k ab =>
                   do a <- bd_get A i k; do b <- bd_get B k j; Some (add ab (mul a b))) zero;
        do c <- bd_get C0 i j; bd_set C0 (add (mul alpha ab) (mul beta c)) i j) C0) C = Some D).
    { rewrite <- E, Ep. apply for_up_ext. intros j s Hj. apply for_up_ext. intros i s' Hi.
      destruct (for_up _ _ _ zero); cbn [obind]; auto. destruct (bd_get s' i j); auto. }
    rewrite E'. exists D. split; [auto|split; [auto|split; auto]]. intros i j Hi Hj.
    rewrite <- bG_in by (destruct SD as (S1 & S2 & _); lia). rewrite GD, <- (bG_in C) by lia.
    destruct ((0 <=? j) && (j <? bd_n C) && (Z.max 0 (j - bd_u C) <=? i) && (i <? Z.min (bd_m A) (j + bd_l C + 1))) eqn:Eb; auto.
    rewrite (bG_band C) by lia. replace (matmul (bd_n A) (bd_mat A) (bd_mat B) i j) with 0%R; [lra|].
    unfold matmul. rewrite sumZ_zero; auto. intros k Hk. unfold bd_mat. destruct ((- bd_l A <=? k - i) && (k - i <=? bd_u A)) eqn:E1; [|lra].
    replace ((- bd_l B <=? j - k) && (j - k <=? bd_u B)) with false by lia. lra.
Qed.

Lemma banded_add_proof alpha A beta B C : bd_ok A -> bd_ok B -> bd_ok C ->
  bd_m A = bd_m C -> bd_m B = bd_m C -> bd_n A = bd_n C -> bd_n B = bd_n C ->
  bd_l A <= bd_l C -> bd_l B <= bd_l C -> bd_u A <= bd_u C -> bd_u B <= bd_u C ->
  exists C', banded_add alpha A beta B C = Some C' /\ bd_ok C' /\ same_shape C' C /\
    forall i j, 0 <= i < bd_m C -> 0 <= j < bd_n C -> bd_mat C' i j = (alpha * bd_mat A i j + beta * bd_mat B i j)%R.
Proof.
  intros HA HB HC E1 E2 E3 E4 L1 L2 U1 U2. unfold banded_add.
  replace (negb (bd_m A =? bd_m C) || negb (bd_m B =? bd_m C) || negb (bd_n A =? bd_n C) || negb (bd_n B =? bd_n C)) with false by lia.
  replace ((bd_l C <? Z.max (bd_l A) (bd_l B)) || (bd_u C <? Z.max (bd_u A) (bd_u B))) with false by lia.
  destruct (bd_fill (fun D i j => do a <- bd_get A i j; do b <- bd_get B i j; Some (add (mul alpha a) (mul beta b)))
      (fun i j => (alpha * bG A i j + beta * bG B i j)%R) C
      (fun j => Z.max 0 (j - bd_u C)) (fun j => Z.min (bd_m C) (j + bd_l C + 1))) as [D (E & OD & SD & LD & GD)]; auto.
  - intros. lia.
  - intros. lia.
  - intros D i j OD SD ED Hj Hi. rewrite !bd_get_val by auto. reflexivity.
  - assert (E' : for_up 0 (bd_n C) (fun j C0 => for_up (Z.max 0 (j - bd_u C)) (Z.min (bd_m C) (j + bd_l C + 1)) (fun i C0 =>
        do a <- bd_get A i j; do b <- bd_get B i j; bd_set C0 (add (mul alpha a) (mul beta b)) i j) C0) C = Some D).
    { rewrite <- E. apply for_up_ext. intros j s Hj. apply for_up_ext. intros i s' Hi.
      destruct (bd_get A i j), (bd_get B i j); auto. }
    rewrite E'. exists D. split; [auto|split; [auto|split; auto]]. intros i j Hi Hj.
    rewrite <- bG_in by (destruct SD as (S1 & S2 & _); lia). rewrite GD, <- (bG_in A), <- (bG_in B) by lia.
    match goal with |- (if ?c then _ else _) = _ => destruct c eqn:Eb end; auto.
    rewrite (bG_band C), (bG_band A), (bG_band B) by lia. lra.
Qed.
Lemma banded_add_inplace_proof alpha beta B C : bd_ok B -> bd_ok C ->
  bd_m B = bd_m C -> bd_n B = bd_n C -> bd_l B <= bd_l C -> bd_u B <= bd_u C ->
  exists C', banded_add_inplace alpha beta B C = Some C' /\ bd_ok C' /\ same_shape C' C /\ zlen (bd_data C') = zlen (bd_data C) /\
    forall i j, bG C' i j = (alpha * bG C i j + beta * bG B i j)%R.
Proof.
  intros HB HC E1 E2 L1 U1. unfold banded_add_inplace.
  replace (negb (bd_m B =? bd_m C) || negb (bd_n B =? bd_n C)) with false by lia.
  replace ((bd_l C <? bd_l B) || (bd_u C <? bd_u B)) with false by lia.
  destruct (bd_fill (fun D i j => do a <- bd_get D i j; do b <- bd_get B i j; Some (add (mul alpha a) (mul beta b)))
      (fun i j => (alpha * bG C i j + beta * bG B i j)%R) C
      (fun j => Z.max 0 (j - bd_u C)) (fun j => Z.min (bd_m C) (j + bd_l C + 1))) as [D (E & OD & SD & LD & GD)]; auto.
  - intros. lia.
  - intros. lia.
  - intros D i j OD SD ED Hj Hi. rewrite !bd_get_val by auto. rewrite ED. reflexivity.
  - assert (E' : for_up 0 (bd_n C) (fun j C0 => for_up (Z.max 0 (j - bd_u C)) (Z.min (bd_m C) (j + bd_l C + 1)) (fun i C0 =>
        do a <- bd_get C0 i j; do b <- bd_get B i j; bd_set C0 (add (mul alpha a) (mul beta b)) i j) C0) C = Some D).
    { rewrite <- E. apply for_up_ext. intros j s Hj. apply for_up_ext. intros i s' Hi.
      destruct (bd_get s' i j), (bd_get B i j); auto. }
    rewrite E'. exists D. split; [auto|split; [auto|split; [auto|split; auto]]]. intros i j.
    rewrite GD. match goal with |- (if ?c then _ else _) = _ => destruct c eqn:Eb end; auto.
    destruct (Z_le_dec 0 i), (Z_lt_dec i (bd_m C)), (Z_le_dec 0 j), (Z_lt_dec j (bd_n C)).
    1: rewrite (bG_band C), (bG_band B) by lia; lra.
    all: rewrite (bG_out C), (bG_out B) by lia; lra.
Qed.

Definition dl (i j : Z) : R := delta i j.
Lemma scaling_add_proof alpha A beta : bd_ok A -> bd_m A = bd_n A -> 0 <= bd_l A -> 0 <= bd_u A ->
  exists A', banded_uniform_scaling_add alpha A beta = Some A' /\ bd_ok A' /\ same_shape A' A /\ zlen (bd_data A') = zlen (bd_data A) /\
    forall i j, 0 <= i < bd_m A -> 0 <= j < bd_n A -> bG A' i j = (alpha * bG A i j + beta * delta i j)%R.
Proof.
  intros HA Hmn Hl Hu. pose proof HA as (A1 & A2 & A3). unfold banded_uniform_scaling_add. rewrite Hmn, Z.eqb_refl. cbn [negb].
  (* the three inner pieces are one loop *)
  assert (Hrow : forall D j, bd_ok D -> same_shape D A -> 0 <= j < bd_n A ->
    exists D', (do A0 <- for_up (Z.max 0 (j - bd_u A)) j (fun i A0 => do a <- bd_get A0 i j; bd_set A0 (mul alpha a) i j) D;
      do a <- bd_get A0 j j; do A0 <- bd_set A0 (add (mul alpha a) beta) j j;
      for_up (j + 1) (Z.min (bd_n A) (j + bd_l A + 1)) (fun i A0 => do a <- bd_get A0 i j; bd_set A0 (mul alpha a) i j) A0) = Some D' /\
      bd_ok D' /\ same_shape D' A /\ zlen (bd_data D') = zlen (bd_data D) /\
      forall i q, bG D' i q = if (q =? j) && (Z.max 0 (j - bd_u A) <=? i) && (i <? Z.min (bd_n A) (j + bd_l A + 1)) then (alpha * bG D i q + beta * delta i q)%R else bG D i q).
  { intros D j OD SD Hj.
    assert (Hpiece : forall D lo hi, bd_ok D -> same_shape D A -> Z.max 0 (j - bd_u A) <= lo -> lo <= hi -> hi <= Z.min (bd_n A) (j + bd_l A + 1) ->
      exists D', for_up lo hi (fun i A0 => do a <- bd_get A0 i j; bd_set A0 (mul alpha a) i j) D = Some D' /\ bd_ok D' /\ same_shape D' A /\ zlen (bd_data D') = zlen (bd_data D) /\
        forall i q, bG D' i q = if (q =? j) && (lo <=? i) && (i <? hi) then (alpha * bG D i q)%R else bG D i q).
    { clear D OD SD. intros D lo hi OD SD H0 H1 H2.
      match goal with |- exists D', for_up lo _ ?b D = _ /\ _ =>
      destruct (for_up_inv (fun k D' => bd_ok D' /\ same_shape D' A /\ zlen (bd_data D') = zlen (bd_data D) /\
        forall i q, bG D' i q = if (q =? j) && (lo <=? i) && (i <? k) then (alpha * bG D i q)%R else bG D i q) lo hi b D) as [D' [E HD']] end; auto.
      - split; [auto|split; [auto|split; auto]]. intros i q. now replace ((q =? j) && (lo <=? i) && (i <? lo)) with false by lia.
      - intros k D1 Hk (O1 & S1 & L1 & G1). rewrite bd_get_val by auto. cbn [obind].
        destruct (bd_set_val D1 (mul alpha (bG D1 k j)) k j O1) as [D2 (E2 & O2 & S2 & L2 & G2)]. rewrite E2. eexists; split; [reflexivity|].
        destruct S1 as (Sa & Sb & Sc & Sd). destruct S2 as (Se & Sf & Sg & Sh).
        split; [auto|split; [repeat split; congruence|split; [lia|]]].
        assert (Hin : bd_in D1 k j = true) by (apply bd_in_iff; lia).
        intros i q. rewrite G2, !G1, Hin. cbn [andb]. destruct (Z.eqb_spec i k), (Z.eqb_spec q j); subst; cbn [andb]; auto.
        + rewrite Z.eqb_refl. cbn [andb]. replace ((lo <=? k) && (k <? k + 1)) with true by lia. replace ((lo <=? k) && (k <? k)) with false by lia. reflexivity.
        + now replace (i <? k + 1) with (i <? k) by lia.
      - exists D'. auto. }
    destruct (Hpiece D (Z.max 0 (j - bd_u A)) j) as [D1 (E1 & O1 & S1 & L1 & G1)]; auto; try lia.
    rewrite E1. cbn [obind]. rewrite bd_get_val by auto. cbn [obind].
    destruct (bd_set_val D1 (add (mul alpha (bG D1 j j)) beta) j j O1) as [D2 (E2 & O2 & S2 & L2 & G2)]. rewrite E2. cbn [obind].
    assert (S2A : same_shape D2 A).
    { destruct S1 as (Sa & Sb & Sc & Sd). destruct S2 as (Se & Sf & Sg & Sh). repeat split; congruence. }
    destruct (Hpiece D2 (j + 1) (Z.min (bd_n A) (j + bd_l A + 1))) as [D3 (E3 & O3 & S3 & L3 & G3)]; auto; try lia.
    rewrite E3. exists D3. split; [auto|split; [auto|split; [auto|split; [lia|]]]].
    assert (Hin : bd_in D1 j j = true) by (apply bd_in_iff; destruct S1 as (Sa & Sb & Sc & Sd); lia).
    intros i q. rewrite G3, G2, !G1, Hin. cbn [andb]. destruct (Z.eqb_spec q j); cbn [andb]; [subst q|now rewrite andb_false_r].
    rewrite andb_true_r, Z.eqb_refl. cbn [andb]. unfold delta. destruct (Z.eqb_spec i j) as [Ei|Ei]; [subst i|].
    - replace ((j + 1 <=? j) && (j <? Z.min (bd_n A) (j + bd_l A + 1))) with false by lia.
      replace ((Z.max 0 (j - bd_u A) <=? j) && (j <? j)) with false by lia.
      replace ((Z.max 0 (j - bd_u A) <=? j) && (j <? Z.min (bd_n A) (j + bd_l A + 1))) with true by lia. cbn [add mul R_arith andb]. lra.
    - destruct (Z_lt_dec i j).
      + replace ((j + 1 <=? i) && (i <? Z.min (bd_n A) (j + bd_l A + 1))) with false by lia.
        replace (i <? j) with true by lia. replace (i <? Z.min (bd_n A) (j + bd_l A + 1)) with true by lia.
        destruct (Z.max 0 (j - bd_u A) <=? i); cbn [andb]; [lra|auto].
      + replace ((Z.max 0 (j - bd_u A) <=? i) && (i <? j)) with false by lia.
        replace (j + 1 <=? i) with true by lia. replace (Z.max 0 (j - bd_u A) <=? i) with true by lia. cbn [andb].
        destruct (i <? Z.min (bd_n A) (j + bd_l A + 1)); [lra|auto]. }
  match goal with |- exists A', for_up 0 _ ?b A = _ /\ _ =>
  destruct (for_up_inv (fun k D => bd_ok D /\ same_shape D A /\ zlen (bd_data D) = zlen (bd_data A) /\
    forall i j, 0 <= i < bd_m A -> 0 <= j < bd_n A -> bG D i j = if j <? k then (alpha * bG A i j + beta * delta i j)%R else bG A i j) 0 (bd_n A) b A) as [D [E HD]] end; auto.
  - split; [auto|split; [repeat split|split; auto]]. intros i j Hi Hj. now replace (j <? 0) with false by lia.
  - intros j D Hj (OD & SD & LD & GD). destruct (Hrow D j OD SD Hj) as [D' (E & O' & S' & L' & G')]. rewrite E. exists D'. split; [auto|].
    split; [auto|split; [auto|split; [lia|]]]. intros i q Hi Hq. rewrite G', !GD by auto. destruct (Z.eqb_spec q j) as [Eq|Eq]; cbn [andb].
    + subst q. rewrite Z.ltb_irrefl. replace (j <? j + 1) with true by lia.
      destruct ((Z.max 0 (j - bd_u A) <=? i) && (i <? Z.min (bd_n A) (j + bd_l A + 1))) eqn:Eb; auto.
      rewrite (bG_band A) by lia. unfold delta. replace (i =? j) with false by lia. lra.
    + now replace (q <? j + 1) with (q <? j) by lia.
  - destruct HD as (OD & SD & LD & GD). exists D. split; [auto|split; [auto|split; [auto|split; [auto|]]]]. intros i j Hi Hj. rewrite GD by lia. now replace (j <? bd_n A) with true by lia.
Qed.

(** ** tridiagonal_banded_multiplication *)
Lemma matmul_tri n A B i j : 0 <= i < n -> (forall k, 0 <= k < n -> k < i - 1 \/ i + 1 < k -> A i k = 0%R) ->
  (forall k, ~ 0 <= k < n -> A i k = 0%R) ->
  matmul n A B i j = (A i (i - 1)%Z * B (i - 1)%Z j + A i i * B i j + A i (i + 1)%Z * B (i + 1)%Z j)%R.
Proof.
  intros Hi Hz Hb. unfold matmul. rewrite (sumZ_window n (Z.max 0 (i - 1)) (Z.min n (i + 2))); try lia.
  2:{ intros k Hk Hk2. rewrite Hz by lia. lra. }
  destruct (Z.eq_dec i 0), (Z.eq_dec i (n - 1)).
  - replace (Z.min n (i + 2) - Z.max 0 (i - 1)) with (0 + 1) by lia. rewrite sumZ_S, sumZ_0 by lia.
    rewrite (Hb (i - 1)), (Hb (i + 1)) by lia. replace (Z.max 0 (i - 1) + 0) with i by lia. lra.
  - replace (Z.min n (i + 2) - Z.max 0 (i - 1)) with (0 + 1 + 1) by lia. rewrite !sumZ_S, sumZ_0 by lia.
    rewrite (Hb (i - 1)) by lia. replace (Z.max 0 (i - 1) + 0) with i by lia. replace (Z.max 0 (i - 1) + (0 + 1)) with (i + 1) by lia. lra.
  - replace (Z.min n (i + 2) - Z.max 0 (i - 1)) with (0 + 1 + 1) by lia. rewrite !sumZ_S, sumZ_0 by lia.
    rewrite (Hb (i + 1)) by lia. replace (Z.max 0 (i - 1) + 0) with (i - 1) by lia. replace (Z.max 0 (i - 1) + (0 + 1)) with i by lia. lra.
  - replace (Z.min n (i + 2) - Z.max 0 (i - 1)) with (0 + 1 + 1 + 1) by lia. rewrite !sumZ_S, sumZ_0 by lia.
    replace (Z.max 0 (i - 1) + 0) with (i - 1) by lia. replace (Z.max 0 (i - 1) + (0 + 1)) with i by lia.
    replace (Z.max 0 (i - 1) + (0 + 1 + 1)) with (i + 1) by lia. lra.
Qed.

Definition band_within (l u : Z) (A : banded R) : Prop :=
  forall i j, 0 <= i < bd_m A -> 0 <= j < bd_n A -> i > j + l \/ j > i + u -> bG A i j = 0%R.

Lemma tri_mult_proof alpha A beta B l u : bd_ok A -> bd_ok B -> bd_m A = bd_n A -> bd_m B = bd_n B -> bd_m A = bd_m B ->
  bd_l A = 1 -> bd_u A = 1 -> -1 <= l < bd_l B -> -1 <= u < bd_u B -> band_within l u B ->
  exists B', tridiagonal_banded_multiplication alpha A beta B l u = Some B' /\ bd_ok B' /\ same_shape B' B /\ zlen (bd_data B') = zlen (bd_data B) /\
    band_within (l + 1) (u + 1) B' /\
    forall i j, 0 <= i < bd_m B -> 0 <= j < bd_n B -> bG B' i j = (alpha * matmul (bd_m B) (bG A) (bG B) i j + beta * bG B i j)%R.
Proof.
  intros HA HB EA EB EAB El Eu Hl Hu HW. pose proof HB as (B1 & B2 & B3).
  unfold tridiagonal_banded_multiplication.
  match goal with |- context[if ?c then None else _] => replace c with false by lia end.
  set (m := bd_m B) in *.
  set (T := fun i j => (alpha * bG A i (i - 1)%Z * bG B (i - 1)%Z j + (alpha * bG A i i + beta) * bG B i j + alpha * bG A i (i + 1)%Z * bG B (i + 1)%Z j)%R).
  assert (HT : forall i j, 0 <= i < m -> T i j = (alpha * matmul m (bG A) (bG B) i j + beta * bG B i j)%R).
  { intros i j Hi. rewrite matmul_tri; auto.
    - unfold T. lra.
    - intros k Hk Hk2. apply bG_band. lia.
    - intros k Hk. apply bG_out. lia. }
  assert (HT0 : forall i j, 0 <= i < m -> 0 <= j < bd_n B -> i < j - u - 1 \/ j + l + 1 < i -> T i j = 0%R).
  { intros i j Hi Hj Hout. unfold T. rewrite (HW i j) by lia.
    assert (bG B (i - 1) j = 0%R) as -> by (destruct (Z_le_dec 0 (i - 1)); [apply HW; lia|apply bG_out; lia]).
    assert (bG B (i + 1) j = 0%R) as -> by (destruct (Z_lt_dec (i + 1) m); [apply HW; lia|apply bG_out; lia]). lra. }
  match goal with |- exists B', for_up 0 _ ?b B = _ /\ _ =>
  destruct (for_up_inv (fun k D => bd_ok D /\ same_shape D B /\ zlen (bd_data D) = zlen (bd_data B) /\
    (forall i j, 0 <= i < m -> 0 <= j < bd_n B -> bG D i j = if j <? k then T i j else bG B i j)) 0 (bd_n B) b B) as [D [E HD]] end; auto.
  - split; [auto|split; [repeat split|split; auto]]. intros i j Hi Hj. now replace (j <? 0) with false by lia.
  - intros j D Hj (OD & SD & LD & GD). set (i0 := Z.max 0 (j - u - 1)).
    assert (GDj : forall i, bG D i j = bG B i j).
    { intros i. destruct (Z_le_dec 0 i), (Z_lt_dec i m).
      - rewrite GD by lia. now rewrite Z.ltb_irrefl.
      - rewrite !bG_out; auto; destruct SD as (S1 & _); lia.
      - rewrite !bG_out; auto; destruct SD as (S1 & _); lia.
      - rewrite !bG_out; auto; destruct SD as (S1 & _); lia. }
    rewrite !bd_get_val by auto. cbn [obind].
    replace (Z.max i0 (Z.min m (j + l + 1))) with (Z.min m (j + l + 1)) by lia.
    match goal with |- context[for_up i0 _ ?b (D, ?t0)] =>
    destruct (for_up_inv (fun k (st : banded R * R) => let '(D', t) := st in bd_ok D' /\ same_shape D' B /\ zlen (bd_data D') = zlen (bd_data B) /\
      (k < m -> t = T k j) /\
      (forall i q, 0 <= i < m -> 0 <= q < bd_n B -> bG D' i q = if (q =? j) && (i <? k) then T i j else bG D i q)) i0 (Z.min m (j + l + 1)) b (D, t0)) as [[D' t'] [E (O' & S' & L' & Ht & G')]] end.
    + lia.
    + split; [auto|split; [auto|split; [auto|split]]].
      * intros _. unfold T. rewrite !GDj. cbn [add mul R_arith].
        destruct (Z.eq_dec i0 0) as [E0|E0].
        -- rewrite (bG_out B (i0 - 1)) by lia. lra.
        -- rewrite (HW (i0 - 1) j) by lia. lra.
      * intros i q Hi Hq. destruct (Z.eqb_spec q j) as [Eq|Eq]; auto. subst q. destruct (i <? i0) eqn:Ei; auto. cbn [andb].
        rewrite GDj. rewrite HT0 by lia. apply HW; lia.
    + intros i [D1 t1] Hi (O1 & S1 & L1 & Ht & G1). rewrite !bd_get_val by auto. cbn [obind].
      assert (G1j : forall p, i <= p -> bG D1 p j = bG B p j).
      { intros p Hp. destruct (Z_lt_dec p m).
        - rewrite G1 by lia. replace ((j =? j) && (p <? i)) with false by lia. apply GDj.
        - rewrite !bG_out; auto; destruct S1 as (Sa & _); lia. }
      destruct (bd_set_val D1 t1 i j O1) as [D2 (E2 & O2 & S2 & L2 & G2)]. rewrite E2. cbn [obind]. eexists; split; [reflexivity|].
      assert (Hin : bd_in D1 i j = true).
      { apply bd_in_iff. destruct S1 as (Sa & Sb & Sc & Sd). lia. }
      split; [auto|split; [|split; [lia|split]]].
      * destruct S1 as (Sa & Sb & Sc & Sd). destruct S2 as (Se & Sf & Sg & Sh). repeat split; congruence.
      * intros Hk. unfold T. rewrite !G1j by lia. replace (i + 1 - 1) with i by lia. replace (i + 1 + 1) with (i + 2) by lia. cbn [add mul R_arith]. lra.
      * intros p q Hp Hq. rewrite G2, Hin, G1 by auto. cbn [andb]. destruct (Z.eqb_spec q j) as [Eq|Eq]; [|now rewrite andb_false_r].
        rewrite andb_true_r. destruct (Z.eqb_spec p i) as [Ep|Ep]; cbn [andb].
        -- subst. replace (i <? i + 1) with true by lia. apply Ht. lia.
        -- now replace (p <? i + 1) with (p <? i) by lia.
    + rewrite E. cbn [obind]. set (ie := Z.min m (j + l + 1)) in *.
      destruct (bd_set_val D' t' ie j O') as [D2 (E2 & O2 & S2 & L2 & G2)]. rewrite E2. exists D2. split; [auto|].
      split; [auto|split; [|split; [lia|]]].
      { destruct S' as (Sa & Sb & Sc & Sd). destruct S2 as (Se & Sf & Sg & Sh). repeat split; congruence. }
      intros p q Hp Hq. rewrite G2, G', GD by auto. destruct (Z.eqb_spec q j) as [Eq|Eq].
      2:{ rewrite andb_false_r. cbn [andb]. now replace (q <? j + 1) with (q <? j) by lia. }
      subst q. replace (j <? j + 1) with true by lia. rewrite andb_true_r, Z.ltb_irrefl. cbn [andb].
      destruct (Z.eqb_spec p ie) as [Ep|Ep].
      * subst p. assert (Hin : bd_in D' ie j = true).
        { apply bd_in_iff. destruct S' as (Sa & Sb & Sc & Sd). lia. }
        rewrite Hin. cbn [andb]. apply Ht. lia.
      * rewrite andb_false_r. destruct (p <? ie) eqn:Epi; auto. rewrite HT0 by lia. apply HW; lia.
  - destruct HD as (OD & SD & LD & GD). exists D. split; [auto|split; [auto|split; [auto|split; [auto|split]]]].
    + intros i j Hi Hj Hout. destruct SD as (Sa & Sb & _). rewrite GD by lia. replace (j <? bd_n B) with true by lia. apply HT0; lia.
    + intros i j Hi Hj. rewrite GD by auto. replace (j <? bd_n B) with true by lia. now apply HT.
Qed.
