(** * Proofs about src/recurrence.c *)
From Coq Require Import ZArith List Lia Bool ZifyBool ZifyNat Reals Lra FunctionalExtensionality.
From Verif Require Import Arith Base BaseFacts MRecur SpecSum PSum.
Import ListNotations.
Open Scope Z_scope.

Section Gen.
Context {F : Type} {AF : Arith F}.

Definition tab1 (k : nat) {A} (g : nat -> A) : list A := map g (seq 0 k).
Definition tab2 (L S : nat) (g : nat -> nat -> F) : list (list F) := tab1 L (fun l => tab1 S (g l)).

Lemma tab1_S k {A} (g : nat -> A) : tab1 (S k) g = tab1 k g ++ [g k].
Proof. unfold tab1. rewrite seq_S, map_app. reflexivity. Qed.
Lemma tab1_len k {A} (g : nat -> A) : length (tab1 k g) = k.
Proof. unfold tab1. now rewrite map_length, seq_length. Qed.
Lemma tab1_nth k {A} (g : nat -> A) i : (i < k)%nat -> nth_error (tab1 k g) i = Some (g i).
Proof.
  intros. unfold tab1. rewrite nth_error_map, (nth_error_nth' _ O) by (rewrite seq_length; lia).
  now rewrite seq_nth by lia.
Qed.
Lemma tab1_ext k {A} (g h : nat -> A) : (forall i, (i < k)%nat -> g i = h i) -> tab1 k g = tab1 k h.
Proof. intros H. unfold tab1. apply map_ext_in. intros a Ha. apply in_seq in Ha. apply H. lia. Qed.
Lemma map_tab1 k {A B} (h : A -> B) (g : nat -> A) : map h (tab1 k g) = tab1 k (fun i => h (g i)).
Proof. unfold tab1. now rewrite map_map. Qed.
Lemma map2_tab1 k {A B C} (h : A -> B -> C) (g : nat -> A) (g' : nat -> B) :
  map2 h (tab1 k g) (tab1 k g') = tab1 k (fun i => h (g i) (g' i)).
Proof.
  unfold map2, tab1. generalize (seq 0 k). induction l; cbn; auto. now rewrite IHl.
Qed.
Lemma repeat_tab1 k {A} (v : A) : repeat v k = tab1 k (fun _ => v).
Proof. unfold tab1. generalize O. induction k; intros; cbn; auto. now rewrite IHk with (n := S n). Qed.

Lemma rmap_tab2 L S h g : rmap h (tab2 L S g) = tab2 L S (fun l i => h (g l i)).
Proof. unfold rmap, tab2. rewrite map_tab1. apply tab1_ext. intros. apply map_tab1. Qed.
Lemma rmap2_tab2 L S h g g' : rmap2 h (tab2 L S g) (tab2 L S g') = tab2 L S (fun l i => h (g l i) (g' l i)).
Proof. unfold rmap2, tab2. rewrite map2_tab1. apply tab1_ext. intros. apply map2_tab1. Qed.
Lemma rmap3_tab2 L S h g g' g'' :
  rmap3 h (tab2 L S g) (tab2 L S g') (tab2 L S g'') = tab2 L S (fun l i => h (g l i) (g' l i) (g'' l i)).
Proof.
  unfold rmap3, tab2. rewrite !map2_tab1. apply tab1_ext. intros. now rewrite !map2_tab1.
Qed.
Lemma rall_tab2 L S v : rall S L v = tab2 L S (fun _ _ => v).
Proof. unfold rall, tab2. rewrite repeat_tab1. apply tab1_ext. intros. apply repeat_tab1. Qed.

Lemma itero_tab1 {A} k (g : nat -> option A) (h : nat -> A) :
  (forall i, (i < k)%nat -> g i = Some (h i)) ->
  itero k (fun i acc => do v <- g i; Some (acc ++ [v])) [] = Some (tab1 k h).
Proof.
  induction k; intros H; [reflexivity|]. cbn [itero]. rewrite IHk by (intros; apply H; lia). cbn [obind].
  rewrite H by lia. cbn [obind]. now rewrite tab1_S.
Qed.

Lemma lane_bound l i L S : (l < L)%nat -> (i < S)%nat ->
  0 <= Z.of_nat S * Z.of_nat l + Z.of_nat i < Z.of_nat S * Z.of_nat L.
Proof. intros. pose proof (idx2 (Z.of_nat i) (Z.of_nat l) (Z.of_nat S) (Z.of_nat L)). lia. Qed.

Lemma loadr_tab2 d S L (x : list F) o : 0 <= o -> o + Z.of_nat S * Z.of_nat L <= zlen x ->
  loadr S L x o = Some (tab2 L S (fun l i => nthZ d x (o + Z.of_nat S * Z.of_nat l + Z.of_nat i))).
Proof.
  intros H0 H1. unfold loadr, tab2. apply itero_tab1 with (g := fun l => loadv S x (o + Z.of_nat S * Z.of_nat l)).
  intros l Hl. unfold loadv. apply itero_tab1 with (g := fun i => zget x (o + Z.of_nat S * Z.of_nat l + Z.of_nat i)).
  intros i Hi. apply zget_nthZ. pose proof (lane_bound l i L S Hl Hi). lia.
Qed.

Lemma storer_tab2 S L (f : list F) o g : 0 <= o -> o + Z.of_nat S * Z.of_nat L <= zlen f ->
  exists f', storer S f o (tab2 L S g) = Some f' /\ zlen f' = zlen f /\
    (forall l i, (l < L)%nat -> (i < S)%nat -> zget f' (o + Z.of_nat S * Z.of_nat l + Z.of_nat i) = Some (g l i)) /\
    (forall p, ~ (o <= p < o + Z.of_nat S * Z.of_nat L) -> zget f' p = zget f p).
Proof.
  intros H0 H1. unfold storer. unfold tab2 at 1. rewrite tab1_len.
  destruct (itero_inv (fun k f' => zlen f' = zlen f /\
    (forall l i, (l < k)%nat -> (i < S)%nat -> zget f' (o + Z.of_nat S * Z.of_nat l + Z.of_nat i) = Some (g l i)) /\
    (forall p, ~ (o <= p < o + Z.of_nat S * Z.of_nat k) -> zget f' p = zget f p)) L
    (fun l f => do v <- nth_error (tab2 L S g) l; storev f (o + Z.of_nat S * Z.of_nat l) v) f) as [f' [E H]].
  - split; [|split]; auto. intros; lia.
  - intros l f1 Hl (L1 & G1 & O1). unfold tab2. rewrite tab1_nth by auto. cbn [obind].
    unfold storev. rewrite tab1_len.
    destruct (itero_inv (fun k f' => zlen f' = zlen f /\
      (forall i, (i < k)%nat -> zget f' (o + Z.of_nat S * Z.of_nat l + Z.of_nat i) = Some (g l i)) /\
      (forall p, ~ (o + Z.of_nat S * Z.of_nat l <= p < o + Z.of_nat S * Z.of_nat l + Z.of_nat k) -> zget f' p = zget f1 p)) S
      (fun i f => do y <- nth_error (tab1 S (g l)) i; zset f (o + Z.of_nat S * Z.of_nat l + Z.of_nat i) y) f1) as [f2 [E (L2 & G2 & O2)]].
    + split; [|split]; auto. intros; lia.
    + intros i f2 Hi (L2 & G2 & O2). rewrite tab1_nth by auto. cbn [obind].
      pose proof (lane_bound l i L S Hl Hi).
      rewrite zset_some by lia. eexists; split; [reflexivity|]. split; [|split].
      * now rewrite zlen_zupd.
      * intros i' Hi'. rewrite zget_zupd by lia. destruct (Z.eqb_spec (o + Z.of_nat S * Z.of_nat l + Z.of_nat i) (o + Z.of_nat S * Z.of_nat l + Z.of_nat i')).
        -- now replace i' with i by lia.
        -- apply G2. lia.
      * intros p Hp. rewrite zget_zupd_other by lia. apply O2. lia.
    + exists f2. split; [exact E|]. split; [|split]; auto.
      * intros l' i Hl' Hi. destruct (Nat.eq_dec l' l) as [->|]; [apply G2; auto|].
        rewrite O2; [apply G1; auto; lia|].
        assert (Hx : (l' < l)%nat) by lia. pose proof (lane_bound l' i l S Hx Hi). lia.
      * intros p Hp. rewrite O2, O1; auto; lia.
  - exists f'. split; [exact E|exact H].
Qed.

Lemma blocked_spec d S L m x blk scal f (P : Z -> F -> Prop) :
  (0 < S)%nat -> (0 < L)%nat -> 0 <= m -> m <= zlen x -> m <= zlen f ->
  (forall j, 0 <= j -> j + Z.of_nat S * Z.of_nat L <= m ->
     exists g, blk j (tab2 L S (fun l i => nthZ d x (j + Z.of_nat S * Z.of_nat l + Z.of_nat i))) = Some (tab2 L S g) /\
       forall l i, (l < L)%nat -> (i < S)%nat -> P (j + Z.of_nat S * Z.of_nat l + Z.of_nat i) (g l i)) ->
  (forall j, 0 <= j < m -> exists v, scal j = Some v /\ P j v) ->
  exists f', blocked S L m x blk scal f = Some f' /\ zlen f' = zlen f /\
    (forall j, 0 <= j < m -> exists v, zget f' j = Some v /\ P j v) /\
    (forall j, m <= j -> zget f' j = zget f j).
Proof.
  intros HS HL Hm Hx Hf Hb Hs. unfold blocked. set (st := Z.of_nat S * Z.of_nat L) in *.
  assert (Hst : 0 < st) by (apply Z.mul_pos_pos; lia).
  set (I := fun j (f' : list F) => 0 <= j /\ j <= m /\ zlen f' = zlen f /\
       (forall p, 0 <= p < j -> exists v, zget f' p = Some v /\ P p v) /\ (forall p, j <= p -> zget f' p = zget f p)).
  destruct (for_upst_inv I 0 (m + 1 - st) st (fun j f => do X <- loadr S L x j; do V <- blk j X; storer S f j V) f) as [f1 [E1 H1]]; auto.
  - unfold I. repeat split; auto; try (intros; lia).
  - intros k j f1 Hk Ej Hj (_ & _ & L1 & G1 & O1).
    rewrite (loadr_tab2 d) by lia. cbn [obind].
    destruct (Hb j) as [g [Eg Pg]]; [lia|lia|]. rewrite Eg. cbn [obind].
    destruct (storer_tab2 S L f1 j g) as [f2 (E2 & L2 & G2 & O2)]; [lia|lia|]. rewrite E2.
    eexists; split; [reflexivity|]. unfold I. split; [lia|split; [lia|split; [lia|split]]].
    + intros p Hp. destruct (Z_lt_dec p j); [rewrite O2 by lia; apply G1; lia|].
      set (q := p - j). assert (Hq : p = j + Z.of_nat S * Z.of_nat (Z.to_nat (q / Z.of_nat S)) + Z.of_nat (Z.to_nat (q mod Z.of_nat S))).
      { pose proof (Z.div_mod q (Z.of_nat S) ltac:(lia)). pose proof (Z.mod_pos_bound q (Z.of_nat S) ltac:(lia)).
        assert (0 <= q / Z.of_nat S) by (apply Z.div_pos; lia). rewrite !Z2Nat.id by lia. unfold q in *. lia. }
      assert (Hq1 : (Z.to_nat (q mod Z.of_nat S) < S)%nat) by (pose proof (Z.mod_pos_bound q (Z.of_nat S) ltac:(lia)); lia).
      assert (Hq2 : (Z.to_nat (q / Z.of_nat S) < L)%nat).
      { assert (q / Z.of_nat S < Z.of_nat L) by (apply Z.div_lt_upper_bound; unfold q, st in *; lia).
        assert (0 <= q / Z.of_nat S) by (apply Z.div_pos; lia). lia. }
      rewrite Hq. rewrite G2 by auto. eexists; split; [reflexivity|]. apply Pg; auto.
    + intros p Hp. rewrite O2 by lia. apply O1. lia.
  - fold st in E1. rewrite E1. cbn [obind]. destruct H1 as (Z0 & Z1 & L1 & G1 & O1).
    destruct (for_up_inv I (end_upst 0 (m + 1 - st) st) m (fun j f => do v <- scal j; zset f j v) f1) as [f2 [E2 H2]]; auto.
    + repeat split; auto.
    + intros j f2 Hj (_ & _ & L2 & G2 & O2). destruct (Hs j) as [v [Ev Pv]]; [lia|]. rewrite Ev. cbn [obind].
      rewrite zset_some by lia. eexists; split; [reflexivity|]. split; [lia|split; [lia|split; [now rewrite zlen_zupd|split]]].
      * intros p Hp. rewrite zget_zupd by lia. destruct (Z.eqb_spec j p); [subst; eauto|apply G2; lia].
      * intros p Hp. rewrite zget_zupd_other by lia. apply O2. lia.
    + exists f2. split; auto. destruct H2 as (_ & _ & L2 & G2 & O2). auto.
Qed.

Lemma default_spec m scal f (P : Z -> F -> Prop) :
  0 <= m -> m <= zlen f ->
  (forall j, 0 <= j < m -> exists v, scal j = Some v /\ P j v) ->
  exists f', for_up 0 m (fun j f => do v <- scal j; zset f j v) f = Some f' /\ zlen f' = zlen f /\
    (forall j, 0 <= j < m -> exists v, zget f' j = Some v /\ P j v) /\
    (forall j, m <= j -> zget f' j = zget f j).
Proof.
  intros Hm Hf Hs.
  destruct (for_up_inv (fun j f' => zlen f' = zlen f /\
       (forall p, 0 <= p < j -> exists v, zget f' p = Some v /\ P p v) /\ (forall p, j <= p -> zget f' p = zget f p))
     0 m (fun j f => do v <- scal j; zset f j v) f) as [f2 [E2 H2]]; auto.
  - repeat split; auto. intros; lia.
  - intros j f2 Hj (L2 & G2 & O2). destruct (Hs j) as [v [Ev Pv]]; [lia|]. rewrite Ev. cbn [obind].
    rewrite zset_some by lia. eexists; split; [reflexivity|]. split; [now rewrite zlen_zupd|split].
    * intros p Hp. rewrite zget_zupd by lia. destruct (Z.eqb_spec j p); [subst; eauto|apply G2; lia].
    * intros p Hp. rewrite zget_zupd_other by lia. apply O2. lia.
  - exists f2. split; auto.
Qed.

Lemma zero_all_spec m f : 0 <= m -> m <= zlen f ->
  exists f', zero_all m f = Some f' /\ evaluates m f f' (fun _ => zero).
Proof.
  intros. destruct (default_spec m (fun _ => Some zero) f (fun _ v => v = zero)) as [f' (E & L1 & G & O)]; auto.
  - intros. eauto.
  - exists f'. split; [exact E|]. split; [|split]; auto. intros j Hj. destruct (G j Hj) as [v [-> ->]]. reflexivity.
Qed.

Lemma evaluates_unique m f f1 f2 (v : Z -> F) : evaluates m f f1 v -> evaluates m f f2 v -> f1 = f2.
Proof.
  intros (L1 & G1 & O1) (L2 & G2 & O2). apply zget_ext_in; [lia|]. intros i Hi.
  destruct (Z_lt_dec i m); [rewrite G1, G2 by lia; auto|rewrite O1, O2 by lia; auto].
Qed.

Lemma of_P m f f' (val : Z -> F) : zlen f' = zlen f ->
  (forall j, 0 <= j < m -> exists v, zget f' j = Some v /\ v = val j) ->
  (forall j, m <= j -> zget f' j = zget f j) -> evaluates m f f' val.
Proof. intros L G O. split; [|split]; auto. intros j Hj. destruct (G j Hj) as [v [-> ->]]. reflexivity. Qed.

(** Horner, any arithmetic *)
Fixpoint hornerN (muladd : F -> F -> F -> F) (c : Z -> F) (n : Z) (k : nat) (x : F) : F :=
  match k with O => zero | S k' => muladd x (hornerN muladd c n k' x) (c (n - Z.of_nat k)) end.
Definition ma (a b c : F) : F := add (mul a b) c.

Lemma horner_point_val d n c incc x j : 0 <= n -> strided n c incc -> 0 <= j < zlen x ->
  horner_point n c incc x j = Some (hornerN ma (fun k => nthZ d c (k * incc)) n (Z.to_nat n) (nthZ d x j)).
Proof.
  intros Hn Hc Hj. unfold horner_point.
  destruct (for_dn_inv (fun k bk => bk = hornerN ma (fun k => nthZ d c (k * incc)) n (Z.to_nat (n - 1 - k)) (nthZ d x j))
    (n - 1) 0 (fun k bk => do xj <- zget x j; do ck <- zget c (k * incc); Some (add (mul xj bk) ck)) zero) as [b [E H]].
  - lia.
  - now replace (n - 1 - (n - 1)) with 0 by lia.
  - intros i s Hi ->. rewrite (zget_nthZ d x) by lia. cbn [obind]. rewrite (zget_nthZ d c) by (apply Hc; lia). cbn [obind].
    eexists; split; [reflexivity|]. replace (Z.to_nat (n - 1 - (i - 1))) with (S (Z.to_nat (n - 1 - i))) by lia.
    cbn [hornerN]. unfold ma at 2. f_equal. f_equal. f_equal. lia.
  - rewrite E. subst b. do 2 f_equal. lia.
Qed.

Lemma horner_default_val d n c incc m x f : 1 <= n -> strided n c incc -> 0 <= m -> m <= zlen x -> m <= zlen f ->
  exists f', horner_default n c incc m x f = Some f' /\
    evaluates m f f' (fun j => hornerN ma (fun k => nthZ d c (k * incc)) n (Z.to_nat n) (nthZ d x j)).
Proof.
  intros. unfold horner_default. replace (n <? 1) with false by lia.
  destruct (default_spec m (horner_point n c incc x) f (fun j v => v = hornerN ma (fun k => nthZ d c (k * incc)) n (Z.to_nat n) (nthZ d x j))) as [f' (E & L1 & G & O)]; auto.
  - intros j Hj. eexists; split; [apply horner_point_val; auto; lia|reflexivity].
  - exists f'. split; [exact E|]. apply of_P; auto.
Qed.

Lemma horner_kernel_val d muladd S L n c incc m x f :
  (0 < S)%nat -> (0 < L)%nat -> 1 <= n -> strided n c incc -> 0 <= m -> m <= zlen x -> m <= zlen f ->
  (forall a b c, muladd a b c = ma a b c) ->
  exists f', horner_kernel muladd S L n c incc m x f = Some f' /\
    evaluates m f f' (fun j => hornerN ma (fun k => nthZ d c (k * incc)) n (Z.to_nat n) (nthZ d x j)).
Proof.
  intros HS HL Hn Hc Hm Hx Hf Hma. unfold horner_kernel. replace (n <? 1) with false by lia.
  match goal with |- context[blocked S L m x ?b ?s f] =>
    destruct (blocked_spec d S L m x b s f (fun j v => v = hornerN ma (fun k => nthZ d c (k * incc)) n (Z.to_nat n) (nthZ d x j))) as [f' (E & L1 & G & O)]; auto
  end.
  - intros j Hj Hj1. set (X := tab2 L S _).
    destruct (for_dn_inv (fun k bk => bk = tab2 L S (fun l i => hornerN ma (fun k => nthZ d c (k * incc)) n (Z.to_nat (n - 1 - k)) (nthZ d x (j + Z.of_nat S * Z.of_nat l + Z.of_nat i))))
      (n - 1) 0 (fun k bk => do ck <- zget c (k * incc); Some (rmap2 (fun a b => muladd a b ck) X bk)) (rall S L zero)) as [b [E H]].
    + lia.
    + rewrite rall_tab2. now replace (n - 1 - (n - 1)) with 0 by lia.
    + intros k s Hk ->. rewrite (zget_nthZ d c) by (apply Hc; lia). cbn [obind]. eexists; split; [reflexivity|].
      unfold X. rewrite rmap2_tab2. unfold tab2. apply tab1_ext; intros l Hl. apply tab1_ext; intros i Hi.
      rewrite Hma. replace (Z.to_nat (n - 1 - (k - 1))) with (Datatypes.S (Z.to_nat (n - 1 - k))) by lia.
      cbn [hornerN]. do 3 f_equal. lia.
    + rewrite E, H. eexists; split; [reflexivity|]. intros. cbv beta. do 2 f_equal. lia.
  - intros j Hj. eexists; split; [apply horner_point_val; auto; lia|reflexivity].
  - exists f'. split; [exact E|]. apply of_P; auto.
Qed.

(** SIMD = scalar, bit for bit *)
Lemma horner_simd_proof muladd S L n c incc m x f :
  (0 < S)%nat -> (0 < L)%nat -> strided n c incc -> 0 <= m -> m <= zlen x -> m <= zlen f ->
  (forall a b c, muladd a b c = add (mul a b) c) ->
  exists f', horner_kernel muladd S L n c incc m x f = Some f' /\ horner_default n c incc m x f = Some f'.
Proof.
  intros HS HL Hc Hm Hx Hf Hma. destruct (Z_lt_dec n 1).
  - unfold horner_kernel, horner_default. replace (n <? 1) with true by lia.
    destruct (zero_all_spec m f) as [f' [-> _]]; eauto.
  - destruct (horner_kernel_val zero muladd S L n c incc m x f) as [f1 [E1 V1]]; auto; [lia|].
    destruct (horner_default_val zero n c incc m x f) as [f2 [E2 V2]]; auto; [lia|].
    exists f1. split; auto. now rewrite (evaluates_unique _ _ _ _ _ V1 V2).
Qed.
End Gen.

(** ** Horner over the reals *)
Lemma evaluates_ext {F} m (f f' : list F) v w : (forall j, 0 <= j < m -> v j = w j) -> evaluates m f f' v -> evaluates m f f' w.
Proof. intros H (L & G & O). split; [|split]; auto. intros j Hj. now rewrite <- H, G by auto. Qed.

Lemma hornerN_sum c n k x : Z.of_nat k <= n ->
  hornerN ma c n k x = sumZ (Z.of_nat k) (fun i => (c (n - Z.of_nat k + i)%Z * x ^ Z.to_nat i)%R).
Proof.
  induction k; intros Hk; [reflexivity|]. cbn [hornerN]. rewrite IHk by lia.
  rewrite (sumZ_first (Z.of_nat (S k))) by lia. unfold ma. cbn [add mul R_arith].
  change (Z.to_nat 0) with O. rewrite pow_O, Rmult_1_r.
  replace (n - Z.of_nat (S k) + 0) with (n - Z.of_nat (S k)) by lia. rewrite <- sumZ_scal.
  replace (Z.of_nat (S k) - 1) with (Z.of_nat k) by lia.
  rewrite Rplus_comm. f_equal. apply sumZ_ext. intros i Hi.
  replace (n - Z.of_nat (S k) + (1 + i)) with (n - Z.of_nat k + i) by lia.
  replace (Z.to_nat (1 + i)) with (S (Z.to_nat i)) by lia. cbn [pow]. lra.
Qed.

Lemma horner_sum (c : list R) incc n x : 0 <= n ->
  hornerN ma (fun k => nthZ 0%R c (k * incc)) n (Z.to_nat n) x =
  sumZ n (fun k => (nthZ 0%R c (k * incc) * x ^ Z.to_nat k)%R).
Proof.
  intros. rewrite hornerN_sum by lia. rewrite Z2Nat.id by lia. apply sumZ_ext. intros. do 3 f_equal. lia.
Qed.

Lemma horner_proof muladd S L n (c : list R) incc m x f :
  (0 < S)%nat -> (0 < L)%nat -> strided n c incc -> 0 <= m -> m <= zlen x -> m <= zlen f ->
  (forall a b c : R, muladd a b c = a * b + c)%R ->
  exists f', horner_kernel muladd S L n c incc m x f = Some f' /\ horner_default n c incc m x f = Some f' /\
    evaluates m f f' (fun j => sumZ n (fun k => (nthZ 0%R c (k * incc) * nthZ 0%R x j ^ Z.to_nat k)%R)).
Proof.
  intros. destruct (horner_simd_proof muladd S L n c incc m x f) as [f' [E1 E2]]; auto.
  exists f'. split; [|split]; auto. destruct (Z_lt_dec n 1).
  - unfold horner_default in E2. replace (n <? 1) with true in E2 by lia.
    destruct (zero_all_spec m f) as [f2 [E V]]; auto. rewrite E in E2. injection E2 as <-.
    eapply evaluates_ext; [|exact V]. intros. cbv beta. now rewrite sumZ_0 by lia.
  - destruct (horner_default_val 0%R n c incc m x f) as [f2 [E V]]; auto; [lia|]. rewrite E in E2. injection E2 as <-.
    eapply evaluates_ext; [|exact V]. intros. cbv beta. apply horner_sum. lia.
Qed.
