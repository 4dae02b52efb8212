(** * Proofs about count_intersections and produce_intersection_indices *)
From Coq Require Import ZArith List Lia Bool Reals Lra ZifyBool ZifyNat.
From Verif Require Import Arith Base BaseFacts SpecEig SpecSort MBanded MEig.
Import ListNotations.
Open Scope Z_scope.

(** partial correctness of a counted loop *)
Lemma for_up_pinv {S} (I : Z -> S -> Prop) lo hi body s s' : lo <= hi -> I lo s ->
  (forall i s s', lo <= i < hi -> I i s -> body i s = Some s' -> I (i + 1) s') ->
  for_up lo hi body s = Some s' -> I hi s'.
Proof.
  intros Hl H0 Hs. unfold for_up.
  assert (G : forall n s', (n <= Z.to_nat (hi - lo))%nat -> itero n (fun k => body (lo + Z.of_nat k)) s = Some s' -> I (lo + Z.of_nat n) s').
  { induction n as [|n IH]; intros s1 Hn E.
    - cbn in E. injection E as <-. replace (lo + Z.of_nat 0) with lo by lia. auto.
    - cbn [itero] in E. apply obind_inv in E. destruct E as (s2 & E1 & E2).
      replace (lo + Z.of_nat (Datatypes.S n)) with (lo + Z.of_nat n + 1) by lia. eapply Hs; [lia| |exact E2]. apply IH; [lia|auto]. }
  intros E. specialize (G _ s' (le_n _) E). replace (lo + Z.of_nat (Z.to_nat (hi - lo))) with hi in G by lia. exact G.
Qed.

Section Inter.
Context {F : Type} {AF : Arith F}.
Variable eps : F.
Notation near := (near eps).
(** the indices found by the while loop started at i *)
Fixpoint hits (fuel : nat) (x : list F) (i : Z) (yj : F) : list Z :=
  match fuel with
  | O => []
  | S f => match zget x i with
           | None => []
           | Some xi => if near xi yj then i :: hits f x (i + 1) yj else if ltb yj xi then [] else hits f x (i + 1) yj
           end
  end.
Definition first_or (d : Z) (l : list Z) : Z := match l with [] => d | a :: _ => a end.

Lemma count_row_spec fuel : forall x i yj istart idx first, i + Z.of_nat fuel <= zlen x -> 0 <= i ->
  count_row eps fuel x i yj istart idx first =
  Some (if first then first_or istart (hits fuel x i yj) else istart, idx + zlen (hits fuel x i yj)).
Proof.
  induction fuel as [|f IH]; intros x i yj is idx first Hf Hi; cbn [count_row hits].
  - destruct first; cbn; do 2 f_equal; change (zlen (@nil Z)) with 0; lia.
  - destruct (zget_ex x i ltac:(lia)) as [xi Ex]. rewrite Ex. cbn [obind]. destruct (near xi yj) eqn:En.
    + rewrite IH by lia. destruct first; cbn [first_or]; rewrite zlen_cons; do 2 f_equal; lia.
    + destruct (ltb yj xi).
      * destruct first; cbn; do 2 f_equal; change (zlen (@nil Z)) with 0; lia.
      * rewrite IH by lia. reflexivity.
Qed.

(** [p'] is [p] with the list [l] written from position [idx] *)
Definition wrote (p p' : list Z) (idx : Z) (l : list Z) : Prop :=
  zlen p' = zlen p /\ (forall k, 0 <= k < zlen l -> zget p' (idx + k) = zget l k) /\ (forall k, k < idx \/ idx + zlen l <= k -> zget p' k = zget p k).
Lemma wrote_nil p idx : wrote p p idx [].
Proof. split; auto. split; auto. change (zlen (@nil Z)) with 0. intros; lia. Qed.
Lemma wrote_cons p p' idx a l : 0 <= idx < zlen p -> wrote (zupd p idx a) p' (idx + 1) l -> wrote p p' idx (a :: l).
Proof.
  intros Hi (L & G & O). rewrite zlen_zupd in L. split; [auto|split]; rewrite zlen_cons.
  - intros k Hk. destruct (Z.eq_dec k 0) as [->|].
    + rewrite O by lia. rewrite Z.add_0_r, zget_zupd_same by lia. reflexivity.
    + replace (idx + k) with (idx + 1 + (k - 1)) by lia. rewrite G by lia. unfold zget.
      destruct (k - 1 <? 0) eqn:E1; [lia|]. destruct (k <? 0) eqn:E2; [lia|].
      replace (Z.to_nat k) with (S (Z.to_nat (k - 1))) by lia. reflexivity.
  - intros k Hk. pose proof (zlen_nonneg l). rewrite O by lia. apply zget_zupd_other. lia.
Qed.
Definition const (j : Z) (l : list Z) : list Z := map (fun _ => j) l.
Lemma zlen_const j l : zlen (const j l) = zlen l.
Proof. unfold zlen, const. now rewrite map_length. Qed.

Lemma produce_row_spec fuel : forall x i yj j istart idx first p q, i + Z.of_nat fuel <= zlen x -> 0 <= i -> 0 <= idx ->
  let l := hits fuel x i yj in
  (idx + zlen l <= zlen p -> idx + zlen l <= zlen q ->
   exists p' q', produce_row eps fuel x i yj j istart idx first p q =
     Some (if first then first_or istart l else istart, idx + zlen l, p', q') /\ wrote p p' idx l /\ wrote q q' idx (const j l)) /\
  (forall r, produce_row eps fuel x i yj j istart idx first p q = Some r -> l = [] \/ (idx + zlen l <= zlen p /\ idx + zlen l <= zlen q)).
Proof.
  induction fuel as [|f IH]; intros x i yj j is idx first p q Hf Hi Hidx; cbn [produce_row hits]; cbn zeta.
  - split; auto. intros Hp Hq. change (zlen (@nil Z)) with 0. rewrite Z.add_0_r. exists p, q.
    split; [destruct first; reflexivity|]. split; apply wrote_nil.
  - destruct (zget_ex x i ltac:(lia)) as [xi Ex]. rewrite Ex. cbn [obind]. destruct (near xi yj) eqn:En.
    + rewrite zlen_cons. split.
      * intros Hp Hq. pose proof (zlen_nonneg (hits f x (i + 1) yj)). rewrite !zset_some by lia. cbn [obind].
        destruct (IH x (i + 1) yj j (if first then i else is) (idx + 1) false (zupd p idx i) (zupd q idx j)) as [(p' & q' & E & W1 & W2) _]; try lia.
        { rewrite !zlen_zupd; lia. } { rewrite !zlen_zupd; lia. }
        rewrite E. exists p', q'. replace (idx + (1 + zlen (hits f x (i + 1) yj))) with (idx + 1 + zlen (hits f x (i + 1) yj)) by lia. split; [destruct first; reflexivity|].
        split; [apply wrote_cons; [lia|auto]|]. cbn [const map]. apply wrote_cons; [lia|exact W2].
      * intros r Hr. right. apply obind_inv in Hr. destruct Hr as (p1 & E1 & Hr). apply obind_inv in Hr. destruct Hr as (q1 & E2 & Hr).
        apply zset_inv in E1. apply zset_inv in E2. destruct E1 as [H1 ->]. destruct E2 as [H2 ->].
        destruct (IH x (i + 1) yj j (if first then i else is) (idx + 1) false (zupd p idx i) (zupd q idx j)) as [_ N]; try lia.
        specialize (N _ Hr). rewrite !zlen_zupd in N. destruct N as [N|N]; [|lia].
        rewrite N. change (zlen (@nil Z)) with 0. lia.
    + destruct (ltb yj xi).
      * split; [|auto]. intros Hp Hq. change (zlen (@nil Z)) with 0. rewrite Z.add_0_r. exists p, q.
        split; [destruct first; reflexivity|]. split; apply wrote_nil.
      * apply IH; lia.
Qed.

(** the list of pairs found for y_0 .. y_(k-1) and the value of istart *)
Fixpoint pairs (k : nat) (m : Z) (x y : list F) : Z * list (Z * Z) :=
  match k with
  | O => (0, [])
  | S k' => let '(is, L) := pairs k' m x y in
            match zget y (Z.of_nat k') with
            | None => (is, L)
            | Some yj => let l := hits (Z.to_nat (m - is)) x is yj in (first_or is l, L ++ map (fun i => (i, Z.of_nat k')) l)
            end
  end.
Lemma hits_in fuel : forall x i yj k, In k (hits fuel x i yj) -> i <= k < i + Z.of_nat fuel.
Proof.
  induction fuel as [|f IH]; intros x i yj k H; cbn [hits] in H; [contradiction|].
  destruct (zget x i); [|contradiction]. destruct (near _ _); [destruct H as [->|H]; [lia|apply IH in H; lia]|].
  destruct (ltb _ _); [contradiction|]. apply IH in H. lia.
Qed.
Lemma first_or_range fuel x i yj d lo hi : lo <= d <= hi -> lo <= i -> i + Z.of_nat fuel <= hi -> lo <= first_or d (hits fuel x i yj) <= hi.
Proof.
  intros Hd Hi Hf. destruct (hits fuel x i yj) eqn:E; cbn; auto. assert (In z (hits fuel x i yj)) by (rewrite E; cbn; auto).
  apply hits_in in H. lia.
Qed.
Lemma first_or_bound is m x yj : 0 <= is <= m -> is <= first_or is (hits (Z.to_nat (m - is)) x is yj) <= m.
Proof. intros. apply first_or_range; lia. Qed.
Lemma pairs_S k m x y : (Z.of_nat k < zlen y) -> exists yj, zget y (Z.of_nat k) = Some yj /\
  let '(is, L) := pairs k m x y in
  pairs (S k) m x y = (first_or is (hits (Z.to_nat (m - is)) x is yj), L ++ map (fun i => (i, Z.of_nat k)) (hits (Z.to_nat (m - is)) x is yj)).
Proof.
  intros H. destruct (zget_ex y (Z.of_nat k) ltac:(lia)) as [yj E]. exists yj. split; auto. cbn [pairs]. destruct (pairs k m x y). now rewrite E.
Qed.
Lemma pairs_range k m x y : 0 <= m -> Z.of_nat k <= zlen y -> 0 <= fst (pairs k m x y) <= m.
Proof.
  intros Hm. induction k; intros Hk; [cbn; lia|]. specialize (IHk ltac:(lia)). destruct (pairs_S k m x y ltac:(lia)) as (yj & E & H).
  destruct (pairs k m x y) as [is L]. rewrite H. cbn [fst] in *. pose proof (first_or_bound is m x yj IHk). lia.
Qed.

Section Main.
Variables (m n : Z) (x y : list F).
Hypothesis Hm : 0 <= m <= zlen x.
Hypothesis Hn : 0 <= n <= zlen y.
Let L k := snd (pairs (Z.to_nat k) m x y).
Let is k := fst (pairs (Z.to_nat k) m x y).
Lemma pairs_step j : 0 <= j < n -> exists yj, zget y j = Some yj /\ 0 <= is j <= m /\
  is (j + 1) = first_or (is j) (hits (Z.to_nat (m - is j)) x (is j) yj) /\
  L (j + 1) = L j ++ map (fun i => (i, j)) (hits (Z.to_nat (m - is j)) x (is j) yj).
Proof.
  intros Hj. destruct (pairs_S (Z.to_nat j) m x y ltac:(lia)) as (yj & E & H). exists yj.
  replace (Z.of_nat (Z.to_nat j)) with j in * by lia. split; auto. subst L is. cbv beta. split; [apply pairs_range; lia|].
  replace (Z.to_nat (j + 1)) with (S (Z.to_nat j)) by lia. destruct (pairs (Z.to_nat j) m x y). cbn [fst snd]. rewrite H. auto.
Qed.
Lemma L0 : L 0 = [].
Proof. reflexivity. Qed.

Lemma count_spec : count_intersections eps m x n y = Some (zlen (L n)).
Proof.
  unfold count_intersections.
  destruct (for_up_inv (fun j s => s = (is j, zlen (L j))) 0 n (fun j s => let '(istart, idx) := s in
    do yj <- zget y j; count_row eps (Z.to_nat (m - istart)) x istart yj istart idx true) (0, 0)) as [s [E ->]].
  - lia.
  - reflexivity.
  - intros j s Hj ->. destruct (pairs_step j Hj) as (yj & Ey & Hi & E1 & E2). rewrite Ey. cbn [obind].
    rewrite count_row_spec by lia. eexists; split; [reflexivity|]. rewrite E1, E2, zlen_app. unfold zlen at 4. now rewrite map_length.
  - rewrite E. reflexivity.
Qed.

Lemma zlen_map_fst {A B} (f : A -> B) l : zlen (map f l) = zlen l.
Proof. unfold zlen. now rewrite map_length. Qed.
Lemma zget_map {A B} (f : A -> B) l k : zget (map f l) k = option_map f (zget l k).
Proof. unfold zget. destruct (k <? 0); auto. apply nth_error_map. Qed.
Lemma zget_app {A} (l r : list A) k : 0 <= k -> zget (l ++ r) k = if k <? zlen l then zget l k else zget r (k - zlen l).
Proof.
  intros Hk. unfold zget, zlen. replace (k <? 0) with false by lia. destruct (k <? Z.of_nat (length l)) eqn:E.
  - apply nth_error_app1. lia.
  - replace (k - Z.of_nat (length l) <? 0) with false by lia. rewrite nth_error_app2 by lia. f_equal. lia.
Qed.
Lemma L_mono j : 0 <= j <= n -> forall j', 0 <= j' <= j -> zlen (L j') <= zlen (L j).
Proof.
  intros Hj j' Hj'. assert (G : forall d, 0 <= d -> j' + d <= n -> zlen (L j') <= zlen (L (j' + d))).
  { intros d Hd. pattern d. apply natlike_ind; auto; [rewrite Z.add_0_r; lia|]. intros e He IH Hb.
    destruct (pairs_step (j' + e) ltac:(lia)) as (yj & _ & _ & _ & E). replace (j' + Z.succ e) with (j' + e + 1) by lia. rewrite E, zlen_app.
    pose proof (zlen_nonneg (map (fun i => (i, j' + e)) (hits (Z.to_nat (m - is (j' + e))) x (is (j' + e)) yj))). lia. }
  specialize (G (j - j') ltac:(lia) ltac:(lia)). now replace (j' + (j - j')) with j in G by lia.
Qed.

Lemma produce_spec p q : zlen (L n) <= zlen p -> zlen (L n) <= zlen q ->
  exists p' q', produce_intersection_indices eps m x n y p q = Some (p', q') /\ wrote p p' 0 (map fst (L n)) /\ wrote q q' 0 (map snd (L n)).
Proof.
  intros Hp Hq. unfold produce_intersection_indices.
  destruct (for_up_inv (fun j (s : Z * Z * list Z * list Z) => let '(i0, idx, p', q') := s in i0 = is j /\ idx = zlen (L j) /\ wrote p p' 0 (map fst (L j)) /\ wrote q q' 0 (map snd (L j))) 0 n
    (fun j s => let '(istart, idx, p, q) := s in
     do yj <- zget y j; produce_row eps (Z.to_nat (m - istart)) x istart yj j istart idx true p q) (0, 0, p, q)) as [[[[i0 idx] p'] q'] [E (-> & -> & W1 & W2)]].
  - lia.
  - split; [reflexivity|split; [reflexivity|]]. rewrite L0. split; apply wrote_nil.
  - intros j [[[i0 idx] p1] q1] Hj (-> & -> & (L1 & G1 & O1) & (L2 & G2 & O2)).
    destruct (pairs_step j Hj) as (yj & Ey & Hi & E1 & E2). rewrite Ey. cbn [obind].
    pose proof (L_mono n ltac:(lia) (j + 1) ltac:(lia)) as HL. rewrite E2, zlen_app, zlen_map_fst in HL.
    pose proof (zlen_nonneg (L j)).
    destruct (produce_row_spec (Z.to_nat (m - is j)) x (is j) yj j (is j) (zlen (L j)) true p1 q1) as [(p2 & q2 & E & W1 & W2) _]; try lia.
    rewrite E. eexists; split; [reflexivity|]. rewrite E1, E2. set (l := hits _ _ _ _) in *.
    split; auto. split; [rewrite zlen_app, zlen_map_fst; reflexivity|].
    destruct W1 as (L3 & G3 & O3), W2 as (L4 & G4 & O4). rewrite zlen_const in *. rewrite !map_app, !map_map. cbn [fst snd]. rewrite map_id.
    split; (split; [lia|split]).
    + intros k Hk. rewrite zget_app by lia. rewrite zlen_app, zlen_map_fst in Hk. rewrite zlen_map_fst.
      destruct (k <? zlen (L j)) eqn:Ek.
      * rewrite O3 by lia. rewrite <- G1 by (rewrite zlen_map_fst; lia). f_equal; lia.
      * rewrite <- G3 by lia. f_equal. lia.
    + intros k Hk. rewrite zlen_app, zlen_map_fst in Hk. pose proof (zlen_nonneg l). rewrite O3 by lia. apply O1. rewrite zlen_map_fst. lia.
    + intros k Hk. rewrite zget_app by lia. rewrite zlen_app, !zlen_map_fst in Hk. rewrite zlen_map_fst.
      destruct (k <? zlen (L j)) eqn:Ek.
      * rewrite O4 by lia. rewrite <- G2 by (rewrite zlen_map_fst; lia). f_equal; lia.
      * change (map (fun _ : Z => j) l) with (const j l). rewrite <- G4 by lia. f_equal. lia.
    + intros k Hk. rewrite zlen_app, !zlen_map_fst in Hk. pose proof (zlen_nonneg l). rewrite O4 by lia. apply O2. rewrite zlen_map_fst. lia.
  - rewrite E. cbn [obind]. exists p', q'. auto.
Qed.

Lemma produce_short p q r : produce_intersection_indices eps m x n y p q = Some r -> zlen (L n) <= zlen p /\ zlen (L n) <= zlen q.
Proof.
  unfold produce_intersection_indices. intros H. apply obind_inv in H. destruct H as (s & E & _).
  pose (I := fun j (s : Z * Z * list Z * list Z) => let '(i0, idx, p', q') := s in i0 = is j /\ idx = zlen (L j) /\ zlen p' = zlen p /\ zlen q' = zlen q /\ zlen (L j) <= zlen p /\ zlen (L j) <= zlen q).
  apply (for_up_pinv I) in E.
  - destruct s as [[[i0 idx] p'] q']. destruct E as (_ & _ & _ & _ & E). exact E.
  - lia.
  - unfold I. repeat split; auto; rewrite L0; apply zlen_nonneg.
  - intros j [[[i0 idx] p1] q1] [[[i1 idx1] p2] q2] Hj (-> & -> & L1 & L2 & B1 & B2) E1.
    destruct (pairs_step j Hj) as (yj & Ey & Hi & S1 & S2). rewrite Ey in E1. cbn [obind] in E1. pose proof (zlen_nonneg (L j)).
    destruct (produce_row_spec (Z.to_nat (m - is j)) x (is j) yj j (is j) (zlen (L j)) true p1 q1) as [P1 P2]; try lia.
    set (l := hits _ _ _ _) in *. specialize (P2 _ E1).
    assert (Hl : zlen (L j) + zlen l <= zlen p /\ zlen (L j) + zlen l <= zlen q) by (destruct P2 as [->|]; [change (zlen (@nil Z)) with 0|]; lia).
    destruct P1 as (p3 & q3 & E3 & (W1 & _) & (W2 & _)); try lia. rewrite E3 in E1. injection E1 as <- <- <- <-.
    unfold I. rewrite S1, S2, zlen_app, zlen_map_fst. fold l. lia.
Qed.

(** ** what is in the list *)
Lemma hits_near fuel : forall i yj k, In k (hits fuel x i yj) -> exists xi, zget x k = Some xi /\ near xi yj = true.
Proof.
  induction fuel as [|f IH]; intros i yj k H; cbn [hits] in H; [contradiction|]. destruct (zget x i) eqn:E; [|contradiction].
  destruct (near f0 yj) eqn:En; [destruct H as [<-|H]; [eauto|eapply IH; eauto]|]. destruct (ltb yj f0); [contradiction|]. eapply IH; eauto.
Qed.
Lemma L_in j : 0 <= j <= n -> forall i j', In (i, j') (L j) -> 0 <= i < m /\ 0 <= j' < j /\ exists xi yj, zget x i = Some xi /\ zget y j' = Some yj /\ near xi yj = true.
Proof.
  intros Hj. assert (G : forall d, 0 <= d -> d <= n -> forall i j', In (i, j') (L d) -> 0 <= i < m /\ 0 <= j' < d /\ exists xi yj, zget x i = Some xi /\ zget y j' = Some yj /\ near xi yj = true); [|apply G; lia].
  intros d Hd. pattern d. apply natlike_ind; auto.
  - rewrite L0. intros _ i j' [].
  - intros e He IH Hb i j' Hin. destruct (pairs_step e ltac:(lia)) as (yj & Ey & Hi & _ & E). unfold Z.succ in Hin. rewrite E in Hin.
    apply in_app_or in Hin. destruct Hin as [Hin|Hin].
    + apply IH in Hin; [|lia]. destruct Hin as (H1 & H2 & H3). repeat split; auto; lia.
    + apply in_map_iff in Hin. destruct Hin as (i' & E2 & Hin). injection E2 as <- <-. pose proof (hits_in _ _ _ _ _ Hin).
      destruct (hits_near _ _ _ _ Hin) as (xi & Ex & En). repeat split; try lia. exists xi, yj. auto.
Qed.
(** increasing order *)
Lemma hits_sorted fuel : forall i yj k k' a a', zget (hits fuel x i yj) k = Some a -> zget (hits fuel x i yj) k' = Some a' -> k < k' -> a < a'.
Proof.
  induction fuel as [|f IH]; intros i yj k k' a a' H1 H2 Hk; cbn [hits] in *.
  - unfold zget in H1. destruct (k <? 0); [discriminate|]. now destruct (Z.to_nat k).
  - destruct (zget x i) eqn:E; [|unfold zget in H1; destruct (k <? 0); [discriminate|]; now destruct (Z.to_nat k)].
    destruct (near f0 yj).
    + pose proof (zget_range _ _ _ H1). unfold zget in H1, H2. replace (k <? 0) with false in H1 by lia. replace (k' <? 0) with false in H2 by lia.
      replace (Z.to_nat k') with (S (Z.to_nat (k' - 1))) in H2 by lia. cbn [nth_error] in H2.
      assert (Ha' : In a' (hits f x (i + 1) yj)) by (eapply nth_error_In; eauto). apply hits_in in Ha'.
      destruct (Z.eq_dec k 0) as [->|]; [cbn in H1; injection H1 as <-; lia|].
      replace (Z.to_nat k) with (S (Z.to_nat (k - 1))) in H1 by lia. cbn [nth_error] in H1.
      apply (IH (i + 1) yj (k - 1) (k' - 1)); [| |lia]; unfold zget; [replace (k - 1 <? 0) with false by lia|replace (k' - 1 <? 0) with false by lia]; auto.
    + destruct (ltb yj f0); [unfold zget in H1; destruct (k <? 0); [discriminate|]; now destruct (Z.to_nat k)|]. eapply IH; eauto.
Qed.
Lemma L_sorted j : 0 <= j <= n -> forall k k' a b a' b', zget (L j) k = Some (a, b) -> zget (L j) k' = Some (a', b') -> k < k' -> comes_before a b a' b'.
Proof.
  intros Hj. assert (G : forall d, 0 <= d -> d <= n -> forall k k' a b a' b', zget (L d) k = Some (a, b) -> zget (L d) k' = Some (a', b') -> k < k' -> comes_before a b a' b'); [|apply G; lia].
  intros d Hd. pattern d. apply natlike_ind; auto.
  - rewrite L0. intros _ k k' a b a' b' H. apply zget_range in H. change (zlen (@nil (Z * Z))) with 0 in H. lia.
  - intros e He IH Hb k k' a b a' b' H1 H2 Hk. destruct (pairs_step e ltac:(lia)) as (yj & Ey & Hi & _ & E). unfold Z.succ in H1, H2. rewrite E in H1, H2.
    pose proof (zget_range _ _ _ H1). pose proof (zget_range _ _ _ H2). rewrite zget_app in H1 by lia. rewrite zget_app in H2 by lia.
    destruct (k' <? zlen (L e)) eqn:E2.
    + replace (k <? zlen (L e)) with true in H1 by lia. eapply IH; eauto. lia.
    + rewrite zget_map in H2. set (h := hits _ _ _ _) in *. destruct (zget h (k' - zlen (L e))) eqn:E4; [|discriminate]. cbn in H2. injection H2 as <- <-.
      destruct (k <? zlen (L e)) eqn:E3.
      * left. assert (Hin : In (a, b) (L e)) by (unfold zget in H1; destruct (k <? 0); [discriminate|]; eapply nth_error_In; eauto). apply L_in in Hin; lia.
      * rewrite zget_map in H1. fold h in H1. destruct (zget h (k - zlen (L e))) eqn:E5; [|discriminate]. cbn in H1. injection H1 as <- <-.
        right. split; auto. unfold h in *. eapply hits_sorted; eauto. lia.
Qed.
End Main.
End Inter.

Lemma C31_count_proof : forall (F : Type) (AF : Arith F) (eps : F) m x n y, 0 <= m <= zlen x -> 0 <= n <= zlen y ->
  exists c, count_intersections eps m x n y = Some c /\ 0 <= c /\ forall p q,
    (c <= zlen p -> c <= zlen q ->
     exists p' q', produce_intersection_indices eps m x n y p q = Some (p', q') /\ zlen p' = zlen p /\ zlen q' = zlen q /\
       (forall k, c <= k -> zget p' k = zget p k /\ zget q' k = zget q k) /\
       (forall k, 0 <= k < c -> 0 <= nthZ 0 p' k < m /\ 0 <= nthZ 0 q' k < n) /\
       (forall k k', 0 <= k < k' -> k' < c -> comes_before (nthZ 0 p' k) (nthZ 0 q' k) (nthZ 0 p' k') (nthZ 0 q' k'))) /\
    (zlen p < c \/ zlen q < c -> produce_intersection_indices eps m x n y p q = None).
Proof.
  intros F AF eps m x n y Hm Hn. exists (zlen (snd (pairs eps (Z.to_nat n) m x y))). split; [now apply count_spec|]. split; [apply zlen_nonneg|].
  set (L := snd _). intros p q. split.
  - intros Hp Hq. destruct (produce_spec eps m n x y Hm Hn p q Hp Hq) as (p' & q' & E & (L1 & G1 & O1) & (L2 & G2 & O2)). fold L in G1, O1, G2, O2.
    rewrite zlen_map_fst in *. exists p', q'. split; auto. split; auto. split; auto.
    assert (G : forall k, 0 <= k < zlen L -> exists a b, zget L k = Some (a, b) /\ nthZ 0 p' k = a /\ nthZ 0 q' k = b).
    { intros k Hk. destruct (zget_ex L k Hk) as [[a b] E3]. exists a, b. split; auto.
      specialize (G1 k Hk). specialize (G2 k Hk). cbn [Z.add] in G1, G2. rewrite zget_map, E3 in G1, G2. cbn in G1, G2. split; now apply nthZ_zget. }
    split; [intros k Hk; split; [apply O1|apply O2]; lia|]. split.
    + intros k Hk. destruct (G k Hk) as (a & b & E3 & -> & ->).
      assert (Hin : In (a, b) L) by (unfold zget in E3; destruct (k <? 0); [discriminate|]; eapply nth_error_In; eauto).
      apply (L_in eps m n x y Hm Hn n) in Hin; lia.
    + intros k k' Hk Hk'. destruct (G k ltac:(lia)) as (a & b & E3 & -> & ->). destruct (G k' ltac:(lia)) as (a' & b' & E4 & -> & ->).
      apply (L_sorted eps m n x y Hm Hn n ltac:(lia) k k'); auto; lia.
  - intros Hs. destruct (produce_intersection_indices eps m x n y p q) eqn:E; auto. apply produce_short in E; auto. fold L in E. lia.
Qed.

(** ** Over the reals: exactly the close pairs *)
Lemma maxA_R a b : maxA a b = Rmax a b.
Proof.
  unfold maxA. cbn. unfold R_ltb. destruct (Rlt_dec b a).
  - rewrite Rmax_left; lra.
  - rewrite Rmax_right; lra.
Qed.
Lemma near_close eps x y : near eps x y = true <-> close eps x y.
Proof.
  unfold near, close. rewrite maxA_R. cbn. unfold R_ltb. destruct (Rlt_dec _ _); split; auto; discriminate.
Qed.
(** moving away keeps a pair apart *)
Lemma apart_right eps x y y' : (eps <= 1)%R -> (x <= y)%R -> (y <= y')%R -> ~ close eps x y -> ~ close eps x y'.
Proof.
  unfold close. intros He Hx Hy Hn Hc. apply Hn. clear Hn.
  rewrite Rabs_left1 in Hc by lra. rewrite Rabs_left1 by lra.
  destruct (Rle_dec eps 0) as [Hneg|Hpos].
  - pose proof (Rmax_l (Rabs x) (Rabs y')). pose proof (Rabs_pos x). assert (eps * Rmax (Rabs x) (Rabs y') <= 0)%R by nra. lra.
  - revert Hc. unfold Rmax, Rabs. repeat destruct Rle_dec; repeat destruct Rcase_abs; intros; nra.
Qed.
Lemma close_sym eps x y : close eps x y -> close eps y x.
Proof. unfold close. now rewrite Rabs_minus_sym, Rmax_comm. Qed.
Lemma close_opp eps x y : close eps x y -> close eps (- x) (- y).
Proof. unfold close. rewrite !Rabs_Ropp. replace (- x - - y)%R with (- (x - y))%R by lra. now rewrite Rabs_Ropp. Qed.
Lemma apart_up eps x x' y : (eps <= 1)%R -> (y < x)%R -> (x <= x')%R -> ~ close eps x y -> ~ close eps x' y.
Proof.
  intros He Hx Hx' Hn Hc. apply (apart_right eps y x x'); try lra; auto using close_sym.
Qed.
Section Reals.
Variables (eps : R) (m n : Z) (x y : list R).
Hypothesis Heps : (eps <= 1)%R.
Hypothesis Hm : 0 <= m <= zlen x.
Hypothesis Hn : 0 <= n <= zlen y.
Hypothesis Sx : nondecreasing x 0 (m - 1).
Hypothesis Sy : nondecreasing y 0 (n - 1).
Lemma mono_x i k : 0 <= i <= k -> k < m -> (nthZ 0 x i <= nthZ 0 x k)%R.
Proof. intros Hi Hk. destruct (Z.eq_dec i k) as [->|]; [lra|]. apply Sx; lia. Qed.
Lemma mono_y i k : 0 <= i <= k -> k < n -> (nthZ 0 y i <= nthZ 0 y k)%R.
Proof. intros Hi Hk. destruct (Z.eq_dec i k) as [->|]; [lra|]. apply Sy; lia. Qed.
Lemma hits_all fuel : forall i yj k, 0 <= i -> i + Z.of_nat fuel <= m -> i <= k < i + Z.of_nat fuel -> close eps (nthZ 0%R x k) yj -> In k (hits eps fuel x i yj).
Proof.
  induction fuel as [|f IH]; intros i yj k Hi Hf Hk Hc; [lia|]. cbn [hits]. rewrite (zget_nthZ 0%R) by lia.
  destruct (near eps (nthZ 0%R x i) yj) eqn:En.
  - destruct (Z.eq_dec k i) as [->|]; [now left|]. right. apply IH; auto; lia.
  - assert (Hne : ~ close eps (nthZ 0%R x i) yj) by (intros H; apply near_close in H; congruence).
    destruct (Z.eq_dec k i) as [->|]; [contradiction|].
    destruct (ltb yj (nthZ 0%R x i)) eqn:El.
    + exfalso. cbn in El. unfold R_ltb in El. destruct (Rlt_dec _ _) in El; [|discriminate].
      apply (apart_up eps (nthZ 0%R x i) (nthZ 0%R x k) yj) in Hne; auto. apply mono_x; lia.
    + apply IH; auto; lia.
Qed.
Lemma hits_before fuel : forall i yj a l k, 0 <= i -> i + Z.of_nat fuel <= m -> hits eps fuel x i yj = a :: l -> i <= k < a -> ~ close eps (nthZ 0%R x k) yj /\ (nthZ 0 x k <= yj)%R.
Proof.
  induction fuel as [|f IH]; intros i yj a l k Hi Hf Hh Hk; cbn [hits] in Hh; [discriminate|]. rewrite (zget_nthZ 0%R) in Hh by lia.
  destruct (near eps (nthZ 0%R x i) yj) eqn:En; [injection Hh as <- <-; lia|].
  destruct (ltb yj (nthZ 0%R x i)) eqn:El; [discriminate|].
  destruct (Z.eq_dec k i) as [->|].
  - split; [intros H; apply near_close in H; congruence|]. cbn in El. unfold R_ltb in El. destruct (Rlt_dec _ _) in El; [discriminate|]. lra.
  - apply (IH (i + 1) yj a l k); auto; lia.
Qed.
Let L k := snd (pairs eps (Z.to_nat k) m x y).
Let is k := fst (pairs eps (Z.to_nat k) m x y).
Lemma pairs_all d : 0 <= d -> d <= n ->
  (forall i j', 0 <= i < is d -> d <= j' < n -> ~ close eps (nthZ 0%R x i) (nthZ 0%R y j')) /\
  (forall i j, 0 <= i < m -> 0 <= j < d -> close eps (nthZ 0%R x i) (nthZ 0%R y j) -> In (i, j) (L d)).
Proof.
  intros Hd. pattern d. apply natlike_ind; auto.
  - intros _. split; intros i j' H1 H2; [change (is 0) with 0 in H1|]; clear - H1 H2; lia.
  - intros e He IH Hb. destruct (IH ltac:(clear - Hb; lia)) as [I1 I2]. unfold Z.succ in *.
    destruct (pairs_step eps m n x y Hm Hn e ltac:(lia)) as (yj & Ey & Hi & E1 & E2). fold (is e) (is (e + 1)) (L e) (L (e + 1)) in *.
    pose proof (nthZ_zget 0%R _ _ _ Ey) as Hy. rewrite E1, E2. split.
    + intros i j' Hi' Hj'. destruct (Z_lt_dec i (is e)) as [Hl|Hl]; [apply I1; clear - Hl Hi' Hj'; lia|].
      destruct (hits eps (Z.to_nat (m - is e)) x (is e) yj) as [|a l] eqn:Eh; cbn [first_or] in Hi'; [lia|].
      destruct (hits_before (Z.to_nat (m - is e)) (is e) yj a l i ltac:(lia) ltac:(lia) Eh ltac:(lia)) as [N1 N2].
      apply (apart_right eps _ yj); auto. rewrite <- Hy. apply mono_y; lia.
    + intros i j Hi' Hj Hc. apply in_or_app. destruct (Z.eq_dec j e) as [->|]; [|left; apply I2; auto; lia]. right.
      apply in_map_iff. exists i. split; auto. destruct (Z_lt_dec i (is e)) as [Hl|Hl]; [exfalso; apply (I1 i e); auto; lia|].
      apply hits_all; try lia. now rewrite <- Hy.
Qed.
End Reals.

Lemma C31_exactly_proof : forall eps m x n y p q, (eps <= 1)%R -> 0 <= m <= zlen x -> 0 <= n <= zlen y ->
  nondecreasing x 0 (m - 1) -> nondecreasing y 0 (n - 1) ->
  exists c, count_intersections eps m x n y = Some c /\ (c <= zlen p -> c <= zlen q ->
    exists p' q', produce_intersection_indices eps m x n y p q = Some (p', q') /\
    forall i j, 0 <= i < m -> 0 <= j < n ->
      ((exists k, 0 <= k < c /\ nthZ 0 p' k = i /\ nthZ 0 q' k = j) <-> close eps (nthZ 0%R x i) (nthZ 0%R y j))).
Proof.
  intros eps m x n y p q He Hm Hn Sx Sy. exists (zlen (snd (pairs eps (Z.to_nat n) m x y))). split; [now apply count_spec|].
  set (L := snd _). intros Hp Hq.
  destruct (produce_spec eps m n x y Hm Hn p q Hp Hq) as (p' & q' & E & (L1 & G1 & O1) & (L2 & G2 & O2)). fold L in G1, O1, G2, O2.
  exists p', q'. split; auto. rewrite zlen_map_fst in *.
  assert (G : forall k, 0 <= k < zlen L -> exists a b, zget L k = Some (a, b) /\ nthZ 0 p' k = a /\ nthZ 0 q' k = b).
  { intros k Hk. destruct (zget_ex L k Hk) as [[a b] E3]. exists a, b. split; auto.
    specialize (G1 k Hk). specialize (G2 k Hk). cbn [Z.add] in G1, G2. rewrite zget_map, E3 in G1, G2. cbn in G1, G2. split; now apply nthZ_zget. }
  intros i j Hi Hj. split.
  - intros (k & Hk & <- & <-). destruct (G k Hk) as (a & b & E3 & -> & ->).
    assert (Hin : In (a, b) L) by (unfold zget in E3; destruct (k <? 0); [discriminate|]; eapply nth_error_In; eauto).
    apply (L_in eps m n x y Hm Hn n ltac:(lia)) in Hin. destruct Hin as (_ & _ & xi & yj & Ex & Ey & En).
    rewrite (nthZ_zget 0%R _ _ _ Ex), (nthZ_zget 0%R _ _ _ Ey). now apply near_close.
  - intros Hc. destruct (pairs_all eps m n x y He Hm Hn Sx Sy n ltac:(lia) ltac:(lia)) as [_ H]. specialize (H i j Hi Hj Hc). fold L in H.
    apply In_nth_error in H. destruct H as [k Hk]. assert (Hz : zget L (Z.of_nat k) = Some (i, j)) by (unfold zget; replace (Z.of_nat k <? 0) with false by lia; now rewrite Nat2Z.id).
    pose proof (zget_range _ _ _ Hz) as Hr. exists (Z.of_nat k). split; auto. destruct (G _ Hr) as (a & b & E3 & Ha & Hb). rewrite Hz in E3. injection E3 as <- <-. auto.
Qed.
