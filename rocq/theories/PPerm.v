(** * Proofs: perm *)
From Coq Require Import ZArith List Lia Bool ZifyBool ZifyNat.
From Verif Require Import Arith Base BaseFacts MSort SpecSort.
Import ListNotations.
Open Scope Z_scope.

Lemma swap_val {F} (a : list F) i j : 0 <= i < zlen a -> 0 <= j < zlen a ->
  exists a', swap a i j = Some a' /\ zlen a' = zlen a /\
    forall k, zget a' k = if k =? i then zget a j else if k =? j then zget a i else zget a k.
Proof.
  intros Hi Hj. unfold swap. destruct (zget_ex a i Hi) as (u & Eu). destruct (zget_ex a j Hj) as (v & Ev).
  rewrite Eu, Ev. cbn [obind]. rewrite zset_some by auto. cbn [obind]. rewrite zset_some by (rewrite zlen_zupd; auto).
  eexists; split; [reflexivity|]. split; [now rewrite !zlen_zupd|]. intros k. rewrite !zget_zupd by (rewrite ?zlen_zupd; auto).
  rewrite (Z.eqb_sym j k), (Z.eqb_sym i k). destruct (Z.eqb_spec k i), (Z.eqb_spec k j); subst; auto; congruence.
Qed.

Fixpoint negl (p : list Z) : nat := match p with [] => O | z :: t => ((if Z.ltb z 0 then 1 else 0) + negl t)%nat end.
Lemma negl_le p : (negl p <= length p)%nat.
Proof. induction p as [|z t]; cbn; [lia|]. destruct (z <? 0); lia. Qed.
Lemma negl_upd p i v z : nth_error p i = Some z -> z < 0 -> 0 <= v -> S (negl (upd p i v)) = negl p.
Proof.
  revert i. induction p as [|h t IH]; intros [|i] H Hz Hv; cbn in *; try discriminate.
  - injection H as ->. replace (v <? 0) with false by lia. now replace (z <? 0) with true by lia.
  - rewrite <- (IH i) by auto. lia.
Qed.
Lemma firstn_upd {A} (p : list A) m i v : firstn m (upd p i v) = upd (firstn m p) i v.
Proof. revert m i. induction p; intros [|m] [|i]; cbn; auto. now rewrite IHp. Qed.
Lemma nth_error_firstn {A} (p : list A) m i : (i < m)%nat -> nth_error (firstn m p) i = nth_error p i.
Proof. revert m i. induction p; intros [|m] [|i] H; cbn; auto; try lia. apply IHp. lia. Qed.
(** the number of negative entries among the first [n] *)
Definition negs (n : Z) (p : list Z) : nat := negl (firstn (Z.to_nat n) p).
Lemma negs_zupd n p i v : 0 <= i < n -> i < zlen p -> nthZ 0 p i < 0 -> 0 <= v -> S (negs n (zupd p i v)) = negs n p.
Proof.
  intros Hi Hl H Hv. unfold negs, zupd. replace (i <? 0) with false by lia. unfold nthZ, zget in H. replace (i <? 0) with false in H by lia.
  destruct (nth_error p (Z.to_nat i)) as [z|] eqn:E; [|lia]. rewrite firstn_upd. eapply negl_upd; eauto. rewrite nth_error_firstn by lia. auto.
Qed.
Lemma negs_le n p : (negs n p <= Z.to_nat n)%nat.
Proof. unfold negs. pose proof (negl_le (firstn (Z.to_nat n) p)). pose proof (firstn_le_length (Z.to_nat n) p). lia. Qed.

Section P.
Context {F : Type}.
Variables (n : Z) (p0 : list Z).
Hypothesis HP : is_perm n p0.
Let P i := nthZ 0 p0 i.
Let inr k := 0 <= k < n.
Lemma P_range i : inr i -> inr (P i). Proof. apply HP. Qed.
Lemma P_inj i j : inr i -> inr j -> P i = P j -> i = j. Proof. apply HP. Qed.

(** the marked array [p]: entry P k (visited) or P k - n (not yet) *)
Definition marked (p : list Z) : Prop :=
  zlen p = zlen p0 /\ (forall k, inr k -> nthZ 0 p k = P k \/ nthZ 0 p k = P k - n) /\
  (forall k, ~ inr k -> nthZ 0 p k = nthZ 0 p0 k).
Definition vis (p : list Z) k : Prop := inr k /\ 0 <= nthZ 0 p k.
Lemma vis_dec p k : vis p k \/ ~ vis p k.
Proof. unfold vis, inr. lia. Qed.
Lemma vis_val p k : marked p -> vis p k -> nthZ 0 p k = P k.
Proof. intros (_ & H & _) (Hk & V). destruct (H k Hk) as [E|E]; auto. pose proof (P_range k Hk). unfold inr in *. lia. Qed.
Lemma unvis_val p k : marked p -> inr k -> ~ vis p k -> nthZ 0 p k = P k - n.
Proof. intros (_ & H & _) Hk V. destruct (H k Hk) as [E|E]; auto. pose proof (P_range k Hk). unfold vis, inr in *. lia. Qed.
Lemma nlen : n <= zlen p0. Proof. destruct HP as (H & _). lia. Qed.

(** marking one more entry *)
Lemma mark p k : marked p -> inr k -> ~ vis p k ->
  let p' := zupd p k (nthZ 0 p k + n) in
  zset p k (nthZ 0 p k + n) = Some p' /\ marked p' /\ zget p' k = Some (P k) /\ S (negs n p') = negs n p /\ (forall q, vis p' q <-> vis p q \/ q = k).
Proof.
  intros HM Hk HV p'. pose proof (unvis_val p k HM Hk HV) as E. pose proof HM as (L & V & O). pose proof nlen. pose proof (P_range k Hk). unfold inr in *.
  assert (Lk : 0 <= k < zlen p) by lia. split; [apply zset_some; auto|].
  assert (G : forall q, nthZ 0 p' q = if k =? q then P k else nthZ 0 p q).
  { intros q. unfold p'. rewrite nthZ_zupd by auto. destruct (k =? q); lia. }
  split; [|split; [|split]].
  - split; [unfold p'; now rewrite zlen_zupd|]. split; intros q Hq; rewrite G; destruct (Z.eqb_spec k q); subst; auto; lia.
  - rewrite (zget_nthZ 0) by (unfold p'; rewrite zlen_zupd; auto). rewrite G, Z.eqb_refl. reflexivity.
  - apply negs_zupd; auto; lia.
  - intros q. unfold vis, inr in *. rewrite G. destruct (Z.eqb_spec k q); [subst; lia|]. lia.
Qed.

(** V0: the entries visited before the current cycle, closed both ways *)
Variable x0 : list F.
Hypothesis Hx : n <= zlen x0.
Variable p1 : list Z.
Hypothesis HM1 : marked p1.
Hypothesis Hclosed : forall k, inr k -> (vis p1 k <-> vis p1 (P k)).
Variable i : Z.
Hypothesis Hi : inr i.
Hypothesis Hiv : ~ vis p1 i.
Definition new (p : list Z) k := vis p k /\ ~ vis p1 k.
Definition grows (p : list Z) := forall k, vis p1 k -> vis p k.
(** [j]: the entry visited last *)
Definition path (p : list Z) j : Prop :=
  marked p /\ grows p /\ new p i /\ new p j /\
  (forall k, new p k -> k <> j -> new p (P k) /\ P k <> i) /\
  (forall k, new p k -> k <> i -> exists q, new p q /\ q <> j /\ P q = k).
Lemma path_start p : marked p -> (forall q, vis p q <-> vis p1 q \/ q = i) -> path p i.
Proof.
  intros HM Hv. assert (N : forall q, new p q <-> q = i).
  { intros q. unfold new. rewrite Hv. split; [tauto|]. intros ->. tauto. }
  split; [auto|]. split; [intros q Hq; apply Hv; auto|]. split; [now apply N|]. split; [now apply N|].
  split; intros q Hq; apply N in Hq; contradiction.
Qed.
Lemma path_step p p' j : path p j -> inr (P j) -> ~ vis p (P j) -> marked p' -> (forall q, vis p' q <-> vis p q \/ q = P j) -> path p' (P j).
Proof.
  intros (HM & HG & Ni & Nj & H1 & H2) Hr Hn HM' Hv.
  assert (N : forall q, new p' q <-> new p q \/ q = P j).
  { intros q. unfold new. rewrite Hv. split; [tauto|]. intros [A|A]; [tauto|]. split; [tauto|]. intros C. subst. apply Hn. apply HG. auto. }
  assert (NP : ~ new p (P j)) by (intros (A & _); auto).
  assert (Ij : P j <> i) by (intros E; apply NP; rewrite E; auto).
  split; [auto|]. split; [intros q Hq; apply Hv; left; now apply HG|]. split; [apply N; auto|]. split; [apply N; auto|]. split.
  - intros k Hk Hne. apply N in Hk. destruct Hk as [Hk|Hk]; [|contradiction]. destruct (Z.eq_dec k j) as [->|Nk].
    + split; [apply N; auto|auto].
    + destruct (H1 k Hk Nk). split; [apply N; auto|auto].
  - intros k Hk Hne. apply N in Hk. destruct Hk as [Hk| ->].
    + destruct (H2 k Hk Hne) as (q & Q1 & Q2 & Q3). exists q. split; [apply N; auto|]. split; auto. intros ->. auto.
    + exists j. split; [apply N; auto|]. split; [|auto]. intros E. apply NP. rewrite <- E. auto.
Qed.
Lemma path_end p j : path p j -> vis p (P j) -> P j = i.
Proof.
  intros (HM & HG & Ni & Nj & H1 & H2) Hv. destruct (Z.eq_dec (P j) i) as [|Ne]; auto. exfalso.
  assert (Rj : inr j) by apply Nj.
  destruct (vis_dec p1 (P j)) as [V|V].
  - apply Nj. apply Hclosed; auto.
  - destruct (H2 (P j)) as (q & Q1 & Q2 & Q3); [split; auto|auto|]. apply Q2. apply P_inj; auto. apply Q1.
Qed.
Lemma path_closed p j : path p j -> P j = i -> forall k, inr k -> (vis p k <-> vis p (P k)).
Proof.
  intros (HM & HG & Ni & Nj & H1 & H2) Hv k Hk. split; intros V.
  - destruct (vis_dec p1 k) as [V1|V1].
    + apply HG. apply (proj1 (Hclosed k Hk)); auto.
    + destruct (Z.eq_dec k j) as [->|Nk]; [rewrite Hv; apply Ni|]. apply H1; auto. split; auto.
  - destruct (vis_dec p1 (P k)) as [V1|V1].
    + apply HG. apply (proj2 (Hclosed k Hk)); auto.
    + destruct (Z.eq_dec (P k) i) as [Ek|Nk].
      * replace k with j; [apply Nj|]. apply P_inj; auto; [apply Nj|congruence].
      * destruct (H2 (P k)) as (q & Q1 & _ & Q3); [split; auto|auto|]. replace k with q; [apply Q1|]. apply P_inj; auto. apply Q1.
Qed.

(** the data: forward *)
Definition data_n (p : list Z) (x : list F) : Prop :=
  zlen x = zlen x0 /\ (forall k, vis p k -> zget x k = zget x0 (P k)) /\ (forall k, ~ vis p k -> zget x k = zget x0 k).
Definition inner_n (p : list Z) (x : list F) j : Prop :=
  zlen x = zlen x0 /\ (forall k, vis p k -> k <> j -> zget x k = zget x0 (P k)) /\ zget x j = zget x0 i /\ (forall k, ~ vis p k -> zget x k = zget x0 k).
Lemma cycle_n fuel : forall x p j, path p j -> inner_n p x j -> (negs n p < fuel)%nat ->
  exists x' p', perm_cycle_n fuel n x p j (P j) = Some (x', p') /\ marked p' /\ grows p' /\ vis p' i /\
    (forall k, inr k -> (vis p' k <-> vis p' (P k))) /\ data_n p' x'.
Proof.
  induction fuel as [|fuel IH]; intros x p j HP1 HI Hf; [lia|]. cbn [perm_cycle_n].
  pose proof HP1 as (HM & HG & Ni & Nj & H1 & H2). assert (Rj : inr j) by apply Nj. pose proof (P_range j Rj) as Rp. pose proof nlen. pose proof HM as (L & _).
  destruct HI as (Lx & I1 & I2 & I3).
  rewrite (zget_nthZ 0) by (unfold inr in *; lia). cbn [obind].
  destruct (vis_dec p (P j)) as [V|V].
  - replace (nthZ 0 p (P j) <? 0) with false by (destruct V; lia).
    pose proof (path_end p j HP1 V) as Ep. exists x, p. split; [reflexivity|]. split; [auto|]. split; [auto|]. split; [apply Ni|].
    split; [apply (path_closed p j); auto|]. split; [auto|]. split; [|auto].
    intros k Hk. destruct (Z.eq_dec k j) as [->|Nk]; [|auto]. rewrite Ep. auto.
  - replace (nthZ 0 p (P j) <? 0) with true by (unfold vis, inr in *; lia).
    destruct (swap_val x j (P j)) as (x1 & E1 & L1 & V1); try (unfold inr in *; lia). rewrite E1. cbn [obind].
    destruct (mark p (P j) HM Rp V) as (M1 & M2 & M3 & M4 & M5). rewrite M1. cbn [obind]. rewrite M3. cbn [obind].
    apply IH; [apply (path_step p); auto| |lia].
    assert (Njp : j <> P j) by (intros E; apply V; rewrite <- E; apply Nj).
    split; [lia|]. split; [|split].
    + intros k Hk Hne. apply M5 in Hk. destruct Hk as [Hk|Hk]; [|contradiction]. rewrite V1. destruct (Z.eqb_spec k j) as [->|Nk].
      * apply I3. auto.
      * replace (k =? P j) with false by lia. auto.
    + rewrite V1. replace (P j =? j) with false by lia. rewrite Z.eqb_refl. auto.
    + intros k Hk. rewrite V1.
      assert (~ vis p k) by (intros C; apply Hk; apply M5; auto). assert (k <> P j) by (intros ->; apply Hk, M5; auto).
      assert (k <> j) by (intros ->; apply H0; apply Nj).
      replace (k =? j) with false by lia. replace (k =? P j) with false by lia. auto.
Qed.
(** the data: transposed *)
Definition data_t (p : list Z) (x : list F) : Prop :=
  zlen x = zlen x0 /\ (forall k, vis p k -> zget x (P k) = zget x0 k) /\ (forall k, ~ vis p k -> zget x k = zget x0 k).
Definition inner_t (p : list Z) (x : list F) j : Prop :=
  zlen x = zlen x0 /\ (forall k, vis p k -> k <> j -> zget x (P k) = zget x0 k) /\ zget x i = zget x0 j /\ (forall k, ~ vis p k -> zget x k = zget x0 k).
Lemma cycle_t fuel : forall x p j, path p j -> inner_t p x j -> (negs n p < fuel)%nat ->
  exists x' p', perm_cycle_t fuel n x p i (P j) = Some (x', p') /\ marked p' /\ grows p' /\ vis p' i /\
    (forall k, inr k -> (vis p' k <-> vis p' (P k))) /\ data_t p' x'.
Proof.
  induction fuel as [|fuel IH]; intros x p j HP1 HI Hf; [lia|]. cbn [perm_cycle_t].
  pose proof HP1 as (HM & HG & Ni & Nj & H1 & H2). assert (Rj : inr j) by apply Nj. pose proof (P_range j Rj) as Rp. pose proof nlen. pose proof HM as (L & _).
  destruct HI as (Lx & I1 & I2 & I3).
  rewrite (zget_nthZ 0) by (unfold inr in *; lia). cbn [obind].
  destruct (vis_dec p (P j)) as [V|V].
  - replace (nthZ 0 p (P j) <? 0) with false by (destruct V; lia).
    pose proof (path_end p j HP1 V) as Ep. exists x, p. split; [reflexivity|]. split; [auto|]. split; [auto|]. split; [apply Ni|].
    split; [apply (path_closed p j); auto|]. split; [auto|]. split; [|auto].
    intros k Hk. destruct (Z.eq_dec k j) as [->|Nk]; [|auto]. rewrite Ep. auto.
  - replace (nthZ 0 p (P j) <? 0) with true by (unfold vis, inr in *; lia).
    destruct (swap_val x i (P j)) as (x1 & E1 & L1 & V1); try (unfold inr in *; lia). rewrite E1. cbn [obind].
    destruct (mark p (P j) HM Rp V) as (M1 & M2 & M3 & M4 & M5). rewrite M1. cbn [obind]. rewrite M3. cbn [obind].
    apply IH; [apply (path_step p); auto| |lia].
    assert (Nip : P j <> i) by (intros E; apply V; rewrite E; apply Ni).
    split; [lia|]. split; [|split].
    + intros k Hk Hne. apply M5 in Hk. destruct Hk as [Hk|Hk]; [|contradiction]. rewrite V1. destruct (Z.eq_dec k j) as [->|Nk].
      * replace (P j =? i) with false by lia. rewrite Z.eqb_refl. auto.
      * assert (P k <> P j) by (intros E; apply Nk, P_inj; auto; apply Hk).
        assert (P k <> i).
        { intros E. destruct (vis_dec p1 k) as [C|C]; [|apply (H1 k); auto; split; auto]. apply Hclosed in C; [|apply C]. rewrite E in C. contradiction. }
        replace (P k =? i) with false by lia. replace (P k =? P j) with false by lia. auto.
    + rewrite V1. rewrite Z.eqb_refl. auto.
    + intros k Hk. rewrite V1.
      assert (~ vis p k) by (intros C; apply Hk; apply M5; auto). assert (k <> P j) by (intros ->; apply Hk, M5; auto).
      assert (k <> i) by (intros ->; apply H0; apply Ni).
      replace (k =? i) with false by lia. replace (k =? P j) with false by lia. auto.
Qed.
End P.

(** the first loop: p[i] = p[i] - n *)
Lemma negate_loop n p : 0 <= n <= zlen p ->
  exists p', for_up 0 n (fun i p => do pi <- zget p i; zset p i (pi - n)) p = Some p' /\ zlen p' = zlen p /\
    forall k, nthZ 0 p' k = if (0 <=? k) && (k <? n) then nthZ 0 p k - n else nthZ 0 p k.
Proof.
  intros Hn. destruct (for_up_inv (fun i p' => zlen p' = zlen p /\ forall k, nthZ 0 p' k = if (0 <=? k) && (k <? i) then nthZ 0 p k - n else nthZ 0 p k) 0 n
    (fun i p => do pi <- zget p i; zset p i (pi - n)) p) as (p' & E & L & V); eauto.
  - lia.
  - split; auto. intros k. now replace ((0 <=? k) && (k <? 0)) with false by lia.
  - intros i p1 Hi (L1 & V1). rewrite (zget_nthZ 0) by lia. cbn [obind]. rewrite zset_some by lia. eexists; split; [reflexivity|].
    split; [now rewrite zlen_zupd|]. intros k. rewrite nthZ_zupd by lia. rewrite !V1. destruct (Z.eqb_spec i k).
    + subst. replace ((0 <=? k) && (k <? k)) with false by lia. now replace ((0 <=? k) && (k <? k + 1)) with true by lia.
    + now replace (k <? i + 1) with (k <? i) by lia.
Qed.

Lemma perm_proof {F} (t : bool) (x : list F) p n : is_perm n p -> n <= zlen x ->
  exists x', perm t x p n = Some (x', p) /\ zlen x' = zlen x /\
    (forall i, 0 <= i < n -> if t then zget x' (nthZ 0 p i) = zget x i else zget x' i = zget x (nthZ 0 p i)) /\
    (forall k, k < 0 \/ n <= k -> zget x' k = zget x k).
Proof.
  intros HP Hx. pose proof HP as (Hn & HR & HJ). unfold perm.
  destruct (negate_loop n p Hn) as (q & E & L & V). rewrite E. cbn [obind].
  match goal with |- context [for_up 0 n ?bd (x, q)] =>
  destruct (for_up_inv (fun i xp => let '(x', p') := xp in marked n p p' /\ (forall k, 0 <= k < i -> vis n p' k) /\
    (forall k, 0 <= k < n -> (vis n p' k <-> vis n p' (nthZ 0 p k))) /\
    (if t then data_t n p x p' x' else data_n n p x p' x')) 0 n bd (x, q)) as ((x' & p') & E' & HM & HV & HC & HD) end.
  - lia.
  - assert (N : forall k, ~ vis n q k).
    { intros k (Hk & C). rewrite V in C. replace ((0 <=? k) && (k <? n)) with true in C by lia. specialize (HR k Hk). lia. }
    split; [|split; [|split]].
    + split; [auto|]. split; intros k Hk; rewrite V; [replace ((0 <=? k) && (k <? n)) with true by lia; auto|replace ((0 <=? k) && (k <? n)) with false by lia; auto].
    + intros; lia.
    + intros k Hk. split; intros C; exfalso; eapply N; eauto.
    + destruct t; (split; [auto|split; [intros k Hk; exfalso; eapply N; eauto|auto]]).
  - intros i (x1 & p1) Hi (HM & HV & HC & HD). pose proof HM as (L1 & _ & _). rewrite (zget_nthZ 0) by lia. cbn [obind].
    destruct (vis_dec n p p1 i) as [Vi|Vi].
    + replace (0 <=? nthZ 0 p1 i) with true by (destruct Vi; lia). eexists; split; [reflexivity|]. split; [auto|]. split; [|auto].
      intros k Hk. destruct (Z.eq_dec k i) as [->|]; [auto|]. apply HV. lia.
    + replace (0 <=? nthZ 0 p1 i) with false by (unfold vis in *; lia).
      destruct (mark n p HP p1 i HM Hi Vi) as (M1 & M2 & M3 & M4 & M5). rewrite M1. cbn [obind]. rewrite M3. cbn [obind].
      set (p2 := zupd p1 i (nthZ 0 p1 i + n)) in *.
      assert (HP2 : path n p p1 i p2 i) by (apply path_start; auto).
      pose proof (negs_le n p2) as Hf.
      destruct t.
      * destruct HD as (D1 & D2 & D3).
        destruct (cycle_t n p HP x Hx p1 HC i Hi Vi (Z.to_nat n + 1) x1 p2 i) as (x' & p' & E' & A1 & A2 & A3 & A4 & A5); auto; try lia.
        { split; [auto|]. split; [|split].
          - intros k Hk Hne. apply M5 in Hk. destruct Hk as [Hk|Hk]; [|contradiction]. auto.
          - auto.
          - intros k Hk. apply D3. intros C. apply Hk, M5. auto. }
        rewrite E'. eexists; split; [reflexivity|]. split; [auto|]. split; [|auto].
        intros k Hk. destruct (Z.eq_dec k i) as [->|]; [auto|]. apply A2, HV. lia.
      * destruct HD as (D1 & D2 & D3).
        destruct (cycle_n n p HP x Hx p1 HC i Hi (Z.to_nat n + 1) x1 p2 i) as (x' & p' & E' & A1 & A2 & A3 & A4 & A5); auto; try lia.
        { split; [auto|]. split; [|split].
          - intros k Hk Hne. apply M5 in Hk. destruct Hk as [Hk|Hk]; [|contradiction]. auto.
          - auto.
          - intros k Hk. apply D3. intros C. apply Hk, M5. auto. }
        rewrite E'. eexists; split; [reflexivity|]. split; [auto|]. split; [|auto].
        intros k Hk. destruct (Z.eq_dec k i) as [->|]; [auto|]. apply A2, HV. lia.
  - rewrite E'. assert (Ep : p' = p).
    { pose proof HM as (L1 & V1 & O1). apply (nthZ_ext 0); [auto|]. intros k Hk. destruct (Z_lt_dec k n).
      - apply (vis_val n p HP); auto. apply HV. lia.
      - apply O1. lia. }
    exists x'. rewrite Ep in *. split; [reflexivity|]. destruct t; destruct HD as (D1 & D2 & D3); (split; [auto|split]).
    + intros i Hi. apply D2. apply HV. auto.
    + intros k Hk. apply D3. intros (C & _). lia.
    + intros i Hi. apply D2. apply HV. auto.
    + intros k Hk. apply D3. intros (C & _). lia.
Qed.

Lemma NoDup_map_in {A B} (f : A -> B) l : (forall a b, In a l -> In b l -> f a = f b -> a = b) -> NoDup l -> NoDup (map f l).
Proof.
  induction l as [|h tl IH]; intros Hf Hd; cbn; [constructor|]. inversion Hd; subst. constructor.
  - intros C. apply in_map_iff in C. destruct C as (b & E & Hb). apply H1. rewrite (Hf h b); cbn; auto.
  - apply IH; auto. intros. apply Hf; cbn; auto.
Qed.
Lemma perm_inverse_proof {F} (t : bool) (x : list F) p n : is_perm n p -> n <= zlen x ->
  (do xp <- perm t x p n; let '(x, p) := xp in perm (negb t) x p n) = Some (x, p).
Proof.
  intros HP Hx. destruct (perm_proof t x p n HP Hx) as (y & E & L & V & O). rewrite E. cbn [obind].
  destruct (perm_proof (negb t) y p n HP) as (z & E2 & L2 & V2 & O2); [lia|]. rewrite E2. do 2 f_equal.
  destruct HP as (Hn & HR & HJ).
  assert (Surj : forall k, 0 <= k < n -> exists q, 0 <= q < n /\ nthZ 0 p q = k).
  { intros k Hk. set (l := map (fun q => nthZ 0 p (Z.of_nat q)) (seq 0 (Z.to_nat n))). set (r := map Z.of_nat (seq 0 (Z.to_nat n))).
    assert (Hin : In k l).
    { apply (NoDup_length_incl (l := l) (l' := r)).
      - apply NoDup_map_in.
        + intros a b Ha Hb Hab. apply in_seq in Ha, Hb. apply Nat2Z.inj. apply HJ; auto; lia.
        + apply seq_NoDup.
      - unfold l, r. rewrite !map_length. lia.
      - intros z' Hz. apply in_map_iff in Hz. destruct Hz as (q & <- & Hq). apply in_seq in Hq. apply in_map_iff.
        exists (Z.to_nat (nthZ 0 p (Z.of_nat q))). specialize (HR (Z.of_nat q) ltac:(lia)). split; [lia|]. apply in_seq. lia.
      - apply in_map_iff. exists (Z.to_nat k). split; [lia|]. apply in_seq. lia. }
    apply in_map_iff in Hin. destruct Hin as (q & Eq & Hq). apply in_seq in Hq. exists (Z.of_nat q). split; [lia|auto]. }
  apply zget_ext. intros k. destruct (Z_lt_dec k 0); [now rewrite O2, O by lia|]. destruct (Z_lt_dec k n); [|now rewrite O2, O by lia].
  destruct t; cbn [negb] in *.
  - rewrite V2 by lia. apply V. lia.
  - destruct (Surj k) as (q & Hq & <-); [lia|]. rewrite V2 by lia. apply V. lia.
Qed.
