(** * Proofs: quicksort and binary search *)
From Coq Require Import ZArith List Lia Bool ZifyBool ZifyNat.
From Verif Require Import Arith Base BaseFacts MSort SpecSort PPerm.
Import ListNotations.
Open Scope Z_scope.

Definition tr (i j k : Z) : Z := if k =? i then j else if k =? j then i else k.
Lemma tr_tr i j k : tr i j (tr i j k) = k.
Proof.
  unfold tr. destruct (Z.eqb_spec k i); [subst|].
  - destruct (Z.eqb_spec j i); [auto|]. now rewrite Z.eqb_refl.
  - destruct (Z.eqb_spec k j); [subst; now rewrite Z.eqb_refl|]. replace (k =? i) with false by lia. now replace (k =? j) with false by lia.
Qed.
Lemma permutes_tr lo hi i j : lo <= i <= hi -> lo <= j <= hi -> permutes lo hi (tr i j) (tr i j).
Proof.
  intros Hi Hj. split; [intros; apply tr_tr|]. split; [intros; apply tr_tr|]. unfold tr.
  split; intros k Hk; destruct (Z.eqb_spec k i), (Z.eqb_spec k j); lia.
Qed.
Lemma permutes_id lo hi : permutes lo hi (fun k => k) (fun k => k).
Proof. repeat split; auto; lia. Qed.
Lemma permutes_comp lo hi s1 t1 s2 t2 : permutes lo hi s1 t1 -> permutes lo hi s2 t2 -> permutes lo hi (fun k => s1 (s2 k)) (fun k => t2 (t1 k)).
Proof.
  intros (A1 & A2 & A3 & A4) (B1 & B2 & B3 & B4). split; [|split; [|split]]; intros k; intros.
  - now rewrite B1, A1.
  - now rewrite A2, B2.
  - auto.
  - now rewrite B4, A4.
Qed.
Lemma permutes_widen lo hi lo' hi' s t : lo' <= lo -> hi <= hi' -> permutes lo hi s t -> permutes lo' hi' s t.
Proof.
  intros H1 H2 (A1 & A2 & A3 & A4). split; [auto|]. split; [auto|]. split; intros k Hk.
  - assert (C : (k < lo \/ hi < k) \/ lo <= k <= hi) by lia. destruct C as [C|C]; [rewrite A4; auto|]. specialize (A3 k C). lia.
  - apply A4. lia.
Qed.
Lemma rearr_comp {F} s1 s2 (a b c : list F) : rearranged s1 a b -> rearranged s2 b c -> rearranged (fun k => s1 (s2 k)) a c.
Proof. intros (L1 & V1) (L2 & V2). split; [lia|]. intros k. now rewrite V2, V1. Qed.
Lemma rearr_id {F} (a : list F) : rearranged (fun k => k) a a.
Proof. split; auto. Qed.
Lemma swap_rearr {F} (a : list F) i j : 0 <= i < zlen a -> 0 <= j < zlen a -> exists a', swap a i j = Some a' /\ rearranged (tr i j) a a'.
Proof.
  intros Hi Hj. destruct (swap_val a i j Hi Hj) as (a' & E & L & V). exists a'. split; auto. split; auto.
  intros k. rewrite V. unfold tr. destruct (k =? i), (k =? j); auto.
Qed.

Section Q.
Context {F : Type}.
Variable by_ : F -> F -> bool.
Hypothesis asym : asymmetric by_.
Lemma irr x : by_ x x = false.
Proof. destruct (by_ x x) eqn:E; auto. pose proof (asym x x E). congruence. Qed.

Notation st := (sortst F).
Definition rel (sg : Z -> Z) (s s' : st) : Prop :=
  rearranged sg (so_a s) (so_a s') /\ Forall2 (rearranged sg) (so_bs s) (so_bs s') /\ rearranged sg (so_p s) (so_p s').
Definition wide (hi : Z) (s : st) : Prop := hi < zlen (so_a s) /\ Forall (fun b => hi < zlen b) (so_bs s) /\ hi < zlen (so_p s).
Definition reach lo hi s s' : Prop := exists sg tau, permutes lo hi sg tau /\ rel sg s s'.
Lemma F2_refl bs : Forall2 (rearranged (F := F) (fun k => k)) bs bs.
Proof. induction bs; constructor; auto. apply rearr_id. Qed.
Lemma F2_comp s1 s2 (x y z : list (list F)) : Forall2 (rearranged s1) x y -> Forall2 (rearranged s2) y z -> Forall2 (rearranged (fun k => s1 (s2 k))) x z.
Proof.
  intros H. revert z. induction H; intros z Hz; inversion Hz; subst; constructor; auto. eapply rearr_comp; eauto.
Qed.
Lemma reach_refl lo hi s : reach lo hi s s.
Proof. exists (fun k => k), (fun k => k). split; [apply permutes_id|]. split; [apply rearr_id|]. split; [apply F2_refl|apply rearr_id]. Qed.
Lemma reach_trans lo hi s1 s2 s3 : reach lo hi s1 s2 -> reach lo hi s2 s3 -> reach lo hi s1 s3.
Proof.
  intros (g1 & t1 & P1 & (A1 & B1 & C1)) (g2 & t2 & P2 & (A2 & B2 & C2)).
  exists (fun k => g1 (g2 k)), (fun k => t2 (t1 k)). split; [now apply permutes_comp|].
  split; [eapply rearr_comp; eauto|]. split; [eapply F2_comp; eauto|eapply rearr_comp; eauto].
Qed.
Lemma reach_widen lo hi lo' hi' s s' : lo' <= lo -> hi <= hi' -> reach lo hi s s' -> reach lo' hi' s s'.
Proof. intros H1 H2 (g1 & t1 & P1 & R1). exists g1, t1. split; auto. eapply permutes_widen; eauto. Qed.
Lemma rel_wide sg h s s' : rel sg s s' -> wide h s -> wide h s'.
Proof.
  intros ((A1 & _) & B & (C1 & _)) (H1 & H2 & H3). split; [lia|]. split; [|lia].
  clear -B H2. induction B; inversion H2; subst; constructor; auto. destruct H. lia.
Qed.
Lemma reach_wide lo hi h s s' : reach lo hi s s' -> wide h s -> wide h s'.
Proof. intros (? & ? & _ & R). eapply rel_wide; eauto. Qed.

Lemma swap_bs_val bs i j h : 0 <= i <= h -> 0 <= j <= h -> Forall (fun b => h < zlen b) bs ->
  exists bs', swap_bs (F := F) bs i j = Some bs' /\ Forall2 (rearranged (tr i j)) bs bs'.
Proof.
  intros Hi Hj. induction bs as [|b bs IH]; intros H; cbn [swap_bs]; [eauto|]. inversion H; subst.
  destruct (swap_rearr b i j) as (b' & E & R); try lia. rewrite E. cbn [obind].
  destruct IH as (bs' & E' & R'); auto. rewrite E'. cbn [obind]. eauto.
Qed.
Lemma swap_all_val s lo hi i j : 0 <= lo -> lo <= i <= hi -> lo <= j <= hi -> wide hi s ->
  exists s', swap_all s i j = Some s' /\ rel (tr i j) s s' /\ reach lo hi s s'.
Proof.
  intros H0 Hi Hj (W1 & W2 & W3). unfold swap_all.
  destruct (swap_rearr (so_a s) i j) as (a' & E & R); try lia. rewrite E. cbn [obind].
  destruct (swap_bs_val (so_bs s) i j hi) as (bs' & E' & R'); auto; try lia. rewrite E'. cbn [obind].
  destruct (swap_rearr (so_p s) i j) as (p' & E2 & R2); try lia. rewrite E2. cbn [obind].
  eexists; split; [reflexivity|]. assert (RR : rel (tr i j) s (SortSt a' bs' p')) by (split; [|split]; auto).
  split; auto. exists (tr i j), (tr i j). split; auto. now apply permutes_tr.
Qed.
Lemma get_wide s h k : wide h s -> 0 <= k <= h -> exists u, zget (so_a s) k = Some u.
Proof. intros (W & _) Hk. apply zget_ex. lia. Qed.

Lemma swap_if_val s lo hi x y : 0 <= lo -> lo <= x <= hi -> lo <= y <= hi -> wide hi s ->
  exists s' u v, zget (so_a s) x = Some u /\ zget (so_a s) y = Some v /\ (forall i j, (i = x /\ j = y) \/ (i = y /\ j = x) -> swap_if by_ x y i j s = Some s') /\ reach lo hi s s' /\
    (if by_ u v then zget (so_a s') x = Some v /\ zget (so_a s') y = Some u else s' = s).
Proof.
  intros H0 Hx Hy W. destruct (get_wide s hi x W) as (u & Eu); [lia|]. destruct (get_wide s hi y W) as (v & Ev); [lia|].
  destruct (by_ u v) eqn:B.
  - destruct (swap_all_val s lo hi x y H0 Hx Hy W) as (s' & E & R & RR).
    destruct (swap_all_val s lo hi y x H0 Hy Hx W) as (s2 & E2 & R2 & RR2).
    assert (Es : s2 = s').
    { destruct s as [a bs p], s' as [a1 bs1 p1], s2 as [a2 bs2 p2]. destruct R as ((_ & A) & B1 & (_ & C)). destruct R2 as ((_ & A2) & B2 & (_ & C2)). cbn in *.
      assert (T : forall k, tr x y k = tr y x k) by (intros k; unfold tr; destruct (Z.eqb_spec k x), (Z.eqb_spec k y); congruence).
      f_equal.
      - apply zget_ext. intros k. now rewrite A, A2, T.
      - clear -B1 B2 T. revert bs2 B2. induction B1; intros bs2 B2; inversion B2; subst; auto. f_equal; auto.
        apply zget_ext. intros k. repeat match goal with R : rearranged _ _ _ |- _ => destruct R as (_ & R); rewrite R end. now rewrite T.
      - apply zget_ext. intros k. now rewrite C, C2, T. }
    subst s2. exists s', u, v. split; [auto|]. split; [auto|]. split; [|split; [auto|]].
    + intros i j [(-> & ->)|(-> & ->)]; unfold swap_if; rewrite Eu, Ev; cbn [obind]; rewrite B; auto.
    + destruct R as ((_ & A) & _). rewrite B. rewrite !A. unfold tr. rewrite Z.eqb_refl. split; auto. destruct (Z.eqb_spec y x); [congruence|]. now rewrite Z.eqb_refl.
  - exists s, u, v. split; [auto|]. split; [auto|]. split; [|split; [apply reach_refl|now rewrite B]].
    intros i j _. unfold swap_if. rewrite Eu, Ev. cbn [obind]. now rewrite B.
Qed.

Lemma selectpivot_val s lo hi : 0 <= lo -> lo < hi -> wide hi s ->
  exists s' v m, selectpivot by_ s lo hi = Some (s', v) /\ reach lo hi s s' /\ zget (so_a s') hi = Some v /\ zget (so_a s') ((lo + hi) / 2) = Some m /\ by_ m v = false.
Proof.
  intros H0 Hl W. unfold selectpivot. set (mid := (lo + hi) / 2). assert (Hm : lo <= mid < hi) by (unfold mid; lia).
  destruct (swap_if_val s lo hi mid lo) as (s1 & u1 & v1 & _ & _ & E1 & R1 & _); auto; try lia. rewrite E1 by auto. cbn [obind].
  assert (W1 : wide hi s1) by (eapply reach_wide; eauto).
  destruct (swap_if_val s1 lo hi hi lo) as (s2 & u2 & v2 & _ & _ & E2 & R2 & _); auto; try lia. rewrite E2 by auto. cbn [obind].
  assert (W2 : wide hi s2) by (eapply reach_wide; eauto).
  destruct (swap_if_val s2 lo hi mid hi) as (s3 & u3 & v3 & G1 & G2 & E3 & R3 & B3); auto; try lia. rewrite E3 by auto. cbn [obind].
  assert (RR : reach lo hi s s3) by (eapply reach_trans; [exact R1|]; eapply reach_trans; eauto).
  destruct (by_ u3 v3) eqn:B.
  - destruct B3 as (A1 & A2). rewrite A2. cbn [obind]. exists s3, u3, v3. do 4 (split; [auto|]). now apply asym.
  - subst s3. rewrite G2. cbn [obind]. exists s2, v3, u3. do 4 (split; [auto|]). auto.
Qed.

Lemma scan_up_val a pivot : forall fuel i t, -1 <= i -> i < t < zlen a -> (exists u, zget a t = Some u /\ by_ u pivot = false) -> t - i <= Z.of_nat fuel ->
  exists i', scan_up by_ fuel a pivot i = Some i' /\ i < i' <= t /\ (forall k u, i < k < i' -> zget a k = Some u -> by_ u pivot = true) /\
    exists u, zget a i' = Some u /\ by_ u pivot = false.
Proof.
  induction fuel as [|fuel IH]; intros i t Hi Ht (u & Eu & Bu) Hf; [lia|]. cbn [scan_up].
  destruct (zget_ex a (i + 1)) as (w & Ew); [lia|]. rewrite Ew. cbn [obind]. destruct (by_ w pivot) eqn:Bw.
  - assert (i + 1 <> t) by congruence. destruct (IH (i + 1) t) as (i' & E & R & A & B); eauto; try lia. exists i'. split; auto. split; [lia|]. split; auto.
    intros k v Hk Ev. destruct (Z.eq_dec k (i + 1)); [congruence|]. apply (A k); auto. lia.
  - exists (i + 1). split; auto. split; [lia|]. split; [intros; lia|eauto].
Qed.
Lemma scan_dn_val a pivot : forall fuel j t, j <= zlen a -> 0 <= t < j -> (exists u, zget a t = Some u /\ by_ pivot u = false) -> j - t <= Z.of_nat fuel ->
  exists j', scan_dn by_ fuel a pivot j = Some j' /\ t <= j' < j /\ (forall k u, j' < k < j -> zget a k = Some u -> by_ pivot u = true) /\
    exists u, zget a j' = Some u /\ by_ pivot u = false.
Proof.
  induction fuel as [|fuel IH]; intros j t Hj Ht (u & Eu & Bu) Hf; [lia|]. cbn [scan_dn].
  destruct (zget_ex a (j - 1)) as (w & Ew); [lia|]. rewrite Ew. cbn [obind]. destruct (by_ pivot w) eqn:Bw.
  - assert (j - 1 <> t) by congruence. destruct (IH (j - 1) t) as (i' & E & R & A & B); eauto; try lia. exists i'. split; auto. split; [lia|]. split; auto.
    intros k v Hk Ev. destruct (Z.eq_dec k (j - 1)); [congruence|]. apply (A k); auto. lia.
  - exists (j - 1). split; auto. split; [lia|]. split; [intros; lia|eauto].
Qed.

Definition left_ok (s : st) pivot lo i := forall k u, lo <= k <= i -> zget (so_a s) k = Some u -> by_ pivot u = false.
Definition right_ok (s : st) pivot j hi := forall k u, j <= k <= hi -> zget (so_a s) k = Some u -> by_ u pivot = false.

(** one exchange of the partition loop *)
Lemma exchange s pivot lo hi i j i1 j1 s' : 0 <= lo -> wide hi s -> lo - 1 <= i -> j <= hi + 1 -> i < i1 -> j1 < j -> i1 < j1 ->
  left_ok s pivot lo i -> right_ok s pivot j hi ->
  (forall k u, i < k < i1 -> zget (so_a s) k = Some u -> by_ u pivot = true) ->
  (forall k u, j1 < k < j -> zget (so_a s) k = Some u -> by_ pivot u = true) ->
  (exists u, zget (so_a s) i1 = Some u /\ by_ u pivot = false) -> (exists u, zget (so_a s) j1 = Some u /\ by_ pivot u = false) ->
  rel (tr i1 j1) s s' ->
  left_ok s' pivot lo i1 /\ right_ok s' pivot j1 hi /\
  (exists u, zget (so_a s') j1 = Some u /\ by_ u pivot = false) /\ (exists u, zget (so_a s') i1 = Some u /\ by_ pivot u = false).
Proof.
  intros H0 W Hi Hj Hi1 Hj1 Hij HL HR U D (u & Eu & Bu) (v & Ev & Bv) ((_ & V) & _).
  assert (Gi : zget (so_a s') i1 = Some v) by (rewrite V; unfold tr; now rewrite Z.eqb_refl).
  assert (Gj : zget (so_a s') j1 = Some u) by (rewrite V; unfold tr; replace (j1 =? i1) with false by lia; now rewrite Z.eqb_refl).
  assert (G : forall k, k <> i1 -> k <> j1 -> zget (so_a s') k = zget (so_a s) k).
  { intros k N1 N2. rewrite V. unfold tr. replace (k =? i1) with false by lia. now replace (k =? j1) with false by lia. }
  split; [|split; [|split; eauto]].
  - intros k w Hk Ew. destruct (Z.eq_dec k i1) as [->|N]; [congruence|]. rewrite G in Ew by lia. destruct (Z_le_gt_dec k i); [apply (HL k); auto; lia|].
    apply asym. apply (U k); auto. lia.
  - intros k w Hk Ew. destruct (Z.eq_dec k j1) as [->|N]; [congruence|]. rewrite G in Ew by lia. destruct (Z_le_gt_dec j k); [apply (HR k); auto; lia|].
    apply asym. apply (D k); auto. lia.
Qed.

Lemma part_loop_val pivot lo hi : 0 <= lo -> forall fuel s i j, wide hi s -> lo - 1 <= i -> i < j -> j <= hi + 1 ->
  left_ok s pivot lo i -> right_ok s pivot j hi ->
  (exists t u, i < t <= hi /\ zget (so_a s) t = Some u /\ by_ u pivot = false) ->
  (exists t u, lo <= t < j /\ zget (so_a s) t = Some u /\ by_ pivot u = false) ->
  j - i <= Z.of_nat fuel ->
  exists s' m, part_loop by_ fuel s pivot i j = Some (s', m) /\ reach lo hi s s' /\ lo <= m < j /\ left_ok s' pivot lo m /\ right_ok s' pivot (m + 1) hi.
Proof.
  intros H0. induction fuel as [|fuel IH]; intros s i j W Hi Hij Hj HL HR (t & u & Ht & Et & Bt) (t' & u' & Ht' & Et' & Bt') Hf; [lia|]. cbn [part_loop].
  pose proof W as (WA & _). unfold zlen in WA.
  destruct (scan_up_val (so_a s) pivot (length (so_a s) + 1) i t) as (i1 & E1 & R1 & U1 & B1); eauto; try (unfold zlen; lia). rewrite E1. cbn [obind].
  destruct (scan_dn_val (so_a s) pivot (length (so_a s) + 1) j t') as (j1 & E2 & R2 & U2 & B2); eauto; try (unfold zlen; lia). rewrite E2. cbn [obind].
  destruct (Z.leb_spec j1 i1).
  - exists s, j1. split; auto. split; [apply reach_refl|]. split; [lia|]. split.
    + intros k w Hk Ew. destruct (Z_le_gt_dec k i); [apply (HL k); auto; lia|]. destruct (Z_lt_dec k i1); [apply asym, (U1 k); auto; lia|].
      assert (k = j1) by lia. subst k. destruct B2 as (w' & Ew' & Bw'). congruence.
    + intros k w Hk Ew. destruct (Z_le_gt_dec j k); [apply (HR k); auto; lia|]. apply asym, (U2 k); auto. lia.
  - destruct (swap_all_val s lo hi i1 j1) as (s1 & E3 & R3 & RR3); auto; try lia. rewrite E3. cbn [obind].
    destruct (exchange s pivot lo hi i j i1 j1 s1) as (L1 & RR1 & (w1 & G1 & B3) & (w2 & G2 & B4)); auto; try lia.
    destruct (IH s1 i1 j1) as (s' & m & E & RE & RM & LM & RM'); auto; try lia.
    + eapply rel_wide; eauto.
    + exists j1, w1. repeat split; auto; lia.
    + exists i1, w2. repeat split; auto; lia.
    + exists s', m. split; auto. split; [eapply reach_trans; eauto|]. split; [lia|]. auto.
Qed.

Lemma partition_val s lo hi : 0 <= lo -> lo < hi -> wide hi s ->
  exists s' m pivot, partition_ by_ s lo hi = Some (s', m) /\ reach lo hi s s' /\ lo <= m < hi /\ left_ok s' pivot lo m /\ right_ok s' pivot (m + 1) hi.
Proof.
  intros H0 Hl W. unfold partition_. destruct (selectpivot_val s lo hi H0 Hl W) as (s1 & v & m & E & R & Gh & Gm & B). rewrite E. cbn [obind].
  assert (W1 : wide hi s1) by (eapply reach_wide; eauto).
  set (mid := (lo + hi) / 2) in *. assert (Hm : lo <= mid < hi) by (unfold mid; lia).
  replace (Z.to_nat (hi - lo + 2)) with (S (Z.to_nat (hi - lo + 1))) by lia. cbn [part_loop].
  pose proof W1 as (WA & _). unfold zlen in WA.
  destruct (scan_up_val (so_a s1) v (length (so_a s1) + 1) (lo - 1) mid) as (i1 & E1 & R1 & U1 & B1); eauto; try (unfold zlen; lia). rewrite E1. cbn [obind].
  destruct (scan_dn_val (so_a s1) v (length (so_a s1) + 1) (hi + 1) hi) as (j1 & E2 & R2 & U2 & B2); try (unfold zlen; lia).
  { exists v. split; auto. apply irr. }
  rewrite E2. cbn [obind]. assert (j1 = hi) by lia. subst j1. replace (hi <=? i1) with false by lia.
  destruct (swap_all_val s1 lo hi i1 hi) as (s2 & E3 & R3 & RR3); auto; try lia. rewrite E3. cbn [obind].
  destruct (exchange s1 v lo hi (lo - 1) (hi + 1) i1 hi s2) as (L1 & RR1 & (w1 & G1 & B3) & (w2 & G2 & B4)); auto; try lia.
  { intros k u Hk; lia. } { intros k u Hk; lia. }
  destruct (part_loop_val v lo hi H0 (Z.to_nat (hi - lo + 1)) s2 i1 hi) as (s' & m' & E' & RE & RM & LM & RM'); auto; try lia.
  - eapply rel_wide; eauto.
  - exists hi, w1. repeat split; auto; lia.
  - exists i1, w2. repeat split; auto; lia.
  - exists s', m', v. split; auto. split; [|auto]. eapply reach_trans; [exact R|]. eapply reach_trans; eauto.
Qed.

Lemma sorted_trivial s lo hi : hi <= lo -> sorted_by by_ (so_a (F:=F) s) lo hi.
Proof. intros H i j x y Hi Hij Hj. lia. Qed.

Lemma quicksort_val : forall fuel s lo hi, 0 <= lo -> wide hi s -> 1 <= Z.of_nat fuel -> hi - lo + 1 <= Z.of_nat fuel ->
  exists s', quicksort by_ fuel s lo hi = Some s' /\ reach lo hi s s' /\ (strict_weak by_ -> sorted_by by_ (so_a s') lo hi).
Proof.
  induction fuel as [|fuel IH]; intros s lo hi H0 W Hf1 Hf; [lia|]. cbn [quicksort].
  destruct (Z.ltb_spec lo hi) as [Hl|Hl].
  2:{ exists s. split; auto. split; [apply reach_refl|]. intros _. now apply sorted_trivial. }
  destruct (partition_val s lo hi H0 Hl W) as (s1 & m & pivot & E & R & Hm & L1 & R1). rewrite E. cbn [obind].
  assert (W1 : wide hi s1) by (eapply reach_wide; eauto).
  destruct (IH s1 lo m) as (s2 & E2 & RR2 & S2); auto; try lia. { destruct W1 as (A & B & C). split; [lia|]. split; [|lia]. eapply Forall_impl; [|exact B]. cbv beta. intros; lia. }
  rewrite E2. cbn [obind]. assert (W2 : wide hi s2) by (eapply reach_wide; eauto).
  destruct (IH s2 (m + 1) hi) as (s3 & E3 & RR3 & S3); auto; try lia. rewrite E3. exists s3. split; auto. split.
  - eapply reach_trans; [exact R|]. eapply reach_trans; [eapply reach_widen; [| |exact RR2]|eapply reach_widen; [| |exact RR3]]; lia.
  - intros SW. specialize (S2 SW). specialize (S3 SW).
    destruct RR2 as (g2 & t2 & (P21 & P22 & P23 & P24) & ((_ & V2) & _)). destruct RR3 as (g3 & t3 & (P31 & P32 & P33 & P34) & ((_ & V3) & _)).
    intros i j x y Hi Hij Hj Ex Ey. destruct (Z_le_gt_dec j m) as [Hjm|Hjm].
    + rewrite V3, P34 in Ex, Ey by lia. apply (S2 i j); auto.
    + destruct (Z_le_gt_dec i m) as [Him|Him].
      * rewrite V3, P34, V2 in Ex by lia. rewrite V3, V2, P24 in Ey by (specialize (P33 j); lia).
        assert (Bx : by_ pivot x = false) by (apply (L1 (g2 i)); auto; apply P23; lia).
        assert (By : by_ y pivot = false) by (apply (R1 (g3 j)); auto; apply P33; lia).
        destruct (by_ y x) eqn:C; auto. destruct SW as (_ & SW). destruct (SW y x pivot C); congruence.
      * apply (S3 i j); auto; lia.
Qed.
End Q.
