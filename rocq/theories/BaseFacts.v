(** Facts about checked arrays and loops (no modelling content). *)
From Coq Require Import ZArith List Lia Bool Permutation ZifyBool ZifyNat.
From Verif Require Import Base.
Import ListNotations.
Open Scope Z_scope.


Section Arr.
Context {F : Type}.
Implicit Types a b : list F.

Lemma nth_error_ext a b : (forall n, nth_error a n = nth_error b n) -> a = b.
Proof.
  revert b; induction a as [|x a IH]; intros [|y b] H; auto.
  - specialize (H O); discriminate.
  - specialize (H O); discriminate.
  - f_equal. { specialize (H O); cbn in H; congruence. }
    apply IH. intros n. apply (H (Datatypes.S n)).
Qed.

Lemma zlen_nonneg a : 0 <= zlen a. Proof. unfold zlen; lia. Qed.
Lemma zlen_nil : zlen (@nil F) = 0. Proof. reflexivity. Qed.
Lemma zlen_cons x a : zlen (x :: a) = 1 + zlen a. Proof. unfold zlen; cbn [length]; lia. Qed.
Lemma zlen_app a b : zlen (a ++ b) = zlen a + zlen b.
Proof. unfold zlen; rewrite app_length; lia. Qed.

Lemma upd_length a n v : length (upd a n v) = length a.
Proof. revert n; induction a; destruct n; cbn; auto. Qed.
Lemma zlen_upd a n v : zlen (upd a n v) = zlen a.
Proof. unfold zlen; now rewrite upd_length. Qed.
Lemma zlen_zupd a i v : zlen (zupd a i v) = zlen a.
Proof. unfold zupd; destruct (i <? 0); auto using zlen_upd. Qed.

Lemma nth_error_upd a n v m :
  nth_error (upd a n v) m =
  if Nat.eqb n m then (if Nat.ltb m (length a) then Some v else None) else nth_error a m.
Proof.
  revert n m; induction a as [|x a IH]; intros n m.
  - destruct n, m; cbn; try reflexivity. destruct (Nat.eqb n m); reflexivity.
  - destruct n, m; cbn; try reflexivity. rewrite IH. reflexivity.
Qed.

Lemma zset_some a i v : 0 <= i < zlen a -> zset a i v = Some (zupd a i v).
Proof.
  intros H; unfold zset, zupd.
  destruct (0 <=? i) eqn:E1; destruct (i <? zlen a) eqn:E2; try lia.
  destruct (i <? 0) eqn:E3; try lia. reflexivity.
Qed.
Lemma zset_none a i v : ~ 0 <= i < zlen a -> zset a i v = None.
Proof.
  intros H; unfold zset.
  destruct (0 <=? i) eqn:E1; destruct (i <? zlen a) eqn:E2; try reflexivity; lia.
Qed.
Lemma zset_inv a i v a' : zset a i v = Some a' -> 0 <= i < zlen a /\ a' = zupd a i v.
Proof.
  unfold zset, zupd.
  destruct (0 <=? i) eqn:E1; destruct (i <? zlen a) eqn:E2; cbn; try discriminate.
  destruct (i <? 0) eqn:E3; try lia. intros [= <-]. split; [lia|reflexivity].
Qed.

Lemma zget_range a i v : zget a i = Some v -> 0 <= i < zlen a.
Proof.
  unfold zget, zlen; destruct (i <? 0) eqn:E; [discriminate|].
  intros H. assert (nth_error a (Z.to_nat i) <> None) by congruence.
  apply nth_error_Some in H0. lia.
Qed.
Lemma zget_ex a i : 0 <= i < zlen a -> exists v, zget a i = Some v.
Proof.
  intros H. unfold zget. destruct (i <? 0) eqn:E; [lia|].
  destruct (nth_error a (Z.to_nat i)) eqn:E1; eauto.
  apply nth_error_None in E1. unfold zlen in H. lia.
Qed.
Lemma zget_none a i : ~ 0 <= i < zlen a -> zget a i = None.
Proof.
  intros H. destruct (zget a i) eqn:E; auto. apply zget_range in E; contradiction.
Qed.
Lemma zget_none_iff a i : zget a i = None <-> ~ 0 <= i < zlen a.
Proof.
  split; [|apply zget_none]. intros E H. destruct (zget_ex a i H); congruence.
Qed.
Lemma zget_nthZ d a i : 0 <= i < zlen a -> zget a i = Some (nthZ d a i).
Proof. intros H. destruct (zget_ex a i H) as [v E]. unfold nthZ. now rewrite E. Qed.
Lemma nthZ_zget d a i v : zget a i = Some v -> nthZ d a i = v.
Proof. unfold nthZ; now intros ->. Qed.
Lemma nthZ_default d a i : ~ 0 <= i < zlen a -> nthZ d a i = d.
Proof. intros H. unfold nthZ. now rewrite zget_none. Qed.

Lemma zget_zupd a i v j :
  0 <= i < zlen a -> zget (zupd a i v) j = if i =? j then Some v else zget a j.
Proof.
  intros H. unfold zupd, zget.
  destruct (i <? 0) eqn:E; [lia|]. destruct (j <? 0) eqn:E1.
  - destruct (i =? j) eqn:E2; [lia|reflexivity].
  - rewrite nth_error_upd.
    destruct (Nat.eqb (Z.to_nat i) (Z.to_nat j)) eqn:E3.
    + apply Nat.eqb_eq in E3. replace (i =? j) with true by lia.
      replace (Nat.ltb (Z.to_nat j) (length a)) with true; [reflexivity|].
      symmetry. apply Nat.ltb_lt. unfold zlen in H. lia.
    + apply Nat.eqb_neq in E3. replace (i =? j) with false by lia. reflexivity.
Qed.
Lemma zget_zupd_same a i v : 0 <= i < zlen a -> zget (zupd a i v) i = Some v.
Proof. intros H. rewrite zget_zupd by auto. now rewrite Z.eqb_refl. Qed.
Lemma zget_zupd_other a i v j : i <> j -> zget (zupd a i v) j = zget a j.
Proof.
  intros H. destruct (Z_le_dec 0 i) as [H0|H0]; [destruct (Z_lt_dec i (zlen a))|].
  - rewrite zget_zupd by lia. replace (i =? j) with false by lia. reflexivity.
  - unfold zupd. destruct (i <? 0) eqn:E; auto.
    unfold zget. destruct (j <? 0) eqn:E1; auto. rewrite nth_error_upd.
    replace (Nat.eqb (Z.to_nat i) (Z.to_nat j)) with false; auto.
    symmetry. apply Nat.eqb_neq. lia.
  - unfold zupd. replace (i <? 0) with true by lia. reflexivity.
Qed.
Lemma nthZ_zupd d a i v j :
  0 <= i < zlen a -> nthZ d (zupd a i v) j = if i =? j then v else nthZ d a j.
Proof. intros H. unfold nthZ. rewrite zget_zupd by auto. now destruct (i =? j). Qed.
Lemma nthZ_zupd_same d a i v : 0 <= i < zlen a -> nthZ d (zupd a i v) i = v.
Proof. intros. rewrite nthZ_zupd by auto. now rewrite Z.eqb_refl. Qed.
Lemma nthZ_zupd_other d a i v j : i <> j -> nthZ d (zupd a i v) j = nthZ d a j.
Proof. intros H. unfold nthZ. now rewrite zget_zupd_other. Qed.

(** extensionality *)
Lemma zget_ext a b : (forall i, zget a i = zget b i) -> a = b.
Proof.
  intros H. apply nth_error_ext. intros n.
  specialize (H (Z.of_nat n)). unfold zget in H.
  replace (Z.of_nat n <? 0) with false in H by lia.
  now rewrite Nat2Z.id in H.
Qed.
Lemma zget_ext_in a b :
  zlen a = zlen b -> (forall i, 0 <= i < zlen a -> zget a i = zget b i) -> a = b.
Proof.
  intros L H. apply zget_ext. intros i.
  destruct (Z_lt_dec i 0); [|destruct (Z_lt_dec i (zlen a))].
  - rewrite !zget_none by lia; auto.
  - apply H; lia.
  - rewrite !zget_none by lia; auto.
Qed.
Lemma nthZ_ext d a b :
  zlen a = zlen b -> (forall i, 0 <= i < zlen a -> nthZ d a i = nthZ d b i) -> a = b.
Proof.
  intros L H. apply zget_ext_in; auto. intros i Hi.
  rewrite !(zget_nthZ d) by lia. f_equal. auto.
Qed.

Lemma zupd_zupd_comm a i j v w :
  i <> j -> zupd (zupd a i v) j w = zupd (zupd a j w) i v.
Proof.
  intros H. unfold zupd. destruct (i <? 0) eqn:E1, (j <? 0) eqn:E2; auto.
  apply nth_error_ext. intros n. rewrite !nth_error_upd, !upd_length.
  destruct (Nat.eqb_spec (Z.to_nat i) n), (Nat.eqb_spec (Z.to_nat j) n); auto. lia.
Qed.
Lemma zupd_zupd_same a i v w : zupd (zupd a i v) i w = zupd a i w.
Proof.
  unfold zupd. destruct (i <? 0) eqn:E; [reflexivity|].
  apply nth_error_ext. intros n. rewrite !nth_error_upd, upd_length.
  destruct (Nat.eqb_spec (Z.to_nat i) n); auto.
Qed.
Lemma zupd_same a i v : zget a i = Some v -> zupd a i v = a.
Proof.
  intros H. pose proof (zget_range _ _ _ H). apply zget_ext. intros j.
  rewrite zget_zupd by auto. destruct (Z.eqb_spec i j); subst; auto.
Qed.

Lemma zlen_zmake n (v : F) : 0 <= n -> zlen (zmake n v) = n.
Proof. intros. unfold zlen, zmake. rewrite repeat_length. lia. Qed.
Lemma zget_zmake n (v : F) i : 0 <= i < n -> zget (zmake n v) i = Some v.
Proof.
  intros H. destruct (zget_ex (zmake n v) i) as [w E].
  { rewrite zlen_zmake; lia. }
  rewrite E. f_equal. unfold zget in E. destruct (i <? 0); [discriminate|].
  apply nth_error_In in E. unfold zmake in E. now apply repeat_spec in E.
Qed.
Lemma nthZ_zmake d n (v : F) i : 0 <= i < n -> nthZ d (zmake n v) i = v.
Proof. intros. unfold nthZ. now rewrite zget_zmake. Qed.
Lemma zlen_ztab n (f : Z -> F) : 0 <= n -> zlen (ztab n f) = n.
Proof. intros. unfold zlen, ztab. rewrite map_length, seq_length. lia. Qed.
Lemma zget_ztab n (f : Z -> F) i : 0 <= i < n -> zget (ztab n f) i = Some (f i).
Proof.
  intros H. unfold zget, ztab. replace (i <? 0) with false by lia.
  rewrite nth_error_map.
  rewrite (nth_error_nth' _ O) by (rewrite seq_length; lia).
  rewrite seq_nth by lia. cbn. f_equal. f_equal. lia.
Qed.
Lemma nthZ_ztab d n (f : Z -> F) i : 0 <= i < n -> nthZ d (ztab n f) i = f i.
Proof. intros. unfold nthZ. now rewrite zget_ztab. Qed.
Lemma ztab_ext n (f g : Z -> F) : (forall i, 0 <= i < n -> f i = g i) -> ztab n f = ztab n g.
Proof.
  intros H. unfold ztab. apply map_ext_in. intros k Hk. apply in_seq in Hk. apply H. lia.
Qed.
Lemma ztab_nthZ d a : ztab (zlen a) (nthZ d a) = a.
Proof.
  apply (nthZ_ext d).
  - rewrite zlen_ztab; auto using zlen_nonneg.
  - rewrite zlen_ztab by auto using zlen_nonneg. intros i Hi. now rewrite nthZ_ztab.
Qed.
End Arr.

(** ** loops *)
Section Loops.
Context {S : Type}.
Implicit Types (I : Z -> S -> Prop).

Lemma itero_inv (I : nat -> S -> Prop) n f s :
  I O s ->
  (forall k s, (k < n)%nat -> I k s -> exists s', f k s = Some s' /\ I (Datatypes.S k) s') ->
  exists s', itero n f s = Some s' /\ I n s'.
Proof.
  intros H0 Hs. induction n as [|n IH].
  - exists s; split; auto.
  - destruct IH as [s' [E H]].
    { intros; apply Hs; auto. }
    destruct (Hs n s') as [s'' [E' H']]; auto.
    exists s''; split; auto. cbn. now rewrite E.
Qed.

Lemma for_up_inv I lo hi body s :
  lo <= hi -> I lo s ->
  (forall i s, lo <= i < hi -> I i s -> exists s', body i s = Some s' /\ I (i + 1) s') ->
  exists s', for_up lo hi body s = Some s' /\ I hi s'.
Proof.
  intros Hl H0 Hs. unfold for_up.
  destruct (itero_inv (fun k s => I (lo + Z.of_nat k) s) (Z.to_nat (hi - lo))
              (fun k => body (lo + Z.of_nat k)) s) as [s' [E H]].
  - now rewrite Z.add_0_r.
  - intros k s1 Hk H1. destruct (Hs (lo + Z.of_nat k) s1) as [s2 [E2 H2]]; auto; [lia|].
    exists s2; split; auto. now replace (lo + Z.of_nat (Datatypes.S k)) with (lo + Z.of_nat k + 1) by lia.
  - exists s'; split; auto. now replace (lo + Z.of_nat (Z.to_nat (hi - lo))) with hi in H by lia.
Qed.

Lemma for_up_nil lo hi body (s : S) : hi <= lo -> for_up lo hi body s = Some s.
Proof. intros. unfold for_up. now replace (Z.to_nat (hi - lo)) with O by lia. Qed.
Lemma for_up_last lo hi body (s : S) : lo < hi ->
  for_up lo hi body s = do s' <- for_up lo (hi-1) body s; body (hi-1) s'.
Proof.
  intros. unfold for_up.
  replace (Z.to_nat (hi - lo)) with (Datatypes.S (Z.to_nat (hi-1-lo))) by lia.
  cbn [itero]. now replace (lo + Z.of_nat (Z.to_nat (hi - 1 - lo))) with (hi-1) by lia.
Qed.

Lemma for_dn_inv I hi lo body s :
  lo <= hi + 1 -> I hi s ->
  (forall i s, lo <= i <= hi -> I i s -> exists s', body i s = Some s' /\ I (i - 1) s') ->
  exists s', for_dn hi lo body s = Some s' /\ I (lo - 1) s'.
Proof.
  intros Hl H0 Hs. unfold for_dn.
  destruct (itero_inv (fun k s => I (hi - Z.of_nat k) s) (Z.to_nat (hi - lo + 1))
              (fun k => body (hi - Z.of_nat k)) s) as [s' [E H]].
  - now rewrite Z.sub_0_r.
  - intros k s1 Hk H1. destruct (Hs (hi - Z.of_nat k) s1) as [s2 [E2 H2]]; auto; [lia|].
    exists s2; split; auto. now replace (hi - Z.of_nat (Datatypes.S k)) with (hi - Z.of_nat k - 1) by lia.
  - exists s'; split; auto. now replace (hi - Z.of_nat (Z.to_nat (hi - lo + 1))) with (lo-1) in H by lia.
Qed.
Lemma for_dn_nil hi lo body (s : S) : hi < lo -> for_dn hi lo body s = Some s.
Proof. intros. unfold for_dn. now replace (Z.to_nat (hi - lo + 1)) with O by lia. Qed.
Lemma for_dn_last hi lo body (s : S) : lo <= hi ->
  for_dn hi lo body s = do s' <- for_dn hi (lo+1) body s; body lo s'.
Proof.
  intros. unfold for_dn.
  replace (Z.to_nat (hi - lo + 1)) with (Datatypes.S (Z.to_nat (hi - (lo + 1) + 1))) by lia.
  cbn [itero]. now replace (hi - Z.of_nat (Z.to_nat (hi - (lo + 1) + 1))) with lo by lia.
Qed.

(** stepped loops: the invariant is indexed by the counter value *)
Lemma for_upst_inv I lo hi st body s :
  0 < st -> I lo s ->
  (forall k i s, 0 <= k -> i = lo + k * st -> lo <= i < hi -> I i s ->
     exists s', body i s = Some s' /\ I (i + st) s') ->
  exists s', for_upst lo hi st body s = Some s' /\ I (end_upst lo hi st) s'.
Proof.
  intros Hst H0 Hs. unfold for_upst, end_upst.
  set (cnt := (hi - lo + st - 1) / st) in *.
  assert (Hc : st * cnt <= hi - lo + st - 1 < st * cnt + st).
  { unfold cnt. pose proof (Z.div_mod (hi - lo + st - 1) st ltac:(lia)).
    pose proof (Z.mod_pos_bound (hi - lo + st - 1) st Hst). lia. }
  destruct (itero_inv (fun k s => I (lo + Z.of_nat k * st) s) (Z.to_nat cnt)
              (fun k => body (lo + Z.of_nat k * st)) s) as [s' [E H]].
  - now rewrite Z.mul_0_l, Z.add_0_r.
  - intros k s1 Hk H1.
    destruct (Hs (Z.of_nat k) (lo + Z.of_nat k * st) s1) as [s2 [E2 H2]]; auto; try nia.
    exists s2; split; auto.
    now replace (lo + Z.of_nat (Datatypes.S k) * st) with (lo + Z.of_nat k * st + st) by lia.
  - exists s'; split; auto.
    now replace (Z.of_nat (Z.to_nat cnt)) with (Z.max 0 cnt) in H by lia.
Qed.

Lemma end_upst_spec lo hi st : 0 < st -> lo <= hi ->
  exists k, 0 <= k /\ end_upst lo hi st = lo + k * st /\ hi <= end_upst lo hi st < hi + st.
Proof.
  intros Hst Hl. unfold end_upst.
  set (cnt := (hi - lo + st - 1) / st).
  assert (Hc : st * cnt <= hi - lo + st - 1 < st * cnt + st).
  { unfold cnt. pose proof (Z.div_mod (hi - lo + st - 1) st ltac:(lia)).
    pose proof (Z.mod_pos_bound (hi - lo + st - 1) st Hst). lia. }
  assert (0 <= cnt) by nia.
  exists cnt. rewrite Z.max_r by lia. repeat split; nia.
Qed.
Lemma end_upst_exact lo st k : 0 < st -> 0 <= k -> end_upst lo (lo + k * st) st = lo + k * st.
Proof.
  intros. unfold end_upst. replace ((lo + k * st - lo + st - 1) / st) with k; [lia|].
  apply Z.div_unique with (r := st - 1); lia.
Qed.
Lemma end_upst_nil lo hi st : 0 < st -> hi <= lo -> end_upst lo hi st = lo.
Proof.
  intros. unfold end_upst. rewrite Z.max_l; [lia|].
  apply Z.lt_succ_r. apply Z.div_lt_upper_bound; lia.
Qed.
Lemma for_upst_nil lo hi st body (s : S) : 0 < st -> hi <= lo -> for_upst lo hi st body s = Some s.
Proof.
  intros. unfold for_upst.
  assert ((hi - lo + st - 1) / st <= 0) by (apply Z.lt_succ_r, Z.div_lt_upper_bound; lia).
  now replace (Z.to_nat ((hi - lo + st - 1) / st)) with O by lia.
Qed.

Lemma for_dnst_inv I hi lo st body s :
  0 < st -> I hi s ->
  (forall k i s, 0 <= k -> i = hi - k * st -> lo <= i <= hi -> I i s ->
     exists s', body i s = Some s' /\ I (i - st) s') ->
  exists s', for_dnst hi lo st body s = Some s' /\ I (end_dnst hi lo st) s'.
Proof.
  intros Hst H0 Hs. unfold for_dnst, end_dnst.
  set (cnt := (hi - lo + st) / st) in *.
  assert (Hc : st * cnt <= hi - lo + st < st * cnt + st).
  { unfold cnt. pose proof (Z.div_mod (hi - lo + st) st ltac:(lia)).
    pose proof (Z.mod_pos_bound (hi - lo + st) st Hst). lia. }
  destruct (itero_inv (fun k s => I (hi - Z.of_nat k * st) s) (Z.to_nat cnt)
              (fun k => body (hi - Z.of_nat k * st)) s) as [s' [E H]].
  - now rewrite Z.mul_0_l, Z.sub_0_r.
  - intros k s1 Hk H1.
    destruct (Hs (Z.of_nat k) (hi - Z.of_nat k * st) s1) as [s2 [E2 H2]]; auto; try nia.
    exists s2; split; auto.
    now replace (hi - Z.of_nat (Datatypes.S k) * st) with (hi - Z.of_nat k * st - st) by lia.
  - exists s'; split; auto.
    now replace (Z.of_nat (Z.to_nat cnt)) with (Z.max 0 cnt) in H by lia.
Qed.
Lemma end_dnst_spec hi lo st : 0 < st -> lo <= hi + st ->
  exists k, 0 <= k /\ end_dnst hi lo st = hi - k * st /\
    (lo - st <= end_dnst hi lo st < lo \/ (k = 0 /\ hi < lo)).
Proof.
  intros Hst Hl. unfold end_dnst.
  set (cnt := (hi - lo + st) / st).
  assert (Hc : st * cnt <= hi - lo + st < st * cnt + st).
  { unfold cnt. pose proof (Z.div_mod (hi - lo + st) st ltac:(lia)).
    pose proof (Z.mod_pos_bound (hi - lo + st) st Hst). lia. }
  assert (0 <= cnt) by nia.
  exists cnt. rewrite Z.max_r by lia. repeat split; try nia.
Qed.

Lemma itero_ext n (f g : nat -> S -> option S) s :
  (forall k s, (k < n)%nat -> f k s = g k s) -> itero n f s = itero n g s.
Proof.
  induction n; cbn; auto. intros H. rewrite IHn by (intros; apply H; lia).
  destruct (itero n g s); cbn; auto.
Qed.
Lemma for_up_ext lo hi (f g : Z -> S -> option S) s :
  (forall i s, lo <= i < hi -> f i s = g i s) -> for_up lo hi f s = for_up lo hi g s.
Proof. intros H. unfold for_up. apply itero_ext. intros. apply H. lia. Qed.
Lemma for_dn_ext hi lo (f g : Z -> S -> option S) s :
  (forall i s, lo <= i <= hi -> f i s = g i s) -> for_dn hi lo f s = for_dn hi lo g s.
Proof. intros H. unfold for_dn. apply itero_ext. intros. apply H. lia. Qed.

End Loops.

(** column-major position bounds *)
Lemma idx2 i j r c : 0 <= i < r -> 0 <= j < c -> 0 <= i + j * r < c * r.
Proof.
  intros. assert (0 <= j * r) by (apply Z.mul_nonneg_nonneg; lia).
  assert (0 <= (c - 1 - j) * r) by (apply Z.mul_nonneg_nonneg; lia). lia.
Qed.
Lemma idx2_ld i j r c ld : 0 <= i < r -> r <= ld -> 0 <= j < c -> 0 <= i + j * ld < c * ld.
Proof. intros. apply idx2; lia. Qed.
Lemma idx2_inj i j i' j' r : 0 <= i < r -> 0 <= i' < r -> i + j * r = i' + j' * r -> i = i' /\ j = j'.
Proof.
  intros. assert (j = j'); [|lia]. nia.
Qed.

Lemma obind_some {A B} (x : A) (f : A -> option B) : obind (Some x) f = f x.
Proof. reflexivity. Qed.
Lemma obind_inv {A B} (x : option A) (f : A -> option B) r :
  obind x f = Some r -> exists a, x = Some a /\ f a = Some r.
Proof. destruct x; cbn; [eauto|discriminate]. Qed.
