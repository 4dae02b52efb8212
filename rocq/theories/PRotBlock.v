(** * Blocked (SIMD) orderings of the rotations are equivalent to the plain ordering *)
From Coq Require Import ZArith List Lia Bool ZifyBool ZifyNat.
From Verif Require Import Base BaseFacts Arith MPermute PPermute MRotations PRot.
Import ListNotations.
Open Scope Z_scope.

Lemma cat_mul {F} U L (f : nat -> list (op F)) :
  cat (U * L) f = cat U (fun u => cat L (fun l => f (u * L + l)%nat)).
Proof.
  induction U; cbn [Nat.mul]; auto. rewrite Nat.add_comm, cat_plus, IHU. cbn [cat].
  reflexivity.
Qed.
Lemma ups_cat {F} n (f : Z -> list (op F)) : 0 <= n -> ups 0 n f = cat (Z.to_nat n) (fun k => f (Z.of_nat k)).
Proof. intros. unfold ups. rewrite Z.sub_0_r. reflexivity. Qed.

Section Col.
Context {F : Type}.
(** [d]: distance of the two rows of a rotation; [st]: step between columns;
    [top j]: last rotation of column [j]; [o row col]: the rotation *)
Variables (d st : Z) (top : Z -> Z) (fn : Z -> Z -> F -> F -> F * F).
Hypothesis Hd : 0 < d.
Hypothesis Hst : 0 < st.
Hypothesis Hstep : forall j a, 0 <= a -> 0 <= j - st * a -> top (j - st * a) = top j + d * a.

Definition opRC (row col : Z) : op F := mkop row (row + d) (fn row col).
Definition colD (j : Z) := dns (top j) 0 (fun k => [opRC k j]).
Definition colU (j : Z) := ups 0 (top j + 1) (fun k => [opRC k j]).
(** the plain orders *)
Definition opsD (m1 m2 : Z) := dnsst (m2 - st) m1 st colD.
Definition opsU (m1 m2 : Z) := upsst m1 m2 st colU.

Lemma indep_rows r c r' c' : r + d < r' -> indep (opRC r c) (opRC r' c').
Proof. intros H. unfold indep, opRC; cbn. lia. Qed.

(** ** downward blocks *)
Definition blkD (L j : Z) :=
  dnsst (top j) (L - 1) L (fun k =>
    ups 0 L (fun lj => ups 0 L (fun lk => [opRC (k - lk + d * lj) (j - st * lj)]))) ++
  ups 0 L (fun lj => dns (end_dnst (top j) (L - 1) L + d * lj) 0 (fun lk => [opRC lk (j - st * lj)])).

Lemma blkD_equiv L j : 0 < L -> 0 <= j - st * (L - 1) ->
  equiv (blkD L j) (ups 0 L (fun lj => colD (j - st * lj))).
Proof.
  intros HL Hj. set (T := top j).
  set (u := Z.max 0 ((T - (L - 1) + L) / L)).
  assert (Hu : 0 <= u) by lia.
  assert (Hu1 : u = 0 \/ T - u * L >= -1).
  { destruct (Z_le_dec ((T - (L-1) + L) / L) 0); [left; lia|right].
    assert (L * ((T - (L - 1) + L) / L) <= T - (L-1) + L) by (apply Z.mul_div_le; lia). nia. }
  set (X := fun (a c : nat) =>
    if Z.of_nat c <? u
    then ups 0 L (fun lk => [opRC (T - Z.of_nat c * L - lk + d * Z.of_nat a) (j - st * Z.of_nat a)])
    else dns (T - u * L + d * Z.of_nat a) 0 (fun lk => [opRC lk (j - st * Z.of_nat a)])).
  apply equiv_trans with (cat (S (Z.to_nat u)) (fun c => cat (Z.to_nat L) (fun a => X a c))).
  { apply equiv_eq. unfold blkD. cbn [cat]. f_equal.
    - unfold dnsst. fold T. replace (Z.to_nat ((T - (L - 1) + L) / L)) with (Z.to_nat u) by lia.
      apply cat_ext. intros c Hc. rewrite ups_cat by lia. apply cat_ext. intros a Ha.
      unfold X. replace (Z.of_nat c <? u) with true by lia. reflexivity.
    - rewrite ups_cat by lia. apply cat_ext. intros a Ha. unfold X.
      replace (Z.of_nat (Z.to_nat u) <? u) with false by lia. unfold end_dnst. fold T u. reflexivity. }
  apply equiv_trans with (cat (Z.to_nat L) (fun a => cat (S (Z.to_nat u)) (X a))).
  { apply equiv_sym. apply transpose. intros a a' c c' Ha Ha' Hc Hcu o p Ho Hp.
    assert (Ho' : exists r q, o = opRC r q /\ r <= T - Z.of_nat c * L + d * Z.of_nat a).
    { unfold X in Ho. destruct (Z.of_nat c <? u) eqn:E.
      - apply In_ups in Ho as (lk & Hlk & [<-|[]]). eexists _, _. split; [reflexivity|]. lia.
      - apply In_dns in Ho as (lk & Hlk & [<-|[]]). eexists _, _. split; [reflexivity|].
        replace (Z.of_nat c) with u by lia. lia. }
    assert (Hp' : exists r q, p = opRC r q /\ r >= T - Z.of_nat c' * L - L + 1 + d * Z.of_nat a').
    { unfold X in Hp. replace (Z.of_nat c' <? u) with true in Hp by lia.
      apply In_ups in Hp as (lk & Hlk & [<-|[]]). eexists _, _. split; [reflexivity|]. lia. }
    destruct Ho' as (r & q & -> & Hr). destruct Hp' as (r' & q' & -> & Hr').
    apply indep_rows.
    assert (Z.of_nat c' * L + L <= Z.of_nat c * L) by nia.
    assert (d * Z.of_nat a + d <= d * Z.of_nat a') by nia. lia. }
  apply equiv_eq. rewrite ups_cat by lia. apply cat_ext. intros a Ha. unfold colD.
  assert (HsA : st * Z.of_nat a <= st * (L - 1)) by (apply Z.mul_le_mono_nonneg_l; lia).
  assert (HdA : 0 <= d * Z.of_nat a) by (apply Z.mul_nonneg_nonneg; lia).
  rewrite Hstep by lia. fold T.
  (* chunks of one column *)
  cbn [cat]. unfold X at 2. replace (Z.of_nat (Z.to_nat u) <? u) with false by lia.
  assert (HC : forall c, (Z.of_nat c <= u) ->
    cat c (X a) = dns (T + d * Z.of_nat a) (T - Z.of_nat c * L + 1 + d * Z.of_nat a)
                    (fun k => [opRC k (j - st * Z.of_nat a)])).
  { induction c as [|c IH]; intros Hc.
    - cbn [cat]. rewrite dns_nil by lia. auto.
    - cbn [cat]. rewrite IH by lia. unfold X. replace (Z.of_nat c <? u) with true by lia.
      rewrite (dns_split (T + d * Z.of_nat a) (T - Z.of_nat c * L + d * Z.of_nat a)
                (T - Z.of_nat (S c) * L + 1 + d * Z.of_nat a)) by nia.
      f_equal.
      { f_equal. lia. }
      unfold dns. rewrite ups_cat by lia.
      replace (Z.to_nat (T - Z.of_nat c * L + d * Z.of_nat a -
                 (T - Z.of_nat (S c) * L + 1 + d * Z.of_nat a) + 1)) with (Z.to_nat L) by nia.
      apply cat_ext. intros lk Hlk. do 2 f_equal. lia. }
  rewrite HC by lia. replace (Z.of_nat (Z.to_nat u)) with u by lia.
  destruct (Z_le_dec (-1) (T - u * L + d * Z.of_nat a)).
  - rewrite (dns_split (T + d * Z.of_nat a) (T - u * L + d * Z.of_nat a) 0) by nia.
    f_equal. f_equal. lia.
  - assert (u = 0) by nia. rewrite !dns_nil by nia. auto.
Qed.

Lemma opsD_cat m1 m2 : opsD m1 m2 =
  cat (Z.to_nat ((m2 - m1) / st)) (fun k => colD (m2 - st - Z.of_nat k * st)).
Proof. unfold opsD, dnsst. now replace (m2 - st - m1 + st) with (m2 - m1) by lia. Qed.

(** blocks of [L] columns, then single columns *)
Lemma opsD_blocked L m1 m2 lb : 0 < L -> 0 <= m1 -> m1 + st * (L - 1) <= lb ->
  equiv (dnsst (m2 - st) lb (st * L) (blkD L) ++
         dnsst (end_dnst (m2 - st) lb (st * L)) m1 st colD)
        (opsD m1 m2).
Proof.
  intros HL Hm1 Hlb.
  assert (HsL : 0 < st * L) by nia.
  set (v := (m2 - st - lb + st * L) / (st * L)).
  assert (Hv : st * L * v <= m2 - st - lb + st * L) by (apply Z.mul_div_le; lia).
  apply equiv_trans with
    (cat (Z.to_nat v) (fun k => ups 0 L (fun lj => colD (m2 - st - Z.of_nat k * (st * L) - st * lj))) ++
     dnsst (end_dnst (m2 - st) lb (st * L)) m1 st colD).
  { apply equiv_app; [|apply equiv_refl]. unfold dnsst. fold v. apply cat_equiv.
    intros k Hk. apply blkD_equiv; auto.
    assert ((Z.of_nat k + 1) * (st * L) <= v * (st * L)) by (apply Z.mul_le_mono_nonneg_r; lia). nia. }
  apply equiv_eq. unfold end_dnst. fold v. unfold dnsst. rewrite opsD_cat.
  set (w := (m2 - m1) / st).
  replace ((m2 - st - Z.max 0 v * (st * L) - m1 + st) / st) with (w - Z.max 0 v * L).
  2:{ unfold w. replace (m2 - st - Z.max 0 v * (st * L) - m1 + st) with (m2 - m1 + (- Z.max 0 v * L) * st) by lia.
      rewrite Z.div_add by lia. lia. }
  destruct (Z_le_dec v 0) as [Hv0|Hv0].
  { replace (Z.to_nat v) with O by lia. rewrite Z.max_l by lia. cbn [cat app].
    replace (w - 0 * L) with w by lia. apply cat_ext. intros; f_equal; lia. }
  rewrite Z.max_r by lia.
  assert (Hw : v * L <= w).
  { unfold w. apply Z.div_le_lower_bound; nia. }
  replace (Z.to_nat w) with (Z.to_nat v * Z.to_nat L + Z.to_nat (w - v * L))%nat by nia.
  rewrite cat_plus, cat_mul. f_equal.
  - apply cat_ext. intros u Hu. rewrite ups_cat by lia. apply cat_ext. intros a Ha. f_equal. nia.
  - apply cat_ext. intros k Hk. f_equal. nia.
Qed.

Lemma opsD_app m1 m2 m3 : m1 <= m2 -> m2 <= m3 -> (m3 - m2) mod st = 0 ->
  opsD m2 m3 ++ opsD m1 m2 = opsD m1 m3.
Proof.
  intros H1 H2 H3. rewrite !opsD_cat.
  apply Z.mod_divide in H3 as [q Hq]; [|lia].
  replace ((m3 - m2) / st) with q by (rewrite Hq, Z.div_mul; lia).
  replace (m3 - m1) with (m2 - m1 + q * st) by lia. rewrite Z.div_add by lia.
  assert (0 <= q) by nia. assert (0 <= (m2 - m1) / st) by (apply Z.div_pos; lia).
  replace (Z.to_nat ((m2 - m1) / st + q)) with (Z.to_nat q + Z.to_nat ((m2 - m1) / st))%nat by lia.
  rewrite cat_plus. f_equal. apply cat_ext. intros k Hk. f_equal. nia.
Qed.
Lemma opsD_nil m1 m2 : m2 <= m1 -> opsD m1 m2 = [].
Proof.
  intros. rewrite opsD_cat. assert ((m2 - m1) / st <= 0).
  { apply Z.lt_succ_r, Z.div_lt_upper_bound; lia. } now replace (Z.to_nat ((m2 - m1) / st)) with O by lia.
Qed.

(** ** upward blocks *)
Definition blkU (L j : Z) :=
  ups 0 L (fun lj => ups 0 (d * L + Z.rem (top j + 1 - L) L - d * lj) (fun lk => [opRC lk (j + st * lj)])) ++
  upsst (d * L + Z.rem (top j + 1 - L) L) (top j + 1 - L + 1) L (fun k =>
    ups 0 L (fun lj => ups 0 L (fun lk => [opRC (k + lk - d * lj) (j + st * lj)]))).

Lemma Hstep' j a : 0 <= j -> 0 <= a -> top (j + st * a) = top j - d * a.
Proof.
  intros Hj Ha. pose proof (Hstep (j + st * a) a Ha ltac:(lia)).
  replace (j + st * a - st * a) with j in H by lia. lia.
Qed.

Lemma blkU_equiv L j : 0 < L -> 0 <= j -> d * L <= top j + 1 ->
  equiv (blkU L j) (ups 0 L (fun lj => colU (j + st * lj))).
Proof.
  intros HL Hj HT. unfold blkU. set (T := top j) in *. set (k0 := d * L + Z.rem (T + 1 - L) L).
  assert (Hrem : 0 <= Z.rem (T + 1 - L) L < L) by (apply Z.rem_bound_pos; nia).
  assert (Hquot : exists q, T + 1 - L = L * q + Z.rem (T + 1 - L) L).
  { exists (Z.quot (T + 1 - L) L). apply Z.quot_rem. lia. }
  destruct Hquot as [q0 Hq0].
  set (u := q0 + 1 - d).
  assert (Hu : 0 <= u). { unfold u. nia. }
  assert (Hk0 : k0 + u * L = T + 1). { unfold u, k0. nia. }
  assert (Hk0' : d * L <= k0 /\ k0 <= T + 1) by (split; [unfold k0 in *; lia|nia]).
  clearbody k0. clear Hq0.
  set (X := fun (a c : nat) =>
    match c with
    | O => ups 0 (k0 - d * Z.of_nat a) (fun lk => [opRC lk (j + st * Z.of_nat a)])
    | S c => ups 0 L (fun lk => [opRC (k0 + Z.of_nat c * L + lk - d * Z.of_nat a) (j + st * Z.of_nat a)])
    end).
  apply equiv_trans with (cat (S (Z.to_nat u)) (fun c => cat (Z.to_nat L) (fun a => X a c))).
  { apply equiv_eq. rewrite cat_first. f_equal.
    - rewrite ups_cat by lia. apply cat_ext. intros a Ha. reflexivity.
    - rewrite (upsst_cnt _ _ _ _ u) by nia. apply cat_ext. intros c Hc.
      rewrite ups_cat by lia. apply cat_ext. intros a Ha. reflexivity. }
  apply equiv_trans with (cat (Z.to_nat L) (fun a => cat (S (Z.to_nat u)) (X a))).
  { apply equiv_sym. apply transpose. intros a a' c c' Ha Ha' Hc Hcu o p Ho Hp.
    destruct c as [|c]; [lia|].
    assert (Ho' : exists r q, o = opRC r q /\ r >= k0 + Z.of_nat c * L - d * Z.of_nat a).
    { apply In_ups in Ho as (lk & Hlk & [<-|[]]). eexists _, _. split; [reflexivity|]. lia. }
    assert (Hp' : exists r q, p = opRC r q /\ r <= k0 + Z.of_nat c' * L - 1 - d * Z.of_nat a').
    { destruct c' as [|c'']; cbn [X] in Hp; apply In_ups in Hp as (lk & Hlk & [<-|[]]);
        eexists _, _; (split; [reflexivity|]); nia. }
    destruct Ho' as (r & q & -> & Hr). destruct Hp' as (r' & q' & -> & Hr').
    assert (Hi : indep (opRC r' q') (opRC r q)).
    { apply indep_rows. assert (Z.of_nat c' * L <= Z.of_nat c * L) by nia.
      assert (d * Z.of_nat a + d <= d * Z.of_nat a') by nia. lia. }
    unfold indep in *. lia. }
  apply equiv_eq. rewrite ups_cat by lia. apply cat_ext. intros a Ha. unfold colU.
  rewrite Hstep' by lia. fold T.
  assert (HC : forall c, (Z.of_nat c <= u) ->
    cat (S c) (X a) = ups 0 (k0 + Z.of_nat c * L - d * Z.of_nat a) (fun k => [opRC k (j + st * Z.of_nat a)])).
  { induction c as [|c IH]; intros Hc.
    - cbn [cat app]. unfold X. f_equal. lia.
    - change (cat (S (S c)) (X a)) with (cat (S c) (X a) ++ X a (S c)). rewrite IH by lia.
      assert (Hda : d * Z.of_nat a <= d * L) by nia.
      rewrite (ups_split 0 (k0 + Z.of_nat c * L - d * Z.of_nat a)
                (k0 + Z.of_nat (S c) * L - d * Z.of_nat a)) by nia.
      f_equal. unfold X. unfold ups. rewrite Z.sub_0_r.
      replace (Z.to_nat (k0 + Z.of_nat (S c) * L - d * Z.of_nat a -
        (k0 + Z.of_nat c * L - d * Z.of_nat a))) with (Z.to_nat L) by nia.
      apply cat_ext. intros lk Hlk. do 2 f_equal; lia. }
  rewrite HC by lia. f_equal. nia.
Qed.

Lemma opsU_blocked L m1 m2 ub : 0 < L -> 0 <= m1 -> ub <= m2 - st * (L - 1) ->
  (forall c j, 0 <= c -> j = m1 + c * (st * L) -> m1 <= j < ub -> d * L <= top j + 1) ->
  equiv (upsst m1 ub (st * L) (blkU L) ++ upsst (end_upst m1 ub (st * L)) m2 st colU) (opsU m1 m2).
Proof.
  intros HL Hm1 Hub HT.
  assert (HsL : 0 < st * L) by nia.
  set (v := (ub - m1 + st * L - 1) / (st * L)).
  assert (Hv : st * L * v <= ub - m1 + st * L - 1) by (apply Z.mul_div_le; lia).
  apply equiv_trans with
    (cat (Z.to_nat v) (fun k => ups 0 L (fun lj => colU (m1 + Z.of_nat k * (st * L) + st * lj))) ++
     upsst (end_upst m1 ub (st * L)) m2 st colU).
  { apply equiv_app; [|apply equiv_refl]. unfold upsst. fold v. apply cat_equiv.
    intros k Hk.
    assert ((Z.of_nat k + 1) * (st * L) <= v * (st * L)) by (apply Z.mul_le_mono_nonneg_r; lia).
    apply blkU_equiv; auto; [nia|]. apply (HT (Z.of_nat k)); nia. }
  apply equiv_eq. unfold end_upst. fold v. unfold upsst, opsU, upsst.
  set (w := (m2 - m1 + st - 1) / st).
  replace ((m2 - (m1 + Z.max 0 v * (st * L)) + st - 1) / st) with (w - Z.max 0 v * L).
  2:{ unfold w. replace (m2 - (m1 + Z.max 0 v * (st * L)) + st - 1) with (m2 - m1 + st - 1 + (- Z.max 0 v * L) * st) by lia.
      rewrite Z.div_add by lia. lia. }
  destruct (Z_le_dec v 0) as [Hv0|Hv0].
  { replace (Z.to_nat v) with O by lia. rewrite Z.max_l by lia. cbn [cat app].
    replace (w - 0 * L) with w by lia. apply cat_ext. intros; f_equal; lia. }
  rewrite Z.max_r by lia.
  assert (Hw : v * L <= w).
  { unfold w. apply Z.div_le_lower_bound; nia. }
  replace (Z.to_nat w) with (Z.to_nat v * Z.to_nat L + Z.to_nat (w - v * L))%nat by nia.
  rewrite cat_plus, cat_mul. f_equal.
  - apply cat_ext. intros u Hu. rewrite ups_cat by lia. apply cat_ext. intros a Ha. f_equal. nia.
  - apply cat_ext. intros k Hk. f_equal. nia.
Qed.
Lemma opsU_app m1 m2 m3 : m1 <= m2 -> m2 <= m3 -> (m2 - m1) mod st = 0 ->
  opsU m1 m2 ++ opsU m2 m3 = opsU m1 m3.
Proof.
  intros H1 H2 H3. unfold opsU, upsst.
  apply Z.mod_divide in H3 as [q Hq]; [|lia]. assert (0 <= q) by nia.
  replace (m2 - m1 + st - 1) with (st - 1 + q * st) by lia. rewrite Z.div_add, Z.div_small by lia.
  replace (m3 - m1 + st - 1) with (m3 - m2 + st - 1 + q * st) by lia. rewrite Z.div_add by lia.
  assert (0 <= (m3 - m2 + st - 1) / st) by (apply Z.div_pos; lia).
  replace (Z.to_nat ((m3 - m2 + st - 1) / st + q)) with (Z.to_nat (0 + q) + Z.to_nat ((m3 - m2 + st - 1) / st))%nat by lia.
  rewrite cat_plus. f_equal. apply cat_ext. intros k Hk. f_equal. nia.
Qed.
Lemma opsU_nil m1 m2 : m2 <= m1 -> opsU m1 m2 = [].
Proof.
  intros. unfold opsU, upsst. assert ((m2 - m1 + st - 1) / st <= 0).
  { apply Z.lt_succ_r, Z.div_lt_upper_bound; lia. } now replace (Z.to_nat ((m2 - m1 + st - 1) / st)) with O by lia.
Qed.
(** the upward order is the reverse of the downward order (same parity) *)
Lemma opsU_rev m1 m2 : m1 <= m2 -> (m2 - m1) mod st = 0 -> opsU m1 m2 = rev (opsD m1 m2).
Proof.
  intros H1 H3. rewrite opsD_cat. unfold opsU, upsst.
  apply Z.mod_divide in H3 as [q Hq]; [|lia]. assert (0 <= q) by nia.
  replace (m2 - m1 + st - 1) with (st - 1 + q * st) by lia. rewrite Z.div_add, Z.div_small by lia.
  rewrite Hq, Z.div_mul by lia. rewrite rev_cat. replace (0 + q) with q by lia.
  apply cat_ext. intros k Hk. unfold colD. rewrite rev_dns. unfold colU. cbn [rev app].
  replace (m2 - st - Z.of_nat (Z.to_nat q - 1 - k) * st) with (m1 + Z.of_nat k * st); auto.
  replace (Z.of_nat (Z.to_nat q - 1 - k)) with (q - 1 - Z.of_nat k) by lia. lia.
Qed.
End Col.
