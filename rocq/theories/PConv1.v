(** * Columns of Givens rotations convert expansions: the general argument *)
From Coq Require Import ZArith List Lia Bool Reals Lra ZifyBool.
From Verif Require Import Base BaseFacts Arith SpecSum PSum MRotations SpecRot PRot PRotBlock PGrad4.
Import ListNotations.
Open Scope Z_scope.

Section Conv.
Variables (d st n : Z) (top : Z -> Z) (fn : Z -> Z -> R -> R -> R * R) (s c : Z -> Z -> R).
Hypothesis Hd : 0 < d.
Hypothesis Hst : 0 < st.
Hypothesis Hstep : forall j a, 0 <= a -> 0 <= j - st * a -> top (j - st * a) = top j + d * a.
Hypothesis Hlt : forall j, 0 <= j -> top j + d < n.
Hypothesis Hfn : forall k j x y, 0 <= j -> 0 <= k <= top j -> fn k j x y = (c k j * x + s k j * y, c k j * y - s k j * x)%R.
(** basis functions of order j and the mixed functions between the orders j+st and j *)
Variables (f M : Z -> Z -> R).
Hypothesis H1 : forall j k, 0 <= j -> 0 <= k <= top j -> f (j + st) k = (c k j * M j k - s k j * f j (k + d))%R.
Hypothesis H2 : forall j k, 0 <= j -> 0 <= k <= top j -> M j (k + d) = (s k j * M j k + c k j * f j (k + d))%R.
Hypothesis H0 : forall j k, 0 <= j -> 0 <= k < d -> M j k = f j k.

Definition B (j k i : Z) : R := if i <=? k then f (j + st) i else if i <=? k + d then M j i else f j i.

Lemma step_sum j k g : 0 <= j -> 0 <= k <= top j ->
  sumZ n (fun i => (app1 (opRC d fn k j) g i * B j (k - 1) i)%R) = sumZ n (fun i => (g i * B j k i)%R).
Proof.
  intros Hj Hk. pose proof (Hlt j Hj).
  set (F1 := fun i => (app1 (opRC d fn k j) g i * B j (k - 1) i)%R). set (F2 := fun i => (g i * B j k i)%R).
  enough (E : sumZ n (fun i => (F1 i - F2 i)%R) = 0%R) by (rewrite sumZ_minus in E; lra).
  rewrite (sumZ_two n k (k + d)) by (try lia; intros i Hi Ha Hb; unfold F1, F2, app1, opRC, B; cbn [ox oy of_];
    replace (i =? k + d) with false by lia; replace (i =? k) with false by lia;
    destruct (i <=? k - 1) eqn:E1; destruct (i <=? k) eqn:E2; try lia; try ring;
    destruct (i <=? k - 1 + d) eqn:E3; destruct (i <=? k + d) eqn:E4; try lia; try ring).
  unfold F1, F2, app1, opRC, B. cbn [ox oy of_]. rewrite !Z.eqb_refl. replace (k =? k + d) with false by lia.
  rewrite Hfn by lia. cbn [fst snd].
  replace (k <=? k - 1) with false by lia. replace (k <=? k - 1 + d) with true by lia. replace (k <=? k) with true by lia.
  replace (k + d <=? k - 1) with false by lia. replace (k + d <=? k - 1 + d) with false by lia. replace (k + d <=? k) with false by lia. replace (k + d <=? k + d) with true by lia.
  assert (E2 : M j (k + d) = (s k j * M j k + c k j * f j (k + d))%R) by (apply H2; lia).
  rewrite (H1 j k), E2 by lia. ring.
Qed.

Lemma app1_out k j g i : i <> k -> i <> k + d -> app1 (opRC d fn k j) g i = g i.
Proof. intros. unfold app1, opRC. cbn [ox oy of_]. replace (i =? k + d) with false by lia. replace (i =? k) with false by lia. reflexivity. Qed.

Lemma col_part j g (Hj : 0 <= j) : forall m, (Z.of_nat m <= top j + 1) ->
  let g' := run (cat m (fun k => [opRC d fn (top j - Z.of_nat k) j])) g in
  sumZ n (fun i => (g' i * B j (top j - Z.of_nat m) i)%R) = sumZ n (fun i => (g i * B j (top j) i)%R) /\
  forall i, top j + d < i -> g' i = g i.
Proof.
  induction m as [|m IH]; intros Hm g'.
  - unfold g'. cbn [cat run]. split; [|reflexivity]. replace (top j - Z.of_nat 0) with (top j) by lia. reflexivity.
  - destruct IH as (IH1 & IH2); [lia|]. unfold g'. cbn [cat]. rewrite run_app. cbn [run]. split.
    + replace (top j - Z.of_nat (S m)) with (top j - Z.of_nat m - 1) by lia. rewrite step_sum by lia. exact IH1.
    + intros i Hi. rewrite app1_out by lia. now apply IH2.
Qed.

Lemma col_sum j g : 0 <= j -> (forall i, top j < i < n -> 0 <= i -> g i = 0%R) ->
  let g' := run (colD d top fn j) g in
  sumZ n (fun i => (g' i * f j i)%R) = sumZ n (fun i => (g i * f (j + st) i)%R) /\ forall i, top j + d < i < n -> 0 <= i -> g' i = 0%R.
Proof.
  intros Hj Hg g'. unfold g', colD, dns. destruct (Z_le_dec 0 (top j)) as [Ht|Ht].
  - destruct (col_part j g Hj (Z.to_nat (top j - 0 + 1))) as (E1 & E2); [lia|]. cbv zeta in E1, E2. split.
    + rewrite Z2Nat.id in E1 by lia. replace (top j - (top j - 0 + 1)) with (-1) in E1 by lia.
      transitivity (sumZ n (fun i => (run (cat (Z.to_nat (top j - 0 + 1)) (fun k => [opRC d fn (top j - Z.of_nat k) j])) g i * B j (-1) i)%R)).
      { apply sumZ_ext. intros i Hi. f_equal. unfold B. replace (i <=? -1) with false by lia. destruct (i <=? -1 + d) eqn:E; [|reflexivity]. now rewrite H0 by lia. }
      rewrite E1. apply sumZ_ext. intros i Hi. unfold B. destruct (i <=? top j) eqn:E; [reflexivity|]. rewrite (Hg i) by lia. ring.
    + intros i Hi H0i. rewrite E2 by lia. apply Hg; lia.
  - replace (Z.to_nat (top j - 0 + 1)) with O by lia. cbn [cat run]. split.
    + rewrite !sumZ_zero; [reflexivity| |]; intros i Hi; rewrite Hg by lia; ring.
    + intros i Hi H0i. apply Hg; lia.
Qed.

(** from order m2 = m1 + q st down to m1 *)
Lemma ops_sum q : forall m1 g, 0 <= m1 -> (forall i, top (m1 + Z.of_nat q * st) + d < i < n -> 0 <= i -> g i = 0%R) ->
  let g' := run (opsD d st top fn m1 (m1 + Z.of_nat q * st)) g in
  sumZ n (fun i => (g' i * f m1 i)%R) = sumZ n (fun i => (g i * f (m1 + Z.of_nat q * st) i)%R) /\ forall i, top m1 + d < i < n -> 0 <= i -> g' i = 0%R.
Proof.
  induction q as [|q IH]; intros m1 g Hm Hg g'.
  - unfold g'. replace (m1 + Z.of_nat 0 * st) with m1 in * by lia. rewrite (opsD_nil d st top fn) by (lia || assumption). cbn [run]. split; [reflexivity|exact Hg].
  - unfold g'. assert (Q : m1 + st <= m1 + Z.of_nat (S q) * st) by (rewrite Nat2Z.inj_succ; nia).
    rewrite <- (opsD_app d st top fn Hst Hstep m1 (m1 + st) (m1 + Z.of_nat (S q) * st)); try assumption; try lia.
    2:{ replace (m1 + Z.of_nat (S q) * st - (m1 + st)) with (Z.of_nat q * st) by lia. apply Z.mod_mul. lia. }
    rewrite run_app. replace (m1 + Z.of_nat (S q) * st) with (m1 + st + Z.of_nat q * st) in * by lia.
    destruct (IH (m1 + st) g) as (E1 & E2); [lia|exact Hg|]. cbv zeta in E1, E2.
    assert (Ec : opsD d st top fn m1 (m1 + st) = colD d top fn m1).
    { rewrite opsD_cat by assumption. replace ((m1 + st - m1) / st) with 1 by (replace (m1 + st - m1) with (1 * st) by lia; symmetry; apply Z.div_mul; lia).
      change (Z.to_nat 1) with 1%nat. cbn [cat app]. f_equal. lia. }
    rewrite Ec.
    assert (Et : top m1 = top (m1 + st) + d). { replace m1 with (m1 + st - st * 1) at 1 by lia. rewrite Hstep by lia. lia. }
    destruct (col_sum m1 (run (opsD d st top fn (m1 + st) (m1 + st + Z.of_nat q * st)) g)) as (E3 & E4).
    + exact Hm.
    + intros i Hi H0i. apply E2; [rewrite <- Et; lia|exact H0i].
    + cbv zeta in E3, E4. split; [rewrite E3; exact E1|exact E4].
Qed.
End Conv.

(** ** from operations to arrays *)
Section Arr.
Variables (oA S n : Z).
Hypothesis HS : 1 <= S.
Lemma arr_conv (A : list R) p ops (f1 f2 : Z -> R) : columns_fit A oA S n 1 -> 0 <= n ->
  real (minv oA S n 1 A) (mview oA S n) 1 p (fun _ => ops) ->
  exists A', p A = Some A' /\ only_columns_changed A A' oA S n 1 /\ forall r, 0 <= r < n -> nthZ 0%R A' (oA + r * S) = run ops (fun r => if (0 <=? r) && (r <? n) then nthZ 0%R A (oA + r * S) else 0%R) r.
Proof.
  intros Ft Hn Hp. assert (I : minv oA S n 1 A A) by (apply minv_refl; exact Ft).
  destruct (Hp A I) as (A' & E & I1 & V). exists A'. split; [exact E|]. split.
  - destruct I1 as (L & _ & O). split; auto. intros p' Hp'. apply O. intros (r & i & Hr & Hi & E'). apply (Hp' r i Hr Hi). exact E'.
  - intros r Hr. specialize (V 0 r ltac:(lia)). unfold mview, addr in V. cbn in V. replace ((0 <=? r) && (r <? n)) with true in V by lia. rewrite !Z.add_0_r in V. rewrite V.
    apply run_ext. intros r'. rewrite Z.add_0_r. reflexivity.
Qed.
End Arr.
