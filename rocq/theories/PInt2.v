(** * Thresholds of the planners of rotations *)
From Coq Require Import ZArith List Lia Bool String ZifyBool ZifyNat.
From Verif Require Import Base MInt PInt.
Import ListNotations.
Open Scope Z_scope.

Lemma quot2 u : 0 <= u -> Z.quot u 2 = u / 2. Proof. intros. now apply Z.quot_div_nonneg. Qed.
Ltac evx := cbn [ev upd env0 String.eqb Ascii.eqb Bool.eqb ix ixd ix1 ix2 obind Z.eqb Pos.eqb args bindall].
Ltac rng := unfold int_min, int_max in *; rewrite ?quot2 by lia; lia.
Ltac ev1 := match goal with |- context [chk ?z] => rewrite (chk_in z) by rng; evx end.
Ltac evgo := evx; repeat ev1.
Lemma mulb a b A B : 0 <= a <= A -> 0 <= b <= B -> 0 <= a * b <= A * B.
Proof. intros. nia. Qed.
Lemma tri_b n m : 0 <= m <= n -> 0 <= m * (2 * n + 1 - m) <= n * (n + 1).
Proof. intros. nia. Qed.

Lemma holds_lt w v : holds Lt v w = (v <? w). Proof. reflexivity. Qed.
Lemma holds_le w v : holds Le v w = (v <? w + 1). Proof. cbn. lia. Qed.

(** ** ft_plan_rotsphere *)
Section sphere.
Variable n : Z.
Let e := upd env0 "n"%string n.
Lemma rotsphere_safe : 0 <= n <= 23169 -> exec c_plan_rotsphere e = Done.
Proof.
  intros H. apply exec_done. { cbn; repeat split; lia. } unfold c_plan_rotsphere, e. assert (P1 := mulb n (n + 1) 23169 23170 ltac:(lia) ltac:(lia)).
  apply seq_safe. intros c [<-|[<-|[<-|[]]]].
  - eapply use_safe. evgo. reflexivity.
  - eapply use_safe. evgo. reflexivity.
  - apply (for_up _ _ _ _ _ _ _ 0 n n); try rng; [evgo; reflexivity|intros; evgo; reflexivity|apply holds_lt|].
    intros m Hm. apply (for_up _ _ _ _ _ _ _ 0 (n - m) (n - m)); try rng; [evgo; reflexivity|intros; evgo; reflexivity|apply holds_lt|].
    intros l Hl. apply uses_safe.
    assert (P2 := mulb (l + 1) (l + 2) 23169 23170 ltac:(lia) ltac:(lia)). assert (P3 := mulb (2 * m + 2) (2 * l + 2 * m + 5) 46338 46341 ltac:(lia) ltac:(lia)).
    assert (P4 := mulb (l + 2 * m + 3) (l + 2 * m + 4) 46339 46340 ltac:(lia) ltac:(lia)). assert (P5 := tri_b n m ltac:(lia)).
    intros a [<-|[<-|[<-|[<-|[<-|[]]]]]]; eexists; evgo; reflexivity.
Qed.
Lemma rotsphere_over : 23169 < n <= int_max -> exec c_plan_rotsphere e = Overflow.
Proof.
  intros H. apply exec_overflow. { cbn; repeat split; lia. } unfold c_plan_rotsphere, e. eapply seq_hits; [right; right; left; reflexivity|].
  apply (for_hits' _ _ _ _ _ _ _ 0 n 23169); [lia|evgo; reflexivity|intros; evgo; reflexivity|intros; cbn [holds]; lia|].
  apply (for_hits' _ _ _ _ _ _ _ 0 (n - 23169) 0); [lia|evgo; reflexivity|intros; evgo; reflexivity|intros; cbn [holds]; lia|].
  eapply uses_hits; [right; right; left; reflexivity|]. evgo. rewrite chk_out; [reflexivity|unfold int_max; lia].
Qed.
Lemma rotsphere_T : 0 <= n <= int_max -> exec c_plan_rotsphere e = if n <=? 23169 then Done else Overflow.
Proof. intros H. destruct (n <=? 23169) eqn:E; [apply rotsphere_safe|apply rotsphere_over]; lia. Qed.

(** ** ft_plan_rottriangle, ft_plan_rotrectdisk *)
Lemma alloc_over : 46340 < n <= int_max -> ev e (Quo (Mul (V "n") (Add (V "n") (K 1))) (K 2)) = None.
Proof.
  intros H. unfold e. evx. ev1. ev1. destruct (Z.eq_dec n int_max) as [->|NE]; [reflexivity|]. ev1. rewrite chk_out; [reflexivity|]. right. unfold int_max. nia.
Qed.
Lemma rottriangle_T : 0 <= n <= int_max -> exec c_plan_rottriangle e = if n <=? 46340 then Done else Overflow.
Proof.
  intros H0. destruct (n <=? 46340) eqn:E.
  - apply exec_done. { cbn; repeat split; lia. } unfold c_plan_rottriangle, e. assert (P1 := mulb n (n + 1) 46340 46341 ltac:(lia) ltac:(lia)).
    apply seq_safe. intros c [<-|[<-|[<-|[]]]].
    + eapply use_safe. evgo. reflexivity.
    + eapply use_safe. evgo. reflexivity.
    + apply (for_up _ _ _ _ _ _ _ 0 n n); try rng; [evgo; reflexivity|intros; evgo; reflexivity|apply holds_lt|].
      intros m Hm. apply (for_up _ _ _ _ _ _ _ 0 (n - m) (n - m)); try rng; [evgo; reflexivity|intros; evgo; reflexivity|apply holds_lt|].
      intros l Hl. apply uses_safe. assert (P5 := tri_b n m ltac:(lia)).
      intros a HI. repeat (destruct HI as [<-|HI]; [eexists; evgo; reflexivity|]). contradiction.
  - apply exec_overflow. { cbn; repeat split; lia. } unfold c_plan_rottriangle. eapply seq_hits; [left; reflexivity|]. apply use_hits. apply alloc_over. lia.
Qed.
Lemma rotrectdisk_T : 0 <= n <= int_max -> exec c_plan_rotrectdisk e = if n <=? 46340 then Done else Overflow.
Proof.
  intros H0. destruct (n <=? 46340) eqn:E.
  - apply exec_done. { cbn; repeat split; lia. } unfold c_plan_rotrectdisk, e. assert (P1 := mulb n (n + 1) 46340 46341 ltac:(lia) ltac:(lia)).
    apply seq_safe. intros c [<-|[<-|[<-|[]]]].
    + eapply use_safe. evgo. reflexivity.
    + eapply use_safe. evgo. reflexivity.
    + apply (for_up _ _ _ _ _ _ _ 0 n n); try rng; [evgo; reflexivity|intros; evgo; reflexivity|apply holds_lt|].
      intros m Hm. apply (for_up _ _ _ _ _ _ _ 0 (n - m) (n - m)); try rng; [evgo; reflexivity|intros; evgo; reflexivity|apply holds_lt|].
      intros l Hl. apply uses_safe. assert (P5 := tri_b n m ltac:(lia)). assert (P2 := mulb (l + 1) (l + 2) 46340 46341 ltac:(lia) ltac:(lia)).
      intros a HI. repeat (destruct HI as [<-|HI]; [eexists; evgo; reflexivity|]). contradiction.
  - apply exec_overflow. { cbn; repeat split; lia. } unfold c_plan_rotrectdisk. eapply seq_hits; [left; reflexivity|]. apply use_hits. apply alloc_over. lia.
Qed.

(** ** ft_plan_rotdisk *)
Lemma disk_b m l : 0 <= m <= 2 * n - 2 -> 0 <= l < n - (m + 1) / 2 -> n <= 32768 -> 0 <= m * n /\ l + m * n <= 2147418112 /\ 0 <= (m / 2) * ((m + 1) / 2) <= m * n.
Proof.
  intros Hm Hl Hn. assert (A1 : 0 <= m / 2 <= m) by lia. assert (A2 : 0 <= (m + 1) / 2 <= n) by lia. split; [nia|]. split; [|nia].
  assert (l <= 2 * n - 2 - m + 1) by lia. destruct (Z.eq_dec m (2 * n - 2)) as [->|NE]; [assert (l = 0) as -> by lia; nia|]. assert (m * n <= (2 * n - 3) * n) by nia. nia.
Qed.
Lemma rotdisk_T : 0 <= n <= int_max -> exec c_plan_rotdisk e = if n <=? 32768 then Done else Overflow.
Proof.
  intros H0. destruct (n <=? 32768) eqn:E.
  - apply exec_done. { cbn; repeat split; lia. } unfold c_plan_rotdisk, e. assert (P1 := mulb n n 32768 32768 ltac:(lia) ltac:(lia)).
    apply seq_safe. intros c [<-|[<-|[<-|[]]]].
    + eapply use_safe. evgo. reflexivity.
    + eapply use_safe. evgo. reflexivity.
    + apply (for_up _ _ _ _ _ _ _ 0 (2 * n - 1) (2 * n - 1)); try rng; [evgo; reflexivity|intros; evgo; reflexivity|apply holds_lt|].
      intros m Hm. apply (for_up _ _ _ _ _ _ _ 0 (n - (m + 1) / 2) (n - (m + 1) / 2)); try rng; [evgo; reflexivity|intros; evgo; rewrite quot2 by lia; reflexivity|apply holds_lt|].
      intros l Hl. apply uses_safe. destruct (disk_b m l ltac:(lia) Hl ltac:(lia)) as (P2 & P3 & P4).
      intros a HI. repeat (destruct HI as [<-|HI]; [eexists; evgo; reflexivity|]). contradiction.
  - apply exec_overflow. { cbn; repeat split; lia. } unfold c_plan_rotdisk, e. destruct (Z_le_gt_dec n 46340) as [L|G].
    + eapply seq_hits; [right; right; left; reflexivity|]. apply (for_hits' _ _ _ _ _ _ _ 0 (2 * n - 1) (2 * n - 2)); [lia|evgo; reflexivity|intros; evgo; reflexivity|intros; cbn [holds]; lia|].
      apply (for_hits' _ _ _ _ _ _ _ 0 (n - (2 * n - 2 + 1) / 2) 0); [lia|evgo; reflexivity|intros; replace (0 + (2 * n - 2) * 1) with (2 * n - 2) by lia; evgo; rewrite quot2 by lia; reflexivity|intros; cbn [holds]; lia|].
      eapply uses_hits; [do 4 right; left; reflexivity|]. replace (0 + (2 * n - 2) * 1) with (2 * n - 2) by lia. evx. ev1. ev1. ev1. rewrite chk_out; [reflexivity|]. right. unfold int_max. nia.
    + eapply seq_hits; [left; reflexivity|]. apply use_hits. evx. ev1. rewrite chk_out; [reflexivity|]. right. unfold int_max. nia.
Qed.
End sphere.

(** ** ft_plan_rotspinsphere *)
Lemma spin_b n a m j l : 0 <= n -> 0 <= m < n -> 0 <= j < a -> 0 <= l -> l + m + j < n -> a * n * n <= int_max ->
  0 <= j * n <= int_max /\ 0 <= m * a <= int_max /\ 0 <= m * a * n <= int_max /\ 0 <= l + j * n <= int_max /\ 0 <= l + j * n + m * a * n <= int_max.
Proof.
  intros H0 Hm Hj Hl HS HA. assert (X : l + j * n + m * a * n <= a * n * n - 1).
  { assert ((m + 1) * (a * n) <= n * (a * n)) by (apply Z.mul_le_mono_nonneg_r; nia). assert ((j + 1) * n <= a * n) by (apply Z.mul_le_mono_nonneg_r; lia). nia. }
  assert (0 <= j * n) by nia. assert (0 <= m * a) by nia. assert (0 <= m * a * n) by nia. assert (m * a * 1 <= m * a * n) by (apply Z.mul_le_mono_nonneg_l; lia). lia.
Qed.
Lemma rotspinsphere_T n s : 0 <= n <= int_max -> int_min < s <= int_max ->
  exec c_plan_rotspinsphere (upd (upd env0 "s"%string s) "n"%string n) = if (n <=? 23169) && (Z.abs s * n * n <=? int_max) then Done else Overflow.
Proof.
  intros H0 H1. set (a := Z.abs s). assert (Ha : 0 <= a <= int_max) by (unfold a, int_min, int_max in *; lia).
  assert (EA : exec c_plan_rotspinsphere (upd (upd env0 "s"%string s) "n"%string n) = exec (match c_plan_rotspinsphere with Call _ b => b | c => c end) (upd (upd (upd env0 "s"%string s) "n"%string n) "as"%string a)).
  { unfold c_plan_rotspinsphere. cbn [exec]. evx. rewrite (chk_in s) by (unfold int_min in *; lia). cbn [obind]. fold a. rewrite (chk_in a) by (unfold int_min in *; lia). reflexivity. }
  rewrite EA. clear EA. set (e := upd (upd (upd env0 "s"%string s) "n"%string n) "as"%string a). clearbody a.
  destruct ((n <=? 23169) && (a * n * n <=? int_max)) eqn:E.
  - apply exec_done. { cbn; repeat split; lia. } assert (Hn : 0 <= n <= 23169) by lia. assert (HA : a * n * n <= int_max) by lia. clear E. unfold c_plan_rotspinsphere, e. assert (P1 := mulb n n 23169 23169 ltac:(lia) ltac:(lia)).
    assert (P0 : 0 <= a * n * n) by nia. assert (P6 : 0 <= a * n <= int_max). { split; [nia|]. destruct (Z.eq_dec n 0) as [->|]; [unfold int_max; lia|]. assert (a * n * 1 <= a * n * n) by (apply Z.mul_le_mono_nonneg_l; nia). lia. }
    apply seq_safe. intros c [<-|[<-|[<-|[<-|[<-|[<-|[]]]]]]].
    + eapply use_safe. evgo. reflexivity.
    + eapply use_safe. evgo. reflexivity.
    + apply (for_up _ _ _ _ _ _ _ 0 n n); try rng; [evgo; reflexivity|intros; evgo; reflexivity|apply holds_lt|].
      intros m Hm. apply (for_up _ _ _ _ _ _ _ 0 (n - m) (n - m)); try rng; [evgo; reflexivity|intros; evgo; reflexivity|apply holds_lt|].
      intros l Hl. apply uses_safe.
      assert (P2 := mulb (l + 1) (l + 2) 23169 23170 ltac:(lia) ltac:(lia)). assert (P3 := mulb (2 * m + 2) (2 * l + 2 * m + 5) 46338 46341 ltac:(lia) ltac:(lia)).
      assert (P4 := mulb (l + 2 * m + 3) (l + 2 * m + 4) 46339 46340 ltac:(lia) ltac:(lia)). assert (P5 := mulb m n 23169 23169 ltac:(lia) ltac:(lia)).
      intros x HI. repeat (destruct HI as [<-|HI]; [eexists; evgo; reflexivity|]). contradiction.
    + eapply use_safe. evgo. reflexivity.
    + eapply use_safe. evgo. reflexivity.
    + apply (for_up _ _ _ _ _ _ _ 0 n n); try rng; [evgo; reflexivity|intros; evgo; reflexivity|apply holds_lt|].
      intros m Hm. apply (for_up _ _ _ _ _ _ _ 0 a a); try rng; [evgo; reflexivity|intros; evgo; reflexivity|apply holds_lt|].
      intros j Hj. apply (for_up _ _ _ _ _ _ _ 0 (n - m - j) (n - m - j)); try rng; [evgo; reflexivity|intros; evgo; reflexivity|apply holds_lt|].
      intros l Hl. apply uses_safe. destruct (spin_b n a m j l ltac:(lia) Hm Hj ltac:(lia) ltac:(lia) HA) as (Q1 & Q2 & Q3 & Q4 & Q5).
      assert (P2 := mulb (l + 1) (l + m + 1) 23169 23170 ltac:(lia) ltac:(lia)). assert (P3 := mulb (2 * j + m + 1) (2 * l + 2 * j + 2 * m + 3) 46338 46341 ltac:(lia) ltac:(lia)).
      assert (P4 := mulb (l + 2 * j + m + 2) (l + 2 * j + 2 * m + 2) 46339 46340 ltac:(lia) ltac:(lia)).
      intros x HI. repeat (destruct HI as [<-|HI]; [eexists; evgo; reflexivity|]). contradiction.
  - apply exec_overflow. { cbn; repeat split; lia. } unfold c_plan_rotspinsphere, e. destruct (Z_le_gt_dec n 23169) as [L|G].
    + eapply seq_hits; [do 3 right; left; reflexivity|]. apply use_hits. evx. ev1. ev1. assert (P0 : 0 <= a * n) by nia. destruct (Z_le_gt_dec (a * n) int_max) as [L2|G2]; [ev1|]; (rewrite chk_out; [reflexivity|]); lia.
    + eapply seq_hits; [right; right; left; reflexivity|].
      apply (for_hits' _ _ _ _ _ _ _ 0 n 23169); [lia|evgo; reflexivity|intros; evgo; reflexivity|intros; cbn [holds]; lia|].
      apply (for_hits' _ _ _ _ _ _ _ 0 (n - 23169) 0); [lia|evgo; reflexivity|intros; evgo; reflexivity|intros; cbn [holds]; lia|].
      eapply uses_hits; [right; right; left; reflexivity|]. evgo. rewrite chk_out; [reflexivity|unfold int_max; lia].
Qed.
