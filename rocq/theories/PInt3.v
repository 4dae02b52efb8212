(** * Index ranges of the kernels, the drivers, the permutations and the normalizations *)
From Coq Require Import ZArith List Lia Bool String ZifyBool ZifyNat.
From Verif Require Import Base MInt PInt PInt2.
Import ListNotations.
Open Scope Z_scope.

Ltac evl := evx; repeat match goal with H : ?e ?x = _ |- context [?e ?x] => rewrite H end.
Ltac evk := evl; repeat (ev1; evl).
Lemma seq2_safe c d e : exec c e <> Overflow -> exec d e <> Overflow -> exec (Seq c d) e <> Overflow.
Proof. intros H1 H2. cbn [exec]. destruct (exec c e); congruence. Qed.
Lemma seq2_hits_l c d e : exec c e <> Done -> exec (Seq c d) e <> Done.
Proof. intros H1. cbn [exec]. destruct (exec c e); congruence. Qed.
Lemma seq2_hits_r c d e : exec d e <> Done -> exec (Seq c d) e <> Done.
Proof. intros H1. cbn [exec]. destruct (exec c e); congruence. Qed.
Lemma call_safe ps b e vs : args e ps = Some vs -> exec b (bindall e vs) <> Overflow -> exec (Call ps b) e <> Overflow.
Proof. intros E H. cbn [exec]. now rewrite E. Qed.

(** ** the kernels *)
Definition kernel_safe (kern : cmd) (N : Z) : Prop :=
  forall e m1 m2, e "n"%string = N -> e "m1"%string = m1 -> e "m2"%string = m2 -> e "S"%string = 1 -> 0 <= m1 <= 1 -> 0 <= m2 -> 2 * m2 <= int_max -> exec kern e <> Overflow.
Lemma sph_hi2lo_safe N : 0 <= N <= 46340 -> kernel_safe c_kernel_sph_hi2lo N.
Proof.
  intros HN e m1 m2 En E1 E2 ES H1 H2 H3. unfold c_kernel_sph_hi2lo. apply (for_down _ _ _ _ _ _ (m2 - 2) m1); try rng; [evk; reflexivity|intros; evk; reflexivity|].
  intros j Hj. apply (for_down _ _ _ _ _ _ (N - 3 - j) 0); try rng; [evk; reflexivity|intros; evk; reflexivity|].
  intros k Hk. apply uses_safe. assert (P5 := tri_b N j ltac:(lia)). assert (P1 := mulb N (N + 1) 46340 46341 ltac:(lia) ltac:(lia)).
  intros x HI. repeat (destruct HI as [<-|HI]; [eexists; evk; reflexivity|]). contradiction.
Qed.
Lemma sph_lo2hi_safe N : 0 <= N <= 46340 -> kernel_safe c_kernel_sph_lo2hi N.
Proof.
  intros HN e m1 m2 En E1 E2 ES H1 H2 H3. unfold c_kernel_sph_lo2hi. apply (for_up _ _ _ _ _ _ _ m1 m2 m2); try rng; [evk; reflexivity|intros; evk; reflexivity|apply holds_lt|].
  intros j Hj. apply (for_up _ _ _ _ _ _ _ 0 (N - 3 - j) (N - 3 - j + 1)); try rng; [evk; reflexivity|intros; evk; reflexivity|apply holds_le|].
  intros k Hk. apply uses_safe. assert (P5 := tri_b N j ltac:(lia)). assert (P1 := mulb N (N + 1) 46340 46341 ltac:(lia) ltac:(lia)).
  intros x HI. repeat (destruct HI as [<-|HI]; [eexists; evk; reflexivity|]). contradiction.
Qed.
Lemma tri_hi2lo_safe N : 0 <= N <= 46340 -> kernel_safe c_kernel_tri_hi2lo N.
Proof.
  intros HN e m1 m2 En E1 E2 ES H1 H2 H3. unfold c_kernel_tri_hi2lo. apply (for_down _ _ _ _ _ _ (m2 - 1) m1); try rng; [evk; reflexivity|intros; evk; reflexivity|].
  intros j Hj. apply (for_down _ _ _ _ _ _ (N - 2 - j) 0); try rng; [evk; reflexivity|intros; evk; reflexivity|].
  intros k Hk. apply uses_safe. assert (P5 := tri_b N j ltac:(lia)). assert (P1 := mulb N (N + 1) 46340 46341 ltac:(lia) ltac:(lia)).
  intros x HI. repeat (destruct HI as [<-|HI]; [eexists; evk; reflexivity|]). contradiction.
Qed.
Lemma tri_lo2hi_safe N : 0 <= N <= 46340 -> kernel_safe c_kernel_tri_lo2hi N.
Proof.
  intros HN e m1 m2 En E1 E2 ES H1 H2 H3. unfold c_kernel_tri_lo2hi. apply (for_up _ _ _ _ _ _ _ m1 m2 m2); try rng; [evk; reflexivity|intros; evk; reflexivity|apply holds_lt|].
  intros j Hj. apply (for_up _ _ _ _ _ _ _ 0 (N - 2 - j) (N - 2 - j + 1)); try rng; [evk; reflexivity|intros; evk; reflexivity|apply holds_le|].
  intros k Hk. apply uses_safe. assert (P5 := tri_b N j ltac:(lia)). assert (P1 := mulb N (N + 1) 46340 46341 ltac:(lia) ltac:(lia)).
  intros x HI. repeat (destruct HI as [<-|HI]; [eexists; evk; reflexivity|]). contradiction.
Qed.
Lemma disk_hi2lo_safe N : 0 <= N <= 32768 -> kernel_safe c_kernel_disk_hi2lo N.
Proof.
  intros HN e m1 m2 En E1 E2 ES H1 H2 H3. unfold c_kernel_disk_hi2lo. apply (for_down _ _ _ _ _ _ (m2 - 2) m1); try rng; [evk; reflexivity|intros; evk; reflexivity|].
  intros j Hj. apply (for_down _ _ _ _ _ _ (N - 2 - (j + 1) / 2) 0); try rng; [evk; rewrite ?quot2 by lia; reflexivity|intros; evk; reflexivity|].
  intros k Hk. apply uses_safe. destruct (disk_b N j k ltac:(lia) ltac:(lia) ltac:(lia)) as (P2 & P3 & P4).
  intros x HI. repeat (destruct HI as [<-|HI]; [eexists; evk; reflexivity|]). contradiction.
Qed.
Lemma disk_lo2hi_safe N : 0 <= N <= 32768 -> kernel_safe c_kernel_disk_lo2hi N.
Proof.
  intros HN e m1 m2 En E1 E2 ES H1 H2 H3. unfold c_kernel_disk_lo2hi. apply (for_up _ _ _ _ _ _ _ m1 m2 m2); try rng; [evk; reflexivity|intros; evk; reflexivity|apply holds_lt|].
  intros j Hj. apply (for_up _ _ _ _ _ _ _ 0 (N - 2 - (j + 1) / 2) (N - 2 - (j + 1) / 2 + 1)); try rng; [evk; reflexivity|intros; evk; rewrite ?quot2 by lia; reflexivity|apply holds_le|].
  intros k Hk. apply uses_safe. destruct (disk_b N j k ltac:(lia) ltac:(lia) ltac:(lia)) as (P2 & P3 & P4).
  intros x HI. repeat (destruct HI as [<-|HI]; [eexists; evk; reflexivity|]). contradiction.
Qed.

(** ** the drivers *)
Definition envd (N M t : Z) : env := upd (upd (upd env0 "t"%string t) "M"%string M) "N"%string N.
Lemma rem2 u : 0 <= u -> Z.rem u 2 = u mod 2. Proof. intros. now apply Z.rem_mod_nonneg. Qed.
Lemma quot2b u : 0 <= u -> 0 <= Z.quot u 2 <= u. Proof. intros. rewrite quot2 by lia. lia. Qed.
Lemma rem2b u : 0 <= u -> 0 <= Z.rem u 2 <= 1. Proof. intros. rewrite rem2 by lia. lia. Qed.
Lemma kcall_safe kern N e m1 m2 off a b c : kernel_safe kern N -> 0 <= N <= int_max -> e "N"%string = N -> ev e off = Some c -> ev e m1 = Some a -> ev e m2 = Some b -> 0 <= a <= 1 -> 0 <= b -> 2 * b <= int_max -> exec (kcall kern m1 m2 off) e <> Overflow.
Proof.
  intros KS HN EN E0 E1 E2 Ha Hb H2. unfold kcall. apply seq2_safe; [now apply (use_safe _ _ c)|].
  apply (call_safe _ _ _ [("n", N); ("m1", a); ("m2", b); ("S", 1)]%string). { cbn [args ev]. rewrite EN, E1, E2, (chk_in N), (chk_in 1) by (unfold int_min, int_max in *; lia). reflexivity. }
  apply (KS _ a b); auto.
Qed.
Lemma execute_sph_safe kern N M t T : stepping kern -> kernel_safe kern N -> 0 <= N <= int_max -> 0 <= M <= int_max -> N * M <= int_max -> 0 <= t < T -> M + T + 2 <= int_max -> exec (c_execute_sph T kern) (envd N M t) = Done.
Proof.
  intros KW KS HN HM HNM Ht HT. apply exec_done. { cbn; repeat split; auto; lia. } unfold c_execute_sph, envd.
  apply (for_up _ _ _ _ _ _ _ (2 + t) (M / 2) (M / 2 + 1)); try rng; [evgo; reflexivity|intros; evgo; rewrite quot2 by lia; reflexivity|apply holds_le|].
  intros m Hm. assert (X : N * (2 * m) <= N * M) by (apply Z.mul_le_mono_nonneg_l; lia). assert (Y : 0 <= N * (2 * m - 1) <= N * (2 * m)) by nia. assert (B := rem2b m ltac:(lia)). assert (B2 := quot2b m ltac:(lia)).
  apply seq2_safe.
  - apply (kcall_safe _ N _ _ _ _ (Z.rem m 2) m (N * (2 * m - 1))); auto; try lia; evgo; reflexivity.
  - apply (kcall_safe _ N _ _ _ _ (Z.rem m 2) m (N * (2 * m))); auto; try lia; evgo; reflexivity.
Qed.
Lemma execute_sph_over kern N M T : stepping kern -> 0 <= N <= int_max -> 4 <= M <= int_max -> int_max < N * (2 * (M / 2)) -> 0 < T -> T + M <= int_max -> exists t, 0 <= t < T /\ exec (c_execute_sph T kern) (envd N M t) = Overflow.
Proof.
  intros KW HN HM HNM HT HT2. exists ((M / 2 - 2) mod T). assert (DM := Z.mod_pos_bound (M / 2 - 2) T HT). split; [lia|]. apply exec_overflow. { cbn; repeat split; auto; lia. } unfold c_execute_sph, envd.
  assert (DE := Z.div_mod (M / 2 - 2) T ltac:(lia)). set (t := (M / 2 - 2) mod T) in *. set (q := (M / 2 - 2) / T) in *. assert (0 <= q) by (apply Z.div_pos; lia).
  assert (RB : forall k, 0 <= k <= q -> 0 <= k * T <= q * T) by (intros k Hk; nia). assert (EQ : q * T = M / 2 - 2 - t) by lia.
  apply (for_hits' _ _ _ _ _ _ _ (2 + t) (M / 2) q); [lia|evgo; reflexivity| | |].
  - intros k Hk. specialize (RB k Hk). evgo. rewrite quot2 by lia. reflexivity.
  - intros k Hk. specialize (RB k Hk). cbn [holds]. lia.
  - replace (2 + t + q * T) with (M / 2) by lia. apply seq2_hits_r. unfold kcall. apply seq2_hits_l. apply use_hits. evgo. rewrite chk_out; [reflexivity|lia].
Qed.
Lemma execute_tri_safe kern N M t T : stepping kern -> kernel_safe kern N -> 0 <= N <= int_max -> 0 <= M -> 2 * M <= int_max -> N * M <= int_max -> 0 <= t < T -> M + T + 2 <= int_max -> exec (c_execute_tri T kern) (envd N M t) = Done.
Proof.
  intros KW KS HN HM HM2 HNM Ht HT. apply exec_done. { cbn; repeat split; auto; lia. } unfold c_execute_tri, envd.
  apply (for_up _ _ _ _ _ _ _ (1 + t) M M); try rng; [evgo; reflexivity|intros; evgo; reflexivity|apply holds_lt|].
  intros m Hm. assert (X : 0 <= N * m <= N * M) by nia.
  apply (kcall_safe _ N _ _ _ _ 0 m (N * m)); auto; try lia; evgo; reflexivity.
Qed.
Lemma execute_rectdisk_safe kern N M t T : stepping kern -> kernel_safe kern N -> 0 <= N <= int_max -> 0 <= M -> 2 * M <= int_max -> N * M <= int_max -> 0 <= t < T -> M + T + 2 <= int_max -> exec (c_execute_rectdisk T kern) (envd N M t) = Done.
Proof.
  intros KW KS HN HM HM2 HNM Ht HT. apply exec_done. { cbn; repeat split; auto; lia. } unfold c_execute_rectdisk, envd.
  apply (for_up _ _ _ _ _ _ _ (2 + t) M M); try rng; [evgo; reflexivity|intros; evgo; reflexivity|apply holds_lt|].
  intros m Hm. assert (X : 0 <= N * m <= N * M) by nia. assert (B := rem2b m ltac:(lia)). assert (B2 := quot2b m ltac:(lia)).
  apply (kcall_safe _ N _ _ _ _ (Z.rem m 2) m (N * m)); auto; try lia; evgo; reflexivity.
Qed.
