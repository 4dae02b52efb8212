(** * Parallel regions of the drivers: every schedule gives the sequential result *)
From Coq Require Import ZArith List Lia Bool ZifyBool ZifyNat Permutation.
From Verif Require Import Base BaseFacts Arith MPermute MRotations MDrivers MBanded MSched SpecSched PSched PSched2 PSched3 PDrivers PDrivers4.
Import ListNotations.
Open Scope Z_scope.

Lemma region_ends {F} (a b : Z -> Z) lo hi st (body : Z -> thread F) (f : Z -> list F -> option (list F)) assign A A' :
  0 < st ->
  (forall i, lo <= i < hi -> (exists k, 0 <= k /\ i = lo + k * st) -> wp (interval (a i) (b i)) any (body i)) ->
  (forall i j, lo <= i -> j < hi -> i + st <= j -> b i <= a j) ->
  (forall i A, run (body i) A = f i A) ->
  schedule_of lo hi st assign -> for_upst lo hi st f A = Some A' ->
  always_ends_in body assign A A'.
Proof.
  intros Hst Hw Hab Hrun HS E.
  assert (E' : seqbody body (loop_iterations lo hi st) A = Some A').
  { rewrite seqbody_upst, <- E. apply itero_ext. intros. apply Hrun. }
  assert (Hin : forall i, In i (loop_iterations lo hi st) -> lo <= i < hi /\ exists k, 0 <= k /\ i = lo + k * st).
  { intros i Hi. apply in_loop in Hi; auto. destruct Hi as (Hr & k & ->). split; auto. exists k. split; auto. nia. }
  destruct (region_safe (fun i => interval (a i) (b i)) (fun i => interval (a i) (b i)) body (loop_iterations lo hi st) assign A A')
    as (fR & fW & Hf & Ha & Hs); auto.
  - intros i Hi. destruct (Hin i Hi). apply wp_inside with (Q := any). auto.
  - now apply nodup_loop.
  - intros i j Hi Hj Hij. destruct (Hin i Hi) as (Ri & k & Hk & Ek). destruct (Hin j Hj) as (Rj & k' & Hk' & Ek').
    assert (i + st <= j \/ j + st <= i).
    { assert (k <> k') by (intros ->; lia). destruct (Z_lt_le_dec k k'); [left|right]; nia. }
    intros p. unfold interval. destruct H as [H|H]; apply Hab in H; try lia.
  - split; [|apply no_infinite].
    intros ps B Hst'. destruct (steps_keep fR fW _ _ Hst') as (Hf' & Hl & Hq); auto. cbn [fst snd] in *. split.
    + intros p Hp.
      assert (Hd : p = Ret tt \/ p <> Ret tt).
      { destruct p as [[]| | |]; [left; reflexivity|right|right|right]; discriminate. }
      destruct Hd as [Hd|Hd]; [now left|right].
      destruct (no_fault fR fW ps B A' p) as ([p' B'] & Es); auto.
      * now rewrite Hl.
      * congruence.
      * eauto.
    + intros Hfin. rewrite (seqrun_finished ps B Hfin) in Hq. congruence.
Qed.
Lemma region_ends1 {F} (a b : Z -> Z) lo hi (body : Z -> thread F) (f : Z -> list F -> option (list F)) assign A A' :
  (forall i, lo <= i < hi -> wp (interval (a i) (b i)) any (body i)) ->
  (forall i j, lo <= i -> j < hi -> i < j -> b i <= a j) ->
  (forall i A, run (body i) A = f i A) ->
  schedule_of lo hi 1 assign -> for_up lo hi f A = Some A' ->
  always_ends_in body assign A A'.
Proof.
  intros Hw Hab Hrun HS E. apply (region_ends a b lo hi 1 body f); auto; [lia| |].
  - intros. apply Hab; lia.
  - rewrite <- E. unfold for_upst, for_up. replace ((hi - lo + 1 - 1) / 1) with (hi - lo) by (rewrite Z.div_1_r; lia).
    apply itero_ext. intros. now rewrite Z.mul_1_r.
Qed.

Lemma wp_mono {F T} (X Y : Z -> Prop) (Q : T -> Prop) (p : prog F T) :
  (forall a, X a -> Y a) -> wp X Q p -> wp Y Q p.
Proof. intros HXY. induction p; cbn; intuition. Qed.

Section D.
Context {F : Type}.
Variables (rot : F -> F -> F -> F -> F * F) (RP : rotplan F).
Let N := rp_n RP.
Hypothesis HN : 0 <= N.

(** a program kernel that stays in the [n] rows of a contiguous column, or of [S] interleaved ones *)
Definition stays1 (k : Z -> Z -> Z -> Z -> prog F unit) : Prop :=
  forall m1 m2 oA, 0 <= m1 -> 0 <= m2 -> wp (interval oA (oA + N)) any (k m1 m2 oA 1).
Definition staysS (S : Z) (ok : Z -> Z -> Prop) (k : Z -> Z -> Z -> Z -> prog F unit) : Prop :=
  forall m1 m2 oA, 0 <= m1 -> 0 <= m2 -> ok m1 m2 -> wp (interval oA (oA + N * S)) any (k m1 m2 oA S).
Lemma col1 oA r i : 0 <= r < rp_n RP -> 0 <= i < 1 -> interval oA (oA + N) (oA + r * 1 + i).
Proof. unfold interval. fold N. lia. Qed.
Lemma colS oA S r i : 0 <= r < rp_n RP -> 0 <= i < S -> interval oA (oA + N * S) (oA + r * S + i).
Proof.
  unfold interval. fold N. intros. pose proof (mul_lt_le r N S).
  pose proof (Z.mul_nonneg_nonneg r S). lia.
Qed.
Ltac st1 L := intros m1 m2 oA H1 H2; rewrite <- (Z.add_0_r oA) at 3;
  apply (L F rot _ RP oA 1 1 (col1 oA)); lia.
Lemma stays_sph_hi2lo : stays1 (p_sph_hi2lo rot RP). Proof. st1 @wp_sph_hi2lo. Qed.
Lemma stays_sph_lo2hi : stays1 (p_sph_lo2hi rot RP). Proof. st1 @wp_sph_lo2hi. Qed.
Lemma stays_tri_hi2lo : stays1 (p_tri_hi2lo rot RP). Proof. st1 @wp_tri_hi2lo. Qed.
Lemma stays_tri_lo2hi : stays1 (p_tri_lo2hi rot RP). Proof. st1 @wp_tri_lo2hi. Qed.
Lemma stays_disk_hi2lo : stays1 (p_disk_hi2lo rot RP). Proof. st1 @wp_disk_hi2lo. Qed.
Lemma stays_disk_lo2hi : stays1 (p_disk_lo2hi rot RP). Proof. st1 @wp_disk_lo2hi. Qed.

Section Drv.
(** ** driver loops *)
Variable k : Z -> Z -> Z -> Z -> prog F unit.
Variable f : kern F.
Hypothesis Hkf : implements k f.
Lemma ends_sph assign lo hi A A' : stays1 k -> 1 <= lo -> schedule_of lo hi 1 assign ->
  for_up lo hi (sph_body f N) A = Some A' -> always_ends_in (p_sph_body k N) assign A A'.
Proof.
  intros Hk Hlo. apply (region_ends1 (fun m => N * (2 * m - 1)) (fun m => N * (2 * m) + N)).
  - intros m Hm. unfold p_sph_body. apply wp_seq; [|intros _].
    + eapply wp_mono; [|apply Hk; lia]. unfold interval. intros; lia.
    + eapply wp_mono; [|apply Hk; lia]. unfold interval. intros; lia.
  - intros i j Hi Hj Hij. nia.
  - intros. apply run_sph_body; auto.
Qed.
Lemma ends_sphv assign lo hi A A' : stays1 k -> 1 <= lo -> schedule_of lo hi 1 assign ->
  for_up lo hi (fun m A => do A <- f (m mod 2) m A (N * (2 * m + 1)) 1; f (m mod 2) m A (N * (2 * m + 2)) 1) A = Some A' ->
  always_ends_in (p_sphv_body k N) assign A A'.
Proof.
  intros Hk Hlo. apply (region_ends1 (fun m => N * (2 * m + 1)) (fun m => N * (2 * m + 2) + N)).
  - intros m Hm. unfold p_sphv_body. apply wp_seq; [|intros _].
    + eapply wp_mono; [|apply Hk; lia]. unfold interval. intros; lia.
    + eapply wp_mono; [|apply Hk; lia]. unfold interval. intros; lia.
  - intros i j Hi Hj Hij. nia.
  - intros. apply run_sphv_body; auto.
Qed.
Lemma ends_tri assign lo hi A A' : stays1 k -> 0 <= lo -> schedule_of lo hi 1 assign ->
  for_up lo hi (tri_body f N) A = Some A' -> always_ends_in (p_tri_body k N) assign A A'.
Proof.
  intros Hk Hlo. apply (region_ends1 (fun m => N * m) (fun m => N * m + N)).
  - intros m Hm. unfold p_tri_body. apply Hk; lia.
  - intros i j Hi Hj Hij. nia.
  - intros. apply run_tri_body; auto.
Qed.
Lemma ends_rectdisk assign lo hi A A' : stays1 k -> 0 <= lo -> schedule_of lo hi 1 assign ->
  for_up lo hi (rectdisk_body f N) A = Some A' -> always_ends_in (p_rectdisk_body k N) assign A A'.
Proof.
  intros Hk Hlo. apply (region_ends1 (fun m => N * m) (fun m => N * m + N)).
  - intros m Hm. unfold p_rectdisk_body. apply Hk; lia.
  - intros i j Hi Hj Hij. nia.
  - intros. apply run_rectdisk_body; auto.
Qed.
End Drv.

Variable S : Z.
Hypothesis HS : 0 < S.
Variable L : Z.
Hypothesis HL : 0 < L.
Let VS := Z.to_nat S.
Lemma HVS : S = Z.of_nat VS. Proof. unfold VS. lia. Qed.
Ltac stS L := intros m1 m2 oA H1 H2 Hok;
  apply (L F rot _ RP oA S S (colS oA S) VS _ HL HVS); auto; fold N; lia.
Lemma stays_SPH_HI2LO : staysS S (fun _ _ => True) (P_SPH_HI2LO rot VS L RP).
Proof. stS @wp_SPH_HI2LO. Qed.
Lemma stays_SPH_LO2HI : staysS S (fun m1 m2 => m2 <= N + 2 * S - 4 /\ (m2 - m1) mod 2 = 0) (P_SPH_LO2HI rot VS L RP).
Proof. stS @wp_SPH_LO2HI. Qed.
Lemma stays_TRI_HI2LO : staysS S (fun _ _ => True) (P_TRI_HI2LO rot VS L RP).
Proof. stS @wp_TRI_HI2LO. Qed.
Lemma stays_TRI_LO2HI : staysS S (fun m1 m2 => m2 <= N + S - 2) (P_TRI_LO2HI rot VS L RP).
Proof. stS @wp_TRI_LO2HI. Qed.
Lemma stays_DISK_HI2LO : staysS S (fun _ _ => True) (P_DISK_HI2LO rot VS L RP).
Proof. stS @wp_DISK_HI2LO. Qed.
Lemma stays_DISK_LO2HI : 2 <= S -> staysS S (fun m1 m2 => m2 <= 2 * N - 2) (P_DISK_LO2HI rot VS L RP).
Proof. intros. stS @wp_DISK_LO2HI. Qed.

Section V.
Variable k : Z -> Z -> Z -> Z -> prog F unit.
Variable f : kern F.
Hypothesis Hkf : implements k f.
(** vector loops: step [S], [2 S] columns per iteration (triangle: [S] columns) *)
Lemma ends_sph_simd ok assign lo hi A A' : staysS S ok k -> 0 <= lo ->
  (forall m, lo <= m < hi -> (exists c, 0 <= c /\ m = lo + c * S) -> ok (m mod 2) m /\ ok ((m + 1) mod 2) (m + 1)) ->
  schedule_of lo hi S assign ->
  for_upst lo hi S (sph_simd_body f N S) A = Some A' -> always_ends_in (p_sph_simd_body k N S) assign A A'.
Proof.
  intros Hk Hlo Hok. apply (region_ends (fun m => N * (2 * m - 1)) (fun m => N * (2 * m - 1) + N * (2 * S))); auto.
  - intros m Hm Hc. destruct (Hok m Hm Hc) as [O1 O2]. unfold p_sph_simd_body. apply wp_seq; [|intros _].
    + eapply wp_mono; [|apply Hk; auto; lia]. unfold interval. intros. nia.
    + eapply wp_mono; [|apply Hk; auto; lia]. unfold interval. intros p Hp.
      replace (N * (2 * m - 1 + S)) with (N * (2 * m - 1) + N * S) in Hp by ring. nia.
  - intros i j Hi Hj Hij. nia.
  - intros. apply run_sph_simd_body; auto.
Qed.
Lemma ends_tri_simd ok assign lo hi A A' : staysS S ok k -> 0 <= lo ->
  (forall m, lo <= m < hi -> (exists c, 0 <= c /\ m = lo + c * S) -> ok 0 m) ->
  schedule_of lo hi S assign ->
  for_upst lo hi S (fun m A => f 0 m A (N * m) S) A = Some A' -> always_ends_in (p_tri_simd_body k N S) assign A A'.
Proof.
  intros Hk Hlo Hok. apply (region_ends (fun m => N * m) (fun m => N * m + N * S)); auto.
  - intros m Hm Hc. unfold p_tri_simd_body. apply Hk; auto; lia.
  - intros i j Hi Hj Hij. nia.
  - intros. apply Hkf.
Qed.
End V.
End D.

(** ** the theorems *)
Section T.
Context {F : Type}.
Variables (rot : F -> F -> F -> F -> F * F) (RP : rotplan F).
Notation N := (rp_n RP).
Lemma S12_sph assign M (A A' : list F) : 0 <= N -> schedule_of 2 (M / 2 + 1) 1 assign ->
  (execute_sph_default (kernel_sph_hi2lo rot RP) N M A = Some A' ->
     always_ends_in (p_sph_body (p_sph_hi2lo rot RP) N) assign A A') /\
  (execute_sph_default (kernel_sph_lo2hi rot RP) N M A = Some A' ->
     always_ends_in (p_sph_body (p_sph_lo2hi rot RP) N) assign A A').
Proof.
  intros HN HS. split; eapply ends_sph; eauto; try lia; try (intros ? ? ? ? ?; apply run_sph_hi2lo || apply run_sph_lo2hi);
    [apply stays_sph_hi2lo | apply stays_sph_lo2hi].
Qed.
Lemma S12_disk assign M (A A' : list F) : 0 <= N -> schedule_of 2 (M / 2 + 1) 1 assign ->
  (execute_sph_default (kernel_disk_hi2lo rot RP) N M A = Some A' ->
     always_ends_in (p_sph_body (p_disk_hi2lo rot RP) N) assign A A') /\
  (execute_sph_default (kernel_disk_lo2hi rot RP) N M A = Some A' ->
     always_ends_in (p_sph_body (p_disk_lo2hi rot RP) N) assign A A').
Proof.
  intros HN HS. split; eapply ends_sph; eauto; try lia; try (intros ? ? ? ? ?; apply run_disk_hi2lo || apply run_disk_lo2hi);
    [apply stays_disk_hi2lo | apply stays_disk_lo2hi].
Qed.
Lemma S12_sphv assign M (A A' : list F) : 0 <= N -> schedule_of 2 (M / 2 - 1 + 1) 1 assign ->
  (execute_sphv_default (kernel_sph_hi2lo rot RP) N M A = Some A' ->
     always_ends_in (p_sphv_body (p_sph_hi2lo rot RP) N) assign A A') /\
  (execute_sphv_default (kernel_sph_lo2hi rot RP) N M A = Some A' ->
     always_ends_in (p_sphv_body (p_sph_lo2hi rot RP) N) assign A A').
Proof.
  intros HN HS. split; eapply ends_sphv; eauto; try lia; try (intros ? ? ? ? ?; apply run_sph_hi2lo || apply run_sph_lo2hi);
    [apply stays_sph_hi2lo | apply stays_sph_lo2hi].
Qed.
Lemma S12_tri assign M (A A' : list F) : 0 <= N -> schedule_of 1 M 1 assign ->
  (execute_tri_default (kernel_tri_hi2lo rot RP) N M A = Some A' ->
     always_ends_in (p_tri_body (p_tri_hi2lo rot RP) N) assign A A') /\
  (execute_tri_default (kernel_tri_lo2hi rot RP) N M A = Some A' ->
     always_ends_in (p_tri_body (p_tri_lo2hi rot RP) N) assign A A').
Proof.
  intros HN HS. split; eapply ends_tri; eauto; try lia; try (intros ? ? ? ? ?; apply run_tri_hi2lo || apply run_tri_lo2hi);
    [apply stays_tri_hi2lo | apply stays_tri_lo2hi].
Qed.
Lemma S12_rectdisk assign M (A A' : list F) : 0 <= N -> schedule_of 2 M 1 assign ->
  (execute_rectdisk_default (kernel_sph_hi2lo rot RP) N M A = Some A' ->
     always_ends_in (p_rectdisk_body (p_sph_hi2lo rot RP) N) assign A A') /\
  (execute_rectdisk_default (kernel_sph_lo2hi rot RP) N M A = Some A' ->
     always_ends_in (p_rectdisk_body (p_sph_lo2hi rot RP) N) assign A A').
Proof.
  intros HN HS. split; eapply ends_rectdisk; eauto; try lia; try (intros ? ? ? ? ?; apply run_sph_hi2lo || apply run_sph_lo2hi);
    [apply stays_sph_hi2lo | apply stays_sph_lo2hi].
Qed.
(** vector drivers: the loop over groups of [S] orders *)
Lemma lasts S M m : 0 < S -> M mod 2 = 1 -> S mod 2 = 0 -> (M mod (2 * S) + 1) / 2 <= m < M / 2 + 1 ->
  (exists c, 0 <= c /\ m = (M mod (2 * S) + 1) / 2 + c * S) -> m <= M / 2 + 1 - S.
Proof.
  intros HS HM HS2 Hm (c & Hc & E).
  pose proof (Z.div_mod M (2 * S) ltac:(lia)). pose proof (Z.mod_pos_bound M (2 * S) ltac:(lia)).
  remember (M / (2 * S)) as q. remember (M mod (2 * S)) as r.
  assert (r mod 2 = 1) by (rewrite H in HM; replace (2 * S * q + r) with (r + (S * q) * 2) in HM by ring; rewrite Z_mod_plus_full in HM; auto).
  assert (M / 2 + 1 = (r + 1) / 2 + q * S).
  { rewrite H. replace (2 * S * q + r) with (r + (q * S) * 2) by ring. rewrite Z_div_plus_full by lia. lia. }
  assert (c < q) by nia. nia.
Qed.
Lemma S12_sph_simd S L assign M (A A' : list F) : 0 <= N -> 0 < S -> S mod 2 = 0 -> 0 < L -> 0 <= M ->
  schedule_of ((M mod (2 * S) + 1) / 2) (M / 2 + 1) S assign ->
  (for_upst ((M mod (2 * S) + 1) / 2) (M / 2 + 1) S (sph_simd_body (KERNEL_SPH_HI2LO rot (Z.to_nat S) L RP) N S) A = Some A' ->
     always_ends_in (p_sph_simd_body (P_SPH_HI2LO rot (Z.to_nat S) L RP) N S) assign A A') /\
  (M mod 2 = 1 -> M <= 2 * N + 1 ->
   for_upst ((M mod (2 * S) + 1) / 2) (M / 2 + 1) S (sph_simd_body (KERNEL_SPH_LO2HI rot (Z.to_nat S) L RP) N S) A = Some A' ->
     always_ends_in (p_sph_simd_body (P_SPH_LO2HI rot (Z.to_nat S) L RP) N S) assign A A').
Proof.
  intros HN HS0 HS2 HL HM HS. assert (0 <= (M mod (2 * S) + 1) / 2) by (pose proof (Z.mod_pos_bound M (2 * S) ltac:(lia)); lia).
  split; [|intros Hodd HMN]; intros E; eapply ends_sph_simd; eauto.
  - intros ? ? ? ? ?. apply run_SPH_HI2LO.
  - apply stays_SPH_HI2LO; auto.
  - intros. cbn. auto.
  - intros ? ? ? ? ?. apply run_SPH_LO2HI.
  - apply stays_SPH_LO2HI; auto.
  - intros m Hm Hc. cbn beta. pose proof (lasts S M m HS0 Hodd HS2 Hm Hc). lia.
Qed.
Lemma S12_disk_simd S L assign M (A A' : list F) : 0 <= N -> 0 < S -> S mod 2 = 0 -> 0 < L -> 0 <= M ->
  schedule_of ((M mod (2 * S) + 1) / 2) (M / 2 + 1) S assign ->
  (for_upst ((M mod (2 * S) + 1) / 2) (M / 2 + 1) S (sph_simd_body (KERNEL_DISK_HI2LO rot (Z.to_nat S) L RP) N S) A = Some A' ->
     always_ends_in (p_sph_simd_body (P_DISK_HI2LO rot (Z.to_nat S) L RP) N S) assign A A') /\
  (M mod 2 = 1 -> M <= 4 * N - 3 ->
   for_upst ((M mod (2 * S) + 1) / 2) (M / 2 + 1) S (sph_simd_body (KERNEL_DISK_LO2HI rot (Z.to_nat S) L RP) N S) A = Some A' ->
     always_ends_in (p_sph_simd_body (P_DISK_LO2HI rot (Z.to_nat S) L RP) N S) assign A A').
Proof.
  intros HN HS0 HS2 HL HM HS. assert (0 <= (M mod (2 * S) + 1) / 2) by (pose proof (Z.mod_pos_bound M (2 * S) ltac:(lia)); lia).
  split; [|intros Hodd HMN]; intros E; eapply ends_sph_simd; eauto.
  - intros ? ? ? ? ?. apply run_DISK_HI2LO.
  - apply stays_DISK_HI2LO; auto.
  - intros. cbn. auto.
  - intros ? ? ? ? ?. apply run_DISK_LO2HI.
  - apply stays_DISK_LO2HI; auto. lia.
  - intros m Hm Hc. cbn beta. pose proof (lasts S M m HS0 Hodd HS2 Hm Hc). lia.
Qed.
Lemma S12_tri_simd S L assign M (A A' : list F) : 0 <= N -> 0 < S -> 0 < L -> 0 <= M ->
  schedule_of (M mod S) M S assign ->
  (for_upst (M mod S) M S (fun m B => KERNEL_TRI_HI2LO rot (Z.to_nat S) L RP 0 m B (N * m) S) A = Some A' ->
     always_ends_in (p_tri_simd_body (P_TRI_HI2LO rot (Z.to_nat S) L RP) N S) assign A A') /\
  (M <= N + 2 * S - 2 ->
   for_upst (M mod S) M S (fun m B => KERNEL_TRI_LO2HI rot (Z.to_nat S) L RP 0 m B (N * m) S) A = Some A' ->
     always_ends_in (p_tri_simd_body (P_TRI_LO2HI rot (Z.to_nat S) L RP) N S) assign A A').
Proof.
  intros HN HS0 HL HM HS. pose proof (Z.mod_pos_bound M S HS0).
  split; [|intros HMN]; intros E.
  - refine (ends_tri_simd RP HN S HS0 _ (KERNEL_TRI_HI2LO rot (Z.to_nat S) L RP) _ _ assign _ _ _ _ _ _ _ HS E); try lia.
    + intros ? ? ? ? ?. apply run_TRI_HI2LO.
    + apply stays_TRI_HI2LO; auto.
    + intros. exact I.
  - refine (ends_tri_simd RP HN S HS0 _ (KERNEL_TRI_LO2HI rot (Z.to_nat S) L RP) _ _ assign _ _ _ _ _ _ _ HS E); try lia.
    + intros ? ? ? ? ?. apply run_TRI_LO2HI.
    + apply stays_TRI_LO2HI; auto.
    + intros m Hm (c & Hc & Em). cbn beta. pose proof (Z.div_mod M S ltac:(lia)).
      assert (c < M / S) by nia. nia.
Qed.
Lemma S12_tet (P : rotplan F) L M assign (A A' : list F) : 0 <= N -> rp_n P = N -> 0 <= L -> schedule_of 0 M 1 assign ->
  (execute_tet_hi2lo (kernel_tri_hi2lo rot RP) (kernel_tet_hi2lo rot P) N L M A = Some A' ->
     always_ends_in (p_tet_hi2lo_body (p_tri_hi2lo rot RP) (p_tet_hi2lo rot P) N L) assign A A') /\
  (execute_tet_lo2hi (kernel_tri_lo2hi rot RP) (kernel_tet_lo2hi rot P) N L M A = Some A' ->
     always_ends_in (p_tet_lo2hi_body (p_tri_lo2hi rot RP) (p_tet_lo2hi rot P) N L) assign A A').
Proof.
  intros HN HP HL HS. split; intros E.
  - eapply (region_ends1 (fun m => N * L * m) (fun m => N * L * m + N * L)); eauto.
    + intros m Hm. unfold p_tet_hi2lo_body. apply wp_seq; [|intros _].
      * apply wp_up. intros l _ Hl. eapply wp_mono; [|apply stays_tri_hi2lo; lia]. unfold interval. intros p Hp.
        replace (N * (l + L * m)) with (N * l + N * L * m) in Hp by ring.
        pose proof (mul_lt_le l L N). pose proof (Z.mul_nonneg_nonneg N l). nia.
      * apply wp_tet_hi2lo. rewrite HP. unfold interval. intros; lia.
    + intros i j Hi Hj Hij. pose proof (Z.mul_nonneg_nonneg N L). nia.
    + intros. apply run_tet_hi2lo_body; [intros ? ? ? ? ?; apply run_tri_hi2lo | intros; apply run_tet_hi2lo].
  - eapply (region_ends1 (fun m => N * L * m) (fun m => N * L * m + N * L)); eauto.
    + intros m Hm. unfold p_tet_lo2hi_body. apply wp_seq; [|intros _].
      * apply wp_tet_lo2hi. rewrite HP. unfold interval. intros; lia.
      * apply wp_up. intros l _ Hl. eapply wp_mono; [|apply stays_tri_lo2hi; lia]. unfold interval. intros p Hp.
        replace (N * (l + L * m)) with (N * l + N * L * m) in Hp by ring.
        pose proof (mul_lt_le l L N). pose proof (Z.mul_nonneg_nonneg N l). nia.
    + intros i j Hi Hj Hij. pose proof (Z.mul_nonneg_nonneg N L). nia.
    + intros. apply run_tet_lo2hi_body; [intros ? ? ? ? ?; apply run_tri_lo2hi | intros; apply run_tet_lo2hi].
Qed.
End T.
Section Spin.
Context {F : Type}.
Variables (rot rot_t : F -> F -> F -> F -> F * F).
Lemma S12_spin SRP M assign (A A' : list F) : 0 <= sp_n SRP -> schedule_of 1 (M / 2 + 1) 1 assign ->
  (for_up 1 (M / 2 + 1) (spin_body (kernel_spinsph_hi2lo rot rot_t apply_rotc SRP) (sp_n SRP)) A = Some A' ->
     always_ends_in (p_spin_body (p_spinsph_hi2lo rot rot_t SRP) (sp_n SRP)) assign A A') /\
  (for_up 1 (M / 2 + 1) (spin_body (kernel_spinsph_lo2hi rot rot_t apply_rotc SRP) (sp_n SRP)) A = Some A' ->
     always_ends_in (p_spin_body (p_spinsph_lo2hi rot rot_t SRP) (sp_n SRP)) assign A A').
Proof.
  intros HN HS. remember (sp_n SRP) as n eqn:En. split; intros E.
  - eapply (region_ends1 (fun m => 2 * (n * (2 * m - 1))) (fun m => 2 * (n * (2 * m)) + 2 * n)); eauto.
    + intros m Hm. unfold p_spin_body. apply wp_seq; [|intros _]; apply wp_spin_hi2lo; unfold interval; rewrite <- En; intros; lia.
    + intros i j Hi Hj Hij. nia.
    + intros. apply run_spin_body. intros. apply run_spinsph_hi2lo.
  - eapply (region_ends1 (fun m => 2 * (n * (2 * m - 1))) (fun m => 2 * (n * (2 * m)) + 2 * n)); eauto.
    + intros m Hm. unfold p_spin_body. apply wp_seq; [|intros _]; apply wp_spin_lo2hi; unfold interval; rewrite <- En; intros; lia.
    + intros i j Hi Hj Hij. nia.
    + intros. apply run_spin_body. intros. apply run_spinsph_lo2hi.
Qed.
End Spin.
Lemma S12_dense {F} {HF : Arith F} trans n T LDT LDB cols assign (B B' : list F) :
  0 <= n <= LDB -> schedule_of 0 cols 1 assign ->
  (trmm trans n T LDT B LDB cols = Some B' ->
     always_ends_in (fun j => p_trmv trans n T 0 LDT (j * LDB)) assign B B') /\
  (trsm trans n T LDT B LDB cols = Some B' ->
     always_ends_in (fun j => p_trsv trans n T 0 LDT (j * LDB)) assign B B').
Proof.
  intros Hn HS. unfold trmm, trsm, columnwise. split; intros E;
    eapply (region_ends1 (fun j => j * LDB) (fun j => j * LDB + n)); eauto.
  - intros j Hj. apply wp_trmv; [exact givens|]. unfold interval. intros; lia.
  - intros; nia.
  - intros. apply run_trmv.
  - intros j Hj. apply wp_trsv; [exact givens|]. unfold interval. intros; lia.
  - intros; nia.
  - intros. apply run_trsv.
Qed.
