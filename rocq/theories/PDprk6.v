(** * Proofs: deflation *)
From Coq Require Import ZArith List Lia Bool ZifyBool ZifyNat Reals Lra.
From Verif Require Import Arith Base BaseFacts SpecSum PSum SpecLin PTri MSort SpecSort PSort PSortThms MDprk MDprk2 SpecDprk PDprk PDprk2.
Import ListNotations.
Open Scope Z_scope.

Lemma sort_spec (by_ : R -> R -> bool) a bs p lo hi : strict_weak by_ -> 0 <= lo -> lo <= hi + 1 -> hi < zlen a -> Forall (fun b => hi < zlen b) bs -> hi < zlen p ->
  exists a' bs' p' sg tau, sort by_ a bs p lo hi = Some (SortSt a' bs' p') /\ permutes lo hi sg tau /\
    rearranged sg a a' /\ Forall2 (rearranged sg) bs bs' /\ rearranged sg p p' /\ sorted_by by_ a' lo hi.
Proof.
  intros HW H0 H1 Ha Hb Hp. destruct HW as (HA & HT). unfold sort.
  destruct (quicksort_safe_proof R by_ (Z.to_nat (hi - lo + 2)) a bs p lo hi) as (a' & bs' & p' & sg & tau & E & H); auto; [lia|].
  destruct (quicksort_sorts_proof R by_ (Z.to_nat (hi - lo + 2)) a bs p lo hi) as (a2 & bs2 & p2 & E2 & S2); auto; [split; auto|lia|].
  rewrite E in E2. injection E2 as <- <- <-. exists a', bs', p', sg, tau. split; auto. tauto.
Qed.
Lemma lt_sw : strict_weak (@lt_ R _). Proof. exact (proj1 lt_strict_weak_proof). Qed.
Lemma ltabs_sw : strict_weak (@ltabs R _). Proof. exact (proj2 lt_strict_weak_proof). Qed.
Lemma rear_nR sg (a a' : list R) : rearranged sg a a' -> forall k, nR a' k = nR a (sg k).
Proof. intros (_ & H) k. now apply nth_eq. Qed.
Lemma rear_nZ sg (a a' : list Z) : rearranged sg a a' -> forall k, nZ a' k = nZ a (sg k).
Proof. intros (_ & H) k. unfold nthZ. now rewrite H. Qed.
Lemma permutes_ext lo lo' hi sg tau : lo' <= lo -> lo <= hi + 1 -> permutes lo hi sg tau -> permutes lo' hi sg tau.
Proof.
  intros H H0 (P1 & P2 & P3 & P4). split; auto. split; auto. split.
  - intros k Hk. destruct (Z_lt_dec k lo); [rewrite P4; lia|]. specialize (P3 k ltac:(lia)). lia.
  - intros k Hk. apply P4. lia.
Qed.
Lemma permutes_comp lo hi s1 t1 s2 t2 : permutes lo hi s1 t1 -> permutes lo hi s2 t2 -> permutes lo hi (fun k => s1 (s2 k)) (fun k => t2 (t1 k)).
Proof.
  intros (P1 & P2 & P3 & P4) (Q1 & Q2 & Q3 & Q4). split; [intros; now rewrite Q1, P1|]. split; [intros; now rewrite P2, Q2|]. split; [intros; auto|].
  intros k Hk. rewrite Q4 by auto. now apply P4.
Qed.
Lemma permutes_perm n sg tau p : 0 <= n -> permutes 0 (n - 1) sg tau -> zlen p = n -> (forall k, 0 <= k < n -> nZ p k = sg k) -> is_perm n p.
Proof.
  intros Hn (P1 & P2 & P3 & P4) L V. split; [lia|]. split.
  - intros i Hi. rewrite V by auto. specialize (P3 i ltac:(lia)). lia.
  - intros i j Hi Hj E. rewrite !V in E by auto. apply (f_equal tau) in E. now rewrite !P2 in E.
Qed.
Lemma first_above_spec x tol n : 0 <= n <= zlen x ->
  exists k, first_above (Z.to_nat n) x tol 0 n = Some k /\ 0 <= k <= n /\ (forall i, 0 <= i < k -> (Rabs (nR x i) <= tol)%R) /\ (k < n -> (tol < Rabs (nR x k))%R).
Proof.
  intros Hn. enough (G : forall fuel i, 0 <= i <= n -> n - i = Z.of_nat fuel -> (forall j, 0 <= j < i -> (Rabs (nR x j) <= tol)%R) ->
    exists k, first_above fuel x tol i n = Some k /\ 0 <= k <= n /\ (forall i, 0 <= i < k -> (Rabs (nR x i) <= tol)%R) /\ (k < n -> (tol < Rabs (nR x k))%R)).
  { apply G; [lia|lia|intros; lia]. }
  induction fuel as [|fuel IH]; intros i Hi Hf HL.
  - exists i. split; [reflexivity|]. split; [lia|]. split; auto. intros; lia.
  - cbn [first_above]. replace (i <? n) with true by lia. rewrite (zget_nthZ 0%R) by lia. cbn [obind ltb absA R_arith]. unfold R_ltb. destruct (Rlt_dec tol (Rabs (nR x i))) as [H|H].
    + exists i. split; [reflexivity|]. split; [lia|]. split; auto.
    + apply IH; [lia|lia|]. intros j Hj. destruct (Z.eq_dec j i) as [->|]; [lra|]. apply HL. lia.
Qed.
Lemma shift_down_spec iz n (x : list R) : 0 <= iz <= n -> n <= zlen x ->
  exists x', shift_down iz n x = Some x' /\ zlen x' = zlen x /\ forall i, 0 <= i < n - iz -> nR x' i = nR x (iz + i).
Proof.
  intros Hz Hn. unfold shift_down.
  match goal with |- exists x', for_up iz n ?b x = _ /\ _ => destruct (for_up_inv (fun k x' => zlen x' = zlen x /\ (forall i, 0 <= i < k - iz -> nR x' i = nR x (iz + i)) /\ forall i, k - iz <= i -> nR x' i = nR x i) iz n b x) as (x' & E & L & V & _); [lia| | |] end.
  - split; auto. split; [intros; lia|auto].
  - intros i x1 Hi (L & V & O). rewrite (zget_nthZ 0%R) by lia. cbn [obind]. rewrite zset_some by lia. eexists; split; [reflexivity|]. rewrite zlen_zupd. split; auto. split.
    + intros j Hj. destruct (Z.eq_dec j (i - iz)) as [->|].
      * rewrite nthZ_zupd_same by lia. rewrite O by lia. f_equal. lia.
      * rewrite nthZ_zupd_other by lia. apply V. lia.
    + intros j Hj. rewrite nthZ_zupd_other by lia. apply O. lia.
  - eauto.
Qed.
Lemma copy_loop n (z b : list R) : 0 <= n -> n <= zlen z -> n <= zlen b ->
  exists b', for_up 0 n (fun i b => do zi <- zget z i; zset b i zi) b = Some b' /\ zlen b' = zlen b /\ forall i, 0 <= i < n -> nR b' i = nR z i.
Proof.
  intros Hn Hz Hb. destruct (seg_loop 0 n (fun i b => do zi <- zget z i; zset b i zi) (fun i _ => nR z i) b) as (b' & E & L & V & _); try lia.
  - intros i y Hi L. rewrite (zget_nthZ 0%R) by lia. cbn [obind]. now rewrite zset_some by lia.
  - exists b'. split; auto.
Qed.
Lemma sorted_abs x k n tol : sorted_by (@ltabs R _) x 0 (n - 1) -> n <= zlen x -> (k < n -> (tol < Rabs (nR x k))%R) -> 0 <= k -> forall i, k <= i < n -> (tol < Rabs (nR x i))%R.
Proof.
  intros HS Hn Hk H0 i Hi. destruct (Z.eq_dec i k) as [->|]; [apply Hk; lia|]. specialize (Hk ltac:(lia)).
  specialize (HS k i (nR x k) (nR x i) ltac:(lia) ltac:(lia) ltac:(lia)). rewrite !(zget_nthZ 0%R) in HS by lia. specialize (HS eq_refl eq_refl).
  unfold ltabs in HS. cbn in HS. unfold R_ltb in HS. destruct (Rlt_dec (Rabs (nR x i)) (Rabs (nR x k))); [discriminate|lra].
Qed.
Lemma sorted_le x lo n : sorted_by (@lt_ R _) x lo (n - 1) -> 0 <= lo -> n <= zlen x -> forall i j, lo <= i -> i <= j -> j < n -> (nR x i <= nR x j)%R.
Proof.
  intros HS Hl Hn i j Hi Hj Hk. destruct (Z.eq_dec i j) as [->|]; [lra|].
  specialize (HS i j (nR x i) (nR x j) ltac:(lia) ltac:(lia) ltac:(lia)). rewrite !(zget_nthZ 0%R) in HS by lia. specialize (HS eq_refl eq_refl).
  unfold lt_ in HS. cbn in HS. unfold R_ltb in HS. destruct (Rlt_dec (nR x j) (nR x i)); [discriminate|lra].
Qed.

Lemma deflate_spec definite eps A B : dp_ok A -> (definite = true -> ip_ok B /\ ip_n B = dp_n A) ->
  let n := dp_n A in let tol := defl_tol definite eps A B in
  exists A1 B1 p1 sg tau iz, deflate definite eps A B (ztab n (fun i => i)) = Some (A1, B1, p1) /\
    permutes 0 (n - 1) sg tau /\ zlen p1 = n /\ (forall k, 0 <= k < n -> nZ p1 k = sg k) /\
    0 <= iz <= n /\ dp_n A1 = n - iz /\ dp_ok A1 /\ dp_rho A1 = dp_rho A /\
    (forall i, 0 <= i < n - iz -> nR (dp_d A1) i = nR (dp_d A) (sg (iz + i)) /\ nR (dp_z A1) i = nR (dp_z A) (sg (iz + i))) /\
    (forall i, 0 <= i < iz -> (Rabs (nR (dp_z A) (sg i)) <= tol)%R) /\
    (forall i, 0 <= i < n - iz -> (tol < Rabs (nR (dp_z A1) i))%R) /\
    (forall i j, 0 <= i -> i <= j -> j < n - iz -> (nR (dp_d A1) i <= nR (dp_d A1) j)%R) /\
    ip_sigma B1 = ip_sigma B /\
    (definite = true -> ip_n B1 = n - iz /\ ip_ok B1 /\ forall i, 0 <= i < n - iz -> nR (ip_z B1) i = nR (dp_z A1) i).
Proof.
  intros (Hn & Hd & Hz) HB n tol. unfold deflate. cbv zeta. fold n. rewrite sum_sq_val by auto. cbn [obind].
  assert (LP : zlen (ztab n (fun i : Z => i)) = n) by (apply zlen_ztab; lia).
  destruct (sort_spec (@ltabs R _) (dp_z A) [dp_d A] (ztab n (fun i => i)) 0 (n - 1)) as (z1 & bs1 & q1 & s1 & t1 & -> & P1 & R1 & F1 & RP1 & S1); try (unfold n in *; lia).
  { exact ltabs_sw. } { constructor; [unfold n; lia|constructor]. }
  inversion F1 as [|? d1 ? l1 RD1 F1']; subst. inversion F1'; subst. clear F1 F1'. cbn [obind].
  destruct (first_above_spec z1 tol n) as (iz & Ez & Hiz & Small & Big); [destruct R1; unfold n in *; lia|].
  match goal with |- context [first_above (Z.to_nat n) z1 ?t 0 n] => change t with tol end.
  rewrite Ez. cbn [obind].
  destruct (sort_spec (@lt_ R _) d1 [z1] q1 iz (n - 1)) as (d2 & bs2 & q2 & s2 & t2 & -> & P2 & R2 & F2 & RP2 & S2); try (destruct RD1, RP1; unfold n in *; lia).
  { exact lt_sw. } { constructor; [destruct R1; unfold n in *; lia|constructor]. }
  inversion F2 as [|? z2 ? l2 RZ2 F2']; subst. inversion F2'; subst. clear F2 F2'. cbn [obind].
  assert (L2d : zlen d2 = zlen (dp_d A)) by (destruct R2, RD1; lia). assert (L2z : zlen z2 = zlen (dp_z A)) by (destruct RZ2, R1; lia).
  destruct (shift_down_spec iz n d2) as (d3 & -> & L3 & V3); [lia|unfold n; lia|]. cbn [obind].
  destruct (shift_down_spec iz n z2) as (z3 & -> & L4 & V4); [lia|unfold n; lia|]. cbn [obind].
  assert (Eb : exists b, (if definite then for_up 0 (n - iz) (fun (i : Z) (b : list R) => do zi <- zget z3 i; zset b i zi) (ip_z B) else Some (ip_z B)) = Some b /\ zlen b = zlen (ip_z B) /\
    (definite = true -> forall i, 0 <= i < n - iz -> nR b i = nR z3 i)).
  { destruct definite.
    - destruct (HB eq_refl) as ((B1 & B2) & B3). destruct (copy_loop (n - iz) z3 (ip_z B)) as (b & E & L & V); [lia|unfold n in *; lia|unfold n in *; lia|]. exists b. auto.
    - exists (ip_z B). split; auto. split; auto. discriminate. }
  destruct Eb as (b & -> & Lb & Vb). cbn [obind].
  pose proof (permutes_ext iz 0 (n - 1) s2 t2 ltac:(lia) ltac:(lia) P2) as P2'.
  eexists _, _, _, (fun k => s1 (s2 k)), (fun k => t2 (t1 k)), iz. split; [reflexivity|]. cbn [dp_n dp_d dp_z dp_rho ip_n ip_z ip_sigma].
  split; [now apply permutes_comp|]. split; [destruct RP1, RP2; lia|].
  assert (D2 : forall k, nR d2 k = nR (dp_d A) (s1 (s2 k))) by (intros k; rewrite (rear_nR _ _ _ R2), (rear_nR _ _ _ RD1); reflexivity).
  assert (Z2 : forall k, nR z2 k = nR (dp_z A) (s1 (s2 k))) by (intros k; rewrite (rear_nR _ _ _ RZ2), (rear_nR _ _ _ R1); reflexivity).
  split.
  { intros k Hk. rewrite (rear_nZ _ _ _ RP2), (rear_nZ _ _ _ RP1). apply nthZ_zget. rewrite zget_ztab; auto.
    destruct P1 as (_ & _ & Q1 & _), P2' as (_ & _ & Q2 & _). specialize (Q2 k ltac:(lia)). specialize (Q1 _ Q2). lia. }
  split; [lia|]. split; [reflexivity|]. split; [repeat split; cbn; unfold n in *; lia|]. split; [reflexivity|]. split; [intros i Hi; rewrite V3, V4, D2, Z2 by lia; auto|].
  split; [|split; [|split; [|split]]].
  - intros i Hi. destruct P2 as (_ & _ & _ & Q2). rewrite (Q2 i) by lia. rewrite <- (rear_nR _ _ _ R1). apply Small. lia.
  - intros i Hi. rewrite V4 by lia. rewrite (rear_nR _ _ _ RZ2). destruct P2 as (_ & _ & Q2 & _). specialize (Q2 (iz + i) ltac:(lia)).
    apply (sorted_abs z1 iz n tol); auto; try lia. destruct R1. unfold n in *. lia.
  - intros i j Hi Hj Hk. rewrite !V3 by lia. apply (sorted_le d2 iz n); auto; unfold n in *; lia.
  - reflexivity.
  - intros Hdf. split; [now rewrite Hdf|]. destruct (HB Hdf) as ((B1 & B2) & B3). split; [|auto]. split; cbn; rewrite ?Hdf; [lia|]. unfold n in *. lia.
Qed.

Lemma deflate2_spec definite fm A B lo hi : dp_ok A -> (definite = true -> ip_ok B /\ ip_n B = dp_n A) -> zlen lo = dp_n A -> zlen hi = dp_n A ->
  let n := dp_n A in
  exists A2 B2 lo2 hi2 p2 sg tau id, deflate2 definite fm A B lo hi (ztab n (fun i => i)) = Some (A2, B2, lo2, hi2, p2, id) /\
    permutes 0 (n - 1) sg tau /\ zlen p2 = n /\ (forall k, 0 <= k < n -> nZ p2 k = sg k) /\
    0 <= id <= n /\ dp_n A2 = n /\ dp_ok A2 /\ dp_rho A2 = dp_rho A /\ zlen lo2 = n /\ zlen hi2 = n /\
    (forall i, nR (dp_d A2) i = nR (dp_d A) (sg i) /\ nR (dp_z A2) i = nR (dp_z A) (sg i) /\ nR lo2 i = nR lo (sg i) /\ nR hi2 i = nR hi (sg i)) /\
    (forall i, 0 <= i < id -> (Rabs (nR lo2 i) <= sqrt fm)%R) /\ (forall i, id <= i < n -> (sqrt fm < Rabs (nR lo2 i))%R) /\
    ip_sigma B2 = ip_sigma B /\
    (definite = true -> ip_n B2 = n /\ ip_ok B2 /\ forall i, 0 <= i < n -> nR (ip_z B2) i = nR (dp_z A2) i).
Proof.
  intros (Hn & Hd & Hz) HB Hlo Hhi n. unfold deflate2. cbv zeta. fold n in Hlo, Hhi |- *.
  assert (LP : zlen (ztab n (fun i : Z => i)) = n) by (apply zlen_ztab; unfold n; lia).
  destruct (sort_spec (@ltabs R _) lo [hi; dp_d A; dp_z A] (ztab n (fun i => i)) 0 (n - 1)) as (l1 & bs1 & q1 & s1 & t1 & -> & P1 & R1 & F1 & RP1 & S1); try (unfold n in *; lia).
  { exact ltabs_sw. } { repeat constructor; unfold n in *; lia. }
  inversion F1 as [|? h1 ? k1 RH1 F1']; subst. inversion F1' as [|? d1 ? k2 RD1 F1'']; subst. inversion F1'' as [|? z1 ? k3 RZ1 F1''']; subst. inversion F1'''; subst. clear F1 F1' F1'' F1'''. cbn [obind].
  destruct (first_above_spec l1 (sqrt fm) n) as (id & Ez & Hid & Small & Big); [destruct R1; unfold n in *; lia|]. change (sqrtA fm) with (sqrt fm). rewrite Ez. cbn [obind].
  destruct (sort_spec (@lt_ R _) d1 [z1; l1; h1] q1 id (n - 1)) as (d2 & bs2 & q2 & s2 & t2 & -> & P2 & R2 & F2 & RP2 & S2); try (destruct RD1, RP1; unfold n in *; lia).
  { exact lt_sw. } { destruct RZ1, R1, RH1. repeat constructor; unfold n in *; lia. }
  inversion F2 as [|? z2 ? k1 RZ2 F2']; subst. inversion F2' as [|? l2 ? k2 RL2 F2'']; subst. inversion F2'' as [|? h2 ? k3 RH2 F2''']; subst. inversion F2'''; subst. clear F2 F2' F2'' F2'''. cbn [obind].
  assert (L2d : zlen d2 = zlen (dp_d A)) by (destruct R2, RD1; lia). assert (L2z : zlen z2 = zlen (dp_z A)) by (destruct RZ2, RZ1; lia).
  assert (Eb : exists b, (if definite then for_up 0 n (fun (i : Z) (b : list R) => do zi <- zget z2 i; zset b i zi) (ip_z B) else Some (ip_z B)) = Some b /\ zlen b = zlen (ip_z B) /\
    (definite = true -> forall i, 0 <= i < n -> nR b i = nR z2 i)).
  { destruct definite.
    - destruct (HB eq_refl) as ((B1 & B2) & B3). destruct (copy_loop n z2 (ip_z B)) as (b & E & L & V); [unfold n; lia|unfold n in *; lia|unfold n in *; lia|]. exists b. auto.
    - exists (ip_z B). split; auto. split; auto. discriminate. }
  destruct Eb as (b & -> & Lb & Vb). cbn [obind].
  pose proof (permutes_ext id 0 (n - 1) s2 t2 ltac:(lia) ltac:(lia) P2) as P2'.
  eexists _, _, _, _, _, (fun k => s1 (s2 k)), (fun k => t2 (t1 k)), id. split; [reflexivity|]. cbn [dp_n dp_d dp_z dp_rho ip_n ip_z ip_sigma].
  split; [now apply permutes_comp|]. split; [destruct RP1, RP2; lia|]. split.
  { intros k Hk. rewrite (rear_nZ _ _ _ RP2), (rear_nZ _ _ _ RP1). apply nthZ_zget. rewrite zget_ztab; auto.
    destruct P1 as (_ & _ & Q1 & _), P2' as (_ & _ & Q2 & _). specialize (Q2 k ltac:(lia)). specialize (Q1 _ Q2). lia. }
  split; [lia|]. split; [reflexivity|]. split; [repeat split; cbn; unfold n in *; lia|]. split; [reflexivity|]. split; [destruct RL2, R1; lia|]. split; [destruct RH2, RH1; lia|].
  split; [intros i; rewrite (rear_nR _ _ _ R2), (rear_nR _ _ _ RD1), (rear_nR _ _ _ RZ2), (rear_nR _ _ _ RZ1), (rear_nR _ _ _ RL2), (rear_nR _ _ _ R1), (rear_nR _ _ _ RH2), (rear_nR _ _ _ RH1); auto|].
  split; [|split; [|split]].
  - intros i Hi. rewrite (rear_nR _ _ _ RL2). destruct P2 as (_ & _ & _ & Q2). rewrite (Q2 i) by lia. apply Small. lia.
  - intros i Hi. rewrite (rear_nR _ _ _ RL2). destruct P2 as (_ & _ & Q2 & _). specialize (Q2 i ltac:(lia)). apply (sorted_abs l1 id n (sqrt fm)); auto; try lia. destruct R1. lia.
  - reflexivity.
  - intros Hdf. destruct (HB Hdf) as ((B1 & B2) & B3). split; [unfold n; lia|]. split; [|auto]. split; cbn; lia.
Qed.
