(** * Proofs: products with the eigenvectors of a diagonal-plus-rank-one pencil *)
From Coq Require Import ZArith List Lia Bool ZifyBool ZifyNat Reals Lra.
From Verif Require Import Arith Base BaseFacts SpecSum PSum SpecLin PTri MSort SpecSort PPerm MHier SpecHier PHier PHier2 MDprk SpecDprk PDprk.
Import ListNotations.
Open Scope Z_scope.

Notation nZ := (nthZ 0%Z).
Lemma nth_eq (a b : list R) i j : zget a i = zget b j -> nR a i = nR b j.
Proof. intros H. unfold nthZ. now rewrite H. Qed.
Lemma perm_surj n p : is_perm n p -> forall k, 0 <= k < n -> exists q, 0 <= q < n /\ nZ p q = k.
Proof.
  intros (Hn & HR & HJ) k Hk. set (l := map (fun q => nthZ 0 p (Z.of_nat q)) (seq 0 (Z.to_nat n))). set (r := map Z.of_nat (seq 0 (Z.to_nat n))).
  assert (Hin : In k l).
  { apply (NoDup_length_incl (l := l) (l' := r)).
    - apply NoDup_map_in.
      + intros a b Ha Hb Hab. apply in_seq in Ha, Hb. apply Nat2Z.inj. apply HJ; auto; lia.
      + apply seq_NoDup.
    - unfold l, r. rewrite !map_length. lia.
    - intros z' Hz. apply in_map_iff in Hz. destruct Hz as (q & <- & Hq). apply in_seq in Hq. apply in_map_iff.
      exists (Z.to_nat (nthZ 0 p (Z.of_nat q))). specialize (HR (Z.of_nat q) ltac:(lia)). split; [lia|]. apply in_seq. lia.
    - apply in_map_iff. exists (Z.to_nat k). split; [lia|]. apply in_seq. lia. }
  apply in_map_iff in Hin. destruct Hin as (q & Eq & Hq). apply in_seq in Hq. exists (Z.of_nat q). split; [lia|auto].
Qed.
Lemma sum_perm n p f : is_perm n p -> sumZ n (fun j => f (nZ p j)) = sumZ n f.
Proof.
  intros HP. pose proof (perm_surj n p HP) as HS. destruct HP as (Hn & HR & HJ).
  rewrite (sumZ_ext n (fun j => f (nZ p j)) (fun j => sumZ n (fun k => (delta (nZ p j) k * f k)%R))) by (intros j Hj; now rewrite delta_sum by auto).
  rewrite sumZ_swap. apply sumZ_ext. intros k Hk. rewrite sumZ_scal_r. destruct (HS k Hk) as (q & Hq & <-).
  rewrite (sumZ_single n q) by (auto; intros i Hi Hne; unfold delta; destruct (Z.eqb_spec (nZ p i) (nZ p q)) as [E|]; auto; apply HJ in E; auto; lia).
  unfold delta. rewrite Z.eqb_refl. lra.
Qed.
Lemma sum_delta_perm n p i g : is_perm n p -> 0 <= i < n -> sumZ n (fun k => (delta (nZ p k) (nZ p i) * g k)%R) = g i.
Proof.
  intros (Hn & HR & HJ) Hi. rewrite (sumZ_single n i); auto.
  - unfold delta. rewrite Z.eqb_refl. lra.
  - intros k Hk Hne. unfold delta. destruct (Z.eqb_spec (nZ p k) (nZ p i)) as [E|]; [apply HJ in E; auto; lia|lra].
Qed.
Lemma perm_nth t (x : list R) p n : is_perm n p -> n <= zlen x ->
  exists x', perm t x p n = Some (x', p) /\ perm (negb t) x' p n = Some (x, p) /\ zlen x' = zlen x /\
    (forall i, 0 <= i < n -> if t then nR x' (nZ p i) = nR x i else nR x' i = nR x (nZ p i)).
Proof.
  intros HP Hx. destruct (perm_proof t x p n HP Hx) as (x' & E & L & V & O). exists x'. split; [exact E|]. split.
  - pose proof (perm_inverse_proof t x p n HP Hx) as I. rewrite E in I. exact I.
  - split; auto. intros i Hi. specialize (V i Hi). destruct t; now apply nth_eq.
Qed.

(** a loop over lo .. hi-1 rewriting entry i to [val i (old entry)] *)
Lemma seg_loop lo hi (body : Z -> list R -> option (list R)) (val : Z -> R -> R) (y : list R) : 0 <= lo -> lo <= hi -> hi <= zlen y ->
  (forall i y', lo <= i < hi -> zlen y' = zlen y -> body i y' = Some (zupd y' i (val i (nR y' i)))) ->
  exists y', for_up lo hi body y = Some y' /\ zlen y' = zlen y /\
    (forall i, lo <= i < hi -> nR y' i = val i (nR y i)) /\ (forall i, i < lo \/ hi <= i -> zget y' i = zget y i).
Proof.
  intros H0 H1 H2 Hb.
  destruct (for_up_inv (fun k y' => zlen y' = zlen y /\ (forall i, lo <= i < k -> nR y' i = val i (nR y i)) /\ (forall i, i < lo \/ k <= i -> zget y' i = zget y i)) lo hi body y) as (y' & E & I); auto.
  - split; auto. split; [intros; lia|auto].
  - intros i y1 Hi (L & V & O). rewrite Hb by auto. eexists; split; [reflexivity|]. split; [now rewrite zlen_zupd|]. split.
    + intros k Hk. destruct (Z.eq_dec k i) as [->|].
      * rewrite nthZ_zupd_same by lia. f_equal. unfold nthZ. rewrite O by lia. reflexivity.
      * rewrite nthZ_zupd_other by lia. apply V. lia.
    + intros k Hk. rewrite zget_zupd_other by lia. apply O. lia.
  - exists y'. split; auto.
Qed.

Section Dmv.
Context {V : Type}.
Variable vmul : dpeig R V -> bool -> R -> list R -> Z -> R -> list R -> Z -> option (list R).
Variable E : dpeig R V.
Variable Vm : Z -> Z -> R.
Let n := de_num E. Let iz := de_iz E. Let id := de_id E. Let m := n - iz. Let c := n - iz - id.
Hypothesis ok : dpe_ok E.
Hypothesis Hmul : forall t alpha x ox beta y oy, fits ox (ocols t m c) x -> fits oy (orows t m c) y ->
  exists y', vmul E t alpha x ox beta y oy = Some y' /\
    writes oy (orows t m c) y y' (fun i => (alpha * matvec (ocols t m c) (op t Vm) (vec ox x) i + beta * vec oy y i)%R).

Lemma core_lo i k : i < iz -> dpe_core Vm E i k = delta i k.
Proof. intros H. unfold dpe_core. fold iz. now replace (i <? iz) with true by lia. Qed.
(** row i of the core applied to x *)
Lemma core_row x i : 0 <= i < n -> sumZ n (fun k => (dpe_core Vm E i k * x k)%R) =
  if i <? iz then x i else ((if i <? iz + id then nR (de_v E) (i - iz) * x i else 0) + sumZ c (fun k => (Vm (i - iz) k * x (iz + id + k)%Z)%R))%R.
Proof.
  intros Hi. destruct ok as (I0 & I1 & I2 & _). fold iz id n in I0, I1, I2. destruct (Z.ltb_spec i iz).
  - rewrite (sumZ_ext n _ (fun k => (delta i k * x k)%R)) by (intros; now rewrite core_lo). now apply delta_sum.
  - rewrite (sumZ_split n (iz + id)) by lia. rewrite (sumZ_split (iz + id) iz) by lia.
    rewrite (sumZ_zero iz). 2:{ intros k Hk. unfold dpe_core. fold iz id. replace (i <? iz) with false by lia. replace (k <? iz) with true by lia. lra. }
    rewrite Rplus_0_l. f_equal.
    + replace (iz + id - iz) with id by lia. destruct (Z.ltb_spec i (iz + id)).
      * rewrite (sumZ_single id (i - iz)); [|lia|].
        { unfold dpe_core. fold iz id. replace (i <? iz) with false by lia. replace (iz + (i - iz)) with i by lia. replace (i <? iz + id) with true by lia.
          replace (i <? iz) with false by lia. rewrite Z.eqb_refl. reflexivity. }
        intros k Hk Hne. unfold dpe_core. fold iz id. replace (i <? iz) with false by lia. replace (iz + k <? iz) with false by lia. replace (iz + k <? iz + id) with true by lia.
        replace (i =? iz + k) with false by lia. lra.
      * apply sumZ_zero. intros k Hk. unfold dpe_core. fold iz id. replace (i <? iz) with false by lia. replace (iz + k <? iz) with false by lia. replace (iz + k <? iz + id) with true by lia.
        replace (i =? iz + k) with false by lia. lra.
    + replace (n - (iz + id)) with c by (unfold c; lia). apply sumZ_ext. intros k Hk. unfold dpe_core. fold iz id. replace (i <? iz) with false by lia.
      replace (iz + id + k <? iz) with false by lia. replace (iz + id + k <? iz + id) with false by lia. do 2 f_equal. lia.
Qed.
(** column k *)
Lemma core_col x k : 0 <= k < n -> sumZ n (fun i => (dpe_core Vm E i k * x i)%R) =
  if k <? iz then x k else if k <? iz + id then (nR (de_v E) (k - iz) * x k)%R else sumZ m (fun i => (Vm i (k - iz - id) * x (iz + i)%Z)%R).
Proof.
  intros Hk. destruct ok as (I0 & I1 & I2 & _). fold iz id n in I0, I1, I2.
  rewrite (sumZ_split n iz) by lia. fold m.
  destruct (Z.ltb_spec k iz).
  - rewrite (sumZ_zero (n - iz)). 2:{ intros i Hi. unfold dpe_core. fold iz id. replace (iz + i <? iz) with false by lia. replace (k <? iz) with true by lia. lra. }
    rewrite Rplus_0_r. rewrite (sumZ_ext iz _ (fun i => (delta k i * x i)%R)) by (intros; rewrite core_lo by lia; unfold delta; now rewrite Z.eqb_sym).
    apply delta_sum. lia.
  - rewrite (sumZ_zero iz). 2:{ intros i Hi. rewrite core_lo by lia. unfold delta. replace (i =? k) with false by lia. lra. }
    rewrite Rplus_0_l. destruct (Z.ltb_spec k (iz + id)).
    + rewrite (sumZ_single (n - iz) (k - iz)); [|lia|].
      * unfold dpe_core. fold iz id. replace (iz + (k - iz)) with k by lia. replace (k <? iz) with false by lia. replace (k <? iz + id) with true by lia. now rewrite Z.eqb_refl.
      * intros i Hi Hne. unfold dpe_core. fold iz id. replace (iz + i <? iz) with false by lia. replace (k <? iz) with false by lia. replace (k <? iz + id) with true by lia.
        replace (iz + i =? k) with false by lia. lra.
    + apply sumZ_ext. intros i Hi. unfold dpe_core. fold iz id. replace (iz + i <? iz) with false by lia. replace (k <? iz) with false by lia. replace (k <? iz + id) with false by lia.
      do 2 f_equal. lia.
Qed.

Lemma dmv_proof t alpha x beta y : n <= zlen x -> n <= zlen y ->
  exists y', dmv vmul t alpha E x beta y = Some (x, y', de_p E, de_q E) /\
    writes 0 n y y' (fun i => (alpha * matvec n (op t (dpe_mat Vm E)) (vec 0 x) i + beta * vec 0 y i)%R).
Proof.
  intros Hx Hy. pose proof ok as (I0 & I1 & I2 & Hv & HP & HQ). fold iz id n in I0, I1, I2, Hv, HP, HQ.
  assert (Hn : 0 <= n) by lia. unfold dmv. cbv zeta. fold n iz id. destruct t.
  - destruct (perm_nth false x (de_p E) n HP Hx) as (x1 & -> & Ex & Lx & Vx). cbn [obind negb] in *.
    destruct (perm_proof true y (de_q E) n HQ Hy) as (y1 & Ey1 & Ly & Vy & Oy). rewrite Ey1. cbn [obind].
    match goal with |- context [for_up 0 iz ?b y1] => destruct (seg_loop 0 iz b (fun i v => (alpha * nR x1 i + beta * v)%R) y1) as (y2 & -> & L2 & V2 & O2); try lia end.
    { intros i y' Hi L. rewrite !(zget_nthZ 0%R) by lia. cbn [obind]. rewrite zset_some by lia. reflexivity. }
    cbn [obind].
    match goal with |- context [for_up iz (iz + id) ?b y2] => destruct (seg_loop iz (iz + id) b (fun i v => (alpha * nR (de_v E) (i - iz) * nR x1 i + beta * v)%R) y2) as (y3 & -> & L3 & V3 & O3); try lia end.
    { intros i y' Hi L. rewrite !(zget_nthZ 0%R) by lia. cbn [obind]. rewrite zset_some by lia. reflexivity. }
    cbn [obind].
    destruct (Hmul true alpha x1 iz beta y3 (iz + id)) as (y4 & -> & W4); [cbn; split; unfold m; lia|cbn; split; unfold c; lia|]. cbn [obind].
    rewrite Ex. cbn [obind]. destruct W4 as (L4 & V4 & O4). cbn [orows ocols op] in V4, O4.
    destruct (perm_proof false y4 (de_q E) n HQ ltac:(lia)) as (y5 & -> & L5 & V5 & O5). cbn [obind]. exists y5. split; [reflexivity|].
    split; [lia|]. split.
    2:{ intros k Hk. rewrite O5 by lia. rewrite O4 by (unfold c; lia). rewrite O3, O2 by lia. apply Oy. lia. }
    intros j Hj. rewrite Z.add_0_l. rewrite V5 by auto.
    pose proof (proj1 (proj2 HQ) j Hj) as Hq. fold n in Hq. set (k := nZ (de_q E) j) in *.
    assert (Ey : nR y1 k = nR y j) by (apply nth_eq, (Vy j Hj)).
    assert (EM : matvec n (op true (dpe_mat Vm E)) (vec 0 x) j = sumZ n (fun i => (dpe_core Vm E i k * nR x1 i)%R)).
    { cbn [op]. unfold matvec, transp, dpe_mat. fold n k.
      rewrite <- (sum_perm n (de_p E) (fun r => (sumZ n (fun i => (delta (nZ (de_p E) i) r * dpe_core Vm E i k)%R) * vec 0 x r)%R)) by auto.
      apply sumZ_ext. intros i Hi. cbv beta. rewrite (sum_delta_perm n (de_p E) i (fun i => dpe_core Vm E i k)) by auto. rewrite (Vx i Hi). unfold vec. now rewrite Z.add_0_l. }
    rewrite EM, core_col by auto. unfold vec. rewrite Z.add_0_l, <- Ey.
    destruct (Z.ltb_spec k iz).
    + rewrite O4 by lia. rewrite O3 by lia. rewrite (zget_nthZ 0%R) by lia. now rewrite V2 by lia.
    + destruct (Z.ltb_spec k (iz + id)).
      * rewrite O4 by lia. rewrite (zget_nthZ 0%R) by lia. rewrite V3 by lia. f_equal. f_equal; [lra|]. f_equal. apply nth_eq, O2. lia.
      * replace k with (iz + id + (k - iz - id)) at 1 by lia. rewrite V4 by (unfold c; lia). do 2 f_equal.
        f_equal. unfold vec. replace (iz + id + (k - iz - id)) with k by lia. apply nth_eq. now rewrite O3, O2 by lia.
  - destruct (perm_nth true x (de_q E) n HQ Hx) as (x1 & -> & Ex & Lx & Vx). cbn [obind negb] in *.
    destruct (perm_proof false y (de_p E) n HP Hy) as (y1 & Ey1 & Ly & Vy & Oy). rewrite Ey1. cbn [obind].
    match goal with |- context [for_up 0 iz ?b y1] => destruct (seg_loop 0 iz b (fun i v => (alpha * nR x1 i + beta * v)%R) y1) as (y2 & -> & L2 & V2 & O2); try lia end.
    { intros i y' Hi L. rewrite !(zget_nthZ 0%R) by lia. cbn [obind]. rewrite zset_some by lia. reflexivity. }
    cbn [obind].
    destruct (Hmul false alpha x1 (iz + id) beta y2 iz) as (y3 & -> & W3); [cbn; split; unfold c; lia|cbn; split; unfold m; lia|]. cbn [obind].
    destruct W3 as (L3 & V3 & O3). cbn [orows ocols op] in V3, O3.
    match goal with |- context [for_up iz (iz + id) ?b y3] => destruct (seg_loop iz (iz + id) b (fun i v => (v + alpha * nR (de_v E) (i - iz) * nR x1 i)%R) y3) as (y4 & -> & L4 & V4 & O4); try lia end.
    { intros i y' Hi L. rewrite !(zget_nthZ 0%R) by lia. cbn [obind]. rewrite zset_some by lia. reflexivity. }
    cbn [obind]. rewrite Ex. cbn [obind].
    destruct (perm_proof true y4 (de_p E) n HP ltac:(lia)) as (y5 & -> & L5 & V5 & O5). cbn [obind]. exists y5. split; [reflexivity|].
    split; [lia|]. split.
    2:{ intros k Hk. rewrite O5 by lia. rewrite O4 by lia. rewrite O3 by (unfold m; lia). rewrite O2 by lia. apply Oy. lia. }
    intros r Hr. rewrite Z.add_0_l. destruct (perm_surj n (de_p E) HP r Hr) as (i & Hi & <-). rewrite V5 by auto.
    assert (Ey : nR y1 i = nR y (nZ (de_p E) i)) by (apply nth_eq, (Vy i Hi)).
    assert (EM : matvec n (op false (dpe_mat Vm E)) (vec 0 x) (nZ (de_p E) i) = sumZ n (fun k => (dpe_core Vm E i k * nR x1 k)%R)).
    { cbn [op]. unfold matvec, dpe_mat. fold n. rewrite <- (sum_perm n (de_q E) (fun k => (dpe_core Vm E i k * nR x1 k)%R)) by auto.
      apply sumZ_ext. intros j Hj. cbv beta. rewrite (sum_delta_perm n (de_p E) i (fun i => dpe_core Vm E i (nZ (de_q E) j))) by auto. rewrite (Vx j Hj). unfold vec. now rewrite Z.add_0_l. }
    rewrite EM, core_row by auto. unfold vec at 1. rewrite Z.add_0_l, <- Ey.
    destruct (Z.ltb_spec i iz).
    + rewrite O4, O3 by lia. rewrite (zget_nthZ 0%R) by lia. now rewrite V2 by lia.
    + assert (E3 : nR y3 i = (alpha * sumZ c (fun k => (Vm (i - iz) k * nR x1 (iz + id + k)%Z)%R) + beta * nR y1 i)%R).
      { unfold nthZ at 1. replace i with (iz + (i - iz)) at 1 by lia. rewrite V3 by (unfold m; lia). f_equal. f_equal. unfold vec. replace (iz + (i - iz)) with i by lia.
        apply nth_eq, O2. lia. }
      destruct (Z.ltb_spec i (iz + id)).
      * rewrite (zget_nthZ 0%R) by lia. rewrite V4 by lia. rewrite E3. f_equal. lra.
      * rewrite O4 by lia. rewrite (zget_nthZ 0%R) by lia. rewrite E3. f_equal. lra.
Qed.
End Dmv.

Lemma dvmv_proof t alpha E x beta y : dpe_dense_ok E -> de_num E <= zlen x -> de_num E <= zlen y ->
  exists y', dvmv t alpha E x beta y = Some (x, y', de_p E, de_q E) /\
    writes 0 (de_num E) y y' (fun i => (alpha * matvec (de_num E) (op t (dpe_dense E)) (vec 0 x) i + beta * vec 0 y i)%R).
Proof.
  intros (ok & HV) Hx Hy. unfold dvmv, dpe_dense. apply dmv_proof; auto. destruct ok as (I0 & I1 & I2 & _).
  intros. apply gemv_proof; auto; try lia. split; [lia|]. split; [lia|]. intros Hc. 
  replace (0 + (de_num E - de_iz E - de_id E - 1) * (de_num E - de_iz E) + (de_num E - de_iz E)) with ((de_num E - de_iz E) * (de_num E - de_iz E - de_id E)) by ring. exact HV.
Qed.
Lemma dfmv_proof t alpha E x beta y : dpe_hier_ok E -> de_num E <= zlen x -> de_num E <= zlen y ->
  exists y', dfmv t alpha E x beta y = Some (x, y', de_p E, de_q E) /\
    writes 0 (de_num E) y y' (fun i => (alpha * matvec (de_num E) (op t (dpe_hier E)) (vec 0 x) i + beta * vec 0 y i)%R).
Proof.
  intros (ok & Hh & Hr & Hc) Hx Hy. unfold dfmv, dpe_hier. apply dmv_proof; auto.
  intros. rewrite <- Hr, <- Hc in *. now apply ghmv_proof.
Qed.
