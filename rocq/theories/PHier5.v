(** * Proofs: building a hierarchical matrix by sampling *)
From Coq Require Import ZArith List Lia Bool ZifyBool ZifyNat Reals Lra.
From Verif Require Import Arith Base BaseFacts SpecSum PSum SpecLin MBanded SpecBanded PTri MSort SpecSort PSearch PSortThms MHier SpecHier PHier PHier2 PHier3 PHier4.
Import ListNotations.
Open Scope Z_scope.

Lemma tree_block m n M N bl a b X i j : h_ok (HTree m n M N bl) -> 0 <= a < M -> 0 <= b < N -> zget bl (a + b * M) = Some X ->
  before a (rsize bl) <= i < before a (rsize bl) + rsize bl a -> before b (csize bl M) <= j < before b (csize bl M) + csize bl M b ->
  h_mat (HTree m n M N bl) i j = h_mat X (i - before a (rsize bl)) (j - before b (csize bl M)).
Proof.
  intros ok Ha Hb EX Hi Hj. destruct (tree_facts m n M N bl ok) as (HM & HN & _ & Em & En & _ & G & Ra & Cb & Ba & Bb).
  assert (DR : forall a', 0 <= a' < M -> a' <> a -> ~ (before a' (rsize bl) <= i < before a' (rsize bl) + rsize bl a')).
  { intros a' Ha' Ne K. rewrite <- before_S in K, Hi by lia. destruct (Z_lt_ge_dec a a').
    - pose proof (before_mono (rsize bl) a' ltac:(intros; apply Ra; lia) (a + 1) ltac:(lia)). lia.
    - pose proof (before_mono (rsize bl) a ltac:(intros; apply Ra; lia) (a' + 1) ltac:(lia)). lia. }
  assert (DC : forall b', 0 <= b' < N -> b' <> b -> ~ (before b' (csize bl M) <= j < before b' (csize bl M) + csize bl M b')).
  { intros a' Ha' Ne K. rewrite <- before_S in K, Hj by lia. destruct (Z_lt_ge_dec b a').
    - pose proof (before_mono (csize bl M) a' ltac:(intros; apply Cb; lia) (b + 1) ltac:(lia)). lia.
    - pose proof (before_mono (csize bl M) b ltac:(intros; apply Cb; lia) (a' + 1) ltac:(lia)). lia. }
  rewrite h_mat_tree. rewrite (sumZ_single N b); auto.
  2:{ intros b' Hb' Ne. rewrite (sumZ_ext _ _ (fun _ => 0%R)); [apply sumZ_zero; auto|]. intros a' Ha'. unfold pb, placed. specialize (DC b' Hb' Ne).
      destruct (_ && _ && _ && _) eqn:E; auto. exfalso. lia. }
  rewrite (sumZ_single M a); auto.
  2:{ intros a' Ha' Ne. unfold pb, placed. specialize (DR a' Ha' Ne). destruct (_ && _ && _ && _) eqn:E; auto. exfalso. lia. }
  unfold pb, placed. replace (_ && _ && _ && _) with true by lia. rewrite (nthZ_zget _ _ _ (h_mat X)); auto. now rewrite zget_map, EX.
Qed.


Lemma nd_le x lo hi i j : nondecreasing x lo hi -> lo <= i -> i <= j -> j <= hi -> (nthZ 0 x i <= nthZ 0 x j)%R.
Proof. intros H Hi Hij Hj. destruct (Z.eq_dec i j) as [->|]; [lra|]. apply H; lia. Qed.
Lemma dist_val x y i j : 0 <= fst i -> fst i < snd i -> snd i <= zlen x -> 0 <= fst j -> fst j < snd j -> snd j <= zlen y ->
  nondecreasing x (fst i) (snd i - 1) -> nondecreasing y (fst j) (snd j - 1) ->
  dist x y i j = Some (gap x y i j).
Proof.
  intros I1 I2 I3 J1 J2 J3 Nx Ny. unfold dist. rewrite (zget_nthZ 0%R y) by lia. cbn [obind]. rewrite (zget_nthZ 0%R x) by lia. cbn [obind].
  pose proof (nd_le x _ _ (fst i) (snd i - 1) Nx ltac:(lia) ltac:(lia) ltac:(lia)) as X1. pose proof (nd_le y _ _ (fst j) (snd j - 1) Ny ltac:(lia) ltac:(lia) ltac:(lia)) as Y1.
  unfold gap. cbn [ltb leb R_arith sub zero]. unfold R_ltb, R_leb.
  set (xa := nthZ 0%R x (fst i)) in *. set (xb := nthZ 0%R x (snd i - 1)) in *. set (ya := nthZ 0%R y (fst j)) in *. set (yb := nthZ 0%R y (snd j - 1)) in *.
  rewrite (zget_nthZ 0%R x (fst i)) by lia. cbn [obind]. rewrite (zget_nthZ 0%R y (snd j - 1)) by lia. cbn [obind]. fold xa yb.
  unfold Rmax. repeat (destruct (Rlt_dec _ _) || destruct (Rle_dec _ _)); f_equal; lra.
Qed.
Lemma diam_val v i : 0 <= fst i -> fst i < snd i -> snd i <= zlen v -> diam v i = Some (diameter v i).
Proof. intros. unfold diam. rewrite (zget_nthZ 0%R v) by lia. cbn [obind]. rewrite (zget_nthZ 0%R v) by lia. reflexivity. Qed.
Lemma gap_nonneg x y i j : (0 <= gap x y i j)%R.
Proof. apply Rmax_l. Qed.

Lemma sample_dense_val x y f i j : 0 <= fst i -> fst i <= snd i -> snd i <= zlen x -> 0 <= fst j -> fst j <= snd j -> snd j <= zlen y ->
  exists A, sample_dense x y f i j = Some A /\ de_ok A /\ de_m A = len i /\ de_n A = len j /\
    forall a b, fst i <= a < snd i -> fst j <= b < snd j -> de_mat A (a - fst i) (b - fst j) = f (nthZ 0%R x a) (nthZ 0%R y b).
Proof.
  intros I1 I2 I3 J1 J2 J3. unfold sample_dense. set (M := len i). assert (HM : 0 <= M) by (unfold M, len; lia). assert (HN : 0 <= len j) by (unfold len; lia).
  set (A0 := zmake (M * len j) zero). assert (L0 : zlen A0 = M * len j) by (apply zlen_zmake; nia).
  set (I := fun k0 (A : list R) => zlen A = M * len j /\ forall a b, fst i <= a < snd i -> fst j <= b < snd j -> a - fst i + M * (b - fst j) < k0 ->
     nthZ 0%R A (a - fst i + M * (b - fst j)) = f (nthZ 0%R x a) (nthZ 0%R y b)).
  match goal with |- context [for_up (fst j) (snd j) ?bd A0] => destruct (for_up_inv (fun b => I (M * (b - fst j))) (fst j) (snd j) bd A0) as (A & E & L & V) end; auto.
  - split; auto. intros a b Ha Hb K. exfalso. assert (0 <= M * (b - fst j)) by nia. nia.
  - intros b A1 Hb I0.
    match goal with |- context [for_up (fst i) (snd i) ?bd A1] => destruct (for_up_inv (fun a => I (a - fst i + M * (b - fst j))) (fst i) (snd i) bd A1) as (A2 & E2 & I2') end; auto.
    + now replace (fst i - fst i + M * (b - fst j)) with (M * (b - fst j)) by lia.
    + intros a A2 Ha (L2 & V2). rewrite (zget_nthZ 0%R x) by lia. cbn [obind]. rewrite (zget_nthZ 0%R y) by lia. cbn [obind].
      assert (B : 0 <= a - fst i + M * (b - fst j) < zlen A2) by (rewrite L2; unfold M, len in *; nia). rewrite zset_some by auto.
      eexists; split; [reflexivity|]. split; [now rewrite zlen_zupd|]. intros a' b' Ha' Hb' K. rewrite nthZ_zupd by auto.
      destruct (Z.eqb_spec (a - fst i + M * (b - fst j)) (a' - fst i + M * (b' - fst j))) as [Eq|Ne].
      * assert (Eq2 : a - fst i + (b - fst j) * M = a' - fst i + (b' - fst j) * M) by lia.
        apply idx2_inj in Eq2; try (unfold M, len; lia). replace a' with a by lia. replace b' with b by lia. auto.
      * apply V2; auto. lia.
    + exists A2. split; auto. destruct I2' as (L2 & V2). split; auto. intros a' b' Ha' Hb' K. apply V2; auto. unfold M, len in *. nia.
  - rewrite E. cbn [obind]. eexists; split; [reflexivity|]. cbn. split; [split; [auto|split; [auto|cbn; lia]]|]. split; auto. split; auto.
    intros a b Ha Hb. unfold de_mat. cbn. unfold mat. replace (0 + (a - fst i + (b - fst j) * M)) with (a - fst i + M * (b - fst j)) by lia. apply V; auto. unfold M, len. nia.
Qed.

Section Sample.
Variables (BS : Z) (geometric : bool) (x y : list R) (f : R -> R -> R) (eps : R) (i0 j0 : Z * Z).
Variable low : Z * Z -> Z * Z -> option (lowrank R).
Hypothesis HBS : 1 <= BS.
Hypothesis Heps : (0 <= eps)%R.
Hypothesis Hi0 : 0 <= fst i0 /\ snd i0 <= zlen x.
Hypothesis Hj0 : 0 <= fst j0 /\ snd j0 <= zlen y.
Hypothesis Nx : nondecreasing x (fst i0) (snd i0 - 1).
Hypothesis Ny : nondecreasing y (fst j0) (snd j0 - 1).
Hypothesis Hlow : forall i j, subrange i i0 -> subrange j j0 -> separated x y i j ->
  exists L, low i j = Some L /\ lr_ok L /\ lr_m L = len i /\ lr_n L = len j /\ samples f x y eps i j (lr_mat L).

Lemma split_val v i i1 : 0 <= fst i1 -> snd i1 <= zlen v -> nondecreasing v (fst i1) (snd i1 - 1) -> subrange i i1 ->
  exists c, split geometric v i = Some ((fst i, c), (c, snd i)) /\ fst i <= c < snd i /\ ((0 < diameter v i)%R -> fst i < c).
Proof.
  intros H0 H1 Nv (S1 & S2 & S3). unfold split. destruct geometric.
  - rewrite (zget_nthZ 0%R v) by lia. cbn [obind]. rewrite (zget_nthZ 0%R v) by lia. cbn [obind].
    destruct (indsplit_proof v (fst i) (snd i)) as (c & E & C1 & _ & _ & _ & C2); try lia. { intros a b Ha Hab Hb. apply Nv; lia. }
    exists c. split; [exact E|]. split; auto. intros D. apply C2. unfold diameter in D. lra.
  - unfold halve. exists (fst i + (snd i - fst i) / 2). split; auto. split; [lia|]. intros D. unfold diameter in D.
    assert (fst i <> snd i - 1). { intros E. rewrite <- E in D. lra. } lia.
Qed.

Definition good (i j : Z * Z) (H : hmat R) : Prop := h_ok H /\ hrows H = len i /\ hcols H = len j /\ samples f x y eps i j (h_mat H).

Definition blk fuel (i j : Z * Z) : option (hmat R) :=
  if (len i <? BS) || (len j <? BS) then do A <- sample_dense x y f i j; Some (HDense A)
  else
    do d <- dist x y i j; do dx <- diam x i; do dy <- diam y j;
    if leb (if ltb dx dy then dx else dy) d then do L <- low i j; Some (HLow L)
    else sample BS geometric x y (sample_dense x y f) low fuel i j.
Lemma sample_S fuel i j : sample BS geometric x y (sample_dense x y f) low (S fuel) i j =
  do ii <- split geometric x i; do jj <- split geometric y j;
  let '(i1, i2) := ii in let '(j1, j2) := jj in
  do b0 <- blk fuel i1 j1; do b1 <- blk fuel i2 j1; do b2 <- blk fuel i1 j2; do b3 <- blk fuel i2 j2;
  Some (HTree (len i) (len j) 2 2 [b0; b1; b2; b3]).
Proof. reflexivity. Qed.

Theorem sample_proof fuel i j : subrange i i0 -> subrange j j0 -> len i + len j <= Z.of_nat fuel ->
  exists H, sample BS geometric x y (sample_dense x y f) low fuel i j = Some H /\ good i j H.
Proof.
  revert i j. induction fuel as [|fuel IH]; intros i j Si Sj Hf.
  { unfold subrange, len in *. lia. }
  rewrite sample_S. destruct (split_val x i i0) as (ci & Ei & Ci & Di); try tauto. destruct (split_val y j j0) as (cj & Ej & Cj & Dj); try tauto.
  rewrite Ei. cbn [obind]. rewrite Ej. cbn [obind].
  assert (B : forall i' j', fst i <= fst i' <= snd i' -> snd i' <= snd i -> fst j <= fst j' <= snd j' -> snd j' <= snd j ->
    ((0 < diameter x i')%R -> (0 < diameter y j')%R -> BS <= len i' -> BS <= len j' -> len i' + len j' < len i + len j) ->
    exists X, blk fuel i' j' = Some X /\ good i' j' X).
  { intros i' j' I1 I2 J1 J2 Hlt. destruct Si as (S1 & S2 & S3), Sj as (T1 & T2 & T3). unfold blk.
    destruct ((len i' <? BS) || (len j' <? BS)) eqn:Small.
    - destruct (sample_dense_val x y f i' j') as (A & EA & okA & A1 & A2 & A3); try lia. rewrite EA. cbn [obind].
      eexists; split; [reflexivity|]. split; [now constructor|]. split; auto. split; auto. intros a b Ha Hb. cbn [h_mat]. rewrite A3 by auto.
      match goal with |- (Rabs (?u - ?u) <= _)%R => replace (u - u)%R with 0%R by lra end. rewrite Rabs_R0. auto.
    - assert (Li : fst i' < snd i') by (unfold len in *; lia). assert (Lj : fst j' < snd j') by (unfold len in *; lia).
      rewrite dist_val; try lia; [|intros a b ? ? ?; apply Nx; lia|intros a b ? ? ?; apply Ny; lia]. cbn [obind].
      rewrite !diam_val by lia. cbn [obind]. cbn [ltb leb R_arith]. unfold R_ltb, R_leb.
      assert (MN : (if if Rlt_dec (diameter x i') (diameter y j') then true else false then diameter x i' else diameter y j') = Rmin (diameter x i') (diameter y j')).
      { unfold Rmin. destruct (Rlt_dec _ _), (Rle_dec _ _); lra. }
      rewrite MN. destruct (Rle_dec (Rmin (diameter x i') (diameter y j')) (gap x y i' j')) as [Sep|NSep].
      + destruct (Hlow i' j') as (L & EL & okL & L1 & L2 & L3); [split; [lia|lia]|split; [lia|lia]|exact Sep|]. rewrite EL. cbn [obind].
        eexists; split; [reflexivity|]. split; [now constructor|]. split; auto.
      + assert (P : (0 < Rmin (diameter x i') (diameter y j'))%R) by (pose proof (gap_nonneg x y i' j'); lra).
        assert (Px : (0 < diameter x i')%R) by (pose proof (Rmin_l (diameter x i') (diameter y j')); lra).
        assert (Py : (0 < diameter y j')%R) by (pose proof (Rmin_r (diameter x i') (diameter y j')); lra).
        apply IH; [split; [lia|lia]|split; [lia|lia]|]. assert (len i' + len j' < len i + len j) by (apply Hlt; auto; lia). lia. }
  destruct Si as (S1 & S2 & S3), Sj as (T1 & T2 & T3).
  assert (SH : forall i' j', (len i' < len i /\ len j' <= len j) \/ (len j' < len j /\ len i' <= len i) -> len i' + len j' < len i + len j) by (unfold len in *; lia).
  (* the blocks with the smaller upper ranges: the upper range (c, stop) is proper unless c = start, and then ... *)
  assert (DX : (0 < diameter x (ci, snd i))%R -> fst i < ci).
  { intros D. apply Di. unfold diameter in *. cbn [fst snd] in *. pose proof (nd_le x _ _ (fst i) ci Nx ltac:(lia) ltac:(lia) ltac:(lia)). lra. }
  assert (DY : (0 < diameter y (cj, snd j))%R -> fst j < cj).
  { intros D. apply Dj. unfold diameter in *. cbn [fst snd] in *. pose proof (nd_le y _ _ (fst j) cj Ny ltac:(lia) ltac:(lia) ltac:(lia)). lra. }
  destruct (B (fst i, ci) (fst j, cj)) as (b0 & E0 & G0); cbn [fst snd] in *; try lia. { intros; unfold len in *; cbn [fst snd] in *; lia. }
  destruct (B (ci, snd i) (fst j, cj)) as (b1 & E1 & G1); cbn [fst snd] in *; try lia. { intros; unfold len in *; cbn [fst snd] in *; lia. }
  destruct (B (fst i, ci) (cj, snd j)) as (b2 & E2 & G2); cbn [fst snd] in *; try lia. { intros; unfold len in *; cbn [fst snd] in *; lia. }
  destruct (B (ci, snd i) (cj, snd j)) as (b3 & E3 & G3); cbn [fst snd] in *; try lia. { intros D1 D2; apply DX in D1; apply DY in D2; unfold len in *; cbn [fst snd] in *; lia. }
  rewrite E0. cbn [obind]. rewrite E1. cbn [obind]. rewrite E2. cbn [obind]. rewrite E3. cbn [obind].
  eexists; split; [reflexivity|].
  destruct G0 as (O0 & R0 & C0 & V0), G1 as (O1 & R1 & C1 & V1), G2 as (O2 & R2 & C2 & V2), G3 as (O3 & R3 & C3 & V3).
  set (bl := [b0; b1; b2; b3]).
  assert (RS0 : rsize bl 0 = len (fst i, ci)) by exact R0. assert (RS1 : rsize bl 1 = len (ci, snd i)) by exact R1.
  assert (CS0 : csize bl 2 0 = len (fst j, cj)) by exact C0. assert (CS1 : csize bl 2 1 = len (cj, snd j)) by exact C2.
  assert (BR : before 1 (rsize bl) = ci - fst i) by (change (before 1 (rsize bl)) with (0 + rsize bl 0); unfold len in RS0; cbn [fst snd] in RS0; lia).
  assert (BC : before 1 (csize bl 2) = cj - fst j) by (change (before 1 (csize bl 2)) with (0 + csize bl 2 0); unfold len in CS0; cbn [fst snd] in CS0; lia).
  assert (ok : h_ok (HTree (len i) (len j) 2 2 bl)).
  { constructor; try lia; try reflexivity.
    - intros k b Hk. assert (Hr : 0 <= k < 4) by (apply zget_range in Hk; exact Hk). assert (Q : k = 0 \/ k = 1 \/ k = 2 \/ k = 3) by lia.
      destruct Q as [-> | [-> | [-> | ->]]]; cbv in Hk; inversion Hk; subst; auto.
    - intros a b X Ha Hb Hk. assert (Qa : a = 0 \/ a = 1) by lia. assert (Qb : b = 0 \/ b = 1) by lia.
      destruct Qa as [-> | ->], Qb as [-> | ->]; cbv in Hk; inversion Hk; subst X; rewrite ?RS0, ?RS1, ?CS0, ?CS1; split; assumption.
    - change 2 with (1 + 1) at 1. rewrite before_S by lia. rewrite BR, RS1. unfold len. cbn [fst snd]. lia.
    - change 2 with (1 + 1) at 1. rewrite before_S by lia. rewrite BC, CS1. unfold len. cbn [fst snd]. lia. }
  split; [exact ok|]. split; [reflexivity|]. split; [reflexivity|].
  intros a b Ha Hb. unfold len in RS0, RS1, CS0, CS1. cbn [fst snd] in *.
  assert (TB : forall p q X, 0 <= p < 2 -> 0 <= q < 2 -> zget bl (p + q * 2) = Some X ->
     before p (rsize bl) <= a - fst i < before p (rsize bl) + rsize bl p -> before q (csize bl 2) <= b - fst j < before q (csize bl 2) + csize bl 2 q ->
     h_mat (HTree (len i) (len j) 2 2 bl) (a - fst i) (b - fst j) = h_mat X (a - fst i - before p (rsize bl)) (b - fst j - before q (csize bl 2))).
  { intros. apply tree_block; auto. }
  destruct (Z_lt_ge_dec a ci), (Z_lt_ge_dec b cj).
  - rewrite (TB 0 0 b0) by (try reflexivity; rewrite ?before_0, ?BR, ?BC, ?RS0, ?RS1, ?CS0, ?CS1; lia). rewrite !before_0, !Z.sub_0_r. apply V0; cbn [fst snd]; lia.
  - rewrite (TB 0 1 b2) by (try reflexivity; rewrite ?before_0, ?BR, ?BC, ?RS0, ?RS1, ?CS0, ?CS1; lia). rewrite before_0, BC, !Z.sub_0_r. replace (b - fst j - (cj - fst j)) with (b - cj) by lia. apply V2; cbn [fst snd]; lia.
  - rewrite (TB 1 0 b1) by (try reflexivity; rewrite ?before_0, ?BR, ?BC, ?RS0, ?RS1, ?CS0, ?CS1; lia). rewrite before_0, BR, !Z.sub_0_r. replace (a - fst i - (ci - fst i)) with (a - ci) by lia. apply V1; cbn [fst snd]; lia.
  - rewrite (TB 1 1 b3) by (try reflexivity; rewrite ?before_0, ?BR, ?BC, ?RS0, ?RS1, ?CS0, ?CS1; lia). rewrite BR, BC. replace (a - fst i - (ci - fst i)) with (a - ci) by lia. replace (b - fst j - (cj - fst j)) with (b - cj) by lia. apply V3; cbn [fst snd]; lia.
Qed.
End Sample.
