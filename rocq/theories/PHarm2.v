(** The BLAS calls of the harmonic transforms as products along one dimension *)
From Coq Require Import ZArith List Lia Bool Reals Lra ZifyBool ZifyNat.
From Verif Require Import Base Arith BaseFacts SpecSum PSum SpecLin SpecBanded MBanded PTri PTri2 MRotations MDrivers SpecRot SpecDrivers PDrivers PDrivers4 MHarmonic SpecHarm PHarm.
Open Scope Z_scope.

Lemma fits_mat_full {F} N M (A : list F) : 0 <= N -> zlen A = N * M -> fits_mat 0 N M N A.
Proof. intros HN L. split; [lia|]. split; [lia|]. intros. rewrite L. apply Z.eq_le_incl. ring. Qed.
Lemma fits_mat_cols {F} N M q c (A : list F) : 0 <= N -> 0 <= M -> 0 < q -> 0 <= c < q -> zlen A = N * M ->
  fits_mat (c * N) N ((M + (q - 1 - c)) / q) (q * N) A.
Proof.
  intros HN HM Hq Hc L. split; [nia|]. split; [nia|]. intros Hk. rewrite L.
  set (k := (M + (q - 1 - c)) / q) in *.
  assert (q * k <= M + (q - 1 - c)). { apply Z.mul_div_le; lia. }
  replace (c * N + (k - 1) * (q * N) + N) with (N * (q * k - (q - 1 - c))) by ring.
  apply Z.mul_le_mono_nonneg_l; lia.
Qed.

Section B.
Variable BL : blas R.
Hypothesis OK : blas_ok BL.

(** one strided call *)
Lemma strided_step t T N M q c A : 0 < N -> 0 <= M -> 0 < q -> 0 <= c < q -> zlen T = N * N -> zlen A = N * M ->
  exists A', dtrmm_left BL t N ((M + (q - 1 - c)) / q) T N A (c * N) (q * N) = Some A' /\
    glines (fun z => 0 <= z < M /\ z mod q = c) N 1 (fun z => z * N) (fun _ => op t (utri N T)) A A'.
Proof.
  intros HN HM Hq Hc LT LA.
  destruct (ok_left BL OK t N ((M + (q - 1 - c)) / q) T N A (c * N) (q * N)) as (A' & E & H).
  - auto.
  - apply Z.div_pos; lia.
  - apply fits_mat_full; auto. lia.
  - apply fits_mat_cols; auto; lia.
  - exists A'. split; auto. apply lines_glines in H. revert H.
    apply (glines_weaken _ _ N 1 _ _ _ _ A A' (fun z => z / q) (fun j => q * j + c)).
    + intros z (Hz & Hm). pose proof (Z.div_mod z q ltac:(lia)). split; [|split; [|auto]].
      * split; [apply Z.div_pos; lia|]. assert (z / q + 1 <= (M + (q - 1 - c)) / q); [|lia].
        apply Z.div_le_lower_bound; lia.
      * replace (z * N) with ((q * (z / q) + z mod q) * N) by (f_equal; lia). rewrite Hm. ring.
    + intros j Hj. pose proof (Z.mul_div_le (M + (q - 1 - c)) q ltac:(lia)). split; [|ring].
      split; [nia|]. rewrite Z.add_comm, Z.mul_comm, Z.mod_add by lia. apply Z.mod_small; lia.
Qed.
Lemma cols_disj N z z' i i' : 0 <= i < N -> 0 <= i' < N -> z <> z' -> z * N + i * 1 <> z' * N + i' * 1.
Proof. intros Hi Hi' Hn E. destruct (idx2_inj i z i' z' N); auto; lia. Qed.
Lemma columns_mode N M (U : Z -> Z -> Z -> R) (d : Z -> Prop) A A' : 0 < N -> 0 <= M -> zlen A = N * M ->
  (forall z, 0 <= z < M -> d z) -> glines d N 1 (fun z => z * N) U A A' -> mode 1 N M U A A'.
Proof.
  intros HN HM LA HD H. apply (glines_mode d 1 N M (fun z => z * N) U U A A' (fun _ z => z)); try lia; auto.
  intros x z Hx Hz. split; auto. split; [|auto]. replace x with 0 by lia. ring.
Qed.
Lemma change_U {I} (d : I -> Prop) n s base U V B B' : (forall j i k, d j -> 0 <= i < n -> 0 <= k < n -> U j i k = V j i k) ->
  glines d n s base U B B' -> glines d n s base V B B'.
Proof. intros E. apply (glines_weaken _ _ n s _ _ _ _ B B' (fun j => j) (fun j => j)); auto. Qed.

Definition sel4 {T} (a b c d : T) (z : Z) : T :=
  if z mod 4 =? 0 then a else if z mod 4 =? 1 then b else if z mod 4 =? 2 then c else d.
Lemma quad_mode t T0 T1 T2 T3 N M : 0 < N -> 0 <= M -> zlen T0 = N * N -> zlen T1 = N * N -> zlen T2 = N * N -> zlen T3 = N * N ->
  is_mode 1 N M (fun z => op t (utri N (sel4 T0 T1 T2 T3 z))) (quad BL t T0 T1 T2 T3 N M).
Proof.
  intros HN HM L0 L1 L2 L3 A LA. rewrite Z.mul_1_l in LA. unfold quad.
  destruct (strided_step t T0 N M 4 0 A) as (A1 & E1 & H1); try lia; auto.
  change (4 - 1 - 0) with 3 in E1. change (0 * N) with 0 in E1. rewrite E1. cbn [obind].
  assert (LA1 : zlen A1 = N * M) by (rewrite (proj1 H1); auto).
  destruct (strided_step t T1 N M 4 1 A1) as (A2 & E2 & H2); try lia; auto.
  change (4 - 1 - 1) with 2 in E2. rewrite Z.mul_1_l in E2. rewrite E2. cbn [obind].
  assert (LA2 : zlen A2 = N * M) by (rewrite (proj1 H2); auto).
  destruct (strided_step t T2 N M 4 2 A2) as (A3 & E3 & H3); try lia; auto.
  change (4 - 1 - 2) with 1 in E3. rewrite E3. cbn [obind].
  assert (LA3 : zlen A3 = N * M) by (rewrite (proj1 H3); auto).
  destruct (strided_step t T3 N M 4 3 A3) as (A4 & E4 & H4); try lia; auto.
  change (4 - 1 - 3) with 0 in E4. rewrite Z.add_0_r in E4. rewrite E4.
  exists A4. split; auto.
  set (V := fun z => op t (utri N (sel4 T0 T1 T2 T3 z))).
  assert (V1 : glines (fun z => 0 <= z < M /\ z mod 4 = 0) N 1 (fun z => z * N) V A A1).
  { revert H1. apply change_U. intros j i k (Hj & Hm) _ _. unfold V, sel4. rewrite Hm. reflexivity. }
  assert (V2 : glines (fun z => 0 <= z < M /\ z mod 4 = 1) N 1 (fun z => z * N) V A1 A2).
  { revert H2. apply change_U. intros j i k (Hj & Hm) _ _. unfold V, sel4. rewrite Hm. reflexivity. }
  assert (V3 : glines (fun z => 0 <= z < M /\ z mod 4 = 2) N 1 (fun z => z * N) V A2 A3).
  { revert H3. apply change_U. intros j i k (Hj & Hm) _ _. unfold V, sel4. rewrite Hm. reflexivity. }
  assert (V4 : glines (fun z => 0 <= z < M /\ z mod 4 = 3) N 1 (fun z => z * N) V A3 A4).
  { revert H4. apply change_U. intros j i k (Hj & Hm) _ _. unfold V, sel4. rewrite Hm. reflexivity. }
  apply (columns_mode N M V (fun j => ((0 <= j < M /\ j mod 4 = 0 \/ 0 <= j < M /\ j mod 4 = 1) \/ 0 <= j < M /\ j mod 4 = 2) \/ 0 <= j < M /\ j mod 4 = 3)); auto.
  - intros z Hz. pose proof (Z.mod_pos_bound z 4). lia.
  - apply (glines_seq _ _ N 1 (fun z => z * N) V A A3 A4); auto.
    + intros j j' i i' H5 H6 Hi Hi'. apply cols_disj; auto. intros ->. lia.
    + apply (glines_seq _ _ N 1 (fun z => z * N) V A A2 A3); auto.
      * intros j j' i i' H5 H6 Hi Hi'. apply cols_disj; auto. intros ->. lia.
      * apply (glines_seq _ _ N 1 (fun z => z * N) V A A1 A2); auto.
        intros j j' i i' H5 H6 Hi Hi'. apply cols_disj; auto. intros ->. lia.
Qed.
Definition sel2 {T} (a b : T) (z : Z) : T := if z mod 2 =? 0 then a else b.
Lemma pair_mode t T0 T1 N M : 0 < N -> 0 <= M -> zlen T0 = N * N -> zlen T1 = N * N ->
  is_mode 1 N M (fun z => op t (utri N (sel2 T0 T1 z)))
    (fun A => do A <- dtrmm_left BL t N ((M + 1) / 2) T0 N A 0 (2 * N); dtrmm_left BL t N (M / 2) T1 N A N (2 * N)).
Proof.
  intros HN HM L0 L1 A LA. rewrite Z.mul_1_l in LA.
  destruct (strided_step t T0 N M 2 0 A) as (A1 & E1 & H1); try lia; auto.
  change (2 - 1 - 0) with 1 in E1. change (0 * N) with 0 in E1. rewrite E1. cbn [obind].
  assert (LA1 : zlen A1 = N * M) by (rewrite (proj1 H1); auto).
  destruct (strided_step t T1 N M 2 1 A1) as (A2 & E2 & H2); try lia; auto.
  change (2 - 1 - 1) with 0 in E2. rewrite Z.add_0_r, Z.mul_1_l in E2. rewrite E2.
  exists A2. split; auto.
  set (V := fun z => op t (utri N (sel2 T0 T1 z))).
  assert (V1 : glines (fun z => 0 <= z < M /\ z mod 2 = 0) N 1 (fun z => z * N) V A A1).
  { revert H1. apply change_U. intros j i k (Hj & Hm) _ _. unfold V, sel2. rewrite Hm. reflexivity. }
  assert (V2 : glines (fun z => 0 <= z < M /\ z mod 2 = 1) N 1 (fun z => z * N) V A1 A2).
  { revert H2. apply change_U. intros j i k (Hj & Hm) _ _. unfold V, sel2. rewrite Hm. reflexivity. }
  apply (columns_mode N M V (fun j => 0 <= j < M /\ j mod 2 = 0 \/ 0 <= j < M /\ j mod 2 = 1)); auto.
  - intros z Hz. pose proof (Z.mod_pos_bound z 2). lia.
  - apply (glines_seq _ _ N 1 (fun z => z * N) V A A1 A2); auto.
    intros j j' i i' H5 H6 Hi Hi'. apply cols_disj; auto. intros ->. lia.
Qed.
Lemma left_mode t T N M : 0 < N -> 0 <= M -> zlen T = N * N -> is_mode 1 N M (fun _ => op t (utri N T)) (fun A => dtrmm_left BL t N M T N A 0 N).
Proof.
  intros HN HM LT A LA. rewrite Z.mul_1_l in LA.
  destruct (ok_left BL OK t N M T N A 0 N) as (A' & E & H); auto.
  - apply fits_mat_full; auto; lia.
  - apply fits_mat_full; auto; lia.
  - exists A'. split; auto. apply lines_glines in H. apply (columns_mode N M _ (fun z => 0 <= z < M)); auto.
Qed.
Lemma right_mode t T N M : 0 < N -> 0 < M <= N -> zlen T = N * N -> is_mode N M 1 (fun _ => transp (op t (utri N T))) (fun A => dtrmm_right BL t N M T N A 0 N).
Proof.
  intros HN HM LT A LA. rewrite Z.mul_1_r in LA.
  destruct (ok_right BL OK t N M T N A 0 N) as (A' & E & H); auto; try lia.
  - split; [lia|]. split; [lia|]. intros _. rewrite LT. nia.
  - apply fits_mat_full; auto; lia.
  - exists A'. split; auto. apply lines_glines in H.
    apply (glines_mode (fun j => 0 <= j < N) N M 1 (fun i => 0 + i) (fun _ => transp (op t (utri N T))) (fun _ => transp (op t (utri N T))) A A' (fun x _ => x)); try lia; auto.
    intros x z Hx Hz. split; [auto|]. split; [nia|auto].
Qed.
Lemma transp_op t U i j : transp (op t U) i j = op (negb t) U i j.
Proof. destruct t; reflexivity. Qed.

(** ** the tetrahedral loops *)
Lemma dim1_mode t T N L M : 0 < N -> 0 <= L -> 0 <= M -> zlen T = N * N -> is_mode 1 N (L * M) (fun _ => op t (utri N T)) (dim1 BL t T N L M).
Proof.
  intros HN HL HM LT A LA. rewrite Z.mul_1_l in LA. unfold dim1.
  destruct (glines_loop 0 M (fun _ j => 0 <= j < L) N 1 (fun m j => N * L * m + j * N) (fun _ _ => op t (utri N T)) (fun m A => dtrmm_left BL t N L T N A (N * L * m) N) A) as (A' & E & H).
  - lia.
  - intros m m' j j' i i' Hm Hm' Hn Hj Hj' Hi Hi' E. apply Hn.
    assert (E' : i + (j + m * L) * N = i' + (j' + m' * L) * N) by lia. apply idx2_inj in E'; auto. destruct E' as (_ & E').
    apply idx2_inj in E'; auto. lia.
  - intros m X Hm LX. destruct (ok_left BL OK t N L T N X (N * L * m) N) as (X' & E & H); auto.
    + apply fits_mat_full; auto; lia.
    + split; [nia|]. split; [lia|]. intros. rewrite LX, LA. nia.
    + exists X'. split; [auto|exact (proj1 (lines_glines _ _ _ _ _ _ _) H)].
  - exists A'. split; auto.
    apply (glines_mode _ 1 N (L * M) _ _ (fun _ => op t (utri N T)) A A' (fun _ z => (z / L, z mod L))  ltac:(lia) ltac:(lia) ltac:(nia) ltac:(lia) H).
    intros x z Hx Hz. cbn [fst snd]. assert (0 < L) by nia. pose proof (Z.div_mod z L ltac:(lia)). pose proof (Z.mod_pos_bound z L ltac:(lia)).
    split; [|split; [nia|auto]]. split; [|lia]. split; [apply Z.div_pos; lia|apply Z.div_lt_upper_bound; lia].
Qed.
Lemma dim2_mode t T N L M : 0 < N -> 0 < L <= N -> 0 <= M -> zlen T = N * N -> is_mode N L M (fun _ => transp (op t (utri N T))) (dim2 BL t T N L M).
Proof.
  intros HN HL HM LT A LA. unfold dim2.
  destruct (glines_loop 0 M (fun _ j => 0 <= j < N) L N (fun m j => N * L * m + j) (fun _ _ => transp (op t (utri N T))) (fun m A => dtrmm_right BL t N L T N A (N * L * m) N) A) as (A' & E & H).
  - lia.
  - intros m m' j j' i i' Hm Hm' Hn Hj Hj' Hi Hi' E. apply Hn.
    assert (E' : j + (i + m * L) * N = j' + (i' + m' * L) * N) by lia. apply idx2_inj in E'; auto. destruct E' as (_ & E').
    apply idx2_inj in E'; auto. lia.
  - intros m X Hm LX. destruct (ok_right BL OK t N L T N X (N * L * m) N) as (X' & E & H); auto; try lia.
    + split; [lia|]. split; [lia|]. intros _. rewrite LT. nia.
    + split; [nia|]. split; [lia|]. intros. rewrite LX, LA. nia.
    + exists X'. split; [auto|exact (proj1 (lines_glines _ _ _ _ _ _ _) H)].
  - exists A'. split; auto.
    apply (glines_mode _ N L M _ _ (fun _ => transp (op t (utri N T))) A A' (fun x z => (z, x)) ltac:(lia) ltac:(lia) ltac:(lia) ltac:(lia) H).
    intros x z Hx Hz. cbn [fst snd]. split; [auto|]. split; [ring|auto].
Qed.
Lemma dim3_mode t T N L : 0 < N -> 0 < L -> zlen T = N * N -> is_mode (N * L) N 1 (fun _ => op t (utri N T)) (dim3 BL t T N L).
Proof.
  intros HN HL LT A LA. unfold dim3. assert (HNL : 0 < N * L) by nia. rewrite Z.mul_1_r in LA.
  destruct (glines_loop 0 N (fun n (j : Z * Z) => (0 <= fst j < L) /\ 0 <= snd j < 1) N (N * L) (fun n j => n + N * fst j) (fun _ _ => op t (utri N T)) (fun n A => for_up 0 L (fun l A => dtrmv BL t N T N A (n + N * l) (N * L)) A) A) as (A' & E & H).
  - lia.
  - intros n n' (l, o) (l', o') i i' Hn Hn' Hne (Hl & Ho) (Hl' & Ho') Hi Hi' E. cbn [fst snd] in *. apply Hne.
    assert (E' : n + (l + i * L) * N = n' + (l' + i' * L) * N) by lia. apply idx2_inj in E'; auto. lia.
  - intros n X Hn LX.
    destruct (glines_loop 0 L (fun l j => 0 <= j < 1) N (N * L) (fun l _ => n + N * l) (fun _ _ => op t (utri N T)) (fun l A => dtrmv BL t N T N A (n + N * l) (N * L)) X) as (X' & E & H).
    + lia.
    + intros l l' o o' i i' Hl Hl' Hne Ho Ho' Hi Hi' E. apply Hne.
      assert (E' : n + (l + i * L) * N = n + (l' + i' * L) * N) by lia. apply idx2_inj in E'; auto. destruct E' as (_ & E').
      apply idx2_inj in E'; auto. lia.
    + intros l Y Hl LY. destruct (ok_mv BL OK t N T N Y (n + N * l) (N * L)) as (Y' & E & H); auto.
      * apply fits_mat_full; auto; lia.
      * nia.
      * rewrite LY, LX, LA. nia.
      * exists Y'. split; [auto|exact (proj1 (lines_glines _ _ _ _ _ _ _) H)].
    + exists X'. split; auto.
  - exists A'. split; auto.
    apply (glines_mode _ (N * L) N 1 _ _ (fun _ => op t (utri N T)) A A' (fun x z => (x mod N, (x / N, z))) ltac:(lia) ltac:(lia) ltac:(lia) ltac:(lia) H).
    intros x z Hx Hz. cbn [fst snd]. pose proof (Z.div_mod x N ltac:(lia)). pose proof (Z.mod_pos_bound x N ltac:(lia)).
    split; [|split; [nia|auto]]. split; [lia|]. split; [|lia]. split; [apply Z.div_pos; lia|apply Z.div_lt_upper_bound; lia].
Qed.

(** ** complex columns *)
Definition creal (N : Z) (T : list R) (i j : Z) : R := if i <=? j then nthZ 0%R T (2 * (i + j * N)) else 0%R.
Definition zreal (N : Z) (T : list R) : Prop := zlen T = 2 * (N * N) /\ forall i j, 0 <= i <= j -> j < N -> nthZ 0%R T (2 * (i + j * N) + 1) = 0%R.
Lemma zstrided_step t T N M c A : 0 < N -> 0 <= M -> 0 <= c < 4 -> zreal N T -> zlen A = 2 * N * M ->
  exists A', ztrmm_left BL t N ((M + (3 - c)) / 4) T N A (c * N) (4 * N) = Some A' /\
    glines (fun xz : Z * Z => 0 <= fst xz < 2 /\ 0 <= snd xz < M /\ snd xz mod 4 = c) N 2 (fun xz => fst xz + 2 * (N * snd xz)) (fun _ => op t (creal N T)) A A'.
Proof.
  intros HN HM Hc (LT & HT) LA.
  destruct (ok_zleft BL OK t N ((M + (3 - c)) / 4) T N A (c * N) (4 * N)) as (A' & E & H); auto; try lia.
  - exists A'. split; auto. apply lines_glines in H. revert H.
    apply (glines_weaken _ _ N 2 _ _ _ _ A A' (fun xz : Z * Z => 2 * (snd xz / 4) + fst xz) (fun j => (j mod 2, 4 * (j / 2) + c))).
    + intros (x, z) (Hx & Hz & Hm). cbn [fst snd] in *.
      assert (E1 : (2 * (z / 4) + x) / 2 = z / 4) by lia. assert (E2 : (2 * (z / 4) + x) mod 2 = x) by lia. rewrite E1, E2.
      split; [lia|]. split; [|reflexivity]. replace (N * z) with (N * (4 * (z / 4) + c)) by (f_equal; lia). ring.
    + intros j Hj. cbn [fst snd]. split; [|ring]. split; [lia|]. lia.
Qed.
Lemma zcols_disj N x z x' z' i i' : 0 <= i < N -> 0 <= i' < N -> 0 <= x < 2 -> 0 <= x' < 2 -> z <> z' -> x + 2 * (N * z) + i * 2 <> x' + 2 * (N * z') + i' * 2.
Proof. intros Hi Hi' Hx Hx' Hn E. assert (E' : i + z * N = i' + z' * N) by lia. destruct (idx2_inj i z i' z' N); auto; lia. Qed.
Lemma zquad_mode t T0 T1 T2 T3 N M : 0 < N -> 0 <= M -> zreal N T0 -> zreal N T1 -> zreal N T2 -> zreal N T3 ->
  is_mode 2 N M (fun z => op t (creal N (sel4 T0 T1 T2 T3 z))) (zquad BL t T0 T1 T2 T3 N M).
Proof.
  intros HN HM L0 L1 L2 L3 A LA. unfold zquad.
  destruct (zstrided_step t T0 N M 0 A) as (A1 & E1 & H1); try lia; auto.
  change (3 - 0) with 3 in E1. change (0 * N) with 0 in E1. rewrite E1. cbn [obind].
  assert (LA1 : zlen A1 = 2 * N * M) by (rewrite (proj1 H1); auto).
  destruct (zstrided_step t T1 N M 1 A1) as (A2 & E2 & H2); try lia; auto.
  change (3 - 1) with 2 in E2. rewrite Z.mul_1_l in E2. rewrite E2. cbn [obind].
  assert (LA2 : zlen A2 = 2 * N * M) by (rewrite (proj1 H2); auto).
  destruct (zstrided_step t T2 N M 2 A2) as (A3 & E3 & H3); try lia; auto.
  change (3 - 2) with 1 in E3. rewrite E3. cbn [obind].
  assert (LA3 : zlen A3 = 2 * N * M) by (rewrite (proj1 H3); auto).
  destruct (zstrided_step t T3 N M 3 A3) as (A4 & E4 & H4); try lia; auto.
  change (3 - 3) with 0 in E4. rewrite Z.add_0_r in E4. rewrite E4.
  exists A4. split; auto.
  set (base := fun xz : Z * Z => fst xz + 2 * (N * snd xz)) in *.
  set (V := fun xz : Z * Z => op t (creal N (sel4 T0 T1 T2 T3 (snd xz)))).
  set (d := fun c (xz : Z * Z) => 0 <= fst xz < 2 /\ 0 <= snd xz < M /\ snd xz mod 4 = c).
  assert (V1 : glines (d 0) N 2 base V A A1).
  { revert H1. apply change_U. intros j i k (Hj & Hm & Hm') _ _. unfold V, sel4. rewrite Hm'. reflexivity. }
  assert (V2 : glines (d 1) N 2 base V A1 A2).
  { revert H2. apply change_U. intros j i k (Hj & Hm & Hm') _ _. unfold V, sel4. rewrite Hm'. reflexivity. }
  assert (V3 : glines (d 2) N 2 base V A2 A3).
  { revert H3. apply change_U. intros j i k (Hj & Hm & Hm') _ _. unfold V, sel4. rewrite Hm'. reflexivity. }
  assert (V4 : glines (d 3) N 2 base V A3 A4).
  { revert H4. apply change_U. intros j i k (Hj & Hm & Hm') _ _. unfold V, sel4. rewrite Hm'. reflexivity. }
  assert (V5 : glines (fun j => ((d 0 j \/ d 1 j) \/ d 2 j) \/ d 3 j) N 2 base V A A4).
  { unfold d in *. apply (glines_seq _ _ N 2 base V A A3 A4); auto.
    + intros (x, z) (x', z') i i' H5 H6 Hi Hi'. unfold base. cbn [fst snd] in *. apply zcols_disj; auto; lia.
    + apply (glines_seq _ _ N 2 base V A A2 A3); auto.
      * intros (x, z) (x', z') i i' H5 H6 Hi Hi'. unfold base. cbn [fst snd] in *. apply zcols_disj; auto; lia.
      * apply (glines_seq _ _ N 2 base V A A1 A2); auto.
        intros (x, z) (x', z') i i' H5 H6 Hi Hi'. unfold base. cbn [fst snd] in *. apply zcols_disj; auto; lia. }
  apply (glines_mode _ 2 N M base V _ A A4 (fun x z => (x, z)) ltac:(lia) ltac:(lia) ltac:(lia) LA V5).
  intros x z Hx Hz. unfold d, base, V. cbn [fst snd]. split; [|split; auto]. pose proof (Z.mod_pos_bound z 4). lia.
Qed.
End B.

(** ** solves by columns *)
Lemma glines_rseq {I} (d1 d2 : I -> Prop) n s base U B B1 B2 :
  (forall j j' i i', d1 j -> d2 j' -> 0 <= i < n -> 0 <= i' < n -> base j + i * s <> base j' + i' * s) ->
  glines d1 n s base U B1 B -> glines d2 n s base U B2 B1 -> glines (fun j => d1 j \/ d2 j) n s base U B2 B.
Proof.
  intros HD H1 H2.
  assert (H : glines (fun j => d2 j \/ d1 j) n s base U B2 B).
  { eapply glines_seq; [|exact H2|exact H1]. intros. apply not_eq_sym. apply HD; auto. }
  revert H. apply (glines_weaken _ _ n s _ _ _ _ B2 B (fun j => j) (fun j => j)); tauto.
Qed.
(** [R] = either direction *)
Definition dlines (rev : bool) {I : Type} (dom : I -> Prop) (n s : Z) (base : I -> Z) (U : I -> Z -> Z -> R) (B B' : list R) : Prop := if rev then glines dom n s base U B' B else glines dom n s base U B B'.
Lemma dlines_seq (rev : bool) {I} (d1 d2 : I -> Prop) n s base U B B1 B2 :
  (forall j j' i i', d1 j -> d2 j' -> 0 <= i < n -> 0 <= i' < n -> base j + i * s <> base j' + i' * s) ->
  dlines rev d1 n s base U B B1 -> dlines rev d2 n s base U B1 B2 -> dlines rev (fun j => d1 j \/ d2 j) n s base U B B2.
Proof. destruct rev; [apply glines_rseq|apply glines_seq]. Qed.
Lemma dlines_weaken (rev : bool) {I J} (d : I -> Prop) (d' : J -> Prop) n s base base' U U' B B' (f : J -> I) (g : I -> J) :
  (forall j, d' j -> d (f j) /\ base (f j) = base' j /\ forall i k, 0 <= i < n -> 0 <= k < n -> U (f j) i k = U' j i k) ->
  (forall i, d i -> d' (g i) /\ base' (g i) = base i) ->
  dlines rev d n s base U B B' -> dlines rev d' n s base' U' B B'.
Proof. destruct rev; apply glines_weaken. Qed.
Lemma dlines_len (rev : bool) {I} (d : I -> Prop) n s base U B B' : dlines (rev : bool) d n s base U B B' -> zlen B' = zlen B.
Proof. destruct rev; intros (L & _); auto. Qed.
Definition colfun (rev : bool) (N : Z) (U : Z -> Z -> R) (f : list R -> Z -> option (list R)) : Prop :=
  forall x o, fits o N x -> exists x', f x o = Some x' /\ acts o N x x' (fun v w => if rev then isprod N U w v else isprod N U v w).
Lemma acts_dlines (rev : bool) N U o x x' : acts o N x x' (fun v w => if rev then isprod N U w v else isprod N U v w) ->
  dlines rev (fun z : Z => z = o) N 1 (fun z => z) (fun _ => U) x x'.
Proof.
  intros (L & H & K). destruct rev; (split; [auto|split]).
  - intros j i -> Hi. rewrite Z.mul_1_r. change (vec o x i = sumZ N (fun k => (U i k * nthZ 0%R x' (o + k * 1))%R)). rewrite H by auto.
    apply sumZ_ext. intros k Hk. now rewrite Z.mul_1_r.
  - intros p Hp. symmetry. apply K. destruct (Z_lt_dec p o); auto. destruct (Z_le_dec (o + N) p); auto. exfalso. apply (Hp o (p - o)); auto; lia.
  - intros j i -> Hi. rewrite Z.mul_1_r. change (vec o x' i = sumZ N (fun k => (U i k * nthZ 0%R x (o + k * 1))%R)). rewrite H by auto.
    apply sumZ_ext. intros k Hk. now rewrite Z.mul_1_r.
  - intros p Hp. apply K. destruct (Z_lt_dec p o); auto. destruct (Z_le_dec (o + N) p); auto. exfalso. apply (Hp o (p - o)); auto; lia.
Qed.
Lemma columns_from_step (rev : bool) U f N M q c A : 0 < N -> 0 <= M -> 0 < q -> 0 <= c < q -> colfun rev N U f -> zlen A = N * M ->
  exists A', columns_from f (c * N) (q * N) ((M + (q - 1 - c)) / q) A = Some A' /\
    dlines rev (fun z => 0 <= z < M /\ z mod q = c) N 1 (fun z => z * N) (fun _ => U) A A'.
Proof.
  intros HN HM Hq Hc HF LA. unfold columns_from. set (K := (M + (q - 1 - c)) / q).
  assert (HK : q * K <= M + (q - 1 - c)) by (apply Z.mul_div_le; lia).
  assert (HK0 : 0 <= K) by (apply Z.div_pos; lia).
  destruct (for_up_inv (fun t X => dlines rev (fun z => (0 <= z < M /\ z mod q = c) /\ z / q < t) N 1 (fun z => z * N) (fun _ => U) A X) 0 K (fun j B => f B (c * N + j * (q * N))) A)
    as (B' & E & H); auto.
  - assert (HZ : forall z, 0 <= z < M /\ z mod q = c -> ~ z / q < 0). { intros z Hz. pose proof (Z.div_pos z q). lia. }
    destruct rev; (split; [auto|split; [intros j i (H1 & H2); exfalso; eapply HZ; eauto|auto]]).
  - intros t X Ht HX. assert (LX : zlen X = N * M) by (apply dlines_len in HX; congruence).
    destruct (HF X (c * N + t * (q * N))) as (X' & E & HA). { split; [nia|]. rewrite LX. replace (c * N + t * (q * N) + N) with (N * (q * t + c + 1)) by ring. apply Z.mul_le_mono_nonneg_l; [lia|]. nia. }
    exists X'. split; auto. apply acts_dlines in HA.
    assert (H2 : dlines rev (fun z => z = q * t + c) N 1 (fun z => z * N) (fun _ => U) X X').
    { revert HA. apply (dlines_weaken rev _ _ N 1 _ _ _ _ X X' (fun z => z * N) (fun z => z / N)).
      - intros z ->. split; [ring|]. auto.
      - intros z ->. replace (c * N + t * (q * N)) with ((q * t + c) * N) by ring. rewrite Z.div_mul by lia. auto. }
    assert (H3 := fun D => dlines_seq rev _ _ N 1 (fun z => z * N) (fun _ => U) A X X' D HX H2).
    match type of H3 with ?P -> _ => assert (HP : P) end.
    { intros z z' i i' (H4 & H5) -> Hi Hi'. apply cols_disj; auto. intros ->.
      rewrite Z.mul_comm, Z.div_add_l in H5 by lia. rewrite (Z.div_small c q) in H5 by lia. lia. }
    specialize (H3 HP). revert H3. apply (dlines_weaken rev _ _ N 1 _ _ _ _ A X' (fun z => z) (fun z => z)).
    + intros z ((Hz & Hm) & Hd). split; auto. pose proof (Z.div_mod z q ltac:(lia)).
      destruct (Z.eq_dec (z / q) t) as [Et|Et]; [right|left]. * rewrite Et, Hm in *. lia. * split; auto. lia.
    + intros z [(Hz & Hd)|Hz]; split; auto.
      * split; auto. lia.
      * subst z. rewrite (Z.mul_comm q t), Z.div_add_l, (Z.div_small c q) by lia.
        rewrite Z.add_comm, Z.mod_add, Z.mod_small by lia. split; [|lia]. split; [|auto]. nia.
  - exists B'. split; auto. revert H. apply (dlines_weaken rev _ _ N 1 _ _ _ _ A B' (fun z => z) (fun z => z)).
    + intros z (Hz & Hm). split; auto. split; auto. apply Z.div_lt_upper_bound; [lia|].
      destruct (Z_lt_dec z (q * K)); auto. exfalso. pose proof (Z.div_mod (M + (q - 1 - c)) q ltac:(lia)) as HD. fold K in HD.
      pose proof (Z.mod_pos_bound (M + (q - 1 - c)) q ltac:(lia)). pose proof (Z.div_mod z q ltac:(lia)). rewrite Hm in *.
      assert (z / q >= K); [|nia]. apply Z.le_ge. apply Z.div_le_lower_bound; lia.
    + tauto.
Qed.
Lemma quadm_lines (rev : bool) f g U V N M A : 0 < N -> 0 <= M -> colfun rev N U f -> colfun rev N V g -> zlen A = N * M ->
  exists A', quadm f g N M A = Some A' /\ if rev then mode 1 N M (sel4 U V V U) A' A else mode 1 N M (sel4 U V V U) A A'.
Proof.
  intros HN HM Hf Hg LA. unfold quadm.
  destruct (columns_from_step rev U f N M 4 0 A) as (A1 & E1 & H1); try lia; auto.
  change (4 - 1 - 0) with 3 in E1. change (0 * N) with 0 in E1. rewrite E1. cbn [obind].
  assert (LA1 : zlen A1 = N * M) by (apply dlines_len in H1; congruence).
  destruct (columns_from_step rev V g N M 4 1 A1) as (A2 & E2 & H2); try lia; auto.
  change (4 - 1 - 1) with 2 in E2. rewrite Z.mul_1_l in E2. rewrite E2. cbn [obind].
  assert (LA2 : zlen A2 = N * M) by (apply dlines_len in H2; congruence).
  destruct (columns_from_step rev V g N M 4 2 A2) as (A3 & E3 & H3); try lia; auto.
  change (4 - 1 - 2) with 1 in E3. rewrite E3. cbn [obind].
  assert (LA3 : zlen A3 = N * M) by (apply dlines_len in H3; congruence).
  destruct (columns_from_step rev U f N M 4 3 A3) as (A4 & E4 & H4); try lia; auto.
  change (4 - 1 - 3) with 0 in E4. rewrite Z.add_0_r in E4. rewrite E4.
  exists A4. split; auto.
  assert (LA4 : zlen A4 = N * M) by (apply dlines_len in H4; congruence).
  set (W := fun z => sel4 U V V U z).
  set (d := fun c z => 0 <= z < M /\ z mod 4 = c).
  assert (CH : forall c X Y T, (forall z, z mod 4 = c -> T = W z) -> dlines rev (d c) N 1 (fun z => z * N) (fun _ => T) X Y -> dlines rev (d c) N 1 (fun z => z * N) W X Y).
  { intros c X Y T ET. apply (dlines_weaken rev _ _ N 1 _ _ _ _ X Y (fun z => z) (fun z => z)); auto.
    intros j (Hj & Hm). split; [split; auto|]. split; auto. intros. now rewrite (ET j). }
  apply (CH 0 _ _ U) in H1. 2:{ intros z Hz. unfold W, sel4. now rewrite Hz. }
  apply (CH 1 _ _ V) in H2. 2:{ intros z Hz. unfold W, sel4. now rewrite Hz. }
  apply (CH 2 _ _ V) in H3. 2:{ intros z Hz. unfold W, sel4. now rewrite Hz. }
  apply (CH 3 _ _ U) in H4. 2:{ intros z Hz. unfold W, sel4. now rewrite Hz. }
  assert (HD : forall c c' j j' i i', c <> c' -> d c j -> d c' j' -> 0 <= i < N -> 0 <= i' < N -> j * N + i * 1 <> j' * N + i' * 1).
  { intros c c' j j' i i' Hc (_ & H5) (_ & H6) Hi Hi'. apply cols_disj; auto. intros ->. congruence. }
  assert (H : dlines rev (fun j => ((d 0 j \/ d 1 j) \/ d 2 j) \/ d 3 j) N 1 (fun z => z * N) W A A4).
  { apply (dlines_seq rev _ _ N 1 (fun z => z * N) W A A3 A4); auto.
    - intros j j' i i' [[H5|H5]|H5] H6; eapply HD; eauto; lia.
    - apply (dlines_seq rev _ _ N 1 (fun z => z * N) W A A2 A3); auto.
      + intros j j' i i' [H5|H5] H6; eapply HD; eauto; lia.
      + apply (dlines_seq rev _ _ N 1 (fun z => z * N) W A A1 A2); auto.
        intros j j' i i' H5 H6; eapply HD; eauto; lia. }
  assert (HC : forall z, 0 <= z < M -> ((d 0 z \/ d 1 z) \/ d 2 z) \/ d 3 z).
  { intros z Hz. unfold d. pose proof (Z.mod_pos_bound z 4). lia. }
  destruct rev; refine (columns_mode N M W _ _ _ HN HM _ HC H); auto.
Qed.
