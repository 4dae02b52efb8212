(** * Drivers called on [A + 2N]: the vector-field sphere drivers; round trips of the SIMD drivers *)
From Coq Require Import ZArith List Lia Bool ZifyBool ZifyNat Reals.
From Verif Require Import Base BaseFacts Arith MPermute PPermute PPermute2 MRotations SpecRot PRot PRotBlock PRotKernels
  PRotFam PRotInv PRotMore PRotThms MDrivers SpecDrivers PDrivers PDrivers2 PDrivers3 PDrivers4.
Import ListNotations.
Open Scope Z_scope.

Lemma zget_app {F} (P T : list F) i : zget (P ++ T) i = if i <? zlen P then zget P i else zget T (i - zlen P).
Proof.
  pose proof (zlen_nonneg P). unfold zget, zlen in *. destruct (i <? 0) eqn:E0.
  - replace (i <? Z.of_nat (length P)) with true by lia. now rewrite ?E0.
  - destruct (i <? Z.of_nat (length P)) eqn:E1.
    + try rewrite E0. apply nth_error_app1. lia.
    + replace (i - Z.of_nat (length P) <? 0) with false by lia. rewrite nth_error_app2 by lia. f_equal. lia.
Qed.

Section Shift.
Context {F : Type} `{Arith F}.
Variables (N : Z) (P : list F).
Hypothesis HN : 0 <= N.
Lemma ptr_shift k opf T o m1 m2 : acts_on_column N k opf -> 0 <= m1 <= m2 -> 0 <= o -> o + N <= zlen T ->
  exists T', k m1 m2 T o 1 = Some T' /\ zlen T' = zlen T /\ k m1 m2 (P ++ T) (zlen P + o) 1 = Some (P ++ T').
Proof.
  intros HK Hm Ho Hl. pose proof (zlen_nonneg P) as HP.
  destruct (HK T o m1 m2 Hm T) as (T' & E & (L & _ & O) & V). { apply minv_refl. intros r i Hr Hi. unfold addr. lia. }
  destruct (HK (P ++ T) (zlen P + o) m1 m2 Hm (P ++ T)) as (U & E2 & (L2 & _ & O2) & V2).
  { apply minv_refl. intros r i Hr Hi. unfold addr. rewrite zlen_app. lia. }
  exists T'. split; auto. split; auto. rewrite E2. f_equal. rewrite zlen_app in L2.
  apply (nthZ_ext zero). { rewrite zlen_app. lia. }
  intros p Hp. unfold nthZ at 2. rewrite zget_app.
  destruct (Z_lt_dec p (zlen P)) as [C|C]; [|destruct (Z_le_dec (zlen P + o) p) as [C2|C2]; [destruct (Z_lt_dec p (zlen P + o + N)) as [C3|C3]|]].
  - replace (p <? zlen P) with true by lia. unfold nthZ. rewrite O2.
    + rewrite zget_app. now replace (p <? zlen P) with true by lia.
    + intros (r & i & Hr & Hi & Q). unfold addr in Q. lia.
  - replace (p <? zlen P) with false by lia.
    specialize (V 0 (p - zlen P - o) ltac:(lia)). specialize (V2 0 (p - zlen P - o) ltac:(lia)).
    unfold mview at 1 in V. unfold mview at 1 in V2. unfold addr in V, V2.
    replace ((0 <=? p - zlen P - o) && (p - zlen P - o <? N)) with true in * by lia.
    replace (zlen P + o + (p - zlen P - o) * 1 + 0) with p in V2 by lia.
    replace (o + (p - zlen P - o) * 1 + 0) with (p - zlen P) in V by lia.
    rewrite V2. unfold nthZ in V. rewrite V. apply run_ext. intros x. unfold mview.
    destruct ((0 <=? x) && (x <? N)) eqn:Ex; auto. unfold nthZ, addr. rewrite zget_app.
    replace (zlen P + o + x * 1 + 0 <? zlen P) with false by lia. now replace (zlen P + o + x * 1 + 0 - zlen P) with (o + x * 1 + 0) by lia.
  - replace (p <? zlen P) with false by lia. unfold nthZ. rewrite O2.
    + rewrite zget_app. replace (p <? zlen P) with false by lia. rewrite O; auto.
      intros (r & i & Hr & Hi & Q). unfold addr in Q. lia.
    + intros (r & i & Hr & Hi & Q). unfold addr in Q. lia.
  - replace (p <? zlen P) with false by lia. unfold nthZ. rewrite O2.
    + rewrite zget_app. replace (p <? zlen P) with false by lia. rewrite O; auto.
      intros (r & i & Hr & Hi & Q). unfold addr in Q. lia.
    + intros (r & i & Hr & Hi & Q). unfold addr in Q. lia.
Qed.

Lemma up_shift len lo hi (b b' : Z -> list F -> option (list F)) T : zlen T = len ->
  (forall m T, lo <= m < hi -> zlen T = len -> exists T', b' m T = Some T' /\ zlen T' = len /\ b m (P ++ T) = Some (P ++ T')) ->
  exists T', for_up lo hi b' T = Some T' /\ zlen T' = len /\ for_up lo hi b (P ++ T) = Some (P ++ T').
Proof.
  intros LT HB. unfold for_up. set (k := Z.to_nat (hi - lo)).
  assert (Hk : forall j : nat, (j < k)%nat -> lo <= lo + Z.of_nat j < hi) by (intros; lia). clearbody k.
  induction k as [|k IH]; cbn [itero]. { exists T. auto. }
  destruct IH as (T1 & E1 & L1 & G1). { intros; apply Hk; lia. }
  destruct (HB (lo + Z.of_nat k) T1) as (T2 & E2 & L2 & G2); auto.
  exists T2. rewrite E1, G1. cbn [obind]. auto.
Qed.

Lemma sphv_shift k opf M T : acts_on_column N k opf -> zlen P = 2 * N -> 0 <= M -> M mod 2 = 1 -> zlen T = N * M ->
  exists T', execute_sph_default k N M T = Some T' /\ zlen T' = N * M /\
    execute_sphv_default k N (M + 2) (P ++ T) = Some (P ++ T').
Proof.
  intros HK LP HM Ho LT. unfold execute_sph_default, execute_sphv_default.
  replace ((M + 2) / 2 - 1 + 1) with (M / 2 + 1) by lia.
  apply up_shift; auto. intros m X Hm LX. unfold sph_body.
  assert (IN : forall c, 0 <= c < M -> 0 <= N * c /\ N * c + N <= N * M).
  { intros c Hc. pose proof (col_in N M HN c Hc). lia. }
  pose proof (IN (2 * m - 1) ltac:(lia)). pose proof (IN (2 * m) ltac:(lia)).
  destruct (ptr_shift k opf X (N * (2 * m - 1)) (m mod 2) m) as (X1 & E1 & L1 & G1); auto; try lia.
  destruct (ptr_shift k opf X1 (N * (2 * m)) (m mod 2) m) as (X2 & E2 & L2 & G2); auto; try lia.
  exists X2. rewrite E1. cbn [obind]. rewrite E2.
  replace (N * (2 * m + 1)) with (zlen P + N * (2 * m - 1)) by (rewrite LP; ring). rewrite G1. cbn [obind].
  replace (N * (2 * m + 2)) with (zlen P + N * (2 * m)) by (rewrite LP; ring). rewrite G2. repeat split; auto. lia.
Qed.
End Shift.

Section Sphv.
Context {F : Type} `{Arith F}.
Variables (rot : F -> F -> F -> F -> F * F) (RP : rotplan F) (e : nat) (L : Z).
Let N := rp_n RP.
Let S := 2 * 2 ^ Z.of_nat e.
Lemma zlen_skipn (A : list F) k : 0 <= k <= zlen A -> zlen (skipn (Z.to_nat k) A) = zlen A - k.
Proof. unfold zlen. intros. rewrite skipn_length. lia. Qed.
Lemma zlen_firstn (A : list F) k : 0 <= k <= zlen A -> zlen (firstn (Z.to_nat k) A) = k.
Proof. unfold zlen. intros. rewrite firstn_length. lia. Qed.

Lemma sphv_simd_gen kd ks opf swp M A B : 0 <= N -> acts_on_column N kd opf -> 3 <= M -> M mod 2 = 1 ->
  zlen A = N * M -> zlen B = N * M ->
  (forall T U, zlen T = N * (M - 2) -> zlen U = N * (M - 2) ->
     same_coefficients (execute_sph_simd kd ks swp S N (M - 2)) (execute_sph_default kd N (M - 2)) T U) ->
  same_coefficients (execute_sphv_simd kd ks swp S N M) (execute_sphv_default kd N M) A B.
Proof.
  intros HN HK HM Ho LA LB HS.
  pose proof (mul_lt_le 0 2 N) as X0. pose proof (mul_lt_le 2 M N) as X1. pose proof (mul_lt_le 1 2 N) as X2.
  assert (H2 : 0 <= 2 * N <= N * M). { split; [lia|]. rewrite (Z.mul_comm N M). apply Z.mul_le_mono_nonneg_r; lia. }
  unfold execute_sphv_simd, at_ptr2.
  set (T := skipn (Z.to_nat (2 * N)) A). set (U := skipn (Z.to_nat (2 * N)) B).
  assert (LT : zlen T = N * (M - 2)). { unfold T. rewrite zlen_skipn by lia. rewrite LA. ring. }
  assert (LU : zlen U = N * (M - 2)). { unfold U. rewrite zlen_skipn by lia. rewrite LB. ring. }
  destruct (HS T U LT LU) as (T' & U' & E & LU' & D).
  destruct (sphv_shift N (firstn (Z.to_nat (2 * N)) A) HN kd opf (M - 2) T) as (T2 & D2 & LT2 & G); auto; try lia.
  { now rewrite zlen_firstn by lia. }
  rewrite D in D2. injection D2 as <-.
  exists (firstn (Z.to_nat (2 * N)) A ++ T'), (firstn (Z.to_nat (2 * N)) B ++ U').
  fold T U. rewrite E. cbn [obind fst snd]. split; auto. split.
  - rewrite zlen_app, zlen_firstn by lia. rewrite LU', LU, LB. ring.
  - replace (M - 2 + 2) with M in G by lia. unfold T in G. now rewrite firstn_skipn in G.
Qed.
End Sphv.

(** ** Round trips of the SIMD drivers, from C11 and C13 *)
Lemma simd_roundtrip len (p q : list R -> list R -> option (list R * list R)) (p' q' : list R -> option (list R)) A B :
  zlen A = len -> zlen B = len ->
  (forall A B, zlen A = len -> zlen B = len -> same_coefficients p p' A B) ->
  (forall A B, zlen A = len -> zlen B = len -> same_coefficients q q' A B) ->
  mutually_inverse_on p' q' A -> (forall A, zlen A = len -> keeps_frobenius p' A) ->
  exists A1 B1 B2, p A B = Some (A1, B1) /\ q A1 B1 = Some (A, B2).
Proof.
  intros LA LB HP HQ [(A1 & E1 & E2) _] HKp.
  destruct (HP A B LA LB) as (A1' & B1 & G1 & L1 & D1). rewrite E1 in D1. injection D1 as <-.
  destruct (HKp A LA) as (A1' & E1' & L1' & _). rewrite E1 in E1'. injection E1' as <-.
  destruct (HQ A1 B1) as (A2 & B2 & G2 & L2 & D2); try lia. rewrite E2 in D2. injection D2 as <-.
  exists A1, B1, B2. auto.
Qed.
