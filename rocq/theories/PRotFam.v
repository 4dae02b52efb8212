(** * Sphere, triangle and disk kernels: blocked = plain lane by lane *)
From Coq Require Import ZArith List Lia Bool ZifyBool ZifyNat.
From Verif Require Import Base BaseFacts Arith MPermute PPermute MRotations SpecRot PRot PRotBlock PRotKernels.
Import ListNotations.
Open Scope Z_scope.

(** ** Packed indices (C07) *)
Lemma even_prod m n : exists h, m * (2 * n + 1 - m) = 2 * h.
Proof.
  destruct (Z.Even_or_Odd m) as [[k ->]|[k ->]].
  - exists (k * (2 * n + 1 - 2 * k)). lia.
  - exists ((2 * k + 1) * (n - k)). lia.
Qed.
Lemma sidx2 n l m : 2 * sidx n l m = 2 * l + m * (2 * n + 1 - m).
Proof.
  unfold sidx. destruct (even_prod m n) as [h E]. rewrite E. lia.
Qed.
Lemma sidx_bound n l m : 0 <= m -> 0 <= l < n - m -> 0 <= sidx n l m < n * (n + 1) / 2.
Proof.
  intros Hm Hl. pose proof (sidx2 n l m) as E.
  assert (E2 : 2 * (n * (n + 1) / 2) = n * (n + 1)).
  { destruct (even_prod n n) as [h Eh]. replace (n * (n + 1)) with (2 * h) by nia. lia. }
  assert (0 <= m * (2 * n + 1 - m)) by (apply Z.mul_nonneg_nonneg; lia).
  assert (2 * l + m * (2 * n + 1 - m) < n * (n + 1)); [|lia].
  assert (2 * l <= 2 * (n - m - 1)) by lia.
  assert (0 <= (n - m) * (n - m - 1)) by (apply Z.mul_nonneg_nonneg; lia). nia.
Qed.
Lemma sidx_inj n l m l' m' : 0 <= m -> 0 <= l < n - m -> 0 <= m' -> 0 <= l' < n - m' ->
  sidx n l m = sidx n l' m' -> l = l' /\ m = m'.
Proof.
  intros Hm Hl Hm' Hl' E.
  assert (E2 : 2 * l + m * (2 * n + 1 - m) = 2 * l' + m' * (2 * n + 1 - m')) by (rewrite <- !sidx2; lia).
  assert (m = m'); [|subst; lia].
  destruct (Z.lt_trichotomy m m') as [C|[C|C]]; auto; exfalso.
  - (* next column starts after the end of this one *)
    assert (m' * (2 * n + 1 - m') - m * (2 * n + 1 - m) = (m' - m) * (2 * n + 1 - m - m')) by ring.
    assert ((m' - m) * (2 * n + 1 - m - m') >= 2 * (n - m)); [|lia].
    assert (0 <= (m' - m - 1) * (2 * n - m - m')) by (apply Z.mul_nonneg_nonneg; lia). nia.
  - assert (m * (2 * n + 1 - m) - m' * (2 * n + 1 - m') = (m - m') * (2 * n + 1 - m - m')) by ring.
    assert ((m - m') * (2 * n + 1 - m - m') >= 2 * (n - m')); [|lia].
    assert (0 <= (m - m' - 1) * (2 * n - m - m')) by (apply Z.mul_nonneg_nonneg; lia). nia.
Qed.

(** start of column [m] in the disk tables *)
Definition sdstart (n m : Z) := m * n - (m / 2) * ((m + 1) / 2).
Lemma sdstart_step n m : 0 <= m -> sdstart n (m + 1) = sdstart n m + (n - (m + 1) / 2).
Proof.
  intros Hm. unfold sdstart. destruct (Z.Even_or_Odd m) as [[k ->]|[k ->]].
  - replace (2 * k / 2) with k by lia. replace ((2 * k + 1) / 2) with k by lia.
    replace ((2 * k + 1 + 1) / 2) with (k + 1) by lia. lia.
  - replace ((2 * k + 1) / 2) with k by lia. replace ((2 * k + 1 + 1) / 2) with (k + 1) by lia.
    replace ((2 * k + 1 + 1 + 1) / 2) with (k + 1) by lia. lia.
Qed.
Lemma sdstart_mono n m m' : 0 <= m <= m' -> m' <= 2 * n - 1 -> sdstart n m <= sdstart n m'.
Proof.
  intros [H0 H1] H2. revert H2. pattern m'. apply Zlt_lower_bound_ind with (z := m); auto.
  intros x IH Hx H2. destruct (Z.eq_dec x m); [subst; lia|].
  specialize (IH (x - 1) ltac:(lia) ltac:(lia)).
  pose proof (sdstart_step n (x - 1) ltac:(lia)). replace (x - 1 + 1) with x in * by lia. lia.
Qed.
Lemma sdstart_0 n : sdstart n 0 = 0. Proof. unfold sdstart. cbn. lia. Qed.
Lemma sdstart_end n : 1 <= n -> sdstart n (2 * n - 1) = n * n.
Proof.
  intros. unfold sdstart. replace ((2 * n - 1) / 2) with (n - 1) by lia.
  replace ((2 * n - 1 + 1) / 2) with n by lia. lia.
Qed.
Lemma sdidx_start n l m : sdidx n l m = l + sdstart n m. Proof. unfold sdidx, sdstart. lia. Qed.
Lemma sdidx_bound n l m : 0 <= m -> 0 <= l < n - (m + 1) / 2 -> 0 <= sdidx n l m < n * n.
Proof.
  intros Hm Hl. rewrite sdidx_start.
  pose proof (sdstart_mono n 0 m ltac:(lia) ltac:(lia)). rewrite sdstart_0 in *.
  pose proof (sdstart_mono n (m + 1) (2 * n - 1) ltac:(lia) ltac:(lia)).
  rewrite sdstart_end in * by lia. rewrite sdstart_step in * by lia. lia.
Qed.
Lemma sdidx_inj n l m l' m' : 0 <= m -> 0 <= l < n - (m + 1) / 2 -> 0 <= m' -> 0 <= l' < n - (m' + 1) / 2 ->
  sdidx n l m = sdidx n l' m' -> l = l' /\ m = m'.
Proof.
  intros Hm Hl Hm' Hl' E. rewrite !sdidx_start in E.
  assert (m = m'); [|subst; lia].
  destruct (Z.lt_trichotomy m m') as [C|[C|C]]; auto; exfalso.
  - pose proof (sdstart_mono n (m + 1) m' ltac:(lia) ltac:(lia)). rewrite sdstart_step in * by lia. lia.
  - pose proof (sdstart_mono n (m' + 1) m ltac:(lia) ltac:(lia)). rewrite sdstart_step in * by lia. lia.
Qed.

(** ** Lane bookkeeping *)
Lemma ups_single {F} lo hi (f : Z -> list (op F)) i : lo <= i < hi ->
  (forall k, lo <= k < hi -> k <> i -> f k = []) -> ups lo hi f = f i.
Proof.
  intros Hi Hf. rewrite (ups_split lo i hi) by lia. rewrite (ups_split i (i + 1) hi) by lia.
  assert (N : forall a b g, (forall k, a <= k < b -> g k = []) -> @ups F a b g = []).
  { intros a b g Hg. unfold ups. rewrite (cat_ext _ _ (fun _ => [])).
    - apply cat_nil. - intros. apply Hg. lia. }
  rewrite (N lo i), (N (i + 1) hi) by (intros; apply Hf; lia).
  unfold ups. replace (Z.to_nat (i + 1 - i)) with 1%nat by lia. cbn.
  rewrite app_nil_r. now replace (i + 0) with i by lia.
Qed.
Lemma ups_none {F} lo hi (f : Z -> list (op F)) :
  (forall k, lo <= k < hi -> f k = []) -> ups lo hi f = [].
Proof.
  intros Hg. unfold ups. rewrite (cat_ext _ _ (fun _ => [])).
  - apply cat_nil. - intros. apply Hg. lia.
Qed.
Lemma lanes_pairs {F} h (f : Z -> list (op F)) i : 0 <= i < 2 * h ->
  ups 1 h (fun s => only (2 * s) (f s) i ++ only (2 * s + 1) (f s) i) = if i <? 2 then [] else f (i / 2).
Proof.
  intros Hi. unfold only. destruct (i <? 2) eqn:E.
  - apply ups_none. intros k Hk. replace (i =? 2 * k) with false by lia.
    now replace (i =? 2 * k + 1) with false by lia.
  - rewrite (ups_single _ _ _ (i / 2)); [|lia|].
    + destruct (Z.eqb_spec i (2 * (i / 2))), (Z.eqb_spec i (2 * (i / 2) + 1)); try lia; cbn; auto using app_nil_r.
    + intros k Hk Hne. replace (i =? 2 * k) with false by lia.
      now replace (i =? 2 * k + 1) with false by lia.
Qed.
Lemma lanes_each {F} lo hi (f : Z -> list (op F)) i :
  ups lo hi (fun s => only s (f s) i) = if (lo <=? i) && (i <? hi) then f i else [].
Proof.
  unfold only. destruct ((lo <=? i) && (i <? hi)) eqn:E.
  - rewrite (ups_single _ _ _ i); [now rewrite Z.eqb_refl|lia|].
    intros k Hk Hne. now replace (i =? k) with false by lia.
  - apply ups_none. intros k Hk. now replace (i =? k) with false by lia.
Qed.

(** ** Table access *)
Lemma tab_ok {F} `{Arith F} (RP : rotplan F) ix row col :
  0 <= ix row col < zlen (rp_s RP) -> 0 <= ix row col < zlen (rp_c RP) ->
  tab RP (ix row col) = Some (sc RP ix row col).
Proof.
  intros H1 H2. unfold tab, sc. rewrite !(zget_nthZ zero) by lia. reflexivity.
Qed.

Section Fam.
Context {F : Type} `{Arith F}.
Variable rot : F -> F -> F -> F -> F * F.
Variable RP : rotplan F.
Let n := rp_n RP.
Variables (oA S : Z) (VS : nat).
Let W := Z.of_nat VS.
Hypothesis HW : 0 <= W <= S.
Notation mreal A0 := (real (minv oA S n W A0) (mview oA S n) W).

(** sphere: d = 2, step 2 *)
Definition topS (j : Z) := rp_n RP - 3 - j.
Definition topT (j : Z) := rp_n RP - 2 - j.
Definition topK (j : Z) := rp_n RP - 2 - (j + 1) / 2.
Definition SD := opsD 2 2 topS (fnRC rot RP (sidx n)).
Definition SU := opsU 2 2 topS (fnRC rot RP (sidx n)).
Definition TD := opsD 1 1 topT (fnRC rot RP (sidx n)).
Definition TU := opsU 1 1 topT (fnRC rot RP (sidx n)).
Definition KD := opsD 1 2 topK (fnRC rot RP (sdidx n)).
Definition KU := opsU 1 2 topK (fnRC rot RP (sdidx n)).

Lemma stepS j a : 0 <= a -> 0 <= j - 2 * a -> topS (j - 2 * a) = topS j + 2 * a.
Proof. unfold topS. lia. Qed.
Lemma stepT j a : 0 <= a -> 0 <= j - 1 * a -> topT (j - 1 * a) = topT j + 1 * a.
Proof. unfold topT. lia. Qed.
Lemma stepK j a : 0 <= a -> 0 <= j - 2 * a -> topK (j - 2 * a) = topK j + 1 * a.
Proof. unfold topK. lia. Qed.

Section Tri.
Hypothesis HT : tri_tables RP.
Lemma tabS row col : 0 <= col -> 0 <= row <= topS col -> tab RP (sidx n row col) = Some (sc RP (sidx n) row col).
Proof.
  intros Hc Hr. destruct HT as (H0 & Hs & Hc'). unfold topS in Hr.
  pose proof (sidx_bound n row col ltac:(lia) ltac:(unfold n; lia)). unfold n in *.
  apply (tab_ok RP (sidx (rp_n RP)) row col); lia.
Qed.
Lemma tabT row col : 0 <= col -> 0 <= row <= topT col -> tab RP (sidx n row col) = Some (sc RP (sidx n) row col).
Proof.
  intros Hc Hr. destruct HT as (H0 & Hs & Hc'). unfold topT in Hr.
  pose proof (sidx_bound n row col ltac:(lia) ltac:(unfold n; lia)). unfold n in *.
  apply (tab_ok RP (sidx (rp_n RP)) row col); lia.
Qed.
Lemma ltS j : 0 <= j -> topS j + 2 < n. Proof. unfold topS, n; lia. Qed.
Lemma ltT j : 0 <= j -> topT j + 1 < n. Proof. unfold topT, n; lia. Qed.

Lemma real_sph_hi2lo A0 m1 m2 ln : 0 <= m1 -> 0 <= ln < W ->
  mreal A0 (fun A => kernel_sph_hi2lo rot RP m1 m2 A (oA + ln) S) (only ln (SD m1 m2)).
Proof.
  intros. exact (real_defD rot RP oA S VS n HW 2 2 topS (sidx n) ltac:(lia) ltac:(lia) stepS ltS tabS A0 m1 m2 ln ltac:(lia) ltac:(lia)).
Qed.
Lemma real_sph_lo2hi A0 m1 m2 ln : 0 <= m1 -> 0 <= ln < W ->
  mreal A0 (fun A => kernel_sph_lo2hi rot RP m1 m2 A (oA + ln) S) (only ln (SU m1 m2)).
Proof.
  intros. exact (real_defU rot RP oA S VS n HW 2 2 topS (sidx n) ltac:(lia) ltac:(lia) stepS ltS tabS A0 m1 m2 ln ltac:(lia) ltac:(lia)).
Qed.
Lemma real_tri_hi2lo A0 m1 m2 ln : 0 <= m1 -> 0 <= ln < W ->
  mreal A0 (fun A => kernel_tri_hi2lo rot RP m1 m2 A (oA + ln) S) (only ln (TD m1 m2)).
Proof.
  intros. eapply real_prog.
  - exact (real_defD rot RP oA S VS n HW 1 1 topT (sidx n) ltac:(lia) ltac:(lia) stepT ltT tabT A0 m1 m2 ln ltac:(lia) ltac:(lia)).
  - intros A _. unfold kernel_tri_hi2lo. now rewrite for_dn_st1.
Qed.
Lemma real_tri_lo2hi A0 m1 m2 ln : 0 <= m1 -> 0 <= ln < W ->
  mreal A0 (fun A => kernel_tri_lo2hi rot RP m1 m2 A (oA + ln) S) (only ln (TU m1 m2)).
Proof.
  intros. eapply real_prog.
  - exact (real_defU rot RP oA S VS n HW 1 1 topT (sidx n) ltac:(lia) ltac:(lia) stepT ltT tabT A0 m1 m2 ln ltac:(lia) ltac:(lia)).
  - intros A _. unfold kernel_tri_lo2hi. now rewrite for_up_st1.
Qed.

Variable L : Z.
Hypothesis HL : 0 < L.
Lemma real_SPH_HI2LO A0 m1 m2 : W = 2 * (W / 2) -> 0 <= m1 <= m2 ->
  mreal A0 (fun A => KERNEL_SPH_HI2LO rot VS L RP m1 m2 A oA S) (fun i => SD m1 (m2 + 2 * (i / 2))).
Proof.
  intros HV Hm. eapply real_equiv.
  - unfold KERNEL_SPH_HI2LO. apply real_seq; [|apply real_seq].
    + apply (real_up _ _ _ 1 (W / 2) _ (fun s i => only (2 * s) (SD m2 (m2 + 2 * s)) i ++ only (2 * s + 1) (SD m2 (m2 + 2 * s)) i)).
      intros s Hs. apply real_seq; [apply real_sph_hi2lo; lia|].
      replace (oA + 2 * s + 1) with (oA + (2 * s + 1)) by lia. apply real_sph_hi2lo; lia.
    + exact (real_blkD rot RP oA S VS n HW 2 2 topS (sidx n) ltac:(lia) ltac:(lia) stepS ltS tabS A0 L (3 * L)
        (m1 + 2 * L - 2) (2 * L) m1 (m2 - 2) (fun k lj lk => k - lk + 2 * lj)
        (fun lj lk => L - 1 - lk + 2 * lj) (fun lj lk => L + 1 - lk + 2 * lj) (fun k lj => k + 2 * lj)
        (fun j lj => j - 2 * lj) HL ltac:(lia) ltac:(lia) ltac:(lia) ltac:(lia) ltac:(intros; cbv beta; lia)
        ltac:(intros; cbv beta; lia) ltac:(intros; cbv beta; lia) ltac:(intros; cbv beta; lia) ltac:(intros; cbv beta; lia)).
    + exact (real_vecD rot RP oA S VS n HW 2 2 topS (sidx n) ltac:(lia) ltac:(lia) stepS ltS tabS A0 m1
        (end_dnst (m2 - 2) (m1 + 2 * L - 2) (2 * L)) ltac:(lia)).
  - intros i Hi. cbn beta. rewrite (lanes_pairs (W / 2) (fun s => SD m2 (m2 + 2 * s))) by lia.
    eapply equiv_trans.
    { apply equiv_app; [apply equiv_refl|].
      apply (opsD_blocked 2 2 topS (fnRC rot RP (sidx n)) ltac:(lia) ltac:(lia) stepS L m1 m2 (m1 + 2 * L - 2)); lia. }
    apply equiv_eq. destruct (i <? 2) eqn:E.
    + replace (m2 + 2 * (i / 2)) with m2 by lia. reflexivity.
    + apply opsD_app; try lia; try (exact stepS || exact stepT || exact stepK).
Qed.
Lemma real_TRI_HI2LO A0 m1 m2 : 0 <= m1 <= m2 ->
  mreal A0 (fun A => KERNEL_TRI_HI2LO rot VS L RP m1 m2 A oA S) (fun i => TD m1 (m2 + i)).
Proof.
  intros Hm. eapply real_equiv.
  - unfold KERNEL_TRI_HI2LO. apply real_seq; [|apply real_seq].
    + apply (real_up _ _ _ 1 W _ (fun s i => only s (TD m2 (m2 + s)) i)).
      intros s Hs. apply real_tri_hi2lo; lia.
    + exact (real_blkD rot RP oA S VS n HW 1 1 topT (sidx n) ltac:(lia) ltac:(lia) stepT ltT tabT A0 L (2 * L)
        (m1 + L - 1) L m1 (m2 - 1) (fun k lj lk => k - lk + lj)
        (fun lj lk => L - 1 - lk + lj) (fun lj lk => L - lk + lj) (fun k lj => k + lj)
        (fun j lj => j - lj) HL ltac:(lia) ltac:(lia) ltac:(lia) ltac:(lia) ltac:(intros; cbv beta; lia)
        ltac:(intros; cbv beta; lia) ltac:(intros; cbv beta; lia) ltac:(intros; cbv beta; lia) ltac:(intros; cbv beta; lia)).
    + eapply real_prog.
      * exact (real_vecD rot RP oA S VS n HW 1 1 topT (sidx n) ltac:(lia) ltac:(lia) stepT ltT tabT A0 m1
        (end_dnst (m2 - 1) (m1 + L - 1) L) ltac:(lia)).
      * intros A _. now rewrite for_dn_st1.
  - intros i Hi. cbn beta. rewrite (lanes_each 1 W (fun s => TD m2 (m2 + s)) i) by lia.
    eapply equiv_trans.
    { apply equiv_app; [apply equiv_refl|].
      pose proof (opsD_blocked 1 1 topT (fnRC rot RP (sidx n)) ltac:(lia) ltac:(lia) stepT L m1 m2 (m1 + L - 1)) as E.
      replace (1 * L) with L in E by lia. replace (1 * L) with L by lia. apply E; lia. }
    apply equiv_eq. destruct ((1 <=? i) && (i <? W)) eqn:E.
    + apply opsD_app; try lia; try (exact stepS || exact stepT || exact stepK).
    + replace (m2 + i) with m2 by lia. reflexivity.
Qed.
Lemma real_SPH_LO2HI A0 m1 m2 : W = 2 * (W / 2) -> 2 <= W -> 0 <= m1 <= m2 -> m2 <= n + 2 * W - 4 -> (m2 - m1) mod 2 = 0 ->
  mreal A0 (fun A => KERNEL_SPH_LO2HI rot VS L RP m1 m2 A oA S) (fun i => SU m1 (m2 + 2 * (i / 2))).
Proof.
  intros HV HV2 Hm Hmn Hpar.
  assert (HTj : forall c j, 0 <= c -> j = m1 + c * (2 * L) -> m1 <= j < m2 - 2 * L - 2 * W + 4 -> 2 * L <= topS j + 1).
  { intros c j Hc Hj Hj'. unfold topS. fold n.
    assert (exists q, m2 - j = 2 * q) as [q Hq]; [|lia].
    exists ((m2 - m1) / 2 - c * L). rewrite Hj. lia. }
  eapply real_equiv.
  - unfold KERNEL_SPH_LO2HI. apply real_seq; [|apply real_seq].
    + exact (real_blkU rot RP oA S VS n HW 2 2 topS (sidx n) ltac:(lia) ltac:(lia) stepS ltS tabS A0 L (3 * L)
        (m2 - 2 * L - 2 * W + 4) (2 * L) m1 (fun j => 2 * L + Z.rem (n - L - 2 - j) L) (fun k => k + 2 - 2 * L)
        (fun j => n - L - 2 - j) (fun k lj lk => k + lk - 2 * lj)
        (fun lj lk => 2 * L - 2 + lk - 2 * lj) (fun lj lk => 2 * L + lk - 2 * lj) (fun k lj => k - 2 * lj)
        (fun j lj => j + 2 * lj) HL ltac:(lia) ltac:(lia) ltac:(lia) HTj
        ltac:(intros; unfold topS; fold n; lia) ltac:(intros; reflexivity) ltac:(intros; cbv beta; lia) ltac:(intros; cbv beta; lia)
        ltac:(intros; cbv beta; lia) ltac:(intros; cbv beta; lia) ltac:(intros; cbv beta; lia) ltac:(intros; cbv beta; lia)).
    + apply (real_vecU rot RP oA S VS n HW 2 2 topS (sidx n) ltac:(lia) ltac:(lia) stepS ltS tabS A0
        (end_upst m1 (m2 - 2 * L - 2 * W + 4) (2 * L))).
      unfold end_upst. assert (0 <= Z.max 0 ((m2 - 2 * L - 2 * W + 4 - m1 + 2 * L - 1) / (2 * L)) * (2 * L)) by (apply Z.mul_nonneg_nonneg; lia). lia.
    + apply (real_up _ _ _ 1 (W / 2) _ (fun s i => only (2 * s) (SU m2 (m2 + 2 * s)) i ++ only (2 * s + 1) (SU m2 (m2 + 2 * s)) i)).
      intros s Hs. apply real_seq; [apply real_sph_lo2hi; lia|].
      replace (oA + 2 * s + 1) with (oA + (2 * s + 1)) by lia. apply real_sph_lo2hi; lia.
  - intros i Hi. cbn beta. rewrite (lanes_pairs (W / 2) (fun s => SU m2 (m2 + 2 * s))) by lia.
    rewrite app_assoc. eapply equiv_trans.
    { apply equiv_app; [|apply equiv_refl].
      apply (opsU_blocked 2 2 topS (fnRC rot RP (sidx n)) ltac:(lia) ltac:(lia) stepS L m1 m2 (m2 - 2 * L - 2 * W + 4)); try lia.
      exact HTj. }
    apply equiv_eq. destruct (i <? 2) eqn:E.
    + replace (m2 + 2 * (i / 2)) with m2 by lia. apply app_nil_r.
    + apply opsU_app; try lia; try (exact stepS || exact stepT || exact stepK).
Qed.
Lemma real_TRI_LO2HI A0 m1 m2 : 1 <= W -> 0 <= m1 <= m2 -> m2 <= n + W - 2 ->
  mreal A0 (fun A => KERNEL_TRI_LO2HI rot VS L RP m1 m2 A oA S) (fun i => TU m1 (m2 + i)).
Proof.
  intros HV2 Hm Hmn.
  assert (HTj : forall c j, 0 <= c -> j = m1 + c * (1 * L) -> m1 <= j < m2 - L - W + 2 -> 1 * L <= topT j + 1).
  { intros c j Hc Hj Hj'. unfold topT. fold n. lia. }
  eapply real_equiv.
  - unfold KERNEL_TRI_LO2HI. apply real_seq; [|apply real_seq].
    + exact (real_blkU rot RP oA S VS n HW 1 1 topT (sidx n) ltac:(lia) ltac:(lia) stepT ltT tabT A0 L (2 * L)
        (m2 - L - W + 2) L m1 (fun j => L + Z.rem (n - L - 1 - j) L) (fun k => k + 1 - L)
        (fun j => n - L - 1 - j) (fun k lj lk => k + lk - lj)
        (fun lj lk => L - 1 + lk - lj) (fun lj lk => L + lk - lj) (fun k lj => k - lj)
        (fun j lj => j + lj) HL ltac:(lia) ltac:(lia) ltac:(lia) HTj
        ltac:(intros; unfold topT; fold n; lia) ltac:(intros; cbv beta; lia) ltac:(intros; cbv beta; lia) ltac:(intros; cbv beta; lia)
        ltac:(intros; cbv beta; lia) ltac:(intros; cbv beta; lia) ltac:(intros; cbv beta; lia) ltac:(intros; cbv beta; lia)).
    + eapply real_prog.
      * apply (real_vecU rot RP oA S VS n HW 1 1 topT (sidx n) ltac:(lia) ltac:(lia) stepT ltT tabT A0
          (end_upst m1 (m2 - L - W + 2) L)).
        unfold end_upst. assert (0 <= Z.max 0 ((m2 - L - W + 2 - m1 + L - 1) / L) * L) by (apply Z.mul_nonneg_nonneg; lia). lia.
      * intros A _. rewrite for_up_st1. reflexivity.
    + apply (real_up _ _ _ 1 W _ (fun s i => only s (TU m2 (m2 + s)) i)).
      intros s Hs. apply real_tri_lo2hi; lia.
  - intros i Hi. cbn beta. rewrite (lanes_each 1 W (fun s => TU m2 (m2 + s)) i) by lia.
    rewrite app_assoc. eapply equiv_trans.
    { apply equiv_app; [|apply equiv_refl].
      pose proof (opsU_blocked 1 1 topT (fnRC rot RP (sidx n)) ltac:(lia) ltac:(lia) stepT L m1 m2 (m2 - L - W + 2)) as E.
      replace (end_upst m1 (m2 - L - W + 2) L) with (end_upst m1 (m2 - L - W + 2) (1 * L)) by (f_equal; lia).
      apply E; try lia. exact HTj. }
    apply equiv_eq. destruct ((1 <=? i) && (i <? W)) eqn:E.
    + apply opsU_app; try lia; try (exact stepS || exact stepT || exact stepK).
    + replace (m2 + i) with m2 by lia. apply app_nil_r.
Qed.
End Tri.

Section Disk.
Hypothesis HT : sq_tables RP.
Lemma tabK row col : 0 <= col -> 0 <= row <= topK col -> tab RP (sdidx n row col) = Some (sc RP (sdidx n) row col).
Proof.
  intros Hc Hr. destruct HT as (H0 & Hs & Hc'). unfold topK in Hr.
  pose proof (sdidx_bound n row col ltac:(lia) ltac:(unfold n; lia)). unfold n in *.
  apply (tab_ok RP (sdidx (rp_n RP)) row col); lia.
Qed.
Lemma ltK j : 0 <= j -> topK j + 1 < n. Proof. unfold topK, n; lia. Qed.
Lemma real_disk_hi2lo A0 m1 m2 ln : 0 <= m1 -> 0 <= ln < W ->
  mreal A0 (fun A => kernel_disk_hi2lo rot RP m1 m2 A (oA + ln) S) (only ln (KD m1 m2)).
Proof.
  intros. exact (real_defD rot RP oA S VS n HW 1 2 topK (sdidx n) ltac:(lia) ltac:(lia) stepK ltK tabK A0 m1 m2 ln ltac:(lia) ltac:(lia)).
Qed.
Lemma real_disk_lo2hi A0 m1 m2 ln : 0 <= m1 -> 0 <= ln < W ->
  mreal A0 (fun A => kernel_disk_lo2hi rot RP m1 m2 A (oA + ln) S) (only ln (KU m1 m2)).
Proof.
  intros. exact (real_defU rot RP oA S VS n HW 1 2 topK (sdidx n) ltac:(lia) ltac:(lia) stepK ltK tabK A0 m1 m2 ln ltac:(lia) ltac:(lia)).
Qed.
Variable L : Z.
Hypothesis HL : 0 < L.
Lemma real_DISK_HI2LO A0 m1 m2 : W = 2 * (W / 2) -> 0 <= m1 <= m2 ->
  mreal A0 (fun A => KERNEL_DISK_HI2LO rot VS L RP m1 m2 A oA S) (fun i => KD m1 (m2 + 2 * (i / 2))).
Proof.
  intros HV Hm. eapply real_equiv.
  - unfold KERNEL_DISK_HI2LO. apply real_seq; [|apply real_seq].
    + apply (real_up _ _ _ 1 (W / 2) _ (fun s i => only (2 * s) (KD m2 (m2 + 2 * s)) i ++ only (2 * s + 1) (KD m2 (m2 + 2 * s)) i)).
      intros s Hs. apply real_seq; [apply real_disk_hi2lo; lia|].
      replace (oA + 2 * s + 1) with (oA + (2 * s + 1)) by lia. apply real_disk_hi2lo; lia.
    + exact (real_blkD rot RP oA S VS n HW 1 2 topK (sdidx n) ltac:(lia) ltac:(lia) stepK ltK tabK A0 L (2 * L)
        (m1 + 2 * L - 1) (2 * L) m1 (m2 - 2) (fun k lj lk => k - lk + lj)
        (fun lj lk => L - 1 - lk + lj) (fun lj lk => L - lk + lj) (fun k lj => k + lj)
        (fun j lj => j - 2 * lj) HL ltac:(lia) ltac:(lia) ltac:(lia) ltac:(lia) ltac:(intros; cbv beta; lia)
        ltac:(intros; cbv beta; lia) ltac:(intros; cbv beta; lia) ltac:(intros; cbv beta; lia) ltac:(intros; cbv beta; lia)).
    + exact (real_vecD rot RP oA S VS n HW 1 2 topK (sdidx n) ltac:(lia) ltac:(lia) stepK ltK tabK A0 m1
        (end_dnst (m2 - 2) (m1 + 2 * L - 1) (2 * L)) ltac:(lia)).
  - intros i Hi. cbn beta. rewrite (lanes_pairs (W / 2) (fun s => KD m2 (m2 + 2 * s))) by lia.
    eapply equiv_trans.
    { apply equiv_app; [apply equiv_refl|].
      apply (opsD_blocked 1 2 topK (fnRC rot RP (sdidx n)) ltac:(lia) ltac:(lia) stepK L m1 m2 (m1 + 2 * L - 1)); lia. }
    apply equiv_eq. destruct (i <? 2) eqn:E.
    + replace (m2 + 2 * (i / 2)) with m2 by lia. reflexivity.
    + apply opsD_app; try lia; try (exact stepS || exact stepT || exact stepK).
Qed.
Lemma real_DISK_LO2HI A0 m1 m2 : W = 2 * (W / 2) -> 2 <= W -> 0 <= m1 <= m2 -> m2 <= 2 * n - 2 -> (m2 - m1) mod 2 = 0 ->
  mreal A0 (fun A => KERNEL_DISK_LO2HI rot VS L RP m1 m2 A oA S) (fun i => KU m1 (m2 + 2 * (i / 2))).
Proof.
  intros HV HV2 Hm Hmn Hpar.
  assert (HTj : forall c j, 0 <= c -> j = m1 + c * (2 * L) -> m1 <= j < m2 - 2 * L - 2 * W + 4 -> 1 * L <= topK j + 1).
  { intros c j Hc Hj Hj'. unfold topK. fold n. lia. }
  eapply real_equiv.
  - unfold KERNEL_DISK_LO2HI. apply real_seq; [|apply real_seq].
    + exact (real_blkU rot RP oA S VS n HW 1 2 topK (sdidx n) ltac:(lia) ltac:(lia) stepK ltK tabK A0 L (2 * L)
        (m2 - 2 * L - 2 * W + 4) (2 * L) m1 (fun j => L + Z.rem (n - L - 1 - (j + 1) / 2) L) (fun k => k + 1 - L)
        (fun j => n - L - 1 - (j + 1) / 2) (fun k lj lk => k + lk - lj)
        (fun lj lk => L - 1 + lk - lj) (fun lj lk => L + lk - lj) (fun k lj => k - lj)
        (fun j lj => j + 2 * lj) HL ltac:(lia) ltac:(lia) ltac:(lia) HTj
        ltac:(intros; unfold topK; fold n; lia) ltac:(intros; cbv beta; lia) ltac:(intros; cbv beta; lia) ltac:(intros; cbv beta; lia)
        ltac:(intros; cbv beta; lia) ltac:(intros; cbv beta; lia) ltac:(intros; cbv beta; lia) ltac:(intros; cbv beta; lia)).
    + apply (real_vecU rot RP oA S VS n HW 1 2 topK (sdidx n) ltac:(lia) ltac:(lia) stepK ltK tabK A0
        (end_upst m1 (m2 - 2 * L - 2 * W + 4) (2 * L))).
      unfold end_upst. assert (0 <= Z.max 0 ((m2 - 2 * L - 2 * W + 4 - m1 + 2 * L - 1) / (2 * L)) * (2 * L)) by (apply Z.mul_nonneg_nonneg; lia). lia.
    + apply (real_up _ _ _ 1 (W / 2) _ (fun s i => only (2 * s) (KU m2 (m2 + 2 * s)) i ++ only (2 * s + 1) (KU m2 (m2 + 2 * s)) i)).
      intros s Hs. apply real_seq; [apply real_disk_lo2hi; lia|].
      replace (oA + 2 * s + 1) with (oA + (2 * s + 1)) by lia. apply real_disk_lo2hi; lia.
  - intros i Hi. cbn beta. rewrite (lanes_pairs (W / 2) (fun s => KU m2 (m2 + 2 * s))) by lia.
    rewrite app_assoc. eapply equiv_trans.
    { apply equiv_app; [|apply equiv_refl].
      apply (opsU_blocked 1 2 topK (fnRC rot RP (sdidx n)) ltac:(lia) ltac:(lia) stepK L m1 m2 (m2 - 2 * L - 2 * W + 4)); try lia.
      exact HTj. }
    apply equiv_eq. destruct (i <? 2) eqn:E.
    + replace (m2 + 2 * (i / 2)) with m2 by lia. apply app_nil_r.
    + apply opsU_app; try lia; try (exact stepS || exact stepT || exact stepK).
Qed.
End Disk.

(** two programs that realise the same operations agree on every array *)
Lemma same_ops A p q ops : columns_fit A oA S n W ->
  mreal A p ops -> mreal A q ops -> exists A', p A = Some A' /\ q A = Some A' /\ minv oA S n W A A'.
Proof.
  intros Ft Hp Hq. assert (I : minv oA S n W A A) by (apply minv_refl; exact Ft).
  destruct (Hp A I) as (B & E1 & I1 & V1). destruct (Hq A I) as (C & E2 & I2 & V2).
  exists B. rewrite E1, E2. assert (B = C) as ->.
  { apply (minv_ext oA S n W HW A); auto. intros i r Hi. now rewrite V1, V2. }
  auto.
Qed.
Lemma real_lanes A0 (k : Z -> list F -> option (list F)) (ops : Z -> list (op F)) :
  (forall i, 0 <= i < W -> mreal A0 (k i) (only i (ops i))) ->
  mreal A0 (for_up 0 W k) ops.
Proof.
  intros Hk. eapply real_equiv.
  - apply (real_up _ _ _ 0 W k (fun i j => only i (ops i) j)). auto.
  - intros i Hi. apply equiv_eq. rewrite (lanes_each 0 W ops i).
    now replace ((0 <=? i) && (i <? W)) with true by lia.
Qed.
End Fam.
