(** * Triangle SIMD driver, and the instances of C11 *)
From Coq Require Import ZArith List Lia Bool ZifyBool ZifyNat Reals.
From Verif Require Import Base BaseFacts Arith MPermute PPermute PPermute2 MRotations SpecRot PRot PRotBlock PRotKernels
  PRotFam PRotInv PRotMore PRotThms MDrivers PDrivers PDrivers2.
Import ListNotations.
Open Scope Z_scope.

Section Tri.
Context {F : Type} `{Arith F}.
Variables (N M S : Z).
Hypothesis HN : 0 <= N.
Hypothesis HM : 0 <= M.
Hypothesis HS : 0 < S.
Variable (opf : Z -> Z -> list (op F)).
Let R := M mod S.
Let D := ragged N S R (cm N).

Lemma tri_simd_loop ks (ok : Z -> Prop) B : zlen B = N * M ->
  (forall A0 oA m, 0 <= m -> ok m -> real (minv oA S N S A0) (mview oA S N) S (fun A => ks 0 m A oA S) (fun i => opf 0 (m + i))) ->
  (forall m, 0 <= m <= M - S -> ok m) ->
  exists B', for_upst R M S (fun m B => ks 0 m B (N * m) S) B = Some B' /\
    dwise N M D (fun c => if R <=? c then opf 0 c else []) B B'.
Proof.
  intros LB HK Hok.
  pose proof (Z.div_mod M S ltac:(lia)) as EM. fold R in EM. set (q := M / S) in *.
  pose proof (Z.mod_pos_bound M S ltac:(lia)) as BR. fold R in BR.
  assert (Hq : 0 <= q) by (apply Z.div_pos; lia).
  assert (G : good_layout N M D) by (apply (ragged_good N M HN S R q); lia).
  destruct (for_upst_inv (fun m X => dwise N M D (fun c => if (R <=? c) && (c <? m) then opf 0 c else []) B X)
    R M S (fun m B => ks 0 m B (N * m) S) B) as (B' & E & DB); auto.
  - eapply dwise_ext; [|apply dwise_refl]. intros c Hc. cbv beta.
    now replace ((R <=? c) && (c <? R)) with false by lia.
  - intros k m X Hk Em Hm DX. pose proof (proj1 DX) as LX.
    assert (Hkq : k < q). { apply (Zmult_gt_0_lt_reg_r k q S); lia. }
    assert (HmM : m + S <= M). { rewrite EM, Em. pose proof (mul_lt_le k q S). lia. }
    assert (P1 : exists X1, ks 0 m X (N * m) S = Some X1 /\
       dwise N M D (fun c => if (m <=? c) && (c <? m + S) then opf 0 (m + (c - m)) else []) X X1).
    { apply (lane_step N M D X (fun X => ks 0 m X (N * m) S) (fun i => opf 0 (m + i)) m S (N * m) S); auto; try lia.
      - intros r i Hr Hi. rewrite Em. unfold D. rewrite ragged_hi by lia. lia.
      - apply HK; [lia|]. apply Hok. lia. }
    destruct P1 as (X1 & E1 & D1). exists X1. split; [exact E1|].
    eapply dwise_ext; [|apply (dwise_trans N M D _ _ B X X1 DX D1)].
    intros c Hc. cbv beta. destruct ((m <=? c) && (c <? m + S)) eqn:C1.
    + replace ((R <=? c) && (c <? m)) with false by lia. replace ((R <=? c) && (c <? m + S)) with true by lia.
      cbn [app]. f_equal. lia.
    + rewrite app_nil_r. now replace ((R <=? c) && (c <? m + S)) with ((R <=? c) && (c <? m)) by lia.
  - exists B'. split; [exact E|]. eapply dwise_ext; [|exact DB]. intros c Hc. cbv beta.
    replace M with (R + q * S) in * by lia. rewrite end_upst_exact by lia.
    now replace ((R <=? c) && (c <? R + q * S)) with (R <=? c) by lia.
Qed.

Lemma tri_simd_eq kd ks (ok : Z -> Prop) A B : zlen A = N * M -> zlen B = N * M ->
  acts_on_column N kd opf ->
  (forall A0 oA m, 0 <= m -> ok m -> real (minv oA S N S A0) (mview oA S N) S (fun A => ks 0 m A oA S) (fun i => opf 0 (m + i))) ->
  (forall m, 0 <= m <= M - S -> ok m) -> opf 0 0 = [] ->
  exists A' B', execute_tri_simd kd ks S N M A B = Some (A', B') /\ zlen B' = N * M /\
    execute_tri_default kd N M A = Some A'.
Proof.
  intros LA LB HKd HKs Hok Z0.
  pose proof (Z.div_mod M S ltac:(lia)) as EM. fold R in EM. set (q := M / S) in *.
  pose proof (Z.mod_pos_bound M S ltac:(lia)) as BR. fold R in BR.
  assert (Hq : 0 <= q) by (apply Z.div_pos; lia).
  assert (G : good_layout N M D) by (apply (ragged_good N M HN S R q); lia).
  assert (HRM : R <= M) by nia.
  unfold execute_tri_simd.
  pose proof (permute_tri_layout (F:=F) N M S HN HS HM) as (_ & _ & Hf & Hb).
  change (ragged N S (M mod S) (fun r c => r + c * N)) with D in *.
  destruct (Hf A 0 B 0) as (B0 & E2 & L2 & P2 & _); try lia. cbv beta in E2. rewrite E2. cbn [obind].
  assert (X1 : exists B1, for_up 1 R (tri_body kd N) B0 = Some B1 /\ dwise N M D (col_ops (opf 0) 1 R) B0 B1).
  { destruct (Z_le_dec R 1) as [ER|ER].
    - unfold for_up. replace (Z.to_nat (R - 1)) with O by lia. exists B0. split; [reflexivity|].
      eapply dwise_ext; [|apply dwise_refl]. intros c Hc. unfold col_ops.
      now replace ((1 <=? c) && (c <? R)) with false by lia.
    - apply col_loop; auto; try lia.
      + intros. unfold tri_body. apply HKd. lia.
      + intros r c Hr Hc. unfold D. apply ragged_lo. lia. }
  destruct X1 as (B1 & E3 & D1). fold R. rewrite E3. cbn [obind]. pose proof (proj1 D1) as L3.
  destruct (tri_simd_loop ks ok B1) as (B2 & E4 & D2); auto; try lia.
  rewrite E4. cbn [obind]. pose proof (proj1 D2) as L4.
  destruct (Hb A 0 B2 0) as (A2 & E5 & L5 & P5 & _); try lia. cbv beta in E5. rewrite E5. cbn [obind].
  exists A2, B2. split; [auto|]. split; [lia|].
  destruct (tri_default N M HN kd opf A LA HKd HM) as (A' & E7 & D7). rewrite E7. f_equal.
  pose proof (proj1 D7) as L7.
  apply (nthZ_ext zero); [lia|]. intros p Hp.
  destruct (pos_split N M p) as (r & c & Hr & Hc & ->); try lia.
  specialize (P5 r c Hr Hc). rewrite !Z.add_0_l in *.
  unfold nthZ at 2. rewrite P5.
  pose proof (proj2 (dwise_trans N M D _ _ B0 B1 B2 D1 D2) c r Hc) as V.
  unfold dview at 1 in V. replace ((0 <=? r) && (r <? N)) with true in V by lia.
  pose proof (proj2 D7 c r Hc) as V7.
  unfold dview at 1 in V7. replace ((0 <=? r) && (r <? N)) with true in V7 by lia.
  unfold nthZ in V at 1. rewrite V. unfold cm in V7 at 1. rewrite V7.
  transitivity (run (col_ops (opf 0) 1 M c) (dview N D B0 c) r).
  - apply run_ext. intros x. unfold dview. destruct ((0 <=? x) && (x <? N)) eqn:Ex; auto.
    unfold nthZ, cm. specialize (P2 x c ltac:(lia) Hc). rewrite !Z.add_0_l in *. now rewrite P2.
  - f_equal. unfold col_ops. destruct (R <=? c) eqn:ER.
    + replace ((1 <=? c) && (c <? R)) with false by lia. cbn [app].
      destruct (Z.eq_dec c 0) as [->|]; [cbn; auto|]. now replace ((1 <=? c) && (c <? M)) with true by lia.
    + rewrite app_nil_r. now replace ((1 <=? c) && (c <? R)) with ((1 <=? c) && (c <? M)) by lia.
Qed.
End Tri.

(** ** Instances *)
Section Inst.
Context {F : Type} `{Arith F}.
Variables (rot : F -> F -> F -> F -> F * F) (RP : rotplan F).
Let N := rp_n RP.

Lemma opsD_nil d st top (fn : Z -> Z -> F -> F -> F * F) m : 0 < st -> opsD d st top fn m m = [].
Proof. intros. unfold opsD, dnsst. replace ((m - st - m + st) / st) with 0; [reflexivity|]. rewrite Z.div_small; lia. Qed.
Lemma opsU_nil d st top (fn : Z -> Z -> F -> F -> F * F) m : 0 < st -> opsU d st top fn m m = [].
Proof. intros. unfold opsU, upsst. replace ((m - m + st - 1) / st) with 0; [reflexivity|]. rewrite Z.div_small; lia. Qed.

Lemma HW11 : 0 <= Z.of_nat 1 <= 1. Proof. lia. Qed.
Lemma col_sphD : tri_tables RP -> acts_on_column N (kernel_sph_hi2lo rot RP) (SD rot RP).
Proof.
  intros HT A0 oA m1 m2 Hm. apply (real0 oA 1 N A0 (fun A o => kernel_sph_hi2lo rot RP m1 m2 A o 1)).
  apply (real_sph_hi2lo rot RP oA 1 1 HW11 HT A0 m1 m2 0); lia.
Qed.
Lemma col_sphU : tri_tables RP -> acts_on_column N (kernel_sph_lo2hi rot RP) (SU rot RP).
Proof.
  intros HT A0 oA m1 m2 Hm. apply (real0 oA 1 N A0 (fun A o => kernel_sph_lo2hi rot RP m1 m2 A o 1)).
  apply (real_sph_lo2hi rot RP oA 1 1 HW11 HT A0 m1 m2 0); lia.
Qed.
Lemma col_triD : tri_tables RP -> acts_on_column N (kernel_tri_hi2lo rot RP) (TD rot RP).
Proof.
  intros HT A0 oA m1 m2 Hm. apply (real0 oA 1 N A0 (fun A o => kernel_tri_hi2lo rot RP m1 m2 A o 1)).
  apply (real_tri_hi2lo rot RP oA 1 1 HW11 HT A0 m1 m2 0); lia.
Qed.
Lemma col_triU : tri_tables RP -> acts_on_column N (kernel_tri_lo2hi rot RP) (TU rot RP).
Proof.
  intros HT A0 oA m1 m2 Hm. apply (real0 oA 1 N A0 (fun A o => kernel_tri_lo2hi rot RP m1 m2 A o 1)).
  apply (real_tri_lo2hi rot RP oA 1 1 HW11 HT A0 m1 m2 0); lia.
Qed.
Lemma col_diskD : sq_tables RP -> acts_on_column N (kernel_disk_hi2lo rot RP) (KD rot RP).
Proof.
  intros HT A0 oA m1 m2 Hm. apply (real0 oA 1 N A0 (fun A o => kernel_disk_hi2lo rot RP m1 m2 A o 1)).
  apply (real_disk_hi2lo rot RP oA 1 1 HW11 HT A0 m1 m2 0); lia.
Qed.
Lemma col_diskU : sq_tables RP -> acts_on_column N (kernel_disk_lo2hi rot RP) (KU rot RP).
Proof.
  intros HT A0 oA m1 m2 Hm. apply (real0 oA 1 N A0 (fun A o => kernel_disk_lo2hi rot RP m1 m2 A o 1)).
  apply (real_disk_lo2hi rot RP oA 1 1 HW11 HT A0 m1 m2 0); lia.
Qed.

Definition any_swap (swp : list F -> Z -> Z -> Z -> option (list F)) : Prop :=
  swp = swap_warp_default \/ (exists S L, 0 < S /\ 0 < L /\ swp = swap_warp_kernel (Z.to_nat S) S L).

Section Width.
Variables (e : nat) (L : Z).
Hypothesis HL : 0 < L.
Let S := 2 * 2 ^ Z.of_nat e.
Let VS := Z.to_nat S.
Lemma S_pos : 2 <= S.
Proof. unfold S. pose proof (pow2_pos (Z.of_nat e) ltac:(lia)). lia. Qed.
Lemma VS_S : Z.of_nat VS = S. Proof. pose proof S_pos. unfold VS. lia. Qed.
Lemma VS_even : S = 2 * (S / 2).
Proof. unfold S. rewrite (Z.mul_comm 2 (2 ^ Z.of_nat e)), Z.div_mul by lia. lia. Qed.
Lemma HWS : 0 <= Z.of_nat VS <= S. Proof. rewrite VS_S. pose proof S_pos. lia. Qed.

Lemma lanes_sphD : tri_tables RP -> acts_on_lanes N e (KERNEL_SPH_HI2LO rot VS L RP) (fun _ _ => True) (fun m1 m2 i => SD rot RP m1 (m2 + 2 * (i / 2))).
Proof.
  intros HT A0 oA m1 m2 Hm _. pose proof (real_SPH_HI2LO rot RP oA S VS HWS HT L HL A0 m1 m2) as X. rewrite VS_S in X.
  apply X; auto using VS_even.
Qed.
Lemma lanes_sphU : tri_tables RP -> acts_on_lanes N e (KERNEL_SPH_LO2HI rot VS L RP)
   (fun m1 m2 => (m2 - m1) mod 2 = 0 /\ m2 <= N + 2 * S - 4) (fun m1 m2 i => SU rot RP m1 (m2 + 2 * (i / 2))).
Proof.
  intros HT A0 oA m1 m2 Hm [Hp Hb]. pose proof (real_SPH_LO2HI rot RP oA S VS HWS HT L HL A0 m1 m2) as X. rewrite VS_S in X.
  pose proof S_pos. apply X; auto using VS_even; unfold N in *; lia.
Qed.
Lemma lanes_diskD : sq_tables RP -> acts_on_lanes N e (KERNEL_DISK_HI2LO rot VS L RP) (fun _ _ => True) (fun m1 m2 i => KD rot RP m1 (m2 + 2 * (i / 2))).
Proof.
  intros HT A0 oA m1 m2 Hm _. pose proof (real_DISK_HI2LO rot RP oA S VS HWS HT L HL A0 m1 m2) as X. rewrite VS_S in X.
  apply X; auto using VS_even.
Qed.
Lemma lanes_diskU : sq_tables RP -> acts_on_lanes N e (KERNEL_DISK_LO2HI rot VS L RP)
   (fun m1 m2 => (m2 - m1) mod 2 = 0 /\ m2 <= 2 * N - 2) (fun m1 m2 i => KU rot RP m1 (m2 + 2 * (i / 2))).
Proof.
  intros HT A0 oA m1 m2 Hm [Hp Hb]. pose proof (real_DISK_LO2HI rot RP oA S VS HWS HT L HL A0 m1 m2) as X. rewrite VS_S in X.
  pose proof S_pos. apply X; auto using VS_even; unfold N in *; lia.
Qed.

Section Thm.
Variables (M : Z) (A B : list F) (swp : list F -> Z -> Z -> Z -> option (list F)).
Hypothesis HM : 0 <= M.
Hypothesis LA : zlen A = N * M.
Hypothesis LB : zlen B = N * M.
Hypothesis Hswp : any_swap swp.

Lemma C11_sphD : tri_tables RP -> M mod 2 = 1 ->
  exists A' B', execute_sph_simd (kernel_sph_hi2lo rot RP) (KERNEL_SPH_HI2LO rot VS L RP) swp S N M A B = Some (A', B') /\ zlen B' = N * M /\
    execute_sph_default (kernel_sph_hi2lo rot RP) N M A = Some A'.
Proof.
  intros HT Ho. assert (HN : 0 <= N) by (destruct HT; auto).
  apply (sph_simd_eq N M e HN HM (SD rot RP) _ _ (fun _ _ => True)); auto.
  - now apply good_of. - now apply col_sphD. - now apply lanes_sphD.
Qed.
Lemma C11_sphU : tri_tables RP -> M mod 2 = 1 -> M <= 2 * N + 1 ->
  exists A' B', execute_sph_simd (kernel_sph_lo2hi rot RP) (KERNEL_SPH_LO2HI rot VS L RP) swp S N M A B = Some (A', B') /\ zlen B' = N * M /\
    execute_sph_default (kernel_sph_lo2hi rot RP) N M A = Some A'.
Proof.
  intros HT Ho Hb. assert (HN : 0 <= N) by (destruct HT; auto).
  apply (sph_simd_eq N M e HN HM (SU rot RP) _ _ (fun m1 m2 => (m2 - m1) mod 2 = 0 /\ m2 <= N + 2 * S - 4)); auto.
  - now apply good_of. - now apply col_sphU. - now apply lanes_sphU.
  - intros m1 m2 Hm Hp Hq. fold S in Hq. split; auto. pose proof S_pos. lia.
 
Qed.
Lemma C11_diskD : sq_tables RP -> M mod 2 = 1 ->
  exists A' B', execute_sph_simd (kernel_disk_hi2lo rot RP) (KERNEL_DISK_HI2LO rot VS L RP) swp S N M A B = Some (A', B') /\ zlen B' = N * M /\
    execute_sph_default (kernel_disk_hi2lo rot RP) N M A = Some A'.
Proof.
  intros HT Ho. assert (HN : 0 <= N) by (destruct HT; auto).
  apply (sph_simd_eq N M e HN HM (KD rot RP) _ _ (fun _ _ => True)); auto.
  - now apply good_of. - now apply col_diskD. - now apply lanes_diskD.
Qed.
Lemma C11_diskU : sq_tables RP -> M mod 2 = 1 -> M <= 4 * N - 3 ->
  exists A' B', execute_sph_simd (kernel_disk_lo2hi rot RP) (KERNEL_DISK_LO2HI rot VS L RP) swp S N M A B = Some (A', B') /\ zlen B' = N * M /\
    execute_sph_default (kernel_disk_lo2hi rot RP) N M A = Some A'.
Proof.
  intros HT Ho Hb. assert (HN : 0 <= N) by (destruct HT; auto).
  apply (sph_simd_eq N M e HN HM (KU rot RP) _ _ (fun m1 m2 => (m2 - m1) mod 2 = 0 /\ m2 <= 2 * N - 2)); auto.
  - now apply good_of. - now apply col_diskU. - now apply lanes_diskU.
  - intros m1 m2 Hm Hp Hq. fold S in Hq. split; auto. pose proof S_pos. lia.
 
Qed.
End Thm.
End Width.

Section TriW.
Variables (VS : nat) (L M : Z) (A B : list F).
Hypothesis HL : 0 < L.
Hypothesis HV : (0 < VS)%nat.
Let S := Z.of_nat VS.
Hypothesis HM : 0 <= M.
Hypothesis LA : zlen A = N * M.
Hypothesis LB : zlen B = N * M.
Lemma HWT : 0 <= Z.of_nat VS <= S. Proof. unfold S. lia. Qed.
Lemma C11_triD : tri_tables RP ->
  exists A' B', execute_tri_simd (kernel_tri_hi2lo rot RP) (KERNEL_TRI_HI2LO rot VS L RP) S N M A B = Some (A', B') /\ zlen B' = N * M /\
    execute_tri_default (kernel_tri_hi2lo rot RP) N M A = Some A'.
Proof.
  intros HT. assert (HN : 0 <= N) by (destruct HT; auto).
  apply (tri_simd_eq N M S HN HM ltac:(unfold S; lia) (TD rot RP) _ _ (fun _ => True)); auto.
  - now apply col_triD.
  - intros A0 oA m Hm _. pose proof (real_TRI_HI2LO rot RP oA S VS HWT HT L HL A0 0 m) as X. apply X; lia.
Qed.
Lemma C11_triU : tri_tables RP -> M <= N + 2 * S - 2 ->
  exists A' B', execute_tri_simd (kernel_tri_lo2hi rot RP) (KERNEL_TRI_LO2HI rot VS L RP) S N M A B = Some (A', B') /\ zlen B' = N * M /\
    execute_tri_default (kernel_tri_lo2hi rot RP) N M A = Some A'.
Proof.
  intros HT Hb. assert (HN : 0 <= N) by (destruct HT; auto).
  apply (tri_simd_eq N M S HN HM ltac:(unfold S; lia) (TU rot RP) _ _ (fun m => m <= N + S - 2)); auto.
  - now apply col_triU.
  - intros A0 oA m Hm Hok. pose proof (real_TRI_LO2HI rot RP oA S VS HWT HT L HL A0 0 m) as X. apply X; unfold N, S in *; lia.
  - intros; lia.
Qed.
End TriW.
End Inst.
