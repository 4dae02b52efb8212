(** * Rotation kernels: the statements used by Properties_Rotations.v *)
From Coq Require Import ZArith List Lia Bool ZifyBool ZifyNat Reals.
From Verif Require Import Base BaseFacts Arith MRotations SpecRot PRot PRotBlock PRotKernels PRotFam PRotInv PRotMore PRotPlans.
Import ListNotations.
Open Scope Z_scope.

Lemma fit1 {F} (A : list F) oA S n : columns_fit A oA S n 1 -> columns_fit A oA S n (Z.of_nat 1).
Proof. auto. Qed.

(** single column, rewriting the lane offset away *)
Lemma real0 {F} `{Arith F} oA S n A0 (k : list F -> Z -> option (list F)) l :
  real (minv oA S n (Z.of_nat 1) A0) (mview oA S n) (Z.of_nat 1) (fun A => k A (oA + 0)) (only 0 l) ->
  real (minv oA S n 1 A0) (mview oA S n) 1 (fun A => k A oA) (fun _ => l).
Proof.
  intros Hr. rewrite Z.add_0_r in Hr. eapply real_equiv; [exact Hr|]. intros i Hi.
  apply equiv_eq. unfold only. assert (i = 0) as -> by lia. reflexivity.
Qed.

Section R3.
Variable RP : rotplan R.
Variables (oA S : Z).
Hypothesis HS : 1 <= S.
Let n := rp_n RP.
Lemma HW1 : 0 <= Z.of_nat 1 <= S. Proof. lia. Qed.

Section Sph.
Hypothesis HT : tri_tables RP.
Hypothesis HU : unit_tri RP.
Lemma unitS row col : 0 <= col -> 0 <= row <= topS RP col -> unit_pair (rp_s RP) (rp_c RP) (sidx n row col).
Proof. intros. unfold topS in *. apply HU; unfold n in *; lia. Qed.
Lemma unitT row col : 0 <= col -> 0 <= row <= topT RP col -> unit_pair (rp_s RP) (rp_c RP) (sidx n row col).
Proof. intros. unfold topT in *. apply HU; unfold n in *; lia. Qed.

Lemma sph_inverse A m1 m2 : 0 <= m1 <= m2 -> (m2 - m1) mod 2 = 0 -> columns_fit A oA S n 1 ->
  mutually_inverse_on (fun A => kernel_sph_hi2lo givens RP m1 m2 A oA S) (fun A => kernel_sph_lo2hi givens_t RP m1 m2 A oA S) A.
Proof.
  intros Hm Hp Ft.
  pose proof (real0 oA S n A (fun A o => kernel_sph_hi2lo givens RP m1 m2 A o S) _
    (real_sph_hi2lo givens RP oA S 1 HW1 HT A m1 m2 0 ltac:(lia) ltac:(lia))) as R1.
  pose proof (real0 oA S n A (fun A o => kernel_sph_lo2hi givens_t RP m1 m2 A o S) _
    (real_sph_lo2hi givens_t RP oA S 1 HW1 HT A m1 m2 0 ltac:(lia) ltac:(lia))) as R2.
  split.
  - eapply (roundtrip_DU RP oA S n 2 2 (topS RP) (sidx n) ltac:(lia) ltac:(lia) (stepS RP 1%nat) (ltS RP 1%nat) unitS 1 ltac:(lia)); eauto.
    all: intros; exists m2; repeat split; auto; lia.
  - eapply (roundtrip_UD RP oA S n 2 2 (topS RP) (sidx n) ltac:(lia) ltac:(lia) (stepS RP 1%nat) (ltS RP 1%nat) unitS 1 ltac:(lia)); eauto.
    all: intros; exists m2; repeat split; auto; lia.
Qed.
Lemma tri_inverse A m1 m2 : 0 <= m1 <= m2 -> columns_fit A oA S n 1 ->
  mutually_inverse_on (fun A => kernel_tri_hi2lo givens RP m1 m2 A oA S) (fun A => kernel_tri_lo2hi givens_t RP m1 m2 A oA S) A.
Proof.
  intros Hm Ft.
  pose proof (real0 oA S n A (fun A o => kernel_tri_hi2lo givens RP m1 m2 A o S) _
    (real_tri_hi2lo givens RP oA S 1 HW1 HT A m1 m2 0 ltac:(lia) ltac:(lia))) as R1.
  pose proof (real0 oA S n A (fun A o => kernel_tri_lo2hi givens_t RP m1 m2 A o S) _
    (real_tri_lo2hi givens_t RP oA S 1 HW1 HT A m1 m2 0 ltac:(lia) ltac:(lia))) as R2.
  split.
  - eapply (roundtrip_DU RP oA S n 1 1 (topT RP) (sidx n) ltac:(lia) ltac:(lia) (stepT RP 1%nat) (ltT RP 1%nat) unitT 1 ltac:(lia)); eauto.
    all: intros; exists m2; rewrite Z.mod_1_r; repeat split; auto; lia.
  - eapply (roundtrip_UD RP oA S n 1 1 (topT RP) (sidx n) ltac:(lia) ltac:(lia) (stepT RP 1%nat) (ltT RP 1%nat) unitT 1 ltac:(lia)); eauto.
    all: intros; exists m2; rewrite Z.mod_1_r; repeat split; auto; lia.
Qed.
Lemma sph_norm A m1 m2 : 0 <= m1 -> columns_fit A oA S n 1 ->
  isometry_on_columns (fun A => kernel_sph_hi2lo givens RP m1 m2 A oA S) A oA S n 1 /\
  isometry_on_columns (fun A => kernel_sph_lo2hi givens_t RP m1 m2 A oA S) A oA S n 1.
Proof.
  intros Hm Ft. assert (Hn : 0 <= n) by (destruct HT; auto). split.
  - eapply (norm_frame RP oA S n 2 2 (topS RP) (sidx n) ltac:(lia) (stepS RP 1%nat) (ltS RP 1%nat) unitS 1 A
     (fun A => kernel_sph_hi2lo givens RP m1 m2 A oA S)); auto.
    + apply (real0 oA S n A (fun A o => kernel_sph_hi2lo givens RP m1 m2 A o S)), real_sph_hi2lo; auto; lia.
    + intros i o _ Ho. apply In_opsD in Ho as (row & col & Hc & Hr & ->); [|lia|lia]. exists row, col. repeat split; auto; lia.
  - eapply (norm_frame RP oA S n 2 2 (topS RP) (sidx n) ltac:(lia) (stepS RP 1%nat) (ltS RP 1%nat) unitS 1 A
     (fun A => kernel_sph_lo2hi givens_t RP m1 m2 A oA S)); auto.
    + apply (real0 oA S n A (fun A o => kernel_sph_lo2hi givens_t RP m1 m2 A o S)), real_sph_lo2hi; auto; lia.
    + intros i o _ Ho. apply In_opsU in Ho as (row & col & Hc & Hr & ->); [|lia|lia]. exists row, col. repeat split; auto; lia.
Qed.
Lemma tri_norm A m1 m2 : 0 <= m1 -> columns_fit A oA S n 1 ->
  isometry_on_columns (fun A => kernel_tri_hi2lo givens RP m1 m2 A oA S) A oA S n 1 /\
  isometry_on_columns (fun A => kernel_tri_lo2hi givens_t RP m1 m2 A oA S) A oA S n 1.
Proof.
  intros Hm Ft. assert (Hn : 0 <= n) by (destruct HT; auto). split.
  - eapply (norm_frame RP oA S n 1 1 (topT RP) (sidx n) ltac:(lia) (stepT RP 1%nat) (ltT RP 1%nat) unitT 1 A
     (fun A => kernel_tri_hi2lo givens RP m1 m2 A oA S)); auto.
    + apply (real0 oA S n A (fun A o => kernel_tri_hi2lo givens RP m1 m2 A o S)), real_tri_hi2lo; auto; lia.
    + intros i o _ Ho. apply In_opsD in Ho as (row & col & Hc & Hr & ->); [|lia|lia]. exists row, col. repeat split; auto; lia.
  - eapply (norm_frame RP oA S n 1 1 (topT RP) (sidx n) ltac:(lia) (stepT RP 1%nat) (ltT RP 1%nat) unitT 1 A
     (fun A => kernel_tri_lo2hi givens_t RP m1 m2 A oA S)); auto.
    + apply (real0 oA S n A (fun A o => kernel_tri_lo2hi givens_t RP m1 m2 A o S)), real_tri_lo2hi; auto; lia.
    + intros i o _ Ho. apply In_opsU in Ho as (row & col & Hc & Hr & ->); [|lia|lia]. exists row, col. repeat split; auto; lia.
Qed.
(** tetrahedron: a whole n-by-L slice *)
Lemma stepL' L j a : 0 <= a -> 0 <= j - 1 * a -> topL L (j - 1 * a) = topL L j + 1 * a.
Proof. clear. unfold topL; lia. Qed.
Lemma ltL' L j : 0 <= j -> topL L j + 1 < L. Proof. clear. unfold topL; lia. Qed.
Lemma unitL L row col : 0 <= L <= n -> 0 <= col -> 0 <= row <= topL L col -> unit_pair (rp_s RP) (rp_c RP) (sidx n row col).
Proof. intros. unfold topL in *. apply HU; unfold n in *; lia. Qed.
Lemma tet_inverse A L m : 0 <= L <= n -> 0 <= m -> columns_fit A oA n L n ->
  mutually_inverse_on (fun A => kernel_tet_hi2lo givens RP L m A oA) (fun A => kernel_tet_lo2hi givens_t RP L m A oA) A.
Proof.
  intros HL Hm Ft. assert (Hn : 0 <= n) by (destruct HT; auto).
  pose proof (real_tet_hi2lo givens RP HT L oA HL A m) as R1.
  pose proof (real_tet_lo2hi givens_t RP HT L oA HL A m) as R2.
  split.
  - eapply (roundtrip_DU RP oA n L 1 1 (topL L) (sidx n) ltac:(lia) ltac:(lia) (stepL' L) (ltL' L) (fun r c => unitL L r c HL) n ltac:(lia)); eauto.
    all: intros; exists m; rewrite Z.mod_1_r; repeat split; auto; lia.
  - eapply (roundtrip_UD RP oA n L 1 1 (topL L) (sidx n) ltac:(lia) ltac:(lia) (stepL' L) (ltL' L) (fun r c => unitL L r c HL) n ltac:(lia)); eauto.
    all: intros; exists m; rewrite Z.mod_1_r; repeat split; auto; lia.
Qed.
Lemma tet_norm A L m : 0 <= L <= n -> columns_fit A oA n L n ->
  isometry_on_columns (fun A => kernel_tet_hi2lo givens RP L m A oA) A oA n L n /\
  isometry_on_columns (fun A => kernel_tet_lo2hi givens_t RP L m A oA) A oA n L n.
Proof.
  intros HL Ft. assert (Hn : 0 <= n) by (destruct HT; auto). split.
  - eapply (norm_frame RP oA n L 1 1 (topL L) (sidx n) ltac:(lia) (stepL' L) (ltL' L) (fun r c => unitL L r c HL) n A
     (fun A => kernel_tet_hi2lo givens RP L m A oA)); auto; try lia.
    + apply real_tet_hi2lo; auto.
    + intros i o _ Ho. apply In_opsD in Ho as (row & col & Hc & Hr & ->); [|lia|lia]. exists row, col. repeat split; auto; lia.
  - eapply (norm_frame RP oA n L 1 1 (topL L) (sidx n) ltac:(lia) (stepL' L) (ltL' L) (fun r c => unitL L r c HL) n A
     (fun A => kernel_tet_lo2hi givens_t RP L m A oA)); auto; try lia.
    + apply real_tet_lo2hi; auto.
    + intros i o _ Ho. apply In_opsU in Ho as (row & col & Hc & Hr & ->); [|lia|lia]. exists row, col. repeat split; auto; lia.
Qed.
End Sph.

Section Disk.
Hypothesis HT : sq_tables RP.
Hypothesis HU : unit_sq RP.
Lemma unitK row col : 0 <= col -> 0 <= row <= topK RP col -> unit_pair (rp_s RP) (rp_c RP) (sdidx n row col).
Proof. intros. unfold topK in *. apply HU; unfold n in *; lia. Qed.
Lemma disk_inverse A m1 m2 : 0 <= m1 <= m2 -> (m2 - m1) mod 2 = 0 -> columns_fit A oA S n 1 ->
  mutually_inverse_on (fun A => kernel_disk_hi2lo givens RP m1 m2 A oA S) (fun A => kernel_disk_lo2hi givens_t RP m1 m2 A oA S) A.
Proof.
  intros Hm Hp Ft.
  pose proof (real0 oA S n A (fun A o => kernel_disk_hi2lo givens RP m1 m2 A o S) _
    (real_disk_hi2lo givens RP oA S 1 HW1 HT A m1 m2 0 ltac:(lia) ltac:(lia))) as R1.
  pose proof (real0 oA S n A (fun A o => kernel_disk_lo2hi givens_t RP m1 m2 A o S) _
    (real_disk_lo2hi givens_t RP oA S 1 HW1 HT A m1 m2 0 ltac:(lia) ltac:(lia))) as R2.
  split.
  - eapply (roundtrip_DU RP oA S n 1 2 (topK RP) (sdidx n) ltac:(lia) ltac:(lia) (stepK RP 1%nat) (ltK RP 1%nat) unitK 1 ltac:(lia)); eauto.
    all: intros; exists m2; repeat split; auto; lia.
  - eapply (roundtrip_UD RP oA S n 1 2 (topK RP) (sdidx n) ltac:(lia) ltac:(lia) (stepK RP 1%nat) (ltK RP 1%nat) unitK 1 ltac:(lia)); eauto.
    all: intros; exists m2; repeat split; auto; lia.
Qed.
Lemma disk_norm A m1 m2 : 0 <= m1 -> columns_fit A oA S n 1 ->
  isometry_on_columns (fun A => kernel_disk_hi2lo givens RP m1 m2 A oA S) A oA S n 1 /\
  isometry_on_columns (fun A => kernel_disk_lo2hi givens_t RP m1 m2 A oA S) A oA S n 1.
Proof.
  intros Hm Ft. assert (Hn : 0 <= n) by (destruct HT; auto). split.
  - eapply (norm_frame RP oA S n 1 2 (topK RP) (sdidx n) ltac:(lia) (stepK RP 1%nat) (ltK RP 1%nat) unitK 1 A
     (fun A => kernel_disk_hi2lo givens RP m1 m2 A oA S)); auto.
    + apply (real0 oA S n A (fun A o => kernel_disk_hi2lo givens RP m1 m2 A o S)), real_disk_hi2lo; auto; lia.
    + intros i o _ Ho. apply In_opsD in Ho as (row & col & Hc & Hr & ->); [|lia|lia]. exists row, col. repeat split; auto; lia.
  - eapply (norm_frame RP oA S n 1 2 (topK RP) (sdidx n) ltac:(lia) (stepK RP 1%nat) (ltK RP 1%nat) unitK 1 A
     (fun A => kernel_disk_lo2hi givens_t RP m1 m2 A oA S)); auto.
    + apply (real0 oA S n A (fun A o => kernel_disk_lo2hi givens_t RP m1 m2 A o S)), real_disk_lo2hi; auto; lia.
    + intros i o _ Ho. apply In_opsU in Ho as (row & col & Hc & Hr & ->); [|lia|lia]. exists row, col. repeat split; auto; lia.
Qed.
End Disk.
End R3.

(** ** Spin *)
Lemma spin_inverse (P : spinplan R) A oA S m : spin_tables P -> unit_spin P -> 1 <= S ->
  columns_fit A oA (2 * S) (sp_n P) 2 ->
  mutually_inverse_on (fun A => kernel_spinsph_hi2lo givens givens_t apply_rotc P m A oA S)
    (fun A => kernel_spinsph_lo2hi givens givens_t apply_rotc P m A oA S) A.
Proof.
  intros (T0 & T1 & T2) (U1 & U2) HS Ft. split.
  - eapply (spin_roundtrip P T0 T1 T2 U1 U2 oA S HS m apply_rotc); auto. intros; now apply real_apply_rotc.
  - eapply (spin_roundtrip' P T0 T1 T2 U1 U2 oA S HS m apply_rotc); auto. intros; now apply real_apply_rotc.
Qed.
Lemma spin_norm (P : spinplan R) A oA S m : spin_tables P -> unit_spin P -> 1 <= S ->
  columns_fit A oA (2 * S) (sp_n P) 2 ->
  isometry_on_columns (fun A => kernel_spinsph_hi2lo givens givens_t apply_rotc P m A oA S) A oA (2 * S) (sp_n P) 2 /\
  isometry_on_columns (fun A => kernel_spinsph_lo2hi givens givens_t apply_rotc P m A oA S) A oA (2 * S) (sp_n P) 2.
Proof.
  intros (T0 & T1 & T2) (U1 & U2) HS Ft. split.
  - eapply (spin_norm_hi2lo P T0 T1 T2 U1 U2 oA S m apply_rotc); auto. intros; now apply real_apply_rotc.
  - eapply (spin_norm_lo2hi P T0 T1 T2 U1 U2 oA S m apply_rotc); auto. intros; now apply real_apply_rotc.
Qed.

(** ** Blocked SIMD kernels against default kernels, any arithmetic *)
Section Simd.
Context {F : Type} `{Arith F}.
Variable rot : F -> F -> F -> F -> F * F.
Variables (RP : rotplan F) (oA S : Z) (VS : nat) (L : Z).
Hypothesis HW : Z.of_nat VS <= S.
Hypothesis HL : 0 < L.
Let n := rp_n RP.
Notation W := (Z.of_nat VS).
Lemma HW0 : 0 <= W <= S. Proof. lia. Qed.
Lemma even_half : (VS mod 2 = 0)%nat -> W = 2 * (W / 2).
Proof. intros E. apply Nat.mod_divides in E as [k ->]; lia. Qed.

Lemma simd_sph_hi2lo A m1 m2 : tri_tables RP -> (VS mod 2 = 0)%nat -> 0 <= m1 <= m2 -> columns_fit A oA S n W ->
  same_result (fun A => KERNEL_SPH_HI2LO rot VS L RP m1 m2 A oA S)
   (for_up 0 W (fun i A => kernel_sph_hi2lo rot RP m1 (m2 + 2 * (i / 2)) A (oA + i) S)) A.
Proof.
  intros HT He Hm Ft.
  destruct (same_ops RP oA S VS HW0 A (fun A => KERNEL_SPH_HI2LO rot VS L RP m1 m2 A oA S)
   (for_up 0 W (fun i A => kernel_sph_hi2lo rot RP m1 (m2 + 2 * (i / 2)) A (oA + i) S)) (fun i => SD rot RP m1 (m2 + 2 * (i / 2))))
   as (B & E1 & E2 & _).
  - exact Ft.
  - apply real_SPH_HI2LO; auto using HW0, even_half.
  - apply real_lanes. intros i Hi. apply real_sph_hi2lo; auto using HW0; lia.
  - now exists B.
Qed.
Lemma simd_sph_lo2hi A m1 m2 : tri_tables RP -> (VS mod 2 = 0)%nat -> (0 < VS)%nat -> 0 <= m1 <= m2 -> (m2 - m1) mod 2 = 0 ->
  m2 <= n + 2 * W - 4 -> columns_fit A oA S n W ->
  same_result (fun A => KERNEL_SPH_LO2HI rot VS L RP m1 m2 A oA S)
   (for_up 0 W (fun i A => kernel_sph_lo2hi rot RP m1 (m2 + 2 * (i / 2)) A (oA + i) S)) A.
Proof.
  intros HT He Hv Hm Hp Hn Ft.
  destruct (same_ops RP oA S VS HW0 A (fun A => KERNEL_SPH_LO2HI rot VS L RP m1 m2 A oA S)
   (for_up 0 W (fun i A => kernel_sph_lo2hi rot RP m1 (m2 + 2 * (i / 2)) A (oA + i) S)) (fun i => SU rot RP m1 (m2 + 2 * (i / 2))))
   as (B & E1 & E2 & _).
  - exact Ft.
  - pose proof (even_half He). apply real_SPH_LO2HI; auto using HW0; lia.
  - apply real_lanes. intros i Hi. apply real_sph_lo2hi; auto using HW0; lia.
  - now exists B.
Qed.
Lemma simd_tri_hi2lo A m1 m2 : tri_tables RP -> 0 <= m1 <= m2 -> columns_fit A oA S n W ->
  same_result (fun A => KERNEL_TRI_HI2LO rot VS L RP m1 m2 A oA S)
   (for_up 0 W (fun i A => kernel_tri_hi2lo rot RP m1 (m2 + i) A (oA + i) S)) A.
Proof.
  intros HT Hm Ft.
  destruct (same_ops RP oA S VS HW0 A (fun A => KERNEL_TRI_HI2LO rot VS L RP m1 m2 A oA S)
   (for_up 0 W (fun i A => kernel_tri_hi2lo rot RP m1 (m2 + i) A (oA + i) S)) (fun i => TD rot RP m1 (m2 + i)))
   as (B & E1 & E2 & _).
  - exact Ft.
  - apply real_TRI_HI2LO; auto using HW0.
  - apply real_lanes. intros i Hi. apply real_tri_hi2lo; auto using HW0; lia.
  - now exists B.
Qed.
Lemma simd_tri_lo2hi A m1 m2 : tri_tables RP -> (0 < VS)%nat -> 0 <= m1 <= m2 ->
  m2 <= n + W - 2 -> columns_fit A oA S n W ->
  same_result (fun A => KERNEL_TRI_LO2HI rot VS L RP m1 m2 A oA S)
   (for_up 0 W (fun i A => kernel_tri_lo2hi rot RP m1 (m2 + i) A (oA + i) S)) A.
Proof.
  intros HT Hv Hm Hn Ft.
  destruct (same_ops RP oA S VS HW0 A (fun A => KERNEL_TRI_LO2HI rot VS L RP m1 m2 A oA S)
   (for_up 0 W (fun i A => kernel_tri_lo2hi rot RP m1 (m2 + i) A (oA + i) S)) (fun i => TU rot RP m1 (m2 + i)))
   as (B & E1 & E2 & _).
  - exact Ft.
  - apply real_TRI_LO2HI; auto using HW0; lia.
  - apply real_lanes. intros i Hi. apply real_tri_lo2hi; auto using HW0; lia.
  - now exists B.
Qed.
Lemma simd_disk_hi2lo A m1 m2 : sq_tables RP -> (VS mod 2 = 0)%nat -> 0 <= m1 <= m2 -> columns_fit A oA S n W ->
  same_result (fun A => KERNEL_DISK_HI2LO rot VS L RP m1 m2 A oA S)
   (for_up 0 W (fun i A => kernel_disk_hi2lo rot RP m1 (m2 + 2 * (i / 2)) A (oA + i) S)) A.
Proof.
  intros HT He Hm Ft.
  destruct (same_ops RP oA S VS HW0 A (fun A => KERNEL_DISK_HI2LO rot VS L RP m1 m2 A oA S)
   (for_up 0 W (fun i A => kernel_disk_hi2lo rot RP m1 (m2 + 2 * (i / 2)) A (oA + i) S)) (fun i => KD rot RP m1 (m2 + 2 * (i / 2))))
   as (B & E1 & E2 & _).
  - exact Ft.
  - apply real_DISK_HI2LO; auto using HW0, even_half.
  - apply real_lanes. intros i Hi. apply real_disk_hi2lo; auto using HW0; lia.
  - now exists B.
Qed.
Lemma simd_disk_lo2hi A m1 m2 : sq_tables RP -> (VS mod 2 = 0)%nat -> (0 < VS)%nat -> 0 <= m1 <= m2 -> (m2 - m1) mod 2 = 0 ->
  m2 <= 2 * n - 2 -> columns_fit A oA S n W ->
  same_result (fun A => KERNEL_DISK_LO2HI rot VS L RP m1 m2 A oA S)
   (for_up 0 W (fun i A => kernel_disk_lo2hi rot RP m1 (m2 + 2 * (i / 2)) A (oA + i) S)) A.
Proof.
  intros HT He Hv Hm Hp Hn Ft.
  destruct (same_ops RP oA S VS HW0 A (fun A => KERNEL_DISK_LO2HI rot VS L RP m1 m2 A oA S)
   (for_up 0 W (fun i A => kernel_disk_lo2hi rot RP m1 (m2 + 2 * (i / 2)) A (oA + i) S)) (fun i => KU rot RP m1 (m2 + 2 * (i / 2))))
   as (B & E1 & E2 & _).
  - exact Ft.
  - pose proof (even_half He). apply real_DISK_LO2HI; auto using HW0; lia.
  - apply real_lanes. intros i Hi. apply real_disk_lo2hi; auto using HW0; lia.
  - now exists B.
Qed.
End Simd.

(** tetrahedron: the vectorised kernel on columns padded to [nb] against scalar order *)
Section SimdTet.
Context {F : Type} `{Arith F}.
Variable rot : F -> F -> F -> F -> F * F.
Variables (RP : rotplan F) (oA nb L : Z).
Let n := rp_n RP.
Lemma good1 : 0 <= n -> good RP [1%nat] 0.
Proof. intros. cbn. fold n. rewrite Z.rem_1_r. repeat split; try lia. Qed.
Lemma good2 : 0 <= n -> good RP [2;1]%nat 0.
Proof. intros. cbn. fold n. rewrite Z.rem_1_r. pose proof (Z.rem_bound_pos n 2 ltac:(lia) ltac:(lia)). rewrite !Z.mod_1_r. repeat split; try lia. Qed.
Lemma good4 : 0 <= n -> good RP [4;2;1]%nat 0.
Proof.
  intros. cbn. fold n. rewrite Z.rem_1_r. rewrite !Z.mod_1_r.
  rewrite !Z.rem_mod_nonneg by lia. repeat split; try lia.
Qed.
Lemma good8 : 0 <= n -> good RP [8;4;2;1]%nat 0.
Proof.
  intros. cbn. fold n. rewrite Z.rem_1_r. rewrite !Z.mod_1_r.
  rewrite !Z.rem_mod_nonneg by lia. repeat split; try lia.
Qed.
Lemma same_ops_gen A p q (ops : Z -> list (op F)) S W nr : 0 <= W <= S -> columns_fit A oA S nr W ->
  real (minv oA S nr W A) (mview oA S nr) W p ops -> real (minv oA S nr W A) (mview oA S nr) W q ops -> same_result p q A.
Proof.
  intros HW Ft Hp Hq. assert (I : minv oA S nr W A A) by (apply minv_refl; exact Ft).
  destruct (Hp A I) as (B & E1 & I1 & V1). destruct (Hq A I) as (C & E2 & I2 & V2).
  exists B. split; auto. rewrite E2. f_equal. apply (minv_ext oA S nr W HW A); auto.
  intros i r Hi. now rewrite V1, V2.
Qed.
Lemma simd_tet A Vs m : In Vs [[2;1]; [4;2;1]; [8;4;2;1]]%nat -> tri_tables RP -> 0 <= L <= n -> n <= nb ->
  columns_fit A oA nb L n ->
  same_result (fun A => kernel_tet_hi2lo_simd rot Vs nb RP L m A oA) (fun A => kernel_tet_hi2lo_simd rot [1%nat] nb RP L m A oA) A /\
  same_result (fun A => kernel_tet_lo2hi_simd rot Vs nb RP L m A oA) (fun A => kernel_tet_lo2hi_simd rot [1%nat] nb RP L m A oA) A.
Proof.
  intros HV HT HL Hnb Ft. assert (Hn : 0 <= n) by (destruct HT; auto).
  assert (G : good RP Vs 0). { cbn in HV. intuition (subst; auto using good2, good4, good8). }
  split; (eapply (same_ops_gen A _ _ _ nb n L); [lia|exact Ft|..]).
  - apply real_tet_hi2lo_simd; auto.
  - apply real_tet_hi2lo_simd; auto using good1.
  - apply real_tet_lo2hi_simd; auto.
  - apply real_tet_lo2hi_simd; auto using good1.
Qed.
(** with the unpadded layout this is the default kernel *)
Lemma tet_default A m : tri_tables RP -> 0 <= L <= n -> columns_fit A oA n L n ->
  same_result (fun A => kernel_tet_hi2lo rot RP L m A oA) (fun A => kernel_tet_hi2lo_simd rot [1%nat] n RP L m A oA) A /\
  same_result (fun A => kernel_tet_lo2hi rot RP L m A oA) (fun A => kernel_tet_lo2hi_simd rot [1%nat] n RP L m A oA) A.
Proof.
  intros HT HL Ft. assert (Hn : 0 <= n) by (destruct HT; auto).
  split; (eapply (same_ops_gen A _ _ _ n n L); [lia|exact Ft|..]).
  - apply real_tet_hi2lo; auto.
  - apply real_tet_hi2lo_simd; auto using good1. unfold n; lia.
  - apply real_tet_lo2hi; auto.
  - apply real_tet_lo2hi_simd; auto using good1. unfold n; lia.
Qed.
End SimdTet.
Lemma simd_spin {F} `{Arith F} (rot rot_t : F -> F -> F -> F -> F * F) (P : spinplan F) A oA S m : spin_tables P -> 1 <= S ->
  columns_fit A oA (2 * S) (sp_n P) 2 ->
  same_result (fun A => kernel_spinsph_hi2lo rot rot_t (fun r => vapply_rot r 2) P m A oA S)
    (fun A => kernel_spinsph_hi2lo rot rot_t apply_rotc P m A oA S) A /\
  same_result (fun A => kernel_spinsph_lo2hi rot rot_t (fun r => vapply_rot r 2) P m A oA S)
    (fun A => kernel_spinsph_lo2hi rot rot_t apply_rotc P m A oA S) A.
Proof.
  intros (T0 & T1 & T2) HS Ft.
  split; (eapply (same_ops_gen oA A _ _ _ (2 * S) 2 (sp_n P)); [lia|exact Ft|..]).
  - apply real_spin_hi2lo; auto. intros; now apply real_vapply_rotc.
  - apply real_spin_hi2lo; auto. intros; now apply real_apply_rotc.
  - apply real_spin_lo2hi; auto. intros; now apply real_vapply_rotc.
  - apply real_spin_lo2hi; auto. intros; now apply real_apply_rotc.
Qed.

(** ** Planned tables meet the hypotheses *)
Lemma planned_sph n (junk : R) RP : 0 <= n -> plan_rotsphere junk n = Some RP -> rp_n RP = n /\ tri_tables RP /\ unit_tri RP.
Proof.
  intros Hn E. destruct (rotsphere_ok n junk Hn) as (RP' & E' & N & T & U). rewrite E in E'. injection E' as <-.
  split; [auto|]. split; auto. unfold unit_tri. now rewrite N.
Qed.
Lemma planned_tri n (junk al be ga : R) RP : 0 <= n -> (-1 < al)%R -> (-1 < be)%R -> (-1 < ga)%R ->
  plan_rottriangle junk n al be ga = Some RP -> rp_n RP = n /\ tri_tables RP /\ unit_tri RP.
Proof.
  intros Hn Ha Hb Hg E. destruct (rottriangle_ok n junk al be ga Hn Ha Hb Hg) as (RP' & E' & N & T & U). rewrite E in E'. injection E' as <-.
  split; [auto|]. split; auto. unfold unit_tri. now rewrite N.
Qed.
Lemma planned_rectdisk n (junk be : R) RP : 0 <= n -> (-1 < be)%R ->
  plan_rotrectdisk junk n be = Some RP -> rp_n RP = n /\ tri_tables RP /\ unit_tri RP.
Proof.
  intros Hn Hb E. destruct (rotrectdisk_ok n junk be Hn Hb) as (RP' & E' & N & T & U). rewrite E in E'. injection E' as <-.
  split; [auto|]. split; auto. unfold unit_tri. now rewrite N.
Qed.
Lemma planned_disk n (junk al be : R) RP : 0 <= n -> (-1 < al)%R -> (-1 < be)%R ->
  plan_rotdisk junk n al be = Some RP -> rp_n RP = n /\ sq_tables RP /\ unit_sq RP.
Proof.
  intros Hn Ha Hb E. destruct (rotdisk_ok n junk al be Hn Ha Hb) as (RP' & E' & N & T & U). rewrite E in E'. injection E' as <-.
  split; [auto|]. split; auto. unfold unit_sq. now rewrite N.
Qed.
Lemma planned_spin n s P : 0 <= n -> @plan_rotspinsphere R _ n s = Some P -> sp_n P = n /\ sp_s P = s /\ spin_tables P /\ unit_spin P.
Proof.
  intros Hn E. destruct (rotspinsphere_ok n s Hn) as (P' & E' & N & Sp & T1 & T2 & U1 & U2). rewrite E in E'. injection E' as <-.
  split; [auto|]. split; auto. unfold spin_tables, unit_spin. rewrite N, Sp. repeat split; auto; tauto.
Qed.

Theorem C06_planned_proof : forall (n : Z) (junk al be ga : R) (s : Z), 0 <= n -> (-1 < al)%R -> (-1 < be)%R -> (-1 < ga)%R ->
  (exists RP, plan_rotsphere junk n = Some RP /\ rp_n RP = n /\ tri_tables RP /\ unit_tri RP) /\
  (exists RP, plan_rottriangle junk n al be ga = Some RP /\ rp_n RP = n /\ tri_tables RP /\ unit_tri RP) /\
  (exists RP, plan_rotdisk junk n al be = Some RP /\ rp_n RP = n /\ sq_tables RP /\ unit_sq RP) /\
  (exists RP, plan_rotrectdisk junk n be = Some RP /\ rp_n RP = n /\ tri_tables RP /\ unit_tri RP) /\
  (exists P, @plan_rotspinsphere R _ n s = Some P /\ sp_n P = n /\ sp_s P = s /\ spin_tables P /\ unit_spin P).
Proof.
  intros n junk al be ga s Hn Ha Hb Hg. split; [|split; [|split; [|split]]].
  - destruct (rotsphere_ok n junk Hn) as (RP & E & _). exists RP. split; auto. apply (planned_sph n junk); assumption.
  - destruct (rottriangle_ok n junk al be ga Hn Ha Hb Hg) as (RP & E & _). exists RP. split; auto. apply (planned_tri n junk al be ga); assumption.
  - destruct (rotdisk_ok n junk al be Hn Ha Hb) as (RP & E & _). exists RP. split; auto. apply (planned_disk n junk al be); assumption.
  - destruct (rotrectdisk_ok n junk be Hn Hb) as (RP & E & _). exists RP. split; auto. apply (planned_rectdisk n junk be); assumption.
  - destruct (rotspinsphere_ok n s Hn) as (P & E & _). exists P. split; auto. apply (planned_spin); assumption.
Qed.

(** tables hold exactly the planned values (any arithmetic) *)
Theorem C07_proof : forall n a, 
  (forall l m, 0 <= m -> 0 <= l < n - m -> 0 <= sidx n l m < n * (n + 1) / 2) /\
  (forall l m l' m', 0 <= m -> 0 <= l < n - m -> 0 <= m' -> 0 <= l' < n - m' -> sidx n l m = sidx n l' m' -> l = l' /\ m = m') /\
  (forall l m, 0 <= m -> 0 <= l < n - (m + 1) / 2 -> 0 <= sdidx n l m < n * n) /\
  (forall l m l' m', 0 <= m -> 0 <= l < n - (m + 1) / 2 -> 0 <= m' -> 0 <= l' < n - (m' + 1) / 2 ->
     sdidx n l m = sdidx n l' m' -> l = l' /\ m = m') /\
  (forall l m, 0 <= m < n -> 0 <= l < n -> 0 <= s1idx n l m < n * n) /\
  (forall l m l' m', 0 <= l < n -> 0 <= l' < n -> s1idx n l m = s1idx n l' m' -> l = l' /\ m = m') /\
  (forall l j m, 0 <= m < n -> 0 <= j < a -> 0 <= l < n -> 0 <= s2idx n a l j m < a * n * n) /\
  (forall l j m l' j' m', 0 <= l < n -> 0 <= l' < n -> 0 <= j < a -> 0 <= j' < a ->
     s2idx n a l j m = s2idx n a l' j' m' -> l = l' /\ j = j' /\ m = m').
Proof.
  intros n a. split; [intros; now apply sidx_bound|]. split; [intros l m l' m'; apply sidx_inj|].
  split; [intros; now apply sdidx_bound|]. split; [intros l m l' m'; apply sdidx_inj|].
  split; [intros; now apply s1idx_bound|]. split; [intros l m l' m'; apply s1idx_inj|].
  split; [intros; now apply s2idx_bound|]. intros l j m l' j' m'; apply s2idx_inj.
Qed.
