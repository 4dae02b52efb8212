(** The theorems on src/fftw.c in their final form *)
From Coq Require Import ZArith List Lia Bool Reals Lra ZifyBool ZifyNat.
From Verif Require Import Base Arith BaseFacts SpecSum PSum SpecLin MHarmonic SpecHarm MFftw SpecFftw PTrig PFftw PFftw2 PFftw3 PFftw4 PFftw5 PFftw6 PFftw7 PRefFftw.
Import ListNotations.
Open Scope Z_scope.

Lemma odd_split M : 0 < M -> Z.odd M = true -> exists h, 0 <= h /\ M = 2 * h + 1 /\ M / 2 = h.
Proof. intros HM HO. rewrite odd_b in HO. exists (M / 2). lia. Qed.
Ltac odd M := let h := fresh "h" in let E := fresh in let E' := fresh in let Hh := fresh "Hh" in destruct (odd_split M) as (h & Hh & E & E'); [assumption|assumption|]; try rewrite E' in *; clear E'; subst M.

Lemma T_C37_colswap_roundtrip : forall (F : Type) (N M : Z) (X Y W : list F), 0 <= N -> 0 < M -> Z.odd M = true ->
  zlen X = 2 * (N * M) -> zlen Y = 2 * (N * M) -> zlen W = 2 * (N * M) ->
  (exists Y', colswap N M X Y = Some Y' /\ colswap_t N M W Y' = Some X) /\ (exists X', colswap_t N M X Y = Some X' /\ colswap N M X' W = Some Y).
Proof. intros F N M X Y W HN HM HO LX LY LW. odd M. split; [apply colswap_back|apply colswap_forth]; auto. Qed.

Lemma T_C37_colswap_orders : forall (F : Type) (N M : Z) (X Y : list F), 0 <= N -> 0 < M -> Z.odd M = true -> zlen X = 2 * (N * M) -> zlen Y = 2 * (N * M) ->
  exists Y', colswap N M X Y = Some Y' /\ zlen Y' = zlen Y /\ forall i z r, 0 <= i < N -> 0 <= z < M -> 0 <= r < 2 ->
    zget Y' (2 * (i + (order z mod M) * N) + r) = zget X (2 * (i + z * N) + r).
Proof. intros F N M X Y HN HM HO LX LY. odd M. destruct (colswap_spec N h X Y) as (Y' & E & L & V); auto. exists Y'. split; auto. split; auto. intros i z r Hi Hz Hr. rewrite <- V by auto. f_equal. enough (order z mod (2 * h + 1) = freq (2 * h + 1) z) by congruence. unfold order, freq. rewrite ?odd_m, ?odd_b. destruct (z mod 2 =? 1) eqn:E1; [|apply Z.mod_small; lia]. symmetry; apply (Z.mod_unique _ _ (-1)); lia. Qed.

Lemma T_C37_halfcomplex_roundtrip : forall (F : Type) (AF : Arith F), (forall x : F, opp (opp x) = x) ->
  forall (N M : Z) (X Y W : list F), 0 <= N -> 0 < M -> Z.odd M = true ->
  zlen X = N * M -> zlen Y = 2 * (N * (M / 2 + 1)) -> zlen W = N * M ->
  exists Y', data_r2c N M X Y = Some Y' /\ data_c2r N M W Y' = Some X.
Proof. intros F AF HF N M X Y W HN HM HO LX LY LW. odd M. apply data_back; auto. Qed.

Lemma T_C37_halfcomplex_back : forall (F : Type) (AF : Arith F), (forall x : F, opp (opp x) = x) ->
  forall (N M : Z) (X Y W : list F), 0 <= N -> 0 < M -> Z.odd M = true ->
  zlen X = N * M -> zlen Y = 2 * (N * (M / 2 + 1)) -> zlen W = 2 * (N * (M / 2 + 1)) ->
  exists X' Y', data_c2r N M X Y = Some X' /\ data_r2c N M X' W = Some Y' /\ zlen Y' = zlen Y /\
    forall i z r, 0 <= i < N -> 0 <= z < M / 2 + 1 -> 0 <= r < 2 -> (0 < z \/ r = 0) -> zget Y' (2 * (i + z * N) + r) = zget Y (2 * (i + z * N) + r).
Proof. intros F AF HF N M X Y W HN HM HO LX LY LW. odd M. apply data_forth; auto. Qed.

Lemma T_C37_halfcomplex_layout : forall (F : Type) (AF : Arith F) (N M : Z) (X Y : list F), 0 <= N -> 0 < M -> Z.odd M = true ->
  zlen X = N * M -> zlen Y = 2 * (N * (M / 2 + 1)) ->
  exists Y', data_r2c N M X Y = Some Y' /\ zlen Y' = zlen Y /\
    (forall i x, 0 <= i < N -> zget X i = Some x -> zget Y' (2 * i) = Some x) /\
    (forall j i x, 1 <= j <= M / 2 -> 0 <= i < N -> zget X (i + 2 * j * N) = Some x -> zget Y' (2 * (i + j * N)) = Some x) /\
    (forall j i x, 1 <= j <= M / 2 -> 0 <= i < N -> zget X (i + (2 * j - 1) * N) = Some x -> zget Y' (2 * (i + j * N) + 1) = Some (opp x)).
Proof. intros F AF N M X Y HN HM HO LX LY. odd M. destruct (data_r2c_spec N h X Y) as (Y' & E & L & A & B & C & _); auto. exists Y'. auto. Qed.

Lemma T_C37_even_column_count_refuted : forall (F : Type) (AF : Arith F) (a b c d p q r s t u : F),
  data_r2c 1 4 [a; b; c; d] [p; q; r; s; t; u] = None /\ data_c2r 1 4 [a; b; c; d] [p; q; r; s; t; u] = None /\
  colswap 1 2 [a; b; c; d] [p; q; r; s] = Some [a; b; r; s].
Proof. intros. repeat split; reflexivity. Qed.

Lemma T_C38_sphere : forall FT : fftw R, fftw_ok FT ->
  forall (N M : Z) (Y : list R), 0 < N -> 0 < M -> Z.odd M = true -> zlen Y = 2 * (N * (M / 2 + 1)) ->
  inverse (N * M) (sph_synthesis FT real_const false (plan_sph_synthesis N M) Y N M)
    (sph_analysis FT real_const false (plan_sph_analysis N M) Y N M).
Proof. intros FT OK N M Y HN HM HO LY. odd M. apply sph_inverse; auto. Qed.

Lemma T_C38_vector_sphere : forall FT : fftw R, fftw_ok FT ->
  forall (N M : Z) (Y : list R), 0 < N -> 0 < M -> Z.odd M = true -> zlen Y = 2 * (N * (M / 2 + 1)) ->
  inverse (N * M) (sphv_synthesis FT real_const false (plan_sphv_synthesis N M) Y N M)
    (sphv_analysis FT real_const false (plan_sphv_analysis N M) Y N M).
Proof. intros FT OK N M Y HN HM HO LY. odd M. apply sphv_inverse; auto. Qed.

Lemma T_C38_disk : forall FT : fftw R, fftw_ok FT ->
  forall (N M : Z) (Y : list R), 0 < N -> 0 < M -> Z.odd M = true -> zlen Y = 2 * (N * (M / 2 + 1)) ->
  inverse (N * M) (disk_synthesis FT real_const false (plan_disk_synthesis N M) Y N M)
    (disk_analysis FT real_const false (plan_disk_analysis N M) Y N M).
Proof. intros FT OK N M Y HN HM HO LY. odd M. apply disk_inverse; auto. Qed.

Lemma T_C38_annulus : forall FT : fftw R, fftw_ok FT ->
  forall (N M : Z) (rho : R) (Y : list R), 0 < N -> 0 < M -> Z.odd M = true -> (0 <= rho < 1)%R -> zlen Y = 2 * (N * (M / 2 + 1)) ->
  let w := annulus_w sin cos PI N rho in
  inverse (N * M) (annulus_synthesis FT real_const false (plan_annulus_synthesis N M) w Y N M)
    (annulus_analysis FT real_const false (plan_annulus_analysis N M) w Y N M).
Proof. intros FT OK N M rho Y HN HM HO Hr LY w. odd M. assert (Lw : zlen w = N) by now apply ann_w_len. assert (Hw : forall i, 0 <= i < N -> nthZ 0%R w i <> 0%R) by (intros; now apply ann_w_nz). apply ann_inverse; auto. Qed.

Lemma T_C38_rectdisk : forall FT : fftw R, fftw_ok FT -> forall N M : Z, 0 < N -> 0 < M ->
  inverse (N * M) (rectdisk_synthesis FT false (plan_rectdisk_synthesis N M) N M) (rectdisk_analysis FT false (plan_rectdisk_analysis N M) N M).
Proof. intros FT OK N M HN HM. apply rect_inverse; auto. Qed.

Lemma T_C38_triangle : forall FT : fftw R, fftw_ok FT -> forall N M : Z, 0 < N -> 0 < M ->
  inverse (N * M) (tri_synthesis FT false true N M) (tri_analysis FT false false N M).
Proof. intros FT OK N M HN HM. apply tri_inverse; auto. Qed.

Lemma T_C38_tetrahedron : forall FT : fftw R, fftw_ok FT -> forall N L M : Z, 0 < N -> 0 < L -> 0 < M ->
  inverse (N * L * M) (tet_synthesis FT false true N L M) (tet_analysis FT false false N L M).
Proof. intros FT OK N L M HN HL HM. apply tet_inverse; auto. Qed.

Lemma T_C38_spin : forall FT : fftw R, fftw_ok FT ->
  forall (N M S : Z) (Y : list R), 0 < N -> 0 < M -> Z.odd M = true -> zlen Y = 2 * (N * M) ->
  inverse (2 * N * M) (spinsph_synthesis FT real_const false (plan_spinsph_synthesis N M S) S Y N M)
    (spinsph_analysis FT real_const false (plan_spinsph_analysis N M S) S Y N M).
Proof. intros FT OK N M S Y HN HM HO LY. odd M. apply spin_inverse; auto. Qed.

Lemma T_C38_even_column_count_refuted : forall (FT : fftw R) (a b c d : R) (Y : list R), sph_synthesis FT real_const false (plan_sph_synthesis 1 4) Y 1 4 [a; b; c; d] = None.
Proof. intros. reflexivity. Qed.

Lemma T_C39_sphere : forall FT : fftw R, fftw_ok FT ->
  forall (N M : Z) (Y : list R), 0 < N -> 0 < M -> Z.odd M = true -> zlen Y = 2 * (N * (M / 2 + 1)) ->
  evaluates N M (fun l z k j => (sph_polar N z l (theta N k) * azimuth z (phi M j))%R)
    (sph_synthesis FT real_const false (plan_sph_synthesis N M) Y N M).
Proof. intros FT OK N M Y HN HM HO LY. odd M. apply sph_grid; auto. Qed.

Lemma T_C39_vector_sphere : forall FT : fftw R, fftw_ok FT ->
  forall (N M : Z) (Y : list R), 0 < N -> 0 < M -> Z.odd M = true -> zlen Y = 2 * (N * (M / 2 + 1)) ->
  evaluates N M (fun l z k j => (sphv_polar N z l (theta N k) * azimuth z (phi M j))%R)
    (sphv_synthesis FT real_const false (plan_sphv_synthesis N M) Y N M).
Proof. intros FT OK N M Y HN HM HO LY. odd M. apply sphv_grid; auto. Qed.

Lemma T_C39_disk : forall FT : fftw R, fftw_ok FT ->
  forall (N M : Z) (Y : list R), 0 < N -> 0 < M -> Z.odd M = true -> zlen Y = 2 * (N * (M / 2 + 1)) ->
  evaluates N M (fun l z k j => (disk_radial N z l (theta N k) * azimuth z (phi M j))%R)
    (disk_synthesis FT real_const false (plan_disk_synthesis N M) Y N M).
Proof. intros FT OK N M Y HN HM HO LY. odd M. apply disk_grid; auto. Qed.

Lemma T_C39_annulus : forall FT : fftw R, fftw_ok FT ->
  forall (N M : Z) (rho : R) (Y : list R), 0 < N -> 0 < M -> Z.odd M = true -> (0 <= rho < 1)%R -> zlen Y = 2 * (N * (M / 2 + 1)) ->
  let w := annulus_w sin cos PI N rho in
  evaluates N M (fun l z k j => (ann_radial rho N z l (theta N k) * azimuth z (phi M j))%R)
    (annulus_synthesis FT real_const false (plan_annulus_synthesis N M) w Y N M).
Proof. intros FT OK N M rho Y HN HM HO Hr LY w. odd M. assert (Lw : zlen w = N) by now apply ann_w_len. assert (Hw : forall i, 0 <= i < N -> nthZ 0%R w i <> 0%R) by (intros; now apply ann_w_nz). eapply ev_ext; [|apply ann_grid; auto]. intros l z k j Hl Hz Hk Hj. cbv beta. unfold ann_radial. unfold w. rewrite ann_w_val by auto. reflexivity. Qed.

Lemma T_C39_rectdisk : forall FT : fftw R, fftw_ok FT -> forall N M : Z, 0 < N -> 0 < M ->
  evaluates N M (fun l z k j => (rectdisk_first N z l (theta N k) * cosine M z (theta M j))%R) (rectdisk_synthesis FT false (plan_rectdisk_synthesis N M) N M).
Proof. intros FT OK N M HN HM. apply rect_grid; auto. Qed.

Lemma T_C39_triangle_square : forall FT : fftw R, fftw_ok FT -> forall N : Z, 0 < N ->
  evaluates N N (fun l z k j => (cosine N l (theta N k) * cosine N z (theta N j))%R) (tri_synthesis FT false true N N).
Proof. intros FT OK N HN. apply tri_grid; auto. Qed.

Lemma T_C39_tetrahedron_cube : forall FT : fftw R, fftw_ok FT -> forall N : Z, 0 < N ->
  evaluates3 N N N (fun l k => cosine N l (theta N k)) (fun l k => cosine N l (theta N k)) (fun l k => cosine N l (theta N k)) (tet_synthesis FT false true N N N).
Proof. intros FT OK N HN. apply tet_grid; auto. Qed.

Lemma T_C39_triangle_rectangular_refuted : forall FT : fftw R, fftw_ok FT ->
  ~ evaluates 2 3 (fun l z k j => (cosine 2 l (theta 2 k) * cosine 3 z (theta 3 j))%R) (tri_synthesis FT false true 2 3) /\
  ~ evaluates 1 2 (fun l z k j => (cosine 1 l (theta 1 k) * cosine 2 z (theta 2 j))%R) (tri_synthesis FT false true 1 2).
Proof. intros FT OK. split; [now apply tri_grid_refuted|apply tri_narrow_refuted]. Qed.

Lemma T_C39_tetrahedron_rectangular_refuted : forall FT : fftw R, fftw_ok FT ->
  ~ evaluates3 2 2 3 (fun l k => cosine 2 l (theta 2 k)) (fun l k => cosine 2 l (theta 2 k)) (fun l k => cosine 3 l (theta 3 k)) (tet_synthesis FT false true 2 2 3).
Proof. intros FT OK. now apply tet_grid_refuted. Qed.

Lemma T_C39_spin : forall FT : fftw R, fftw_ok FT ->
  forall (N M S : Z) (Y : list R), 0 < N -> 0 < M -> Z.odd M = true -> zlen Y = 2 * (N * M) ->
  cevaluates N M (fun l z k j => (spin_polar S N z l (theta N k) * cos (IZR (order z) * phi M j) / sqrt (2 * PI))%R)
    (fun l z k j => (spin_polar S N z l (theta N k) * sin (IZR (order z) * phi M j) / sqrt (2 * PI))%R)
    (spinsph_synthesis FT real_const false (plan_spinsph_synthesis N M S) S Y N M).
Proof. intros FT OK N M S Y HN HM HO LY. odd M. apply spin_grid; auto. Qed.

Lemma T_C51_sphere : forall FT : fftw R, fftw_ok FT ->
  forall (N M : Z) (Y : list R), 0 < N -> 0 < M -> Z.odd M = true -> zlen Y = 2 * (N * (M / 2 + 1)) ->
  adjoint (N * M) (sph_synthesis FT real_const false (plan_sph_synthesis N M) Y N M)
      (sph_synthesis FT real_const true (plan_sph_analysis N M) Y N M) /\
  adjoint (N * M) (sph_analysis FT real_const false (plan_sph_analysis N M) Y N M)
      (sph_analysis FT real_const true (plan_sph_synthesis N M) Y N M).
Proof. intros FT OK N M Y HN HM HO LY. odd M. split; [apply sph_adjoint|apply sph_ana_adjoint]; auto. Qed.

Lemma T_C51_vector_sphere : forall FT : fftw R, fftw_ok FT ->
  forall (N M : Z) (Y : list R), 0 < N -> 0 < M -> Z.odd M = true -> zlen Y = 2 * (N * (M / 2 + 1)) ->
  adjoint (N * M) (sphv_synthesis FT real_const false (plan_sphv_synthesis N M) Y N M)
      (sphv_synthesis FT real_const true (plan_sphv_analysis N M) Y N M) /\
  adjoint (N * M) (sphv_analysis FT real_const false (plan_sphv_analysis N M) Y N M)
      (sphv_analysis FT real_const true (plan_sphv_synthesis N M) Y N M).
Proof. intros FT OK N M Y HN HM HO LY. odd M. split; [apply sphv_adjoint|apply sphv_ana_adjoint]; auto. Qed.

Lemma T_C51_disk : forall FT : fftw R, fftw_ok FT ->
  forall (N M : Z) (Y : list R), 0 < N -> 0 < M -> Z.odd M = true -> zlen Y = 2 * (N * (M / 2 + 1)) ->
  adjoint (N * M) (disk_synthesis FT real_const false (plan_disk_synthesis N M) Y N M)
      (disk_synthesis FT real_const true (plan_disk_analysis N M) Y N M) /\
  adjoint (N * M) (disk_analysis FT real_const false (plan_disk_analysis N M) Y N M)
      (disk_analysis FT real_const true (plan_disk_synthesis N M) Y N M).
Proof. intros FT OK N M Y HN HM HO LY. odd M. split; [apply disk_adjoint|apply disk_ana_adjoint]; auto. Qed.

Lemma T_C51_annulus : forall FT : fftw R, fftw_ok FT ->
  forall (N M : Z) (rho : R) (Y : list R), 0 < N -> 0 < M -> Z.odd M = true -> (0 <= rho < 1)%R -> zlen Y = 2 * (N * (M / 2 + 1)) ->
  let w := annulus_w sin cos PI N rho in
  adjoint (N * M) (annulus_synthesis FT real_const false (plan_annulus_synthesis N M) w Y N M)
      (annulus_synthesis FT real_const true (plan_annulus_analysis N M) w Y N M) /\
  adjoint (N * M) (annulus_analysis FT real_const false (plan_annulus_analysis N M) w Y N M)
      (annulus_analysis FT real_const true (plan_annulus_synthesis N M) w Y N M).
Proof. intros FT OK N M rho Y HN HM HO Hr LY w. odd M. assert (Lw : zlen w = N) by now apply ann_w_len. assert (Hw : forall i, 0 <= i < N -> nthZ 0%R w i <> 0%R) by (intros; now apply ann_w_nz). split; [apply ann_adjoint|apply ann_ana_adjoint]; auto. Qed.

Lemma T_C51_rectdisk : forall FT : fftw R, fftw_ok FT -> forall N M : Z, 0 < N -> 0 < M ->
  adjoint (N * M) (rectdisk_synthesis FT false (plan_rectdisk_synthesis N M) N M) (rectdisk_synthesis FT true (plan_rectdisk_analysis N M) N M) /\
  adjoint (N * M) (rectdisk_analysis FT false (plan_rectdisk_analysis N M) N M) (rectdisk_analysis FT true (plan_rectdisk_synthesis N M) N M).
Proof. intros FT OK N M HN HM. split; [apply rect_adjoint|apply rect_ana_adjoint]; auto. Qed.

Lemma T_C51_triangle_square : forall FT : fftw R, fftw_ok FT -> forall N : Z, 0 < N ->
  adjoint (N * N) (tri_synthesis FT false true N N) (tri_synthesis FT true false N N) /\
  adjoint (N * N) (tri_analysis FT false false N N) (tri_analysis FT true true N N).
Proof. intros FT OK N HN. split; [apply tri_adjoint|apply tri_ana_adjoint]; auto. Qed.

Lemma T_C51_triangle_rectangular_refuted : forall FT : fftw R, fftw_ok FT -> ~ adjoint 6 (tri_synthesis FT false true 2 3) (tri_synthesis FT true false 2 3).
Proof. intros FT OK. now apply tri_adjoint_refuted. Qed.

Lemma T_C51_tetrahedron_cube : forall FT : fftw R, fftw_ok FT -> forall N : Z, 0 < N ->
  adjoint (N * N * N) (tet_synthesis FT false true N N N) (tet_synthesis FT true false N N N) /\
  adjoint (N * N * N) (tet_analysis FT false false N N N) (tet_analysis FT true true N N N).
Proof. intros FT OK N HN. split; [apply tet_adjoint|apply tet_ana_adjoint]; auto. Qed.

Lemma T_C51_spin : forall FT : fftw R, fftw_ok FT ->
  forall (N M S : Z) (Y : list R), 0 < N -> 0 < M -> Z.odd M = true -> zlen Y = 2 * (N * M) ->
  adjoint (2 * N * M) (spinsph_synthesis FT real_const false (plan_spinsph_synthesis N M S) S Y N M)
      (spinsph_synthesis FT real_const true (plan_spinsph_analysis N M S) S Y N M) /\
  adjoint (2 * N * M) (spinsph_analysis FT real_const false (plan_spinsph_analysis N M S) S Y N M)
      (spinsph_analysis FT real_const true (plan_spinsph_synthesis N M S) S Y N M).
Proof. intros FT OK N M S Y HN HM HO LY. odd M. split; [apply spin_adjoint|apply spin_ana_adjoint]; auto. Qed.

Lemma T_case : forall (x y z : R) (Y : list R), zlen Y = 4 ->
  exists X', sph_synthesis ref_fftw real_const false (plan_sph_synthesis 1 3) Y 1 3 [x; y; z] = Some X' /\ nthZ 0%R X' 0 = (x / sqrt (2 * PI) + z / (2 * sqrt PI))%R.
Proof.
  intros x y z Y LY. destruct (T_C39_sphere ref_fftw ref_ok 1 3 Y ltac:(lia) ltac:(lia) eq_refl LY [x; y; z] eq_refl) as (X' & E & L & V). exists X'. split; auto.
  change 0 with (0 + 0 * 1) at 2. rewrite (V 0 0) by lia. clear. 
  change 3 with (2 + 1). rewrite sumZ_S by lia. change 2 with (1 + 1). rewrite sumZ_S by lia. rewrite !sumZ_1.
  unfold sph_polar, azimuth, even_order, cosine, sine, theta, phi. cbn [Z.modulo Z.div Z.eqb Z.odd Z.div_eucl Z.pos_div_eucl Z.add Pos.add orb Pos.eqb Z.mul Z.sub Z.opp Z.pos_sub Pos.mul].
  change (nthZ 0%R [x; y; z] 0) with x. change (nthZ 0%R [x; y; z] 1) with y. change (nthZ 0%R [x; y; z] 2) with z.
  change ((1 mod 4 =? 0) || (1 mod 4 =? 3)) with false. change ((2 mod 4 =? 0) || (2 mod 4 =? 3)) with false. change (2 / 2) with 1.
  replace (0 * (PI * (0 + / 2) / 1))%R with 0%R by field. replace (1 * (2 * PI * 0 / 3))%R with 0%R by field.
  replace ((0 + 1) * (PI * (0 + / 2) / 1))%R with (PI / 2)%R by field. rewrite sin_0, cos_0, sin_PI2.
  assert (0 < sqrt PI)%R by (apply sqrt_lt_R0, PI_RGT_0). assert (0 < sqrt (2 * PI))%R by (apply sqrt_lt_R0; pose proof PI_RGT_0; lra).
  field. split; lra.
Qed.
