(** * C37, C38, C39, C51: synthesis and analysis on grids (src/fftw.c)

    Statements only; proofs are in PTrig.v and PFftw*.v.  Vocabulary: SpecFftw.v.  [fftw_ok FT]
    is the contract of FFTW (the formulas of its manual); [inverse] and [adjoint] are those of
    SpecHarm.v; [evaluates N M basis p] says that [p] turns the N by M coefficients into the
    values of the series in [basis] on the grid.  [Y] is the scratch array of the plan, with any
    contents; [true]/[false] is TRANS.  The constants of the library are taken exactly. *)
From Coq Require Import ZArith List Lia Bool Reals Lra.
From Verif Require Import Base Arith SpecSum MHarmonic SpecHarm MFftw SpecFftw PRefFftw PFftwThms.
Import ListNotations.
Open Scope Z_scope.

(** The FFTW contract can be met. *)
Theorem C38_fftw_contract_met : fftw_ok ref_fftw.
Proof. exact ref_ok. Qed.
Print Assumptions C38_fftw_contract_met.

(** ** C37.  The two exchanges of complex columns undo each other, whatever the destination held. *)
Theorem C37_colswap_roundtrip :
  forall (F : Type) (N M : Z) (X Y W : list F), 0 <= N -> 0 < M -> Z.odd M = true ->
  zlen X = 2 * (N * M) -> zlen Y = 2 * (N * M) -> zlen W = 2 * (N * M) ->
  (exists Y', colswap N M X Y = Some Y' /\ colswap_t N M W Y' = Some X) /\ (exists X', colswap_t N M X Y = Some X' /\ colswap N M X' W = Some Y).
Proof. exact @T_C37_colswap_roundtrip. Qed.
Print Assumptions C37_colswap_roundtrip.

(** The column of order m goes to bin m mod M of the transform. *)
Theorem C37_colswap_orders :
  forall (F : Type) (N M : Z) (X Y : list F), 0 <= N -> 0 < M -> Z.odd M = true -> zlen X = 2 * (N * M) -> zlen Y = 2 * (N * M) ->
  exists Y', colswap N M X Y = Some Y' /\ zlen Y' = zlen Y /\ forall i z r, 0 <= i < N -> 0 <= z < M -> 0 <= r < 2 ->
    zget Y' (2 * (i + (order z mod M) * N) + r) = zget X (2 * (i + z * N) + r).
Proof. exact @T_C37_colswap_orders. Qed.
Print Assumptions C37_colswap_orders.

(** The half-complex copies: out and back is the identity; back and out keeps everything but the imaginary parts of column 0, which the copy does not write. *)
Theorem C37_halfcomplex_roundtrip :
  forall (F : Type) (AF : Arith F), (forall x : F, opp (opp x) = x) ->
  forall (N M : Z) (X Y W : list F), 0 <= N -> 0 < M -> Z.odd M = true ->
  zlen X = N * M -> zlen Y = 2 * (N * (M / 2 + 1)) -> zlen W = N * M ->
  exists Y', data_r2c N M X Y = Some Y' /\ data_c2r N M W Y' = Some X.
Proof. exact @T_C37_halfcomplex_roundtrip. Qed.
Print Assumptions C37_halfcomplex_roundtrip.

Theorem C37_halfcomplex_back :
  forall (F : Type) (AF : Arith F), (forall x : F, opp (opp x) = x) ->
  forall (N M : Z) (X Y W : list F), 0 <= N -> 0 < M -> Z.odd M = true ->
  zlen X = N * M -> zlen Y = 2 * (N * (M / 2 + 1)) -> zlen W = 2 * (N * (M / 2 + 1)) ->
  exists X' Y', data_c2r N M X Y = Some X' /\ data_r2c N M X' W = Some Y' /\ zlen Y' = zlen Y /\
    forall i z r, 0 <= i < N -> 0 <= z < M / 2 + 1 -> 0 <= r < 2 -> (0 < z \/ r = 0) -> zget Y' (2 * (i + z * N) + r) = zget Y (2 * (i + z * N) + r).
Proof. exact @T_C37_halfcomplex_back. Qed.
Print Assumptions C37_halfcomplex_back.

(** Cosine columns become real parts, sine columns negated imaginary parts. *)
Theorem C37_halfcomplex_layout :
  forall (F : Type) (AF : Arith F) (N M : Z) (X Y : list F), 0 <= N -> 0 < M -> Z.odd M = true ->
  zlen X = N * M -> zlen Y = 2 * (N * (M / 2 + 1)) ->
  exists Y', data_r2c N M X Y = Some Y' /\ zlen Y' = zlen Y /\
    (forall i x, 0 <= i < N -> zget X i = Some x -> zget Y' (2 * i) = Some x) /\
    (forall j i x, 1 <= j <= M / 2 -> 0 <= i < N -> zget X (i + 2 * j * N) = Some x -> zget Y' (2 * (i + j * N)) = Some x) /\
    (forall j i x, 1 <= j <= M / 2 -> 0 <= i < N -> zget X (i + (2 * j - 1) * N) = Some x -> zget Y' (2 * (i + j * N) + 1) = Some (opp x)).
Proof. exact @T_C37_halfcomplex_layout. Qed.
Print Assumptions C37_halfcomplex_layout.

(** For an even number of columns the half-complex copies leave the array, and colswap drops the last column. *)
Theorem C37_even_column_count_refuted :
  forall (F : Type) (AF : Arith F) (a b c d p q r s t u : F),
  data_r2c 1 4 [a; b; c; d] [p; q; r; s; t; u] = None /\ data_c2r 1 4 [a; b; c; d] [p; q; r; s; t; u] = None /\
  colswap 1 2 [a; b; c; d] [p; q; r; s] = Some [a; b; r; s].
Proof. exact @T_C37_even_column_count_refuted. Qed.
Print Assumptions C37_even_column_count_refuted.

Example C37_computed : colswap 1 5 [1; 2; 3; 4; 5; 6; 7; 8; 9; 10] [0; 0; 0; 0; 0; 0; 0; 0; 0; 0] = Some [1; 2; 5; 6; 9; 10; 7; 8; 3; 4] /\
  @data_r2c Z Z_arith 2 5 [1; 2; 3; 4; 5; 6; 7; 8; 9; 10] [0; 0; 0; 0; 0; 0; 0; 0; 0; 0; 0; 0] = Some [1; 0; 2; 0; 5; -3; 6; -4; 9; -7; 10; -8].
Proof. split; reflexivity. Qed.

(** ** C38.  Analysis inverts synthesis, and synthesis inverts analysis. *)
Theorem C38_sphere :
  forall FT : fftw R, fftw_ok FT ->
  forall (N M : Z) (Y : list R), 0 < N -> 0 < M -> Z.odd M = true -> zlen Y = 2 * (N * (M / 2 + 1)) ->
  inverse (N * M) (sph_synthesis FT real_const false (plan_sph_synthesis N M) Y N M)
    (sph_analysis FT real_const false (plan_sph_analysis N M) Y N M).
Proof. exact @T_C38_sphere. Qed.
Print Assumptions C38_sphere.

Theorem C38_vector_sphere :
  forall FT : fftw R, fftw_ok FT ->
  forall (N M : Z) (Y : list R), 0 < N -> 0 < M -> Z.odd M = true -> zlen Y = 2 * (N * (M / 2 + 1)) ->
  inverse (N * M) (sphv_synthesis FT real_const false (plan_sphv_synthesis N M) Y N M)
    (sphv_analysis FT real_const false (plan_sphv_analysis N M) Y N M).
Proof. exact @T_C38_vector_sphere. Qed.
Print Assumptions C38_vector_sphere.

Theorem C38_disk :
  forall FT : fftw R, fftw_ok FT ->
  forall (N M : Z) (Y : list R), 0 < N -> 0 < M -> Z.odd M = true -> zlen Y = 2 * (N * (M / 2 + 1)) ->
  inverse (N * M) (disk_synthesis FT real_const false (plan_disk_synthesis N M) Y N M)
    (disk_analysis FT real_const false (plan_disk_analysis N M) Y N M).
Proof. exact @T_C38_disk. Qed.
Print Assumptions C38_disk.

Theorem C38_annulus :
  forall FT : fftw R, fftw_ok FT ->
  forall (N M : Z) (rho : R) (Y : list R), 0 < N -> 0 < M -> Z.odd M = true -> (0 <= rho < 1)%R -> zlen Y = 2 * (N * (M / 2 + 1)) ->
  let w := annulus_w sin cos PI N rho in
  inverse (N * M) (annulus_synthesis FT real_const false (plan_annulus_synthesis N M) w Y N M)
    (annulus_analysis FT real_const false (plan_annulus_analysis N M) w Y N M).
Proof. exact @T_C38_annulus. Qed.
Print Assumptions C38_annulus.

Theorem C38_rectdisk :
  forall FT : fftw R, fftw_ok FT -> forall N M : Z, 0 < N -> 0 < M ->
  inverse (N * M) (rectdisk_synthesis FT false (plan_rectdisk_synthesis N M) N M) (rectdisk_analysis FT false (plan_rectdisk_analysis N M) N M).
Proof. exact @T_C38_rectdisk. Qed.
Print Assumptions C38_rectdisk.

Theorem C38_triangle :
  forall FT : fftw R, fftw_ok FT -> forall N M : Z, 0 < N -> 0 < M ->
  inverse (N * M) (tri_synthesis FT false true N M) (tri_analysis FT false false N M).
Proof. exact @T_C38_triangle. Qed.
Print Assumptions C38_triangle.

Theorem C38_tetrahedron :
  forall FT : fftw R, fftw_ok FT -> forall N L M : Z, 0 < N -> 0 < L -> 0 < M ->
  inverse (N * L * M) (tet_synthesis FT false true N L M) (tet_analysis FT false false N L M).
Proof. exact @T_C38_tetrahedron. Qed.
Print Assumptions C38_tetrahedron.

Theorem C38_spin :
  forall FT : fftw R, fftw_ok FT ->
  forall (N M S : Z) (Y : list R), 0 < N -> 0 < M -> Z.odd M = true -> zlen Y = 2 * (N * M) ->
  inverse (2 * N * M) (spinsph_synthesis FT real_const false (plan_spinsph_synthesis N M S) S Y N M)
    (spinsph_analysis FT real_const false (plan_spinsph_analysis N M S) S Y N M).
Proof. exact @T_C38_spin. Qed.
Print Assumptions C38_spin.

Theorem C38_even_column_count_refuted :
  forall (FT : fftw R) (a b c d : R) (Y : list R), sph_synthesis FT real_const false (plan_sph_synthesis 1 4) Y 1 4 [a; b; c; d] = None.
Proof. exact @T_C38_even_column_count_refuted. Qed.
Print Assumptions C38_even_column_count_refuted.

(** ** C39.  Synthesis evaluates the series on the grid. *)
Theorem C39_sphere :
  forall FT : fftw R, fftw_ok FT ->
  forall (N M : Z) (Y : list R), 0 < N -> 0 < M -> Z.odd M = true -> zlen Y = 2 * (N * (M / 2 + 1)) ->
  evaluates N M (fun l z k j => (sph_polar N z l (theta N k) * azimuth z (phi M j))%R)
    (sph_synthesis FT real_const false (plan_sph_synthesis N M) Y N M).
Proof. exact @T_C39_sphere. Qed.
Print Assumptions C39_sphere.

Theorem C39_vector_sphere :
  forall FT : fftw R, fftw_ok FT ->
  forall (N M : Z) (Y : list R), 0 < N -> 0 < M -> Z.odd M = true -> zlen Y = 2 * (N * (M / 2 + 1)) ->
  evaluates N M (fun l z k j => (sphv_polar N z l (theta N k) * azimuth z (phi M j))%R)
    (sphv_synthesis FT real_const false (plan_sphv_synthesis N M) Y N M).
Proof. exact @T_C39_vector_sphere. Qed.
Print Assumptions C39_vector_sphere.

Theorem C39_disk :
  forall FT : fftw R, fftw_ok FT ->
  forall (N M : Z) (Y : list R), 0 < N -> 0 < M -> Z.odd M = true -> zlen Y = 2 * (N * (M / 2 + 1)) ->
  evaluates N M (fun l z k j => (disk_radial N z l (theta N k) * azimuth z (phi M j))%R)
    (disk_synthesis FT real_const false (plan_disk_synthesis N M) Y N M).
Proof. exact @T_C39_disk. Qed.
Print Assumptions C39_disk.

Theorem C39_annulus :
  forall FT : fftw R, fftw_ok FT ->
  forall (N M : Z) (rho : R) (Y : list R), 0 < N -> 0 < M -> Z.odd M = true -> (0 <= rho < 1)%R -> zlen Y = 2 * (N * (M / 2 + 1)) ->
  let w := annulus_w sin cos PI N rho in
  evaluates N M (fun l z k j => (ann_radial rho N z l (theta N k) * azimuth z (phi M j))%R)
    (annulus_synthesis FT real_const false (plan_annulus_synthesis N M) w Y N M).
Proof. exact @T_C39_annulus. Qed.
Print Assumptions C39_annulus.

Theorem C39_rectdisk :
  forall FT : fftw R, fftw_ok FT -> forall N M : Z, 0 < N -> 0 < M ->
  evaluates N M (fun l z k j => (rectdisk_first N z l (theta N k) * cosine M z (theta M j))%R) (rectdisk_synthesis FT false (plan_rectdisk_synthesis N M) N M).
Proof. exact @T_C39_rectdisk. Qed.
Print Assumptions C39_rectdisk.

Theorem C39_triangle_square :
  forall FT : fftw R, fftw_ok FT -> forall N : Z, 0 < N ->
  evaluates N N (fun l z k j => (cosine N l (theta N k) * cosine N z (theta N j))%R) (tri_synthesis FT false true N N).
Proof. exact @T_C39_triangle_square. Qed.
Print Assumptions C39_triangle_square.

Theorem C39_tetrahedron_cube :
  forall FT : fftw R, fftw_ok FT -> forall N : Z, 0 < N ->
  evaluates3 N N N (fun l k => cosine N l (theta N k)) (fun l k => cosine N l (theta N k)) (fun l k => cosine N l (theta N k)) (tet_synthesis FT false true N N N).
Proof. exact @T_C39_tetrahedron_cube. Qed.
Print Assumptions C39_tetrahedron_cube.

Theorem C39_triangle_rectangular_refuted :
  forall FT : fftw R, fftw_ok FT ->
  ~ evaluates 2 3 (fun l z k j => (cosine 2 l (theta 2 k) * cosine 3 z (theta 3 j))%R) (tri_synthesis FT false true 2 3) /\
  ~ evaluates 1 2 (fun l z k j => (cosine 1 l (theta 1 k) * cosine 2 z (theta 2 j))%R) (tri_synthesis FT false true 1 2).
Proof. exact @T_C39_triangle_rectangular_refuted. Qed.
Print Assumptions C39_triangle_rectangular_refuted.

Theorem C39_tetrahedron_rectangular_refuted :
  forall FT : fftw R, fftw_ok FT ->
  ~ evaluates3 2 2 3 (fun l k => cosine 2 l (theta 2 k)) (fun l k => cosine 2 l (theta 2 k)) (fun l k => cosine 3 l (theta 3 k)) (tet_synthesis FT false true 2 2 3).
Proof. exact @T_C39_tetrahedron_rectangular_refuted. Qed.
Print Assumptions C39_tetrahedron_rectangular_refuted.

Theorem C39_spin :
  forall FT : fftw R, fftw_ok FT ->
  forall (N M S : Z) (Y : list R), 0 < N -> 0 < M -> Z.odd M = true -> zlen Y = 2 * (N * M) ->
  cevaluates N M (fun l z k j => (spin_polar S N z l (theta N k) * cos (IZR (order z) * phi M j) / sqrt (2 * PI))%R)
    (fun l z k j => (spin_polar S N z l (theta N k) * sin (IZR (order z) * phi M j) / sqrt (2 * PI))%R)
    (spinsph_synthesis FT real_const false (plan_spinsph_synthesis N M S) S Y N M).
Proof. exact @T_C39_spin. Qed.
Print Assumptions C39_spin.

(** ** C51.  With TRANS and the plan of the opposite direction, synthesis and analysis are the adjoints (transposes; conjugate transposes for complex data) of the plain ones. *)
Theorem C51_sphere :
  forall FT : fftw R, fftw_ok FT ->
  forall (N M : Z) (Y : list R), 0 < N -> 0 < M -> Z.odd M = true -> zlen Y = 2 * (N * (M / 2 + 1)) ->
  adjoint (N * M) (sph_synthesis FT real_const false (plan_sph_synthesis N M) Y N M)
      (sph_synthesis FT real_const true (plan_sph_analysis N M) Y N M) /\
  adjoint (N * M) (sph_analysis FT real_const false (plan_sph_analysis N M) Y N M)
      (sph_analysis FT real_const true (plan_sph_synthesis N M) Y N M).
Proof. exact @T_C51_sphere. Qed.
Print Assumptions C51_sphere.

Theorem C51_vector_sphere :
  forall FT : fftw R, fftw_ok FT ->
  forall (N M : Z) (Y : list R), 0 < N -> 0 < M -> Z.odd M = true -> zlen Y = 2 * (N * (M / 2 + 1)) ->
  adjoint (N * M) (sphv_synthesis FT real_const false (plan_sphv_synthesis N M) Y N M)
      (sphv_synthesis FT real_const true (plan_sphv_analysis N M) Y N M) /\
  adjoint (N * M) (sphv_analysis FT real_const false (plan_sphv_analysis N M) Y N M)
      (sphv_analysis FT real_const true (plan_sphv_synthesis N M) Y N M).
Proof. exact @T_C51_vector_sphere. Qed.
Print Assumptions C51_vector_sphere.

Theorem C51_disk :
  forall FT : fftw R, fftw_ok FT ->
  forall (N M : Z) (Y : list R), 0 < N -> 0 < M -> Z.odd M = true -> zlen Y = 2 * (N * (M / 2 + 1)) ->
  adjoint (N * M) (disk_synthesis FT real_const false (plan_disk_synthesis N M) Y N M)
      (disk_synthesis FT real_const true (plan_disk_analysis N M) Y N M) /\
  adjoint (N * M) (disk_analysis FT real_const false (plan_disk_analysis N M) Y N M)
      (disk_analysis FT real_const true (plan_disk_synthesis N M) Y N M).
Proof. exact @T_C51_disk. Qed.
Print Assumptions C51_disk.

Theorem C51_annulus :
  forall FT : fftw R, fftw_ok FT ->
  forall (N M : Z) (rho : R) (Y : list R), 0 < N -> 0 < M -> Z.odd M = true -> (0 <= rho < 1)%R -> zlen Y = 2 * (N * (M / 2 + 1)) ->
  let w := annulus_w sin cos PI N rho in
  adjoint (N * M) (annulus_synthesis FT real_const false (plan_annulus_synthesis N M) w Y N M)
      (annulus_synthesis FT real_const true (plan_annulus_analysis N M) w Y N M) /\
  adjoint (N * M) (annulus_analysis FT real_const false (plan_annulus_analysis N M) w Y N M)
      (annulus_analysis FT real_const true (plan_annulus_synthesis N M) w Y N M).
Proof. exact @T_C51_annulus. Qed.
Print Assumptions C51_annulus.

Theorem C51_rectdisk :
  forall FT : fftw R, fftw_ok FT -> forall N M : Z, 0 < N -> 0 < M ->
  adjoint (N * M) (rectdisk_synthesis FT false (plan_rectdisk_synthesis N M) N M) (rectdisk_synthesis FT true (plan_rectdisk_analysis N M) N M) /\
  adjoint (N * M) (rectdisk_analysis FT false (plan_rectdisk_analysis N M) N M) (rectdisk_analysis FT true (plan_rectdisk_synthesis N M) N M).
Proof. exact @T_C51_rectdisk. Qed.
Print Assumptions C51_rectdisk.

Theorem C51_triangle_square :
  forall FT : fftw R, fftw_ok FT -> forall N : Z, 0 < N ->
  adjoint (N * N) (tri_synthesis FT false true N N) (tri_synthesis FT true false N N) /\
  adjoint (N * N) (tri_analysis FT false false N N) (tri_analysis FT true true N N).
Proof. exact @T_C51_triangle_square. Qed.
Print Assumptions C51_triangle_square.

Theorem C51_triangle_rectangular_refuted :
  forall FT : fftw R, fftw_ok FT -> ~ adjoint 6 (tri_synthesis FT false true 2 3) (tri_synthesis FT true false 2 3).
Proof. exact @T_C51_triangle_rectangular_refuted. Qed.
Print Assumptions C51_triangle_rectangular_refuted.

Theorem C51_tetrahedron_cube :
  forall FT : fftw R, fftw_ok FT -> forall N : Z, 0 < N ->
  adjoint (N * N * N) (tet_synthesis FT false true N N N) (tet_synthesis FT true false N N N) /\
  adjoint (N * N * N) (tet_analysis FT false false N N N) (tet_analysis FT true true N N N).
Proof. exact @T_C51_tetrahedron_cube. Qed.
Print Assumptions C51_tetrahedron_cube.

Theorem C51_spin :
  forall FT : fftw R, fftw_ok FT ->
  forall (N M S : Z) (Y : list R), 0 < N -> 0 < M -> Z.odd M = true -> zlen Y = 2 * (N * M) ->
  adjoint (2 * N * M) (spinsph_synthesis FT real_const false (plan_spinsph_synthesis N M S) S Y N M)
      (spinsph_synthesis FT real_const true (plan_spinsph_analysis N M S) S Y N M) /\
  adjoint (2 * N * M) (spinsph_analysis FT real_const false (plan_spinsph_analysis N M S) S Y N M)
      (spinsph_analysis FT real_const true (plan_spinsph_synthesis N M S) S Y N M).
Proof. exact @T_C51_spin. Qed.
Print Assumptions C51_spin.

(** The hypotheses are met: the reference FFTW, 3 by 5 arrays, a scratch array of the size the plan allocates. *)
Example C38_hypotheses_met : fftw_ok ref_fftw /\ 0 < 3 /\ 0 < 5 /\ Z.odd 5 = true /\ zlen (zmake 18 7%R) = 2 * (3 * (5 / 2 + 1)) /\ zlen (zmake 30 7%R) = 2 * (3 * 5) /\ (0 <= / 2 < 1)%R.
Proof. split; [exact ref_ok|]. repeat split; try reflexivity; lra. Qed.
(** A case worked out: one row, three columns; the value at phi = 0. *)
Example C39_case : forall (x y z : R) (Y : list R), zlen Y = 4 ->
  exists X', sph_synthesis ref_fftw real_const false (plan_sph_synthesis 1 3) Y 1 3 [x; y; z] = Some X' /\ nthZ 0%R X' 0 = (x / sqrt (2 * PI) + z / (2 * sqrt PI))%R.
Proof. exact T_case. Qed.
