(** * C35, C36, C50: harmonic transforms (sph2fourier, tri2cheb, ... of src/drivers.c)

    Statements only; proofs are in PHarm*.v.  Vocabulary: SpecHarm.v ([blas_ok] is the BLAS
    contract, [inverse], [adjoint], [linear], [mode] for products along one dimension of an
    array, [utri] for the upper triangle of a table, [inverse_tables]), SpecRot.v and
    SpecBanded.v.  [blas_ok ref_blas] (MRefBlas.v) shows that the BLAS contract can be met. *)
From Coq Require Import ZArith List Lia Bool Reals Lra.
From Verif Require Import Base Arith MRotations SpecRot MDrivers MBanded SpecLin SpecBanded SpecSum MHarmonic SpecHarm MRefBlas PRefBlas PHarm4 PHarmEx.
Import ListNotations.
Open Scope Z_scope.

(** The BLAS contract is satisfiable. *)
Theorem C35_blas_contract_met : blas_ok ref_blas.
Proof. exact ref_blas_ok. Qed.
Print Assumptions C35_blas_contract_met.

(** ** C35.  With TRANS='N', after the coefficient conversion [hi] (whatever it returned), column
    [j] is multiplied by the triangular table of its parity class, rows by the other table, and
    the Chebyshev normalisation is applied; nothing else happens.  The disk has the text of the sphere. *)
Theorem C35_sph2fourier_columns :
  forall BL : blas R, blas_ok BL ->
  forall (hi lo : list R -> option (list R)) (P0 P1 : list R) (N M : Z) (A A1 : list R),
  0 < N -> 0 <= M -> zlen P0 = N * N -> zlen P1 = N * N -> hi A = Some A1 -> zlen A1 = N * M ->
  exists A', sph2fourier BL hi lo P0 P1 false N M A = Some A' /\
    mul_columns N M (fun j => utri N (if (j mod 4 =? 0) || (j mod 4 =? 3) then P0 else P1)) A1 A'.
Proof. exact @H35_sph. Qed.
Print Assumptions C35_sph2fourier_columns.
Theorem C35_sphv2fourier_columns :
  forall BL : blas R, blas_ok BL ->
  forall (hi lo : list R -> option (list R)) (P0 P1 : list R) (N M : Z) (A A1 : list R),
  0 < N -> 0 <= M -> zlen P0 = N * N -> zlen P1 = N * N -> hi A = Some A1 -> zlen A1 = N * M ->
  exists A', sphv2fourier BL hi lo P0 P1 false N M A = Some A' /\
    mul_columns N M (fun j => utri N (if (j mod 4 =? 0) || (j mod 4 =? 3) then P1 else P0)) A1 A'.
Proof. exact @H35_sphv. Qed.
Print Assumptions C35_sphv2fourier_columns.
Theorem C35_tri2cheb_rows_columns :
  forall BL : blas R, blas_ok BL ->
  forall (hi lo : list R -> option (list R)) (P0 P1 : list R) (c0 c1 : bool) (N M : Z) (A A1 : list R),
  0 < M <= N -> zlen P0 = N * N -> zlen P1 = N * N -> hi A = Some A1 -> zlen A1 = N * M ->
  exists A2 A3 A', tri2cheb BL hi lo (chebyshev_normalization_2d (/ sqrt 2)%R (2 / PI)%R N M) c0 c1 P0 P1 false N M A = Some A' /\
    (if c0 then mul_columns N M (fun _ => utri N P0) A1 A2 else A2 = A1) /\ (if c1 then mul_rows N M (utri N P1) A2 A3 else A3 = A2) /\ scaled2 N M A3 A'.
Proof. exact @H35_tri. Qed.
Print Assumptions C35_tri2cheb_rows_columns.
Theorem C35_rectdisk2cheb_rows_columns :
  forall BL : blas R, blas_ok BL ->
  forall (hi lo : list R -> option (list R)) (P0 P1 P2 : list R) (N M : Z) (A A1 : list R),
  0 < M <= N -> zlen P0 = N * N -> zlen P1 = N * N -> zlen P2 = N * N -> hi A = Some A1 -> zlen A1 = N * M ->
  exists A2 A', rectdisk2cheb BL hi lo P0 P1 P2 false N M A = Some A' /\
    mul_columns N M (fun j => utri N (if j mod 2 =? 0 then P0 else P1)) A1 A2 /\ mul_rows N M (utri N P2) A2 A'.
Proof. exact @H35_rectdisk. Qed.
Print Assumptions C35_rectdisk2cheb_rows_columns.
Theorem C35_ann2cxf_columns :
  forall BL : blas R, blas_ok BL ->
  forall (hi lo : list R -> option (list R)) (R0 R1 : tbanded R) (P0 : list R) (N M : Z) (A A1 : list R),
  0 < N -> 0 <= M -> tb_ok R0 -> tb_ok R1 -> tb_n R0 = N -> tb_n R1 = N ->
  nonzero_diag N (tb_mat R0) -> nonzero_diag N (tb_mat R1) -> zlen P0 = N * N -> hi A = Some A1 -> zlen A1 = N * M ->
  exists A2 A', ann2cxf BL hi lo R0 R1 P0 false N M A = Some A' /\
    mul_columns N M (fun j => tb_mat (if (j mod 4 =? 0) || (j mod 4 =? 3) then R0 else R1)) A2 A1 /\ mul_columns N M (fun _ => utri N P0) A2 A'.
Proof. exact @H35_ann. Qed.
Print Assumptions C35_ann2cxf_columns.
Theorem C35_tet2cheb_dimensions :
  forall BL : blas R, blas_ok BL ->
  forall (hi lo : list R -> option (list R)) (P0 P1 P2 : list R) (c0 c1 c2 : bool) (N L : Z) (A A1 : list R),
  0 < L <= N -> zlen P0 = N * N -> zlen P1 = N * N -> zlen P2 = N * N -> hi A = Some A1 -> zlen A1 = N * L * N ->
  exists A2 A3 A4 A', tet2cheb BL hi lo (chebyshev_normalization_3d (/ sqrt 2)%R (2 / PI * sqrt (2 / PI))%R N L N) c0 c1 c2 P0 P1 P2 false N L N A = Some A' /\
    (if c0 then mode 1 N (L * N) (fun _ => utri N P0) A1 A2 else A2 = A1) /\
    (if c1 then mode N L N (fun _ => utri N P1) A2 A3 else A3 = A2) /\
    (if c2 then mode (N * L) N 1 (fun _ => transp (utri N P2)) A3 A4 else A4 = A3) /\ scaled3 N L N A4 A'.
Proof. exact @H35_tet. Qed.
Print Assumptions C35_tet2cheb_dimensions.
Theorem C35_spinsph2fourier_columns :
  forall BL : blas R, blas_ok BL ->
  forall (hi lo : list R -> option (list R)) (s : Z) (P1 P2 : list R) (N M : Z) (A A1 : list R),
  0 < N -> 0 <= M -> zlen P1 = N * N -> zlen P2 = N * N -> hi A = Some A1 -> zlen A1 = 2 * N * M ->
  exists C1 C2 A', complexify N P1 = Some C1 /\ complexify N P2 = Some C2 /\ spinsph2fourier BL hi lo s C1 C2 false N M A = Some A' /\
    mode 2 N M (fun j => utri N (if xorb (Z.odd s) ((j mod 4 =? 0) || (j mod 4 =? 3)) then P1 else P2)) A1 A'.
Proof. exact @H35_spin. Qed.
Print Assumptions C35_spinsph2fourier_columns.
(** FINDING: in the third dimension 'N' applies the transpose of the table (the first two dimensions
    apply the table itself), so the intended statement is false ... *)
Theorem C35_tet_third_dimension_refuted :
  ~ (forall BL : blas R, blas_ok BL -> forall (hi lo : list R -> option (list R)) (P0 P1 P2 : list R) (N L : Z) (A A1 : list R),
     0 < L <= N -> zlen P0 = N * N -> zlen P1 = N * N -> zlen P2 = N * N -> hi A = Some A1 -> zlen A1 = N * L * N ->
     exists A4 A', tet2cheb BL hi lo (chebyshev_normalization_3d (/ sqrt 2)%R (2 / PI * sqrt (2 / PI))%R N L N) false false true P0 P1 P2 false N L N A = Some A' /\
       mode (N * L) N 1 (fun _ => utri N P2) A1 A4 /\ scaled3 N L N A4 A').
Proof. exact tet_third_refuted. Qed.
Print Assumptions C35_tet_third_dimension_refuted.
(** ... and the lines have length N, not M: with M < N entries past the end of the array are touched. *)
Theorem C35_tet_third_dimension_bounds_refuted :
  exists (P2 A : list Z) (N L M : Z), 0 < M < N /\ zlen P2 = N * N /\ zlen A = N * L * M /\
    @tet2cheb Z (@ref_blas Z Z_arith) (fun A => Some A) (fun A => Some A) (fun A => Some A) false false true [] [] P2 false N L M A = None.
Proof. exists [1;0;1;1], [1;2], 2, 1, 1. repeat split; vm_compute; reflexivity. Qed.
Print Assumptions C35_tet_third_dimension_bounds_refuted.

(** ** C36.  For every size, every plan made of rotations and every pair of inverse tables, the
    forward and the backward transform are inverse to each other on every array, for TRANS='N' and for 'T'. *)
Theorem C36_sph_inverse :
  forall BL : blas R, blas_ok BL ->
  forall (RP : rotplan R) (M : Z) (P0 P1 Q0 Q1 : list R) (trans : bool),
  let N := rp_n RP in
  0 < N -> 0 <= M -> M mod 2 = 1 -> tri_tables RP -> unit_tri RP -> inverse_tables N P0 Q0 -> inverse_tables N P1 Q1 ->
  let hi := execute_sph_default (kernel_sph_hi2lo givens RP) N M in let lo := execute_sph_default (kernel_sph_lo2hi givens_t RP) N M in
  inverse (N * M) (sph2fourier BL hi lo P0 P1 trans N M) (fourier2sph BL hi lo Q0 Q1 trans N M).
Proof. exact @H36_sph. Qed.
Print Assumptions C36_sph_inverse.
Theorem C36_sphv_inverse :
  forall BL : blas R, blas_ok BL ->
  forall (RP : rotplan R) (M : Z) (P0 P1 Q0 Q1 : list R) (trans : bool),
  let N := rp_n RP in
  0 < N -> 0 <= M -> M mod 2 = 1 -> tri_tables RP -> unit_tri RP -> inverse_tables N P0 Q0 -> inverse_tables N P1 Q1 ->
  let hi := execute_sphv_default (kernel_sph_hi2lo givens RP) N M in let lo := execute_sphv_default (kernel_sph_lo2hi givens_t RP) N M in
  inverse (N * M) (sphv2fourier BL hi lo P0 P1 trans N M) (fourier2sphv BL hi lo Q0 Q1 trans N M).
Proof. exact @H36_sphv. Qed.
Print Assumptions C36_sphv_inverse.
Theorem C36_disk_inverse :
  forall BL : blas R, blas_ok BL ->
  forall (RP : rotplan R) (M : Z) (P0 P1 Q0 Q1 : list R) (trans : bool),
  let N := rp_n RP in
  0 < N -> 0 <= M -> M mod 2 = 1 -> sq_tables RP -> unit_sq RP -> inverse_tables N P0 Q0 -> inverse_tables N P1 Q1 ->
  let hi := execute_sph_default (kernel_disk_hi2lo givens RP) N M in let lo := execute_sph_default (kernel_disk_lo2hi givens_t RP) N M in
  inverse (N * M) (sph2fourier BL hi lo P0 P1 trans N M) (fourier2sph BL hi lo Q0 Q1 trans N M).
Proof. exact @H36_disk. Qed.
Print Assumptions C36_disk_inverse.
Theorem C36_tri_inverse :
  forall BL : blas R, blas_ok BL ->
  forall (RP : rotplan R) (M : Z) (P0 P1 Q0 Q1 : list R) (c0 c1 trans : bool),
  let N := rp_n RP in
  0 < M <= N -> tri_tables RP -> unit_tri RP -> inverse_tables N P0 Q0 -> inverse_tables N P1 Q1 ->
  let hi := execute_tri_default (kernel_tri_hi2lo givens RP) N M in let lo := execute_tri_default (kernel_tri_lo2hi givens_t RP) N M in
  inverse (N * M) (tri2cheb BL hi lo (chebyshev_normalization_2d (/ sqrt 2)%R (2 / PI)%R N M) c0 c1 P0 P1 trans N M)
    (cheb2tri BL hi lo (chebyshev_normalization_2d (sqrt 2) (PI / 2)%R N M) c0 c1 Q0 Q1 trans N M).
Proof. exact @H36_tri. Qed.
Print Assumptions C36_tri_inverse.
Theorem C36_rectdisk_inverse :
  forall BL : blas R, blas_ok BL ->
  forall (RP : rotplan R) (M : Z) (P0 P1 P2 Q0 Q1 Q2 : list R) (trans : bool),
  let N := rp_n RP in
  0 < M <= N -> tri_tables RP -> unit_tri RP -> inverse_tables N P0 Q0 -> inverse_tables N P1 Q1 -> inverse_tables N P2 Q2 ->
  let hi := execute_rectdisk_default (kernel_sph_hi2lo givens RP) N M in let lo := execute_rectdisk_default (kernel_sph_lo2hi givens_t RP) N M in
  inverse (N * M) (rectdisk2cheb BL hi lo P0 P1 P2 trans N M) (cheb2rectdisk BL hi lo Q0 Q1 Q2 trans N M).
Proof. exact @H36_rectdisk. Qed.
Print Assumptions C36_rectdisk_inverse.
Theorem C36_ann_inverse :
  forall BL : blas R, blas_ok BL ->
  forall (RP : rotplan R) (M : Z) (R0 R1 : tbanded R) (P0 Q0 : list R) (trans : bool),
  let N := rp_n RP in
  0 < N -> 0 <= M -> M mod 2 = 1 -> sq_tables RP -> unit_sq RP ->
  tb_ok R0 -> tb_ok R1 -> tb_n R0 = N -> tb_n R1 = N -> nonzero_diag N (tb_mat R0) -> nonzero_diag N (tb_mat R1) -> inverse_tables N P0 Q0 ->
  let hi := execute_sph_default (kernel_disk_hi2lo givens RP) N M in let lo := execute_sph_default (kernel_disk_lo2hi givens_t RP) N M in
  inverse (N * M) (ann2cxf BL hi lo R0 R1 P0 trans N M) (cxf2ann BL hi lo R0 R1 Q0 trans N M).
Proof. exact @H36_ann. Qed.
Print Assumptions C36_ann_inverse.
Theorem C36_tet_inverse :
  forall BL : blas R, blas_ok BL ->
  forall (RP1 RP2 : rotplan R) (L : Z) (P0 P1 P2 Q0 Q1 Q2 : list R) (c0 c1 c2 trans : bool),
  let N := rp_n RP1 in
  rp_n RP2 = N -> 0 < L <= N -> tri_tables RP1 -> unit_tri RP1 -> tri_tables RP2 -> unit_tri RP2 ->
  inverse_tables N P0 Q0 -> inverse_tables N P1 Q1 -> inverse_tables N P2 Q2 ->
  let hi := execute_tet_hi2lo (kernel_tri_hi2lo givens RP1) (kernel_tet_hi2lo givens RP2) N L N in
  let lo := execute_tet_lo2hi (kernel_tri_lo2hi givens_t RP1) (kernel_tet_lo2hi givens_t RP2) N L N in
  inverse (N * L * N) (tet2cheb BL hi lo (chebyshev_normalization_3d (/ sqrt 2)%R (2 / PI * sqrt (2 / PI))%R N L N) c0 c1 c2 P0 P1 P2 trans N L N)
    (cheb2tet BL hi lo (chebyshev_normalization_3d (sqrt 2) (PI / 2 * sqrt (PI / 2))%R N L N) c0 c1 c2 Q0 Q1 Q2 trans N L N).
Proof. exact @H36_tet. Qed.
Print Assumptions C36_tet_inverse.
Theorem C36_spinsph_inverse :
  forall BL : blas R, blas_ok BL ->
  forall (P : spinplan R) (M : Z) (P1 P2 Q1 Q2 : list R) (trans : bool),
  let N := sp_n P in
  0 < N -> 0 <= M -> M mod 2 = 1 -> spin_tables P -> unit_spin P -> inverse_tables N P1 Q1 -> inverse_tables N P2 Q2 ->
  let hi := execute_spinsph_default (kernel_spinsph_hi2lo givens givens_t apply_rotc P) N M in
  let lo := execute_spinsph_default (kernel_spinsph_lo2hi givens givens_t apply_rotc P) N M in
  exists C1 C2 D1 D2, complexify N P1 = Some C1 /\ complexify N P2 = Some C2 /\ complexify N Q1 = Some D1 /\ complexify N Q2 = Some D2 /\
  inverse (2 * N * M) (spinsph2fourier BL hi lo (sp_s P) C1 C2 trans N M) (fourier2spinsph BL hi lo (sp_s P) D1 D2 trans N M).
Proof. exact @H36_spin. Qed.
Print Assumptions C36_spinsph_inverse.
(** ** C50.  Every harmonic transform is linear, and TRANS='T' is the adjoint of TRANS='N'
    for the Euclidean inner product of coefficient arrays: no inverse tables are needed. *)
Theorem C50_sph_transposed :
  forall BL : blas R, blas_ok BL ->
  forall (RP : rotplan R) (M : Z) (P0 P1 : list R),
  let N := rp_n RP in
  0 < N -> 0 <= M -> M mod 2 = 1 -> tri_tables RP -> unit_tri RP -> zlen P0 = N * N -> zlen P1 = N * N ->
  let hi := execute_sph_default (kernel_sph_hi2lo givens RP) N M in let lo := execute_sph_default (kernel_sph_lo2hi givens_t RP) N M in
  transposed (N * M) (fun trans => sph2fourier BL hi lo P0 P1 trans N M) /\ transposed (N * M) (fun trans => fourier2sph BL hi lo P0 P1 trans N M).
Proof. exact @H50_sph. Qed.
Print Assumptions C50_sph_transposed.
Theorem C50_sphv_transposed :
  forall BL : blas R, blas_ok BL ->
  forall (RP : rotplan R) (M : Z) (P0 P1 : list R),
  let N := rp_n RP in
  0 < N -> 0 <= M -> M mod 2 = 1 -> tri_tables RP -> unit_tri RP -> zlen P0 = N * N -> zlen P1 = N * N ->
  let hi := execute_sphv_default (kernel_sph_hi2lo givens RP) N M in let lo := execute_sphv_default (kernel_sph_lo2hi givens_t RP) N M in
  transposed (N * M) (fun trans => sphv2fourier BL hi lo P0 P1 trans N M) /\ transposed (N * M) (fun trans => fourier2sphv BL hi lo P0 P1 trans N M).
Proof. exact @H50_sphv. Qed.
Print Assumptions C50_sphv_transposed.
Theorem C50_disk_transposed :
  forall BL : blas R, blas_ok BL ->
  forall (RP : rotplan R) (M : Z) (P0 P1 : list R),
  let N := rp_n RP in
  0 < N -> 0 <= M -> M mod 2 = 1 -> sq_tables RP -> unit_sq RP -> zlen P0 = N * N -> zlen P1 = N * N ->
  let hi := execute_sph_default (kernel_disk_hi2lo givens RP) N M in let lo := execute_sph_default (kernel_disk_lo2hi givens_t RP) N M in
  transposed (N * M) (fun trans => sph2fourier BL hi lo P0 P1 trans N M) /\ transposed (N * M) (fun trans => fourier2sph BL hi lo P0 P1 trans N M).
Proof. exact @H50_disk. Qed.
Print Assumptions C50_disk_transposed.
Theorem C50_tri_transposed :
  forall BL : blas R, blas_ok BL ->
  forall (RP : rotplan R) (M : Z) (P0 P1 : list R) (c0 c1 : bool),
  let N := rp_n RP in
  0 < M <= N -> tri_tables RP -> unit_tri RP -> zlen P0 = N * N -> zlen P1 = N * N ->
  let hi := execute_tri_default (kernel_tri_hi2lo givens RP) N M in let lo := execute_tri_default (kernel_tri_lo2hi givens_t RP) N M in
  transposed (N * M) (fun trans => tri2cheb BL hi lo (chebyshev_normalization_2d (/ sqrt 2)%R (2 / PI)%R N M) c0 c1 P0 P1 trans N M) /\
  transposed (N * M) (fun trans => cheb2tri BL hi lo (chebyshev_normalization_2d (sqrt 2) (PI / 2)%R N M) c0 c1 P0 P1 trans N M).
Proof. exact @H50_tri. Qed.
Print Assumptions C50_tri_transposed.
Theorem C50_rectdisk_transposed :
  forall BL : blas R, blas_ok BL ->
  forall (RP : rotplan R) (M : Z) (P0 P1 P2 : list R),
  let N := rp_n RP in
  0 < M <= N -> tri_tables RP -> unit_tri RP -> zlen P0 = N * N -> zlen P1 = N * N -> zlen P2 = N * N ->
  let hi := execute_rectdisk_default (kernel_sph_hi2lo givens RP) N M in let lo := execute_rectdisk_default (kernel_sph_lo2hi givens_t RP) N M in
  transposed (N * M) (fun trans => rectdisk2cheb BL hi lo P0 P1 P2 trans N M) /\ transposed (N * M) (fun trans => cheb2rectdisk BL hi lo P0 P1 P2 trans N M).
Proof. exact @H50_rectdisk. Qed.
Print Assumptions C50_rectdisk_transposed.
Theorem C50_ann_transposed :
  forall BL : blas R, blas_ok BL ->
  forall (RP : rotplan R) (M : Z) (R0 R1 : tbanded R) (P0 : list R),
  let N := rp_n RP in
  0 < N -> 0 <= M -> M mod 2 = 1 -> sq_tables RP -> unit_sq RP ->
  tb_ok R0 -> tb_ok R1 -> tb_n R0 = N -> tb_n R1 = N -> nonzero_diag N (tb_mat R0) -> nonzero_diag N (tb_mat R1) -> zlen P0 = N * N ->
  let hi := execute_sph_default (kernel_disk_hi2lo givens RP) N M in let lo := execute_sph_default (kernel_disk_lo2hi givens_t RP) N M in
  transposed (N * M) (fun trans => ann2cxf BL hi lo R0 R1 P0 trans N M) /\ transposed (N * M) (fun trans => cxf2ann BL hi lo R0 R1 P0 trans N M).
Proof. exact @H50_ann. Qed.
Print Assumptions C50_ann_transposed.
Theorem C50_tet_transposed :
  forall BL : blas R, blas_ok BL ->
  forall (RP1 RP2 : rotplan R) (L : Z) (P0 P1 P2 : list R) (c0 c1 c2 : bool),
  let N := rp_n RP1 in
  rp_n RP2 = N -> 0 < L <= N -> tri_tables RP1 -> unit_tri RP1 -> tri_tables RP2 -> unit_tri RP2 ->
  zlen P0 = N * N -> zlen P1 = N * N -> zlen P2 = N * N ->
  let hi := execute_tet_hi2lo (kernel_tri_hi2lo givens RP1) (kernel_tet_hi2lo givens RP2) N L N in
  let lo := execute_tet_lo2hi (kernel_tri_lo2hi givens_t RP1) (kernel_tet_lo2hi givens_t RP2) N L N in
  transposed (N * L * N) (fun trans => tet2cheb BL hi lo (chebyshev_normalization_3d (/ sqrt 2)%R (2 / PI * sqrt (2 / PI))%R N L N) c0 c1 c2 P0 P1 P2 trans N L N) /\
  transposed (N * L * N) (fun trans => cheb2tet BL hi lo (chebyshev_normalization_3d (sqrt 2) (PI / 2 * sqrt (PI / 2))%R N L N) c0 c1 c2 P0 P1 P2 trans N L N).
Proof. exact @H50_tet. Qed.
Print Assumptions C50_tet_transposed.
Theorem C50_spinsph_transposed :
  forall BL : blas R, blas_ok BL ->
  forall (P : spinplan R) (M : Z) (P1 P2 : list R),
  let N := sp_n P in
  0 < N -> 0 <= M -> M mod 2 = 1 -> spin_tables P -> unit_spin P -> zlen P1 = N * N -> zlen P2 = N * N ->
  let hi := execute_spinsph_default (kernel_spinsph_hi2lo givens givens_t apply_rotc P) N M in
  let lo := execute_spinsph_default (kernel_spinsph_lo2hi givens givens_t apply_rotc P) N M in
  exists C1 C2, complexify N P1 = Some C1 /\ complexify N P2 = Some C2 /\
  transposed (2 * N * M) (fun trans => spinsph2fourier BL hi lo (sp_s P) C1 C2 trans N M) /\
  transposed (2 * N * M) (fun trans => fourier2spinsph BL hi lo (sp_s P) C1 C2 trans N M).
Proof. exact @H50_spin. Qed.
Print Assumptions C50_spinsph_transposed.

(** A concrete case: a plan of order 2 with the rotation (3/5, 4/5), tables that are inverse to each
    other, 2 by 3 arrays; and the transform it gives is not the identity. *)
Definition exRP : rotplan R := RotPlan 2 [3/5; 3/5; 3/5]%R [4/5; 4/5; 4/5]%R.
Definition exP : list R := [1; 0; 1; 2]%R.
Definition exQ : list R := [1; 0; -1/2; 1/2]%R.
Example C36_example : blas_ok ref_blas /\ 0 < rp_n exRP /\ 3 mod 2 = 1 /\ tri_tables exRP /\ unit_tri exRP /\ inverse_tables 2 exP exQ.
Proof. exact ex_hyps. Qed.
Example C36_example_not_identity : exists A', sph2fourier ref_blas (execute_sph_default (kernel_sph_hi2lo givens exRP) 2 3)
    (execute_sph_default (kernel_sph_lo2hi givens_t exRP) 2 3) exP exP false 2 3 [1;1;1;1;1;1]%R = Some A' /\ nthZ 0%R A' 0 = 2%R.
Proof. exact ex_value. Qed.
