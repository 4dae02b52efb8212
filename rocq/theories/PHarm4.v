(** Harmonic transforms: the statements for the drivers of the library *)
From Coq Require Import ZArith List Lia Bool Reals Lra ZifyBool ZifyNat.
From Verif Require Import Base Arith BaseFacts SpecSum PSum SpecLin SpecBanded MBanded PTri PTri2 MRotations MDrivers SpecRot SpecDrivers PDrivers PDrivers4 PCheb PDriversThms MHarmonic SpecHarm PHarm PHarm2 PHarm3.
Open Scope Z_scope.

(** ** linearity follows from having an adjoint *)
Definition unitv (n i : Z) : list R := ztab n (fun k => if k =? i then 1%R else 0%R).
Lemma dot_unit X i : 0 <= i < zlen X -> dot X (unitv (zlen X) i) = nthZ 0%R X i.
Proof.
  intros Hi. unfold dot. rewrite (sumZ_single _ i); auto.
  - unfold unitv. rewrite (nthZ_zget 0%R (ztab _ _) i 1%R). ring. rewrite zget_ztab by lia. now rewrite Z.eqb_refl.
  - intros k Hk Hn. unfold unitv. rewrite (nthZ_zget 0%R (ztab _ _) k 0%R). ring. rewrite zget_ztab by lia. now replace (k =? i) with false by lia.
Qed.
Lemma dot_axpy_l a X Y W : zlen X = zlen Y -> dot (axpy a X Y) W = (a * dot X W + dot Y W)%R.
Proof.
  intros E. unfold dot. rewrite zlen_axpy by auto. rewrite <- E, <- sumZ_scal, <- sumZ_plus. apply sumZ_ext. intros i Hi.
  rewrite nthZ_axpy by auto. ring.
Qed.
Lemma adjoint_linear len p q : 0 <= len -> adjoint len p q -> linear len p.
Proof.
  intros Hl H a X Y LX LY.
  destruct (H X X LX LX) as (X' & _ & E1 & _ & L1 & _). destruct (H Y Y LY LY) as (Y' & _ & E2 & _ & L2 & _).
  assert (LA : zlen (axpy a X Y) = len) by (rewrite zlen_axpy; lia).
  destruct (H _ X LA LX) as (W & _ & E3 & _ & L3 & _). exists X', Y'. repeat split; auto. rewrite E3. f_equal.
  assert (LA' : zlen (axpy a X' Y') = len) by (rewrite zlen_axpy; lia).
  apply (nthZ_ext 0%R); [lia|]. intros i Hi.
  rewrite <- (dot_unit W i), <- (dot_unit (axpy a X' Y') i) by lia. rewrite L3, LA'.
  assert (LU : zlen (unitv len i) = len) by (apply zlen_ztab; auto).
  destruct (H _ (unitv len i) LA LU) as (W1 & V & F1 & F2 & _ & _ & D1).
  destruct (H X (unitv len i) LX LU) as (X1 & V1 & F3 & F4 & _ & _ & D2).
  destruct (H Y (unitv len i) LY LU) as (Y1 & V2 & F5 & F6 & _ & _ & D3).
  assert (W1 = W) by congruence. assert (X1 = X') by congruence. assert (Y1 = Y') by congruence.
  assert (V1 = V) by congruence. assert (V2 = V) by congruence. subst.
  rewrite D1, !dot_axpy_l by lia. rewrite D2, D3. reflexivity.
Qed.

(** ** spin kernels are linear *)
Lemma lk_spin_hi P m oA S : linp (fun A => kernel_spinsph_hi2lo givens givens_t apply_rotc P m A oA S).
Proof.
  unfold kernel_spinsph_hi2lo. cbv zeta. apply (linp_seq (for_dn _ _ _) (for_dnst _ _ _ _)).
  - apply linp_dn; intros. apply linp_dn; intros. apply (linp_bind (tab2 _ _ _) (fun sc A => apply_rotc _ (fst sc) (snd sc) A _ _)).
    intros. destruct (0 <=? m * sp_s P); apply linp_apply_rotc; [apply lin_givens|apply lin_givens_t].
  - apply linp_dnst; intros. apply linp_dn; intros. apply (linp_bind (tab2 _ _ _) (fun sc A => apply_rotc _ (fst sc) (snd sc) A _ _)).
    intros. apply linp_apply_rotc. apply lin_givens.
Qed.
Lemma ld_spin (k : Z -> list R -> Z -> Z -> option (list R)) N M : (forall m oA S, linp (fun A => k m A oA S)) -> linp (execute_spinsph_default k N M).
Proof.
  intros H. unfold execute_spinsph_default. apply (linp_seq (fun A => k 0 A 0 1) (for_up _ _ _)); auto. apply linp_up. intros m.
  unfold spin_body. apply (linp_seq (fun A => k _ A _ _) (fun A => k _ A _ _)); auto.
Qed.

(** ** the drivers *)
Section Drv.
Variables (RP : rotplan R) (M : Z).
Let N := rp_n RP.
Hypothesis HM : 0 <= M.
Definition sph_hi := execute_sph_default (kernel_sph_hi2lo givens RP) N M.
Definition sph_lo := execute_sph_default (kernel_sph_lo2hi givens_t RP) N M.
Lemma sph_iso : tri_tables RP -> unit_tri RP -> M mod 2 = 1 -> iso_pair (N * M) sph_hi sph_lo.
Proof. intros T U Ho A LA. now apply C13_sph. Qed.
Lemma sph_inv : tri_tables RP -> unit_tri RP -> M mod 2 = 1 -> inverse (N * M) sph_hi sph_lo.
Proof. intros. apply iso_inverse. now apply sph_iso. Qed.
Lemma sph_adj : tri_tables RP -> unit_tri RP -> M mod 2 = 1 -> adjoint (N * M) sph_hi sph_lo.
Proof. intros. apply iso_adjoint. now apply sph_iso. apply ld_sph. intros. apply lk_sph_hi. apply lin_givens. Qed.
Definition sphv_hi := execute_sphv_default (kernel_sph_hi2lo givens RP) N M.
Definition sphv_lo := execute_sphv_default (kernel_sph_lo2hi givens_t RP) N M.
Lemma sphv_iso : tri_tables RP -> unit_tri RP -> M mod 2 = 1 -> iso_pair (N * M) sphv_hi sphv_lo.
Proof. intros T U Ho A LA. now apply C13_sphv. Qed.
Lemma sphv_inv : tri_tables RP -> unit_tri RP -> M mod 2 = 1 -> inverse (N * M) sphv_hi sphv_lo.
Proof. intros. apply iso_inverse. now apply sphv_iso. Qed.
Lemma sphv_adj : tri_tables RP -> unit_tri RP -> M mod 2 = 1 -> adjoint (N * M) sphv_hi sphv_lo.
Proof. intros. apply iso_adjoint. now apply sphv_iso. apply ld_sphv. intros. apply lk_sph_hi. apply lin_givens. Qed.
Definition disk_hi := execute_sph_default (kernel_disk_hi2lo givens RP) N M.
Definition disk_lo := execute_sph_default (kernel_disk_lo2hi givens_t RP) N M.
Lemma disk_iso : sq_tables RP -> unit_sq RP -> M mod 2 = 1 -> iso_pair (N * M) disk_hi disk_lo.
Proof. intros T U Ho A LA. now apply C13_disk. Qed.
Lemma disk_inv : sq_tables RP -> unit_sq RP -> M mod 2 = 1 -> inverse (N * M) disk_hi disk_lo.
Proof. intros. apply iso_inverse. now apply disk_iso. Qed.
Lemma disk_adj : sq_tables RP -> unit_sq RP -> M mod 2 = 1 -> adjoint (N * M) disk_hi disk_lo.
Proof. intros. apply iso_adjoint. now apply disk_iso. apply ld_sph. intros. apply lk_disk_hi. apply lin_givens. Qed.
Definition tri_hi := execute_tri_default (kernel_tri_hi2lo givens RP) N M.
Definition tri_lo := execute_tri_default (kernel_tri_lo2hi givens_t RP) N M.
Lemma tri_iso : tri_tables RP -> unit_tri RP -> iso_pair (N * M) tri_hi tri_lo.
Proof. intros T U A LA. now apply C13_tri. Qed.
Lemma tri_inv : tri_tables RP -> unit_tri RP -> inverse (N * M) tri_hi tri_lo.
Proof. intros. apply iso_inverse. now apply tri_iso. Qed.
Lemma tri_adj : tri_tables RP -> unit_tri RP -> adjoint (N * M) tri_hi tri_lo.
Proof. intros. apply iso_adjoint. now apply tri_iso. apply ld_tri. intros. apply lk_tri_hi. apply lin_givens. Qed.
Definition rect_hi := execute_rectdisk_default (kernel_sph_hi2lo givens RP) N M.
Definition rect_lo := execute_rectdisk_default (kernel_sph_lo2hi givens_t RP) N M.
Lemma rect_iso : tri_tables RP -> unit_tri RP -> iso_pair (N * M) rect_hi rect_lo.
Proof. intros T U A LA. now apply C13_rectdisk. Qed.
Lemma rect_inv : tri_tables RP -> unit_tri RP -> inverse (N * M) rect_hi rect_lo.
Proof. intros. apply iso_inverse. now apply rect_iso. Qed.
Lemma rect_adj : tri_tables RP -> unit_tri RP -> adjoint (N * M) rect_hi rect_lo.
Proof. intros. apply iso_adjoint. now apply rect_iso. apply ld_rectdisk. intros. apply lk_sph_hi. apply lin_givens. Qed.
End Drv.
Section Tet.
Variables (RP1 RP2 : rotplan R) (L M : Z).
Let N := rp_n RP1.
Definition tet_hi := execute_tet_hi2lo (kernel_tri_hi2lo givens RP1) (kernel_tet_hi2lo givens RP2) N L M.
Definition tet_lo := execute_tet_lo2hi (kernel_tri_lo2hi givens_t RP1) (kernel_tet_lo2hi givens_t RP2) N L M.
Hypotheses (T1 : tri_tables RP1) (U1 : unit_tri RP1) (T2 : tri_tables RP2) (U2 : unit_tri RP2) (EN : rp_n RP2 = N) (HL : 0 <= L <= N) (HM : 0 <= M).
Lemma tet_iso : iso_pair (N * L * M) tet_hi tet_lo.
Proof. intros A LA. now apply C13_tet. Qed.
Lemma tet_inv : inverse (N * L * M) tet_hi tet_lo.
Proof. apply iso_inverse. apply tet_iso. Qed.
Lemma tet_adj : adjoint (N * L * M) tet_hi tet_lo.
Proof. apply iso_adjoint. apply tet_iso. apply ld_tet_hi; intros. apply lk_tri_hi. apply lin_givens. apply lk_tet_hi. apply lin_givens. Qed.
End Tet.
Section Spin.
Variables (P : spinplan R) (M : Z).
Let N := sp_n P.
Definition spin_hi := execute_spinsph_default (kernel_spinsph_hi2lo givens givens_t apply_rotc P) N M.
Definition spin_lo := execute_spinsph_default (kernel_spinsph_lo2hi givens givens_t apply_rotc P) N M.
Hypotheses (T : spin_tables P) (U : unit_spin P) (HM : 0 <= M) (Ho : M mod 2 = 1).
Lemma spin_iso : iso_pair (2 * N * M) spin_hi spin_lo.
Proof. intros A LA. now apply C13_spin. Qed.
Lemma spin_inv : inverse (2 * N * M) spin_hi spin_lo.
Proof. apply iso_inverse. apply spin_iso. Qed.
Lemma spin_adj : adjoint (2 * N * M) spin_hi spin_lo.
Proof. apply iso_adjoint. apply spin_iso. apply ld_spin. intros. apply lk_spin_hi. Qed.
End Spin.

(** ** C36, C50: the statements *)
Section Stmts.
Variable BL : blas R.
Hypothesis OK : blas_ok BL.
Ltac tabs := repeat match goal with H : inverse_tables _ _ _ |- _ => destruct H as (? & ? & ?) end.
Lemma H36_sph (RP : rotplan R) M P0 P1 Q0 Q1 trans : let N := rp_n RP in
  0 < N -> 0 <= M -> M mod 2 = 1 -> tri_tables RP -> unit_tri RP -> inverse_tables N P0 Q0 -> inverse_tables N P1 Q1 ->
  let hi := execute_sph_default (kernel_sph_hi2lo givens RP) N M in let lo := execute_sph_default (kernel_sph_lo2hi givens_t RP) N M in
  inverse (N * M) (sph2fourier BL hi lo P0 P1 trans N M) (fourier2sph BL hi lo Q0 Q1 trans N M).
Proof. intros N HN HM Ho T U I0 I1 hi lo. tabs. apply sph_inverse_gen; auto. now apply sph_inv. Qed.
Lemma H36_sphv (RP : rotplan R) M P0 P1 Q0 Q1 trans : let N := rp_n RP in
  0 < N -> 0 <= M -> M mod 2 = 1 -> tri_tables RP -> unit_tri RP -> inverse_tables N P0 Q0 -> inverse_tables N P1 Q1 ->
  let hi := execute_sphv_default (kernel_sph_hi2lo givens RP) N M in let lo := execute_sphv_default (kernel_sph_lo2hi givens_t RP) N M in
  inverse (N * M) (sphv2fourier BL hi lo P0 P1 trans N M) (fourier2sphv BL hi lo Q0 Q1 trans N M).
Proof. intros N HN HM Ho T U I0 I1 hi lo. tabs. apply sphv_inverse_gen; auto. now apply sphv_inv. Qed.
Lemma H36_disk (RP : rotplan R) M P0 P1 Q0 Q1 trans : let N := rp_n RP in
  0 < N -> 0 <= M -> M mod 2 = 1 -> sq_tables RP -> unit_sq RP -> inverse_tables N P0 Q0 -> inverse_tables N P1 Q1 ->
  let hi := execute_sph_default (kernel_disk_hi2lo givens RP) N M in let lo := execute_sph_default (kernel_disk_lo2hi givens_t RP) N M in
  inverse (N * M) (sph2fourier BL hi lo P0 P1 trans N M) (fourier2sph BL hi lo Q0 Q1 trans N M).
Proof. intros N HN HM Ho T U I0 I1 hi lo. tabs. apply sph_inverse_gen; auto. now apply disk_inv. Qed.
Lemma H36_tri (RP : rotplan R) M P0 P1 Q0 Q1 c0 c1 trans : let N := rp_n RP in
  0 < M <= N -> tri_tables RP -> unit_tri RP -> inverse_tables N P0 Q0 -> inverse_tables N P1 Q1 ->
  let hi := execute_tri_default (kernel_tri_hi2lo givens RP) N M in let lo := execute_tri_default (kernel_tri_lo2hi givens_t RP) N M in
  inverse (N * M) (tri2cheb BL hi lo (chebyshev_normalization_2d (/ sqrt 2)%R (2 / PI)%R N M) c0 c1 P0 P1 trans N M)
    (cheb2tri BL hi lo (chebyshev_normalization_2d (sqrt 2) (PI / 2)%R N M) c0 c1 Q0 Q1 trans N M).
Proof.
  intros N HM T U I0 I1 hi lo. tabs. apply tri_inverse_gen; auto; try lia.
  - apply tri_inv; auto; lia.
  - apply norm2_inverse; lia.
Qed.
Lemma H36_rectdisk (RP : rotplan R) M P0 P1 P2 Q0 Q1 Q2 trans : let N := rp_n RP in
  0 < M <= N -> tri_tables RP -> unit_tri RP -> inverse_tables N P0 Q0 -> inverse_tables N P1 Q1 -> inverse_tables N P2 Q2 ->
  let hi := execute_rectdisk_default (kernel_sph_hi2lo givens RP) N M in let lo := execute_rectdisk_default (kernel_sph_lo2hi givens_t RP) N M in
  inverse (N * M) (rectdisk2cheb BL hi lo P0 P1 P2 trans N M) (cheb2rectdisk BL hi lo Q0 Q1 Q2 trans N M).
Proof. intros N HM T U I0 I1 I2 hi lo. tabs. apply rect_inverse_gen; auto; try lia. apply rect_inv; auto; lia. Qed.
Lemma H36_ann (RP : rotplan R) M (R0 R1 : tbanded R) P0 Q0 trans : let N := rp_n RP in
  0 < N -> 0 <= M -> M mod 2 = 1 -> sq_tables RP -> unit_sq RP ->
  tb_ok R0 -> tb_ok R1 -> tb_n R0 = N -> tb_n R1 = N -> nonzero_diag N (tb_mat R0) -> nonzero_diag N (tb_mat R1) -> inverse_tables N P0 Q0 ->
  let hi := execute_sph_default (kernel_disk_hi2lo givens RP) N M in let lo := execute_sph_default (kernel_disk_lo2hi givens_t RP) N M in
  inverse (N * M) (ann2cxf BL hi lo R0 R1 P0 trans N M) (cxf2ann BL hi lo R0 R1 Q0 trans N M).
Proof. intros N HN HM Ho T U B0 B1 N0 N1 D0 D1 I0 hi lo. tabs. apply ann_inverse_gen; auto. now apply disk_inv. Qed.
Lemma H36_tet (RP1 RP2 : rotplan R) L P0 P1 P2 Q0 Q1 Q2 c0 c1 c2 trans : let N := rp_n RP1 in
  rp_n RP2 = N -> 0 < L <= N -> tri_tables RP1 -> unit_tri RP1 -> tri_tables RP2 -> unit_tri RP2 ->
  inverse_tables N P0 Q0 -> inverse_tables N P1 Q1 -> inverse_tables N P2 Q2 ->
  let hi := execute_tet_hi2lo (kernel_tri_hi2lo givens RP1) (kernel_tet_hi2lo givens RP2) N L N in
  let lo := execute_tet_lo2hi (kernel_tri_lo2hi givens_t RP1) (kernel_tet_lo2hi givens_t RP2) N L N in
  inverse (N * L * N) (tet2cheb BL hi lo (chebyshev_normalization_3d (/ sqrt 2)%R (2 / PI * sqrt (2 / PI))%R N L N) c0 c1 c2 P0 P1 P2 trans N L N)
    (cheb2tet BL hi lo (chebyshev_normalization_3d (sqrt 2) (PI / 2 * sqrt (PI / 2))%R N L N) c0 c1 c2 Q0 Q1 Q2 trans N L N).
Proof.
  intros N EN HL T1 U1 T2 U2 I0 I1 I2 hi lo. tabs. apply tet_inverse_gen; auto; try lia.
  - apply tet_inv; auto; lia.
  - apply norm3_inverse; lia.
Qed.
Lemma H36_spin (P : spinplan R) M P1 P2 Q1 Q2 trans : let N := sp_n P in
  0 < N -> 0 <= M -> M mod 2 = 1 -> spin_tables P -> unit_spin P -> inverse_tables N P1 Q1 -> inverse_tables N P2 Q2 ->
  let hi := execute_spinsph_default (kernel_spinsph_hi2lo givens givens_t apply_rotc P) N M in
  let lo := execute_spinsph_default (kernel_spinsph_lo2hi givens givens_t apply_rotc P) N M in
  exists C1 C2 D1 D2, complexify N P1 = Some C1 /\ complexify N P2 = Some C2 /\ complexify N Q1 = Some D1 /\ complexify N Q2 = Some D2 /\
  inverse (2 * N * M) (spinsph2fourier BL hi lo (sp_s P) C1 C2 trans N M) (fourier2spinsph BL hi lo (sp_s P) D1 D2 trans N M).
Proof.
  intros N HN HM Ho T U I1 I2 hi lo. tabs.
  destruct (complexify_ok N P1) as (C1 & E1 & Z1 & V1); auto; try lia. destruct (complexify_ok N P2) as (C2 & E2 & Z2 & V2); auto; try lia.
  destruct (complexify_ok N Q1) as (D1 & E3 & Z3 & V3); auto; try lia. destruct (complexify_ok N Q2) as (D2 & E4 & Z4 & V4); auto; try lia.
  exists C1, C2, D1, D2. do 4 (split; [assumption|]). apply spin_inverse_gen; auto.
  - now apply spin_inv.
  - intros i j Hi Hj. unfold matmul.
    rewrite (sumZ_ext N (fun k => (creal N C1 i k * creal N D1 k j)%R) (fun k => (utri N P1 i k * utri N Q1 k j)%R)) by (intros; now rewrite V1, V3).
    rewrite (sumZ_ext N (fun k => (creal N D1 i k * creal N C1 k j)%R) (fun k => (utri N Q1 i k * utri N P1 k j)%R)) by (intros; now rewrite V1, V3).
    match goal with H : inverse_of N (utri N P1) _ |- _ => exact (H i j Hi Hj) end.
  - intros i j Hi Hj. unfold matmul.
    rewrite (sumZ_ext N (fun k => (creal N C2 i k * creal N D2 k j)%R) (fun k => (utri N P2 i k * utri N Q2 k j)%R)) by (intros; now rewrite V2, V4).
    rewrite (sumZ_ext N (fun k => (creal N D2 i k * creal N C2 k j)%R) (fun k => (utri N Q2 i k * utri N P2 k j)%R)) by (intros; now rewrite V2, V4).
    match goal with H : inverse_of N (utri N P2) _ |- _ => exact (H i j Hi Hj) end.
Qed.

(** C50 *)
Lemma transposed_of len p : 0 <= len -> adjoint len (p false) (p true) -> transposed len p.
Proof. intros Hl H. split; [auto|]. split; eapply adjoint_linear; [auto|exact H|auto|apply adjoint_sym; exact H]. Qed.
Lemma H50_sph (RP : rotplan R) M P0 P1 : let N := rp_n RP in
  0 < N -> 0 <= M -> M mod 2 = 1 -> tri_tables RP -> unit_tri RP -> zlen P0 = N * N -> zlen P1 = N * N ->
  let hi := execute_sph_default (kernel_sph_hi2lo givens RP) N M in let lo := execute_sph_default (kernel_sph_lo2hi givens_t RP) N M in
  transposed (N * M) (fun trans => sph2fourier BL hi lo P0 P1 trans N M) /\ transposed (N * M) (fun trans => fourier2sph BL hi lo P0 P1 trans N M).
Proof. intros N HN HM Ho T U I0 I1 hi lo. split; apply transposed_of; try nia; [apply sph_adjoint_gen|apply sph_inv_adjoint_gen]; auto; now apply sph_adj. Qed.
Lemma H50_sphv (RP : rotplan R) M P0 P1 : let N := rp_n RP in
  0 < N -> 0 <= M -> M mod 2 = 1 -> tri_tables RP -> unit_tri RP -> zlen P0 = N * N -> zlen P1 = N * N ->
  let hi := execute_sphv_default (kernel_sph_hi2lo givens RP) N M in let lo := execute_sphv_default (kernel_sph_lo2hi givens_t RP) N M in
  transposed (N * M) (fun trans => sphv2fourier BL hi lo P0 P1 trans N M) /\ transposed (N * M) (fun trans => fourier2sphv BL hi lo P0 P1 trans N M).
Proof. intros N HN HM Ho T U I0 I1 hi lo. split; apply transposed_of; try nia; [apply sphv_adjoint_gen|apply sphv_inv_adjoint_gen]; auto; now apply sphv_adj. Qed.
Lemma H50_disk (RP : rotplan R) M P0 P1 : let N := rp_n RP in
  0 < N -> 0 <= M -> M mod 2 = 1 -> sq_tables RP -> unit_sq RP -> zlen P0 = N * N -> zlen P1 = N * N ->
  let hi := execute_sph_default (kernel_disk_hi2lo givens RP) N M in let lo := execute_sph_default (kernel_disk_lo2hi givens_t RP) N M in
  transposed (N * M) (fun trans => sph2fourier BL hi lo P0 P1 trans N M) /\ transposed (N * M) (fun trans => fourier2sph BL hi lo P0 P1 trans N M).
Proof. intros N HN HM Ho T U I0 I1 hi lo. split; apply transposed_of; try nia; [apply sph_adjoint_gen|apply sph_inv_adjoint_gen]; auto; now apply disk_adj. Qed.
Lemma H50_tri (RP : rotplan R) M P0 P1 c0 c1 : let N := rp_n RP in
  0 < M <= N -> tri_tables RP -> unit_tri RP -> zlen P0 = N * N -> zlen P1 = N * N ->
  let hi := execute_tri_default (kernel_tri_hi2lo givens RP) N M in let lo := execute_tri_default (kernel_tri_lo2hi givens_t RP) N M in
  transposed (N * M) (fun trans => tri2cheb BL hi lo (chebyshev_normalization_2d (/ sqrt 2)%R (2 / PI)%R N M) c0 c1 P0 P1 trans N M) /\
  transposed (N * M) (fun trans => cheb2tri BL hi lo (chebyshev_normalization_2d (sqrt 2) (PI / 2)%R N M) c0 c1 P0 P1 trans N M).
Proof.
  intros N HM T U I0 I1 hi lo. assert (adjoint (N * M) hi lo) by (apply tri_adj; auto; lia).
  split; apply transposed_of; try nia; [apply tri_adjoint_gen|apply tri_inv_adjoint_gen]; auto; try lia; apply norm2_adjoint; lia.
Qed.
Lemma H50_rectdisk (RP : rotplan R) M P0 P1 P2 : let N := rp_n RP in
  0 < M <= N -> tri_tables RP -> unit_tri RP -> zlen P0 = N * N -> zlen P1 = N * N -> zlen P2 = N * N ->
  let hi := execute_rectdisk_default (kernel_sph_hi2lo givens RP) N M in let lo := execute_rectdisk_default (kernel_sph_lo2hi givens_t RP) N M in
  transposed (N * M) (fun trans => rectdisk2cheb BL hi lo P0 P1 P2 trans N M) /\ transposed (N * M) (fun trans => cheb2rectdisk BL hi lo P0 P1 P2 trans N M).
Proof.
  intros N HM T U I0 I1 I2 hi lo. assert (adjoint (N * M) hi lo) by (apply rect_adj; auto; lia).
  split; apply transposed_of; try nia; [apply rect_adjoint_gen|apply rect_inv_adjoint_gen]; auto; lia.
Qed.
Lemma H50_ann (RP : rotplan R) M (R0 R1 : tbanded R) P0 : let N := rp_n RP in
  0 < N -> 0 <= M -> M mod 2 = 1 -> sq_tables RP -> unit_sq RP ->
  tb_ok R0 -> tb_ok R1 -> tb_n R0 = N -> tb_n R1 = N -> nonzero_diag N (tb_mat R0) -> nonzero_diag N (tb_mat R1) -> zlen P0 = N * N ->
  let hi := execute_sph_default (kernel_disk_hi2lo givens RP) N M in let lo := execute_sph_default (kernel_disk_lo2hi givens_t RP) N M in
  transposed (N * M) (fun trans => ann2cxf BL hi lo R0 R1 P0 trans N M) /\ transposed (N * M) (fun trans => cxf2ann BL hi lo R0 R1 P0 trans N M).
Proof.
  intros N HN HM Ho T U B0 B1 N0 N1 D0 D1 I0 hi lo. assert (adjoint (N * M) hi lo) by (apply disk_adj; auto; lia).
  split; apply transposed_of; try nia; [apply ann_adjoint_gen|apply ann_inv_adjoint_gen]; auto.
Qed.
Lemma H50_tet (RP1 RP2 : rotplan R) L P0 P1 P2 c0 c1 c2 : let N := rp_n RP1 in
  rp_n RP2 = N -> 0 < L <= N -> tri_tables RP1 -> unit_tri RP1 -> tri_tables RP2 -> unit_tri RP2 ->
  zlen P0 = N * N -> zlen P1 = N * N -> zlen P2 = N * N ->
  let hi := execute_tet_hi2lo (kernel_tri_hi2lo givens RP1) (kernel_tet_hi2lo givens RP2) N L N in
  let lo := execute_tet_lo2hi (kernel_tri_lo2hi givens_t RP1) (kernel_tet_lo2hi givens_t RP2) N L N in
  transposed (N * L * N) (fun trans => tet2cheb BL hi lo (chebyshev_normalization_3d (/ sqrt 2)%R (2 / PI * sqrt (2 / PI))%R N L N) c0 c1 c2 P0 P1 P2 trans N L N) /\
  transposed (N * L * N) (fun trans => cheb2tet BL hi lo (chebyshev_normalization_3d (sqrt 2) (PI / 2 * sqrt (PI / 2))%R N L N) c0 c1 c2 P0 P1 P2 trans N L N).
Proof.
  intros N EN HL T1 U1 T2 U2 I0 I1 I2 hi lo. assert (adjoint (N * L * N) hi lo) by (apply tet_adj; auto; lia).
  split; apply transposed_of; try nia; [apply tet_adjoint_gen|apply tet_inv_adjoint_gen]; auto; try lia; apply norm3_adjoint; lia.
Qed.
Lemma H50_spin (P : spinplan R) M P1 P2 : let N := sp_n P in
  0 < N -> 0 <= M -> M mod 2 = 1 -> spin_tables P -> unit_spin P -> zlen P1 = N * N -> zlen P2 = N * N ->
  let hi := execute_spinsph_default (kernel_spinsph_hi2lo givens givens_t apply_rotc P) N M in
  let lo := execute_spinsph_default (kernel_spinsph_lo2hi givens givens_t apply_rotc P) N M in
  exists C1 C2, complexify N P1 = Some C1 /\ complexify N P2 = Some C2 /\
  transposed (2 * N * M) (fun trans => spinsph2fourier BL hi lo (sp_s P) C1 C2 trans N M) /\
  transposed (2 * N * M) (fun trans => fourier2spinsph BL hi lo (sp_s P) C1 C2 trans N M).
Proof.
  intros N HN HM Ho T U I1 I2 hi lo.
  destruct (complexify_ok N P1) as (C1 & E1 & Z1 & V1); auto; try lia. destruct (complexify_ok N P2) as (C2 & E2 & Z2 & V2); auto; try lia.
  exists C1, C2. split; auto. split; auto. assert (adjoint (2 * N * M) hi lo) by (apply spin_adj; auto).
  split; apply transposed_of; try nia; [apply spin_adjoint_gen|apply spin_inv_adjoint_gen]; auto.
Qed.

(** C35: which matrix acts on which dimension *)
Lemma H35_sph hi lo P0 P1 N M A A1 : 0 < N -> 0 <= M -> zlen P0 = N * N -> zlen P1 = N * N -> hi A = Some A1 -> zlen A1 = N * M ->
  exists A', sph2fourier BL hi lo P0 P1 false N M A = Some A' /\
    mul_columns N M (fun j => utri N (if (j mod 4 =? 0) || (j mod 4 =? 3) then P0 else P1)) A1 A'.
Proof.
  intros HN HM L0 L1 E LA. unfold sph2fourier. rewrite E. cbn [obind].
  assert (LA' : zlen A1 = 1 * N * M) by lia.
  destruct (quad_mode BL OK false P0 P1 P1 P0 N M HN HM L0 L1 L1 L0 A1 LA') as (A' & E' & H). exists A'. split; auto.
  destruct H as (H1 & H2 & H3). split; [auto|split; [auto|]]. intros x i z Hx Hi Hz. rewrite H3 by auto. apply sumZ_ext. intros k Hk. f_equal. cbv beta. cbn [op].
  unfold sel4. destruct (z mod 4 =? 0) eqn:E0, (z mod 4 =? 1) eqn:E1, (z mod 4 =? 2) eqn:E2, (z mod 4 =? 3) eqn:E3; cbn [orb]; auto; lia.
Qed.
Lemma H35_sphv hi lo P0 P1 N M A A1 : 0 < N -> 0 <= M -> zlen P0 = N * N -> zlen P1 = N * N -> hi A = Some A1 -> zlen A1 = N * M ->
  exists A', sphv2fourier BL hi lo P0 P1 false N M A = Some A' /\
    mul_columns N M (fun j => utri N (if (j mod 4 =? 0) || (j mod 4 =? 3) then P1 else P0)) A1 A'.
Proof. intros. exact (H35_sph hi lo P1 P0 N M A A1 H H0 H2 H1 H3 H4). Qed.
Lemma scaled2_ok N M A : 1 <= N -> 1 <= M -> zlen A = N * M -> exists A', chebyshev_normalization_2d (/ sqrt 2)%R (2 / PI)%R N M A = Some A' /\ scaled2 N M A A'.
Proof.
  intros HN HM LA. destruct (D34_value (/ sqrt 2)%R (2 / PI)%R N N M A) as (H & _). destruct (H HN HM LA) as (A' & E & L & V).
  exists A'. split; auto. split; [lia|]. intros i j Hi Hj. apply nthZ_zget.
  assert (Hp : 0 <= i + j * N < zlen A). { rewrite LA. pose proof (idx2 i j N M Hi Hj). lia. }
  rewrite (V i j (nthZ 0%R A (i + j * N))) by (auto; now apply zget_nthZ). f_equal. cbn. destruct (j =? 0), (i =? 0); ring.
Qed.
Lemma H35_tri hi lo P0 P1 c0 c1 N M A A1 : 0 < M <= N -> zlen P0 = N * N -> zlen P1 = N * N -> hi A = Some A1 -> zlen A1 = N * M ->
  exists A2 A3 A', tri2cheb BL hi lo (chebyshev_normalization_2d (/ sqrt 2)%R (2 / PI)%R N M) c0 c1 P0 P1 false N M A = Some A' /\
    (if c0 then mul_columns N M (fun _ => utri N P0) A1 A2 else A2 = A1) /\ (if c1 then mul_rows N M (utri N P1) A2 A3 else A3 = A2) /\ scaled2 N M A3 A'.
Proof.
  intros HM L0 L1 E LA. unfold tri2cheb. rewrite E. cbn [obind].
  assert (H1 : exists A2, guard c0 (fun A => dtrmm_left BL false N M P0 N A 0 N) A1 = Some A2 /\ zlen A2 = N * M /\ (if c0 then mul_columns N M (fun _ => utri N P0) A1 A2 else A2 = A1)).
  { unfold guard. destruct c0; [|exists A1; auto]. destruct (left_mode BL OK false P0 N M ltac:(lia) ltac:(lia) L0 A1 ltac:(lia)) as (A2 & E2 & H2).
    exists A2. split; auto. split; auto. destruct H2 as (_ & H2 & _). lia. }
  destruct H1 as (A2 & -> & LA2 & H2). cbn [obind].
  assert (H1 : exists A3, guard c1 (fun A => dtrmm_right BL true N M P1 N A 0 N) A2 = Some A3 /\ zlen A3 = N * M /\ (if c1 then mul_rows N M (utri N P1) A2 A3 else A3 = A2)).
  { unfold guard. destruct c1; [|exists A2; auto]. destruct (right_mode BL OK true P1 N M ltac:(lia) ltac:(lia) L1 A2 ltac:(lia)) as (A3 & E3 & H3).
    exists A3. split; auto. split; auto. destruct H3 as (_ & H3 & _). lia. }
  destruct H1 as (A3 & -> & LA3 & H3). cbn [obind].
  destruct (scaled2_ok N M A3) as (A' & E' & H4); auto; try lia. exists A2, A3, A'. auto.
Qed.
Lemma H35_rectdisk hi lo P0 P1 P2 N M A A1 : 0 < M <= N -> zlen P0 = N * N -> zlen P1 = N * N -> zlen P2 = N * N -> hi A = Some A1 -> zlen A1 = N * M ->
  exists A2 A', rectdisk2cheb BL hi lo P0 P1 P2 false N M A = Some A' /\
    mul_columns N M (fun j => utri N (if j mod 2 =? 0 then P0 else P1)) A1 A2 /\ mul_rows N M (utri N P2) A2 A'.
Proof.
  intros HM L0 L1 L2 E LA. rewrite rect_unfold. rewrite E. cbn [obind].
  destruct (pair_mode BL OK false P0 P1 N M ltac:(lia) ltac:(lia) L0 L1 A1 ltac:(lia)) as (A2 & E2 & H2).
  unfold pairop. rewrite E2. cbn [obind]. assert (LA2 : zlen A2 = N * M) by (destruct H2 as (_ & H2 & _); lia).
  destruct (right_mode BL OK true P2 N M ltac:(lia) ltac:(lia) L2 A2 ltac:(lia)) as (A3 & E3 & H3).
  exists A2, A3. split; auto.
Qed.
Lemma scaled3_ok N L M A : 1 <= N -> 1 <= L -> 1 <= M -> zlen A = N * L * M -> exists A', chebyshev_normalization_3d (/ sqrt 2)%R (2 / PI * sqrt (2 / PI))%R N L M A = Some A' /\ scaled3 N L M A A'.
Proof.
  intros HN HL HM LA. destruct (D34_value (/ sqrt 2)%R (2 / PI * sqrt (2 / PI))%R N L M A) as (_ & H). destruct (H HN HL HM LA) as (A' & E & LL & V).
  exists A'. split; auto. split; [lia|]. intros i j k Hi Hj Hk. apply nthZ_zget.
  assert (Hp : 0 <= i + (j + k * L) * N < zlen A). { rewrite LA. pose proof (idx2 j k L M Hj Hk) as H1. pose proof (idx2 i (j + k * L) N (M * L) Hi). nia. }
  rewrite (V i j k (nthZ 0%R A (i + (j + k * L) * N))) by (auto; now apply zget_nthZ). f_equal. cbn. destruct (k =? 0), (j =? 0), (i =? 0); ring.
Qed.
Lemma H35_tet hi lo P0 P1 P2 c0 c1 c2 N L A A1 : 0 < L <= N -> zlen P0 = N * N -> zlen P1 = N * N -> zlen P2 = N * N -> hi A = Some A1 -> zlen A1 = N * L * N ->
  exists A2 A3 A4 A', tet2cheb BL hi lo (chebyshev_normalization_3d (/ sqrt 2)%R (2 / PI * sqrt (2 / PI))%R N L N) c0 c1 c2 P0 P1 P2 false N L N A = Some A' /\
    (if c0 then mode 1 N (L * N) (fun _ => utri N P0) A1 A2 else A2 = A1) /\
    (if c1 then mode N L N (fun _ => utri N P1) A2 A3 else A3 = A2) /\
    (if c2 then mode (N * L) N 1 (fun _ => transp (utri N P2)) A3 A4 else A4 = A3) /\ scaled3 N L N A4 A'.
Proof.
  intros HL L0 L1 L2 E LA. unfold tet2cheb. rewrite E. cbn [obind].
  assert (H1 : exists A2, guard c0 (dim1 BL false P0 N L N) A1 = Some A2 /\ zlen A2 = N * L * N /\ (if c0 then mode 1 N (L * N) (fun _ => utri N P0) A1 A2 else A2 = A1)).
  { unfold guard. destruct c0; [|exists A1; auto]. destruct (dim1_mode BL OK false P0 N L N ltac:(lia) ltac:(lia) ltac:(lia) L0 A1 ltac:(lia)) as (A2 & E2 & H2).
    exists A2. split; auto. split; auto. destruct H2 as (_ & H2 & _). lia. }
  destruct H1 as (A2 & -> & LA2 & H2). cbn [obind].
  assert (H1 : exists A3, guard c1 (dim2 BL true P1 N L N) A2 = Some A3 /\ zlen A3 = N * L * N /\ (if c1 then mode N L N (fun _ => utri N P1) A2 A3 else A3 = A2)).
  { unfold guard. destruct c1; [|exists A2; auto]. destruct (dim2_mode BL OK true P1 N L N ltac:(lia) ltac:(lia) ltac:(lia) L1 A2 ltac:(lia)) as (A3 & E3 & H3).
    exists A3. split; auto. split; auto. destruct H3 as (_ & H3 & _). lia. }
  destruct H1 as (A3 & -> & LA3 & H3). cbn [obind].
  assert (H1 : exists A4, guard c2 (dim3 BL true P2 N L) A3 = Some A4 /\ zlen A4 = N * L * N /\ (if c2 then mode (N * L) N 1 (fun _ => transp (utri N P2)) A3 A4 else A4 = A3)).
  { unfold guard. destruct c2; [|exists A3; auto]. destruct (dim3_mode BL OK true P2 N L ltac:(lia) ltac:(lia) L2 A3 ltac:(lia)) as (A4 & E4 & H4).
    exists A4. split; auto. split; auto. destruct H4 as (_ & H4 & _). lia. }
  destruct H1 as (A4 & -> & LA4 & H4). cbn [obind].
  destruct (scaled3_ok N L N A4) as (A' & E' & H5); auto; try lia. exists A2, A3, A4, A'. auto.
Qed.
Lemma H35_ann hi lo (R0 R1 : tbanded R) P0 N M A A1 : 0 < N -> 0 <= M -> tb_ok R0 -> tb_ok R1 -> tb_n R0 = N -> tb_n R1 = N ->
  nonzero_diag N (tb_mat R0) -> nonzero_diag N (tb_mat R1) -> zlen P0 = N * N -> hi A = Some A1 -> zlen A1 = N * M ->
  exists A2 A', ann2cxf BL hi lo R0 R1 P0 false N M A = Some A' /\
    mul_columns N M (fun j => tb_mat (if (j mod 4 =? 0) || (j mod 4 =? 3) then R0 else R1)) A2 A1 /\ mul_columns N M (fun _ => utri N P0) A2 A'.
Proof.
  intros HN HM T0 T1 N0 N1 D0 D1 L0 E LA. unfold ann2cxf. rewrite E. cbn [obind].
  destruct (quadm_solve N M HN HM R0 R1 T0 T1 N0 N1 D0 D1 false A1 ltac:(lia)) as (A2 & E2 & H2).
  rewrite E2. cbn [obind]. pose proof H2 as (LA2 & _ & _).
  destruct (left_mode BL OK false P0 N M ltac:(lia) ltac:(lia) L0 A2 ltac:(lia)) as (A3 & E3 & H3).
  exists A2, A3. split; auto. split; auto.
  destruct H2 as (H1 & H2 & H4). split; [auto|split; [auto|]]. intros x i z Hx Hi Hz. rewrite H4 by auto. apply sumZ_ext. intros k Hk. f_equal.
  unfold RU, sel4. cbn [op]. destruct (z mod 4 =? 0) eqn:Z0, (z mod 4 =? 1) eqn:Z1, (z mod 4 =? 2) eqn:Z2, (z mod 4 =? 3) eqn:Z3; cbn [orb]; auto; lia.
Qed.
Lemma H35_spin hi lo s P1 P2 N M A A1 : 0 < N -> 0 <= M -> zlen P1 = N * N -> zlen P2 = N * N -> hi A = Some A1 -> zlen A1 = 2 * N * M ->
  exists C1 C2 A', complexify N P1 = Some C1 /\ complexify N P2 = Some C2 /\ spinsph2fourier BL hi lo s C1 C2 false N M A = Some A' /\
    mode 2 N M (fun j => utri N (if xorb (Z.odd s) ((j mod 4 =? 0) || (j mod 4 =? 3)) then P1 else P2)) A1 A'.
Proof.
  intros HN HM L1 L2 E LA. 
  destruct (complexify_ok N P1) as (C1 & E1 & Z1 & V1); auto; try lia. destruct (complexify_ok N P2) as (C2 & E2 & Z2 & V2); auto; try lia.
  unfold spinsph2fourier. rewrite E. cbn [obind].
  destruct (zquad_s_mode BL OK N M s HN HM false C1 C2 Z1 Z2 A1 LA) as (A' & E3 & H).
  exists C1, C2, A'. do 3 (split; [assumption|]). destruct H as (_ & H2 & H3). split; [auto|split; [auto|]]. intros x i z Hx Hi Hz. rewrite H3 by auto. apply sumZ_ext. intros k Hk. f_equal.
  unfold ZU. cbn [op]. replace (Z.odd s) with (negb (Z.rem s 2 =? 0)).
  - unfold sel4. destruct (Z.rem s 2 =? 0), (z mod 4 =? 0) eqn:Y0, (z mod 4 =? 1) eqn:Y1, (z mod 4 =? 2) eqn:Y2, (z mod 4 =? 3) eqn:Y3; cbn [orb negb xorb]; auto; lia.
  - pose proof (Zmod_odd s) as HO. destruct (Z.odd s), (Z.rem s 2 =? 0) eqn:E0; auto; exfalso; Z.to_euclidean_division_equations; lia.
Qed.
End Stmts.
