(** * C06-C10: Givens-rotation plans and kernels

    Statements only; proofs are in PRot*.v.  The vocabulary ([columns_fit], [unit_tri],
    [mutually_inverse_on], ...) is in SpecRot.v. *)
From Coq Require Import ZArith List Lia Bool Reals.
From Verif Require Import Base Arith MRotations SpecRot PRotThms.
Import ListNotations.
Open Scope Z_scope.

(** ** C06.  Every planner succeeds without touching memory outside its tables, and every
    stored pair is a rotation: [s^2 + c^2 = 1]. *)
Theorem C06_planned_pairs_are_rotations :
  forall (n : Z) (junk alpha beta gamma : R) (s : Z),
    0 <= n -> (-1 < alpha)%R -> (-1 < beta)%R -> (-1 < gamma)%R ->
    (exists RP, plan_rotsphere junk n = Some RP /\ rp_n RP = n /\ tri_tables RP /\ unit_tri RP) /\
    (exists RP, plan_rottriangle junk n alpha beta gamma = Some RP /\ rp_n RP = n /\ tri_tables RP /\ unit_tri RP) /\
    (exists RP, plan_rotdisk junk n alpha beta = Some RP /\ rp_n RP = n /\ sq_tables RP /\ unit_sq RP) /\
    (exists RP, plan_rotrectdisk junk n beta = Some RP /\ rp_n RP = n /\ tri_tables RP /\ unit_tri RP) /\
    (exists P, @plan_rotspinsphere R _ n s = Some P /\ sp_n P = n /\ sp_s P = s /\ spin_tables P /\ unit_spin P).
Proof. exact C06_planned_proof. Qed.
Print Assumptions C06_planned_pairs_are_rotations.

(** with integer square roots of scaled fractions the table layout can be computed *)
Example C06_example :
  option_map (fun P => length (rp_s P)) (@plan_rotsphere Z Z_arith 7 4) = Some 10%nat /\
  option_map (fun P => length (rp_s P)) (@plan_rotdisk Z Z_arith 7 4 0 0) = Some 16%nat.
Proof. vm_compute. auto. Qed.

(** ** C07.  Packed indices are inside the tables and never collide.  [sidx]: sphere,
    triangle, rectangularised disk; [sdidx]: disk, annulus; [s1idx], [s2idx]: spin. *)
Theorem C07_packed_indices :
  forall n a : Z,
  (forall l m, 0 <= m -> 0 <= l < n - m -> 0 <= sidx n l m < n * (n + 1) / 2) /\
  (forall l m l' m', 0 <= m -> 0 <= l < n - m -> 0 <= m' -> 0 <= l' < n - m' -> sidx n l m = sidx n l' m' -> l = l' /\ m = m') /\
  (forall l m, 0 <= m -> 0 <= l < n - (m + 1) / 2 -> 0 <= sdidx n l m < n * n) /\
  (forall l m l' m', 0 <= m -> 0 <= l < n - (m + 1) / 2 -> 0 <= m' -> 0 <= l' < n - (m' + 1) / 2 ->
     sdidx n l m = sdidx n l' m' -> l = l' /\ m = m') /\
  (forall l m, 0 <= m < n -> 0 <= l < n -> 0 <= s1idx n l m < n * n) /\
  (forall l m l' m', 0 <= l < n -> 0 <= l' < n -> s1idx n l m = s1idx n l' m' -> l = l' /\ m = m') /\
  (forall l j m, 0 <= m < n -> 0 <= j < a -> 0 <= l < n -> 0 <= s2idx n a l j m < a * n * n) /\
  (forall l j m l' j' m', 0 <= l < n -> 0 <= l' < n -> 0 <= j < a -> 0 <= j' < a ->
     s2idx n a l j m = s2idx n a l' j' m' -> l = l' /\ j = j' /\ m = m').
Proof. exact C07_proof. Qed.
Print Assumptions C07_packed_indices.

Example C07_example : sidx 5 4 0 = 4 /\ sidx 5 0 1 = 5 /\ sidx 5 0 4 = 14 /\ sdidx 5 0 8 = 24.
Proof. vm_compute. auto. Qed.

(** ** C08.  hi2lo then lo2hi, and lo2hi then hi2lo, return the column. *)
Theorem C08_sph_kernels_inverse :
  forall (RP : rotplan R) (oA S : Z), 1 <= S -> tri_tables RP -> unit_tri RP ->
  forall A m1 m2, 0 <= m1 <= m2 -> (m2 - m1) mod 2 = 0 -> columns_fit A oA S (rp_n RP) 1 ->
    mutually_inverse_on (fun A => kernel_sph_hi2lo givens RP m1 m2 A oA S)
                        (fun A => kernel_sph_lo2hi givens_t RP m1 m2 A oA S) A.
Proof. exact sph_inverse. Qed.
Print Assumptions C08_sph_kernels_inverse.
Theorem C08_tri_kernels_inverse :
  forall (RP : rotplan R) (oA S : Z), 1 <= S -> tri_tables RP -> unit_tri RP ->
  forall A m1 m2, 0 <= m1 <= m2 -> columns_fit A oA S (rp_n RP) 1 ->
    mutually_inverse_on (fun A => kernel_tri_hi2lo givens RP m1 m2 A oA S)
                        (fun A => kernel_tri_lo2hi givens_t RP m1 m2 A oA S) A.
Proof. exact tri_inverse. Qed.
Print Assumptions C08_tri_kernels_inverse.
Theorem C08_disk_kernels_inverse :
  forall (RP : rotplan R) (oA S : Z), 1 <= S -> sq_tables RP -> unit_sq RP ->
  forall A m1 m2, 0 <= m1 <= m2 -> (m2 - m1) mod 2 = 0 -> columns_fit A oA S (rp_n RP) 1 ->
    mutually_inverse_on (fun A => kernel_disk_hi2lo givens RP m1 m2 A oA S)
                        (fun A => kernel_disk_lo2hi givens_t RP m1 m2 A oA S) A.
Proof. exact disk_inverse. Qed.
Print Assumptions C08_disk_kernels_inverse.
Theorem C08_tet_kernels_inverse :
  forall (RP : rotplan R) (oA : Z), tri_tables RP -> unit_tri RP ->
  forall A L m, 0 <= L <= rp_n RP -> 0 <= m -> columns_fit A oA (rp_n RP) L (rp_n RP) ->
    mutually_inverse_on (fun A => kernel_tet_hi2lo givens RP L m A oA)
                        (fun A => kernel_tet_lo2hi givens_t RP L m A oA) A.
Proof. exact tet_inverse. Qed.
Print Assumptions C08_tet_kernels_inverse.
(** one complex column: two adjacent lanes with stride [2*S] *)
Theorem C08_spinsph_kernels_inverse :
  forall (P : spinplan R) A oA S m, spin_tables P -> unit_spin P -> 1 <= S ->
    columns_fit A oA (2 * S) (sp_n P) 2 ->
    mutually_inverse_on (fun A => kernel_spinsph_hi2lo givens givens_t apply_rotc P m A oA S)
                        (fun A => kernel_spinsph_lo2hi givens givens_t apply_rotc P m A oA S) A.
Proof. exact spin_inverse. Qed.
Print Assumptions C08_spinsph_kernels_inverse.

(** the hypotheses hold for what the planners return and a real column *)
Example C08_example : exists RP, plan_rotsphere 7%R 5 = Some RP /\ tri_tables RP /\ unit_tri RP /\
  columns_fit [1;2;3;4;5]%R 0 1 (rp_n RP) 1 /\ (5 - 1) mod 2 = 0.
Proof.
  destruct (C06_planned_proof 5 7%R 0%R 0%R 0%R 0) as ((RP & E & N & T & U) & _); try lia; try Lra.lra.
  exists RP. rewrite N. split; [auto|]. split; [auto|]. split; [auto|]. split; [|reflexivity].
  intros r i Hr Hi. cbn. lia.
Qed.

(** ** C09.  Norm of the column preserved; everything else bit-identical. *)
Theorem C09_sph_kernels_isometry :
  forall (RP : rotplan R) (oA S : Z), 1 <= S -> tri_tables RP -> unit_tri RP ->
  forall A m1 m2, 0 <= m1 -> columns_fit A oA S (rp_n RP) 1 ->
    isometry_on_columns (fun A => kernel_sph_hi2lo givens RP m1 m2 A oA S) A oA S (rp_n RP) 1 /\
    isometry_on_columns (fun A => kernel_sph_lo2hi givens_t RP m1 m2 A oA S) A oA S (rp_n RP) 1.
Proof. exact sph_norm. Qed.
Print Assumptions C09_sph_kernels_isometry.
Theorem C09_tri_kernels_isometry :
  forall (RP : rotplan R) (oA S : Z), 1 <= S -> tri_tables RP -> unit_tri RP ->
  forall A m1 m2, 0 <= m1 -> columns_fit A oA S (rp_n RP) 1 ->
    isometry_on_columns (fun A => kernel_tri_hi2lo givens RP m1 m2 A oA S) A oA S (rp_n RP) 1 /\
    isometry_on_columns (fun A => kernel_tri_lo2hi givens_t RP m1 m2 A oA S) A oA S (rp_n RP) 1.
Proof. exact tri_norm. Qed.
Print Assumptions C09_tri_kernels_isometry.
Theorem C09_disk_kernels_isometry :
  forall (RP : rotplan R) (oA S : Z), 1 <= S -> sq_tables RP -> unit_sq RP ->
  forall A m1 m2, 0 <= m1 -> columns_fit A oA S (rp_n RP) 1 ->
    isometry_on_columns (fun A => kernel_disk_hi2lo givens RP m1 m2 A oA S) A oA S (rp_n RP) 1 /\
    isometry_on_columns (fun A => kernel_disk_lo2hi givens_t RP m1 m2 A oA S) A oA S (rp_n RP) 1.
Proof. exact disk_norm. Qed.
Print Assumptions C09_disk_kernels_isometry.
Theorem C09_tet_kernels_isometry :
  forall (RP : rotplan R) (oA : Z), tri_tables RP -> unit_tri RP ->
  forall A L m, 0 <= L <= rp_n RP -> columns_fit A oA (rp_n RP) L (rp_n RP) ->
    isometry_on_columns (fun A => kernel_tet_hi2lo givens RP L m A oA) A oA (rp_n RP) L (rp_n RP) /\
    isometry_on_columns (fun A => kernel_tet_lo2hi givens_t RP L m A oA) A oA (rp_n RP) L (rp_n RP).
Proof. exact tet_norm. Qed.
Print Assumptions C09_tet_kernels_isometry.
Theorem C09_spinsph_kernels_isometry :
  forall (P : spinplan R) A oA S m, spin_tables P -> unit_spin P -> 1 <= S ->
    columns_fit A oA (2 * S) (sp_n P) 2 ->
    isometry_on_columns (fun A => kernel_spinsph_hi2lo givens givens_t apply_rotc P m A oA S) A oA (2 * S) (sp_n P) 2 /\
    isometry_on_columns (fun A => kernel_spinsph_lo2hi givens givens_t apply_rotc P m A oA S) A oA (2 * S) (sp_n P) 2.
Proof. exact spin_norm. Qed.
Print Assumptions C09_spinsph_kernels_isometry.

(** a column of a larger array meets the hypotheses *)
Example C09_example : exists RP, plan_rotdisk 7%R 3 0%R 0%R = Some RP /\ sq_tables RP /\ unit_sq RP /\
  columns_fit [1;2;3;4;5;6;7]%R 1 2 (rp_n RP) 1.
Proof.
  destruct (C06_planned_proof 3 7%R 0%R 0%R 0%R 0) as (_ & _ & (RP & E & N & T & U) & _); try lia; try Lra.lra.
  exists RP. rewrite N. split; [auto|]. split; [auto|]. split; [auto|].
  intros r i Hr Hi. replace (zlen _) with 7 by reflexivity. lia.
Qed.

(** ** C10.  The blocked vector kernels equal the default kernel in every lane, for every
    elementwise arithmetic [F], every elementary rotation [rot], every even vector width
    [VS] and every block length [L].  Lane [i] of a sphere/disk vector holds order
    [m2 + 2*(i/2)], lane [i] of a triangle vector holds order [m2 + i]. *)
Theorem C10_simd_sph_hi2lo :
  forall (F : Type) (HF : Arith F) (rot : F -> F -> F -> F -> F * F) (RP : rotplan F) (oA S : Z) (VS : nat) (L : Z),
    Z.of_nat VS <= S -> 0 < L ->
    forall A m1 m2, tri_tables RP -> (VS mod 2 = 0)%nat -> 0 <= m1 <= m2 -> columns_fit A oA S (rp_n RP) (Z.of_nat VS) ->
    same_result (fun A => KERNEL_SPH_HI2LO rot VS L RP m1 m2 A oA S)
      (for_up 0 (Z.of_nat VS) (fun i A => kernel_sph_hi2lo rot RP m1 (m2 + 2 * (i / 2)) A (oA + i) S)) A.
Proof. exact @simd_sph_hi2lo. Qed.
Print Assumptions C10_simd_sph_hi2lo.
Theorem C10_simd_sph_lo2hi :
  forall (F : Type) (HF : Arith F) (rot : F -> F -> F -> F -> F * F) (RP : rotplan F) (oA S : Z) (VS : nat) (L : Z),
    Z.of_nat VS <= S -> 0 < L ->
    forall A m1 m2, tri_tables RP -> (VS mod 2 = 0)%nat -> (0 < VS)%nat -> 0 <= m1 <= m2 -> (m2 - m1) mod 2 = 0 ->
    m2 <= rp_n RP + 2 * Z.of_nat VS - 4 -> columns_fit A oA S (rp_n RP) (Z.of_nat VS) ->
    same_result (fun A => KERNEL_SPH_LO2HI rot VS L RP m1 m2 A oA S)
      (for_up 0 (Z.of_nat VS) (fun i A => kernel_sph_lo2hi rot RP m1 (m2 + 2 * (i / 2)) A (oA + i) S)) A.
Proof. exact @simd_sph_lo2hi. Qed.
Print Assumptions C10_simd_sph_lo2hi.
Theorem C10_simd_tri_hi2lo :
  forall (F : Type) (HF : Arith F) (rot : F -> F -> F -> F -> F * F) (RP : rotplan F) (oA S : Z) (VS : nat) (L : Z),
    Z.of_nat VS <= S -> 0 < L ->
    forall A m1 m2, tri_tables RP -> 0 <= m1 <= m2 -> columns_fit A oA S (rp_n RP) (Z.of_nat VS) ->
    same_result (fun A => KERNEL_TRI_HI2LO rot VS L RP m1 m2 A oA S)
      (for_up 0 (Z.of_nat VS) (fun i A => kernel_tri_hi2lo rot RP m1 (m2 + i) A (oA + i) S)) A.
Proof. exact @simd_tri_hi2lo. Qed.
Print Assumptions C10_simd_tri_hi2lo.
Theorem C10_simd_tri_lo2hi :
  forall (F : Type) (HF : Arith F) (rot : F -> F -> F -> F -> F * F) (RP : rotplan F) (oA S : Z) (VS : nat) (L : Z),
    Z.of_nat VS <= S -> 0 < L ->
    forall A m1 m2, tri_tables RP -> (0 < VS)%nat -> 0 <= m1 <= m2 ->
    m2 <= rp_n RP + Z.of_nat VS - 2 -> columns_fit A oA S (rp_n RP) (Z.of_nat VS) ->
    same_result (fun A => KERNEL_TRI_LO2HI rot VS L RP m1 m2 A oA S)
      (for_up 0 (Z.of_nat VS) (fun i A => kernel_tri_lo2hi rot RP m1 (m2 + i) A (oA + i) S)) A.
Proof. exact @simd_tri_lo2hi. Qed.
Print Assumptions C10_simd_tri_lo2hi.
Theorem C10_simd_disk_hi2lo :
  forall (F : Type) (HF : Arith F) (rot : F -> F -> F -> F -> F * F) (RP : rotplan F) (oA S : Z) (VS : nat) (L : Z),
    Z.of_nat VS <= S -> 0 < L ->
    forall A m1 m2, sq_tables RP -> (VS mod 2 = 0)%nat -> 0 <= m1 <= m2 -> columns_fit A oA S (rp_n RP) (Z.of_nat VS) ->
    same_result (fun A => KERNEL_DISK_HI2LO rot VS L RP m1 m2 A oA S)
      (for_up 0 (Z.of_nat VS) (fun i A => kernel_disk_hi2lo rot RP m1 (m2 + 2 * (i / 2)) A (oA + i) S)) A.
Proof. exact @simd_disk_hi2lo. Qed.
Print Assumptions C10_simd_disk_hi2lo.
Theorem C10_simd_disk_lo2hi :
  forall (F : Type) (HF : Arith F) (rot : F -> F -> F -> F -> F * F) (RP : rotplan F) (oA S : Z) (VS : nat) (L : Z),
    Z.of_nat VS <= S -> 0 < L ->
    forall A m1 m2, sq_tables RP -> (VS mod 2 = 0)%nat -> (0 < VS)%nat -> 0 <= m1 <= m2 -> (m2 - m1) mod 2 = 0 ->
    m2 <= 2 * rp_n RP - 2 -> columns_fit A oA S (rp_n RP) (Z.of_nat VS) ->
    same_result (fun A => KERNEL_DISK_LO2HI rot VS L RP m1 m2 A oA S)
      (for_up 0 (Z.of_nat VS) (fun i A => kernel_disk_lo2hi rot RP m1 (m2 + 2 * (i / 2)) A (oA + i) S)) A.
Proof. exact @simd_disk_lo2hi. Qed.
Print Assumptions C10_simd_disk_lo2hi.
(** tetrahedron: every vectorisation equals the scalar loop on the same padded layout
    ([nb] is the padded column length), and on the unpadded layout that loop is the
    default kernel *)
Theorem C10_simd_tet :
  forall (F : Type) (HF : Arith F) (rot : F -> F -> F -> F -> F * F) (RP : rotplan F) (oA nb L : Z) A Vs m,
    In Vs [[2;1]; [4;2;1]; [8;4;2;1]]%nat -> tri_tables RP -> 0 <= L <= rp_n RP -> rp_n RP <= nb ->
    columns_fit A oA nb L (rp_n RP) ->
    same_result (fun A => kernel_tet_hi2lo_simd rot Vs nb RP L m A oA) (fun A => kernel_tet_hi2lo_simd rot [1%nat] nb RP L m A oA) A /\
    same_result (fun A => kernel_tet_lo2hi_simd rot Vs nb RP L m A oA) (fun A => kernel_tet_lo2hi_simd rot [1%nat] nb RP L m A oA) A.
Proof. exact @simd_tet. Qed.
Print Assumptions C10_simd_tet.
Theorem C10_tet_scalar_is_default :
  forall (F : Type) (HF : Arith F) (rot : F -> F -> F -> F -> F * F) (RP : rotplan F) (oA L : Z) A m,
    tri_tables RP -> 0 <= L <= rp_n RP -> columns_fit A oA (rp_n RP) L (rp_n RP) ->
    same_result (fun A => kernel_tet_hi2lo rot RP L m A oA) (fun A => kernel_tet_hi2lo_simd rot [1%nat] (rp_n RP) RP L m A oA) A /\
    same_result (fun A => kernel_tet_lo2hi rot RP L m A oA) (fun A => kernel_tet_lo2hi_simd rot [1%nat] (rp_n RP) RP L m A oA) A.
Proof. exact @tet_default. Qed.
Print Assumptions C10_tet_scalar_is_default.
(** spin: the SSE2 kernel (one complex number per vector) equals the default kernel *)
Theorem C10_simd_spinsph :
  forall (F : Type) (HF : Arith F) (rot rot_t : F -> F -> F -> F -> F * F) (P : spinplan F) A oA S m,
    spin_tables P -> 1 <= S -> columns_fit A oA (2 * S) (sp_n P) 2 ->
    same_result (fun A => kernel_spinsph_hi2lo rot rot_t (fun r => vapply_rot r 2) P m A oA S)
      (fun A => kernel_spinsph_hi2lo rot rot_t apply_rotc P m A oA S) A /\
    same_result (fun A => kernel_spinsph_lo2hi rot rot_t (fun r => vapply_rot r 2) P m A oA S)
      (fun A => kernel_spinsph_lo2hi rot rot_t apply_rotc P m A oA S) A.
Proof. exact @simd_spin. Qed.
Print Assumptions C10_simd_spinsph.

(** a computed instance in integer arithmetic: n = 12, AVX width 4, block length 2 *)
Definition exRP : rotplan Z := RotPlan 12 (ztab 78 (fun i => i mod 3 - 1)) (ztab 78 (fun i => i mod 2 + 1)).
Example C10_example :
  let A := ztab 48 (fun i => i) in
  tri_tables exRP /\
  @KERNEL_SPH_HI2LO Z (@givens Z Z_arith) 4 2 exRP 1 7 A 0 4 =
  for_up 0 4 (fun i A => @kernel_sph_hi2lo Z (@givens Z Z_arith) exRP 1 (7 + 2 * (i / 2)) A (0 + i) 4) A /\
  @KERNEL_SPH_HI2LO Z (@givens Z Z_arith) 4 2 exRP 1 7 A 0 4 <> None /\
  @KERNEL_SPH_HI2LO Z (@givens Z Z_arith) 4 2 exRP 1 7 A 0 4 <> Some A.
Proof. vm_compute. repeat split; try discriminate; congruence. Qed.
(** FINDING: the blocked lo2hi kernel is only safe for [m2 <= n + 2*VS - 4] *)
Theorem C10_simd_sph_lo2hi_beyond_range_refuted :
  exists (RP : rotplan Z) (A : list Z) m1 m2, tri_tables RP /\ 0 <= m1 <= m2 /\ (m2 - m1) mod 2 = 0 /\
    columns_fit A 0 2 (rp_n RP) 2 /\
    @KERNEL_SPH_LO2HI Z (@givens_t Z Z_arith) 2 3 RP m1 m2 A 0 2 = None.
Proof.
  exists (RotPlan 4 (zmake 10 1) (zmake 10 1)), (zmake 8 0), 0, 8.
  split; [repeat split; try reflexivity; cbn; lia|]. split; [lia|]. split; [reflexivity|].
  split; [|vm_compute; reflexivity]. intros r i Hr Hi. cbn [rp_n] in Hr. replace (zlen _) with 8 by reflexivity. lia.
Qed.
Print Assumptions C10_simd_sph_lo2hi_beyond_range_refuted.
