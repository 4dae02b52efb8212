(** * C11, C13, C34: drivers of the coefficient transforms

    Statements only; proofs are in PDrivers*.v and PCheb.v.  The vocabulary is in SpecRot.v
    ([tri_tables], [unit_tri], [mutually_inverse_on], ...) and SpecDrivers.v ([frobenius2],
    [same_coefficients], ...). *)
From Coq Require Import ZArith List Lia Bool Reals Lra.
From Verif Require Import Base Arith MPermute MRotations SpecRot MDrivers SpecDrivers PRotThms PDrivers4 PDriversThms.
Import ListNotations.
Open Scope Z_scope.

(** ** C11.  For every arithmetic (hence bit for bit in floating point), every vector width
    [2, 4, 8, ...], every block length [L] and every admissible column count, the vector
    driver leaves in [A] what the default driver leaves in [A]. *)
Theorem C11_sph_hi2lo_simd_is_default :
  forall (F : Type) (HF : Arith F) (rot : F -> F -> F -> F -> F * F) (RP : rotplan F) (e : nat) (L M : Z)
    (swp : list F -> Z -> Z -> Z -> option (list F)) (A B : list F),
  let N := rp_n RP in let S := 2 * 2 ^ Z.of_nat e in
  0 < L -> column_exchange swp -> 0 <= M -> zlen A = N * M -> zlen B = N * M ->
  tri_tables RP -> M mod 2 = 1 ->
  same_coefficients (execute_sph_simd (kernel_sph_hi2lo rot RP) (KERNEL_SPH_HI2LO rot (Z.to_nat S) L RP) swp S N M)
    (execute_sph_default (kernel_sph_hi2lo rot RP) N M) A B.
Proof. exact @D11_sph_hi2lo. Qed.
Print Assumptions C11_sph_hi2lo_simd_is_default.
Theorem C11_sph_lo2hi_simd_is_default :
  forall (F : Type) (HF : Arith F) (rot : F -> F -> F -> F -> F * F) (RP : rotplan F) (e : nat) (L M : Z)
    (swp : list F -> Z -> Z -> Z -> option (list F)) (A B : list F),
  let N := rp_n RP in let S := 2 * 2 ^ Z.of_nat e in
  0 < L -> column_exchange swp -> 0 <= M -> zlen A = N * M -> zlen B = N * M ->
  tri_tables RP -> M mod 2 = 1 -> M <= 2 * N + 1 ->
  same_coefficients (execute_sph_simd (kernel_sph_lo2hi rot RP) (KERNEL_SPH_LO2HI rot (Z.to_nat S) L RP) swp S N M)
    (execute_sph_default (kernel_sph_lo2hi rot RP) N M) A B.
Proof. exact @D11_sph_lo2hi. Qed.
Print Assumptions C11_sph_lo2hi_simd_is_default.
Theorem C11_sphv_hi2lo_simd_is_default :
  forall (F : Type) (HF : Arith F) (rot : F -> F -> F -> F -> F * F) (RP : rotplan F) (e : nat) (L M : Z)
    (swp : list F -> Z -> Z -> Z -> option (list F)) (A B : list F),
  let N := rp_n RP in let S := 2 * 2 ^ Z.of_nat e in
  0 < L -> column_exchange swp -> 3 <= M -> zlen A = N * M -> zlen B = N * M ->
  tri_tables RP -> M mod 2 = 1 ->
  same_coefficients (execute_sphv_simd (kernel_sph_hi2lo rot RP) (KERNEL_SPH_HI2LO rot (Z.to_nat S) L RP) swp S N M)
    (execute_sphv_default (kernel_sph_hi2lo rot RP) N M) A B.
Proof. exact @D11_sphv_hi2lo. Qed.
Print Assumptions C11_sphv_hi2lo_simd_is_default.
Theorem C11_sphv_lo2hi_simd_is_default :
  forall (F : Type) (HF : Arith F) (rot : F -> F -> F -> F -> F * F) (RP : rotplan F) (e : nat) (L M : Z)
    (swp : list F -> Z -> Z -> Z -> option (list F)) (A B : list F),
  let N := rp_n RP in let S := 2 * 2 ^ Z.of_nat e in
  0 < L -> column_exchange swp -> 3 <= M -> zlen A = N * M -> zlen B = N * M ->
  tri_tables RP -> M mod 2 = 1 -> M <= 2 * N + 3 ->
  same_coefficients (execute_sphv_simd (kernel_sph_lo2hi rot RP) (KERNEL_SPH_LO2HI rot (Z.to_nat S) L RP) swp S N M)
    (execute_sphv_default (kernel_sph_lo2hi rot RP) N M) A B.
Proof. exact @D11_sphv_lo2hi. Qed.
Print Assumptions C11_sphv_lo2hi_simd_is_default.
Theorem C11_disk_hi2lo_simd_is_default :
  forall (F : Type) (HF : Arith F) (rot : F -> F -> F -> F -> F * F) (RP : rotplan F) (e : nat) (L M : Z)
    (swp : list F -> Z -> Z -> Z -> option (list F)) (A B : list F),
  let N := rp_n RP in let S := 2 * 2 ^ Z.of_nat e in
  0 < L -> column_exchange swp -> 0 <= M -> zlen A = N * M -> zlen B = N * M ->
  sq_tables RP -> M mod 2 = 1 ->
  same_coefficients (execute_sph_simd (kernel_disk_hi2lo rot RP) (KERNEL_DISK_HI2LO rot (Z.to_nat S) L RP) swp S N M)
    (execute_sph_default (kernel_disk_hi2lo rot RP) N M) A B.
Proof. exact @D11_disk_hi2lo. Qed.
Print Assumptions C11_disk_hi2lo_simd_is_default.
Theorem C11_disk_lo2hi_simd_is_default :
  forall (F : Type) (HF : Arith F) (rot : F -> F -> F -> F -> F * F) (RP : rotplan F) (e : nat) (L M : Z)
    (swp : list F -> Z -> Z -> Z -> option (list F)) (A B : list F),
  let N := rp_n RP in let S := 2 * 2 ^ Z.of_nat e in
  0 < L -> column_exchange swp -> 0 <= M -> zlen A = N * M -> zlen B = N * M ->
  sq_tables RP -> M mod 2 = 1 -> M <= 4 * N - 3 ->
  same_coefficients (execute_sph_simd (kernel_disk_lo2hi rot RP) (KERNEL_DISK_LO2HI rot (Z.to_nat S) L RP) swp S N M)
    (execute_sph_default (kernel_disk_lo2hi rot RP) N M) A B.
Proof. exact @D11_disk_lo2hi. Qed.
Print Assumptions C11_disk_lo2hi_simd_is_default.
Theorem C11_tri_hi2lo_simd_is_default :
  forall (F : Type) (HF : Arith F) (rot : F -> F -> F -> F -> F * F) (RP : rotplan F) (VS : nat) (L M : Z) (A B : list F),
  let N := rp_n RP in let S := Z.of_nat VS in
  0 < L -> (0 < VS)%nat -> 0 <= M -> zlen A = N * M -> zlen B = N * M -> tri_tables RP ->
  same_coefficients (execute_tri_simd (kernel_tri_hi2lo rot RP) (KERNEL_TRI_HI2LO rot VS L RP) S N M)
    (execute_tri_default (kernel_tri_hi2lo rot RP) N M) A B.
Proof. exact @D11_tri_hi2lo. Qed.
Print Assumptions C11_tri_hi2lo_simd_is_default.
Theorem C11_tri_lo2hi_simd_is_default :
  forall (F : Type) (HF : Arith F) (rot : F -> F -> F -> F -> F * F) (RP : rotplan F) (VS : nat) (L M : Z) (A B : list F),
  let N := rp_n RP in let S := Z.of_nat VS in
  0 < L -> (0 < VS)%nat -> 0 <= M -> zlen A = N * M -> zlen B = N * M -> tri_tables RP -> M <= N + 2 * S - 2 ->
  same_coefficients (execute_tri_simd (kernel_tri_lo2hi rot RP) (KERNEL_TRI_LO2HI rot VS L RP) S N M)
    (execute_tri_default (kernel_tri_lo2hi rot RP) N M) A B.
Proof. exact @D11_tri_lo2hi. Qed.
Print Assumptions C11_tri_lo2hi_simd_is_default.

(** a computed instance: 6 rows, 13 columns, width 4, integer arithmetic *)
Definition exDP : rotplan Z := RotPlan 6 (ztab 21 (fun i => i mod 3 - 1)) (ztab 21 (fun i => i mod 2 + 1)).
Example C11_example :
  let A := ztab 78 (fun i => i) in let B := zmake 78 0 in
  tri_tables exDP /\ column_exchange (@swap_warp_default Z) /\ 13 mod 2 = 1 /\ 13 <= 2 * 6 + 1 /\
  option_map fst (@execute_sph_simd Z (@kernel_sph_hi2lo Z (@givens Z Z_arith) exDP)
      (@KERNEL_SPH_HI2LO Z (@givens Z Z_arith) 4 2 exDP) swap_warp_default 4 6 13 A B) =
    @execute_sph_default Z (@kernel_sph_hi2lo Z (@givens Z Z_arith) exDP) 6 13 A /\
  @execute_sph_default Z (@kernel_sph_hi2lo Z (@givens Z Z_arith) exDP) 6 13 A <> Some A.
Proof.
  cbv zeta. split; [repeat split; try reflexivity; cbn; lia|]. split; [left; reflexivity|].
  split; [reflexivity|]. split; [lia|]. split; [vm_compute; reflexivity|vm_compute; congruence].
Qed.
(** FINDING: with an even number of columns the drivers touch the column after the last one *)
Theorem C11_even_column_count_refuted :
  exists (RP : rotplan Z) (M : Z) (A : list Z), tri_tables RP /\ zlen A = rp_n RP * M /\ M mod 2 = 0 /\
    @execute_sph_default Z (@kernel_sph_hi2lo Z (@givens Z Z_arith) RP) (rp_n RP) M A = None.
Proof.
  exists (RotPlan 4 (zmake 10 0) (zmake 10 1)), 4, (zmake 16 0).
  split; [repeat split; try reflexivity; cbn; lia|]. repeat split; vm_compute; reflexivity.
Qed.
Print Assumptions C11_even_column_count_refuted.

(** ** C13.  Executing hi2lo then lo2hi, or lo2hi then hi2lo, is the identity on the array,
    and each direction keeps the sum of squares of the coefficients. *)
Theorem C13_sph_roundtrip :
  forall (RP : rotplan R) (M : Z) (A : list R),
  let N := rp_n RP in 0 <= M -> zlen A = N * M -> tri_tables RP -> unit_tri RP -> M mod 2 = 1 ->
  let hi2lo := execute_sph_default (kernel_sph_hi2lo givens RP) N M in
  let lo2hi := execute_sph_default (kernel_sph_lo2hi givens_t RP) N M in
  mutually_inverse_on hi2lo lo2hi A /\ keeps_frobenius hi2lo A /\ keeps_frobenius lo2hi A.
Proof. exact @C13_sph. Qed.
Print Assumptions C13_sph_roundtrip.
Theorem C13_sphv_roundtrip :
  forall (RP : rotplan R) (M : Z) (A : list R),
  let N := rp_n RP in 0 <= M -> zlen A = N * M -> tri_tables RP -> unit_tri RP -> M mod 2 = 1 ->
  let hi2lo := execute_sphv_default (kernel_sph_hi2lo givens RP) N M in
  let lo2hi := execute_sphv_default (kernel_sph_lo2hi givens_t RP) N M in
  mutually_inverse_on hi2lo lo2hi A /\ keeps_frobenius hi2lo A /\ keeps_frobenius lo2hi A.
Proof. exact @C13_sphv. Qed.
Print Assumptions C13_sphv_roundtrip.
Theorem C13_disk_roundtrip :
  forall (RP : rotplan R) (M : Z) (A : list R),
  let N := rp_n RP in 0 <= M -> zlen A = N * M -> sq_tables RP -> unit_sq RP -> M mod 2 = 1 ->
  let hi2lo := execute_sph_default (kernel_disk_hi2lo givens RP) N M in
  let lo2hi := execute_sph_default (kernel_disk_lo2hi givens_t RP) N M in
  mutually_inverse_on hi2lo lo2hi A /\ keeps_frobenius hi2lo A /\ keeps_frobenius lo2hi A.
Proof. exact @C13_disk. Qed.
Print Assumptions C13_disk_roundtrip.
Theorem C13_tri_roundtrip :
  forall (RP : rotplan R) (M : Z) (A : list R),
  let N := rp_n RP in 0 <= M -> zlen A = N * M -> tri_tables RP -> unit_tri RP ->
  let hi2lo := execute_tri_default (kernel_tri_hi2lo givens RP) N M in
  let lo2hi := execute_tri_default (kernel_tri_lo2hi givens_t RP) N M in
  mutually_inverse_on hi2lo lo2hi A /\ keeps_frobenius hi2lo A /\ keeps_frobenius lo2hi A.
Proof. exact @C13_tri. Qed.
Print Assumptions C13_tri_roundtrip.
Theorem C13_rectdisk_roundtrip :
  forall (RP : rotplan R) (M : Z) (A : list R),
  let N := rp_n RP in 0 <= M -> zlen A = N * M -> tri_tables RP -> unit_tri RP ->
  let hi2lo := execute_rectdisk_default (kernel_sph_hi2lo givens RP) N M in
  let lo2hi := execute_rectdisk_default (kernel_sph_lo2hi givens_t RP) N M in
  mutually_inverse_on hi2lo lo2hi A /\ keeps_frobenius hi2lo A /\ keeps_frobenius lo2hi A.
Proof. exact @C13_rectdisk. Qed.
Print Assumptions C13_rectdisk_roundtrip.
Theorem C13_tet_roundtrip :
  forall (RP1 RP2 : rotplan R) (L M : Z) (A : list R),
  tri_tables RP1 -> unit_tri RP1 -> tri_tables RP2 -> unit_tri RP2 -> rp_n RP2 = rp_n RP1 ->
  0 <= L <= rp_n RP1 -> 0 <= M -> zlen A = rp_n RP1 * L * M ->
  let hi2lo := execute_tet_hi2lo (kernel_tri_hi2lo givens RP1) (kernel_tet_hi2lo givens RP2) (rp_n RP1) L M in
  let lo2hi := execute_tet_lo2hi (kernel_tri_lo2hi givens_t RP1) (kernel_tet_lo2hi givens_t RP2) (rp_n RP1) L M in
  mutually_inverse_on hi2lo lo2hi A /\ keeps_frobenius hi2lo A /\ keeps_frobenius lo2hi A.
Proof. exact C13_tet. Qed.
Print Assumptions C13_tet_roundtrip.
Theorem C13_spinsph_roundtrip :
  forall (P : spinplan R) (M : Z) (A : list R),
  spin_tables P -> unit_spin P -> 0 <= M -> M mod 2 = 1 -> zlen A = 2 * sp_n P * M ->
  let hi2lo := execute_spinsph_default (kernel_spinsph_hi2lo givens givens_t apply_rotc P) (sp_n P) M in
  let lo2hi := execute_spinsph_default (kernel_spinsph_lo2hi givens givens_t apply_rotc P) (sp_n P) M in
  mutually_inverse_on hi2lo lo2hi A /\ keeps_frobenius hi2lo A /\ keeps_frobenius lo2hi A.
Proof. exact C13_spin. Qed.
Print Assumptions C13_spinsph_roundtrip.
Theorem C13_sph_simd_roundtrip :
  forall (RP : rotplan R) (e : nat) (L M : Z) (swp : list R -> Z -> Z -> Z -> option (list R)) (A B : list R),
  let N := rp_n RP in let S := 2 * 2 ^ Z.of_nat e in
  0 < L -> column_exchange swp -> 0 <= M -> zlen A = N * M -> zlen B = N * M ->
  tri_tables RP -> unit_tri RP -> M mod 2 = 1 -> M <= 2 * N + 1 ->
  exists A1 B1 B2,
    execute_sph_simd (kernel_sph_hi2lo givens RP) (KERNEL_SPH_HI2LO givens (Z.to_nat S) L RP) swp S N M A B = Some (A1, B1) /\
    execute_sph_simd (kernel_sph_lo2hi givens_t RP) (KERNEL_SPH_LO2HI givens_t (Z.to_nat S) L RP) swp S N M A1 B1 = Some (A, B2).
Proof. exact D13_sph_simd. Qed.
Print Assumptions C13_sph_simd_roundtrip.
Theorem C13_disk_simd_roundtrip :
  forall (RP : rotplan R) (e : nat) (L M : Z) (swp : list R -> Z -> Z -> Z -> option (list R)) (A B : list R),
  let N := rp_n RP in let S := 2 * 2 ^ Z.of_nat e in
  0 < L -> column_exchange swp -> 0 <= M -> zlen A = N * M -> zlen B = N * M ->
  sq_tables RP -> unit_sq RP -> M mod 2 = 1 -> M <= 4 * N - 3 ->
  exists A1 B1 B2,
    execute_sph_simd (kernel_disk_hi2lo givens RP) (KERNEL_DISK_HI2LO givens (Z.to_nat S) L RP) swp S N M A B = Some (A1, B1) /\
    execute_sph_simd (kernel_disk_lo2hi givens_t RP) (KERNEL_DISK_LO2HI givens_t (Z.to_nat S) L RP) swp S N M A1 B1 = Some (A, B2).
Proof. exact D13_disk_simd. Qed.
Print Assumptions C13_disk_simd_roundtrip.
Theorem C13_tri_simd_roundtrip :
  forall (RP : rotplan R) (L M : Z) (A B : list R),
  let N := rp_n RP in
  0 < L -> 0 <= M -> zlen A = N * M -> zlen B = N * M ->
  forall VS : nat, (0 < VS)%nat -> tri_tables RP -> unit_tri RP -> M <= N + 2 * Z.of_nat VS - 2 ->
  exists A1 B1 B2,
    execute_tri_simd (kernel_tri_hi2lo givens RP) (KERNEL_TRI_HI2LO givens VS L RP) (Z.of_nat VS) N M A B = Some (A1, B1) /\
    execute_tri_simd (kernel_tri_lo2hi givens_t RP) (KERNEL_TRI_LO2HI givens_t VS L RP) (Z.of_nat VS) N M A1 B1 = Some (A, B2).
Proof. exact D13_tri_simd. Qed.
Print Assumptions C13_tri_simd_roundtrip.

(** the planners' tables and a 3-by-5 array meet the hypotheses *)
Example C13_example : exists RP, plan_rotsphere 7%R 3 = Some RP /\ tri_tables RP /\ unit_tri RP /\
  zlen (map IZR (ztab 15 (fun i => i))) = rp_n RP * 5 /\ 5 mod 2 = 1 /\
  frobenius2 [1; 2; 3]%R = 14%R.
Proof.
  destruct (C06_planned_proof 3 7%R 0%R 0%R 0%R 0) as ((RP & E & N & T & U) & _); try lia; try lra.
  exists RP. rewrite N. split; [auto|]. split; [auto|]. split; [auto|]. split; [reflexivity|]. split; [reflexivity|].
  change (sumsq_n 3 [1; 2; 3]%R 0 1 = 14%R). unfold sumsq_n, nthZ, zget. change (Z.to_nat (0 + Z.of_nat 2 * 1)) with 2%nat. change (Z.to_nat (0 + Z.of_nat 1 * 1)) with 1%nat. cbn. lra.
Qed.

(** ** C34.  Each entry is scaled by [s] once for each zero index and once by [p]; with the
    constants of the library the forward and backward scalings undo each other. *)
Theorem C34_chebyshev_scaling_values :
  forall (F : Type) (HF : Arith F) (s p : F) (N L M : Z) (A : list F),
  (1 <= N -> 1 <= M -> zlen A = N * M ->
   exists A', chebyshev_normalization_2d s p N M A = Some A' /\ zlen A' = zlen A /\
   forall i j x, 0 <= i < N -> 0 <= j < M -> zget A (i + j * N) = Some x ->
     zget A' (i + j * N) = Some (mul (let y := if j =? 0 then mul x s else x in if i =? 0 then mul y s else y) p)) /\
  (1 <= N -> 1 <= L -> 1 <= M -> zlen A = N * L * M ->
   exists A', chebyshev_normalization_3d s p N L M A = Some A' /\ zlen A' = zlen A /\
   forall i j k x, 0 <= i < N -> 0 <= j < L -> 0 <= k < M -> zget A (i + (j + k * L) * N) = Some x ->
     zget A' (i + (j + k * L) * N) = Some (mul (let y := if k =? 0 then mul x s else x in
       let z := if j =? 0 then mul y s else y in if i =? 0 then mul z s else z) p)).
Proof. exact @D34_value. Qed.
Print Assumptions C34_chebyshev_scaling_values.
Theorem C34_chebyshev_scalings_inverse :
  forall (N L M : Z) (A : list R),
  let s := (/ sqrt 2)%R in let s' := sqrt 2 in let p := (2 / PI)%R in let p' := (PI / 2)%R in
  (1 <= N -> 1 <= M -> zlen A = N * M ->
   mutually_inverse_on (chebyshev_normalization_2d s p N M) (chebyshev_normalization_2d s' p' N M) A) /\
  (1 <= N -> 1 <= L -> 1 <= M -> zlen A = N * L * M ->
   mutually_inverse_on (chebyshev_normalization_3d s (p * sqrt p)%R N L M)
                       (chebyshev_normalization_3d s' (p' * sqrt p')%R N L M) A).
Proof. exact D34_inverse. Qed.
Print Assumptions C34_chebyshev_scalings_inverse.

Example C34_example :
  @chebyshev_normalization_2d Z Z_arith 2 3 2 2 [1;1;1;1] = Some [12;6;6;3] /\
  @chebyshev_normalization_3d Z Z_arith 2 3 2 2 2 [1;1;1;1;1;1;1;1] = Some [24;12;12;6;12;6;6;3].
Proof. vm_compute. auto. Qed.
