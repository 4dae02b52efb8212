(** * Drivers: the statements used by Properties_Drivers.v *)
From Coq Require Import ZArith List Lia Bool ZifyBool ZifyNat Reals Lra.
From Verif Require Import Base BaseFacts Arith MPermute PPermute PPermute2 MRotations SpecRot PRot PRotBlock PRotKernels
  PRotFam PRotInv PRotMore PRotThms MDrivers SpecDrivers PDrivers PDrivers2 PDrivers3 PDrivers4 PDrivers5 PCheb.
Import ListNotations.
Open Scope Z_scope.

Lemma sc_of {F} (p : list F -> list F -> option (list F * list F)) q A B n : zlen B = n ->
  (exists A' B', p A B = Some (A', B') /\ zlen B' = n /\ q A = Some A') -> same_coefficients p q A B.
Proof. intros LB (A' & B' & E & L & D). exists A', B'. rewrite LB. auto. Qed.

Section Any.
Context {F : Type} `{Arith F}.
Variables (rot : F -> F -> F -> F -> F * F) (RP : rotplan F) (e : nat) (L M : Z).
Variables (swp : list F -> Z -> Z -> Z -> option (list F)) (A B : list F).
Let N := rp_n RP.
Let S := 2 * 2 ^ Z.of_nat e.
Hypothesis HL : 0 < L.
Hypothesis Hswp : column_exchange swp.
Hypothesis HM : 0 <= M.
Hypothesis LA : zlen A = N * M.
Hypothesis LB : zlen B = N * M.
Lemma D11_sph_hi2lo : tri_tables RP -> M mod 2 = 1 ->
  same_coefficients (execute_sph_simd (kernel_sph_hi2lo rot RP) (KERNEL_SPH_HI2LO rot (Z.to_nat S) L RP) swp S N M)
    (execute_sph_default (kernel_sph_hi2lo rot RP) N M) A B.
Proof. intros. apply (sc_of _ _ _ _ _ LB). now apply C11_sphD. Qed.
Lemma D11_sph_lo2hi : tri_tables RP -> M mod 2 = 1 -> M <= 2 * N + 1 ->
  same_coefficients (execute_sph_simd (kernel_sph_lo2hi rot RP) (KERNEL_SPH_LO2HI rot (Z.to_nat S) L RP) swp S N M)
    (execute_sph_default (kernel_sph_lo2hi rot RP) N M) A B.
Proof. intros. apply (sc_of _ _ _ _ _ LB). now apply C11_sphU. Qed.
Lemma D11_disk_hi2lo : sq_tables RP -> M mod 2 = 1 ->
  same_coefficients (execute_sph_simd (kernel_disk_hi2lo rot RP) (KERNEL_DISK_HI2LO rot (Z.to_nat S) L RP) swp S N M)
    (execute_sph_default (kernel_disk_hi2lo rot RP) N M) A B.
Proof. intros. apply (sc_of _ _ _ _ _ LB). now apply C11_diskD. Qed.
Lemma D11_disk_lo2hi : sq_tables RP -> M mod 2 = 1 -> M <= 4 * N - 3 ->
  same_coefficients (execute_sph_simd (kernel_disk_lo2hi rot RP) (KERNEL_DISK_LO2HI rot (Z.to_nat S) L RP) swp S N M)
    (execute_sph_default (kernel_disk_lo2hi rot RP) N M) A B.
Proof. intros. apply (sc_of _ _ _ _ _ LB). now apply C11_diskU. Qed.
End Any.

Section AnyV.
Context {F : Type} `{Arith F}.
Variables (rot : F -> F -> F -> F -> F * F) (RP : rotplan F) (e : nat) (L M : Z).
Variables (swp : list F -> Z -> Z -> Z -> option (list F)) (A B : list F).
Let N := rp_n RP.
Let S := 2 * 2 ^ Z.of_nat e.
Hypothesis HL : 0 < L.
Hypothesis Hswp : column_exchange swp.
Hypothesis HM : 3 <= M.
Hypothesis LA : zlen A = N * M.
Hypothesis LB : zlen B = N * M.
Lemma D11_sphv_hi2lo : tri_tables RP -> M mod 2 = 1 ->
  same_coefficients (execute_sphv_simd (kernel_sph_hi2lo rot RP) (KERNEL_SPH_HI2LO rot (Z.to_nat S) L RP) swp S N M)
    (execute_sphv_default (kernel_sph_hi2lo rot RP) N M) A B.
Proof.
  intros HT Ho. assert (0 <= N) by (destruct HT; auto). eapply (sphv_simd_gen RP e); eauto using col_sphD.
  intros. apply D11_sph_hi2lo; auto; lia.
Qed.
Lemma D11_sphv_lo2hi : tri_tables RP -> M mod 2 = 1 -> M <= 2 * N + 3 ->
  same_coefficients (execute_sphv_simd (kernel_sph_lo2hi rot RP) (KERNEL_SPH_LO2HI rot (Z.to_nat S) L RP) swp S N M)
    (execute_sphv_default (kernel_sph_lo2hi rot RP) N M) A B.
Proof.
  intros HT Ho Hb. assert (0 <= N) by (destruct HT; auto). eapply (sphv_simd_gen RP e); eauto using col_sphU.
  intros. apply D11_sph_lo2hi; auto; unfold N in *; lia.
Qed.
End AnyV.

Section AnyT.
Context {F : Type} `{Arith F}.
Variables (rot : F -> F -> F -> F -> F * F) (RP : rotplan F) (VS : nat) (L M : Z) (A B : list F).
Let N := rp_n RP.
Let S := Z.of_nat VS.
Hypothesis HL : 0 < L.
Hypothesis HV : (0 < VS)%nat.
Hypothesis HM : 0 <= M.
Hypothesis LA : zlen A = N * M.
Hypothesis LB : zlen B = N * M.
Lemma D11_tri_hi2lo : tri_tables RP ->
  same_coefficients (execute_tri_simd (kernel_tri_hi2lo rot RP) (KERNEL_TRI_HI2LO rot VS L RP) S N M)
    (execute_tri_default (kernel_tri_hi2lo rot RP) N M) A B.
Proof. intros. apply (sc_of _ _ _ _ _ LB). now apply C11_triD. Qed.
Lemma D11_tri_lo2hi : tri_tables RP -> M <= N + 2 * S - 2 ->
  same_coefficients (execute_tri_simd (kernel_tri_lo2hi rot RP) (KERNEL_TRI_LO2HI rot VS L RP) S N M)
    (execute_tri_default (kernel_tri_lo2hi rot RP) N M) A B.
Proof. intros. apply (sc_of _ _ _ _ _ LB). now apply C11_triU. Qed.
End AnyT.

(** round trips of the SIMD drivers *)
Section SimdTrip.
Variables (RP : rotplan R) (e : nat) (L M : Z) (swp : list R -> Z -> Z -> Z -> option (list R)) (A B : list R).
Let N := rp_n RP.
Let S := 2 * 2 ^ Z.of_nat e.
Hypothesis HL : 0 < L.
Hypothesis Hswp : column_exchange swp.
Hypothesis HM : 0 <= M.
Hypothesis LA : zlen A = N * M.
Hypothesis LB : zlen B = N * M.
Lemma D13_sph_simd : tri_tables RP -> unit_tri RP -> M mod 2 = 1 -> M <= 2 * N + 1 ->
  exists A1 B1 B2,
    execute_sph_simd (kernel_sph_hi2lo givens RP) (KERNEL_SPH_HI2LO givens (Z.to_nat S) L RP) swp S N M A B = Some (A1, B1) /\
    execute_sph_simd (kernel_sph_lo2hi givens_t RP) (KERNEL_SPH_LO2HI givens_t (Z.to_nat S) L RP) swp S N M A1 B1 = Some (A, B2).
Proof.
  intros HT HU Ho Hb.
  eapply (simd_roundtrip (N * M) _ _ (execute_sph_default (kernel_sph_hi2lo givens RP) N M) (execute_sph_default (kernel_sph_lo2hi givens_t RP) N M)); auto.
  - intros. now apply D11_sph_hi2lo. - intros. now apply D11_sph_lo2hi.
  - now apply C13_sph. - intros. now apply C13_sph.
Qed.
Lemma D13_disk_simd : sq_tables RP -> unit_sq RP -> M mod 2 = 1 -> M <= 4 * N - 3 ->
  exists A1 B1 B2,
    execute_sph_simd (kernel_disk_hi2lo givens RP) (KERNEL_DISK_HI2LO givens (Z.to_nat S) L RP) swp S N M A B = Some (A1, B1) /\
    execute_sph_simd (kernel_disk_lo2hi givens_t RP) (KERNEL_DISK_LO2HI givens_t (Z.to_nat S) L RP) swp S N M A1 B1 = Some (A, B2).
Proof.
  intros HT HU Ho Hb.
  eapply (simd_roundtrip (N * M) _ _ (execute_sph_default (kernel_disk_hi2lo givens RP) N M) (execute_sph_default (kernel_disk_lo2hi givens_t RP) N M)); auto.
  - intros. now apply D11_disk_hi2lo. - intros. now apply D11_disk_lo2hi.
  - now apply C13_disk. - intros. now apply C13_disk.
Qed.
Lemma D13_tri_simd (VS : nat) : (0 < VS)%nat -> tri_tables RP -> unit_tri RP -> M <= N + 2 * Z.of_nat VS - 2 ->
  exists A1 B1 B2,
    execute_tri_simd (kernel_tri_hi2lo givens RP) (KERNEL_TRI_HI2LO givens VS L RP) (Z.of_nat VS) N M A B = Some (A1, B1) /\
    execute_tri_simd (kernel_tri_lo2hi givens_t RP) (KERNEL_TRI_LO2HI givens_t VS L RP) (Z.of_nat VS) N M A1 B1 = Some (A, B2).
Proof.
  intros HV HT HU Hb.
  eapply (simd_roundtrip (N * M) _ _ (execute_tri_default (kernel_tri_hi2lo givens RP) N M) (execute_tri_default (kernel_tri_lo2hi givens_t RP) N M)); auto.
  - intros. now apply D11_tri_hi2lo. - intros. now apply D11_tri_lo2hi.
  - now apply C13_tri. - intros. now apply C13_tri.
Qed.
End SimdTrip.

(** Chebyshev normalisation with the constants of the library *)
Lemma D34_value {F} `{Arith F} (s q : F) N L M A :
  (1 <= N -> 1 <= M -> zlen A = N * M ->
   exists A', chebyshev_normalization_2d s q N M A = Some A' /\ zlen A' = zlen A /\
   forall i j x, 0 <= i < N -> 0 <= j < M -> zget A (i + j * N) = Some x ->
     zget A' (i + j * N) = Some (mul (let y := if j =? 0 then mul x s else x in if i =? 0 then mul y s else y) q)) /\
  (1 <= N -> 1 <= L -> 1 <= M -> zlen A = N * L * M ->
   exists A', chebyshev_normalization_3d s q N L M A = Some A' /\ zlen A' = zlen A /\
   forall i j k x, 0 <= i < N -> 0 <= j < L -> 0 <= k < M -> zget A (i + (j + k * L) * N) = Some x ->
     zget A' (i + (j + k * L) * N) = Some (mul (let y := if k =? 0 then mul x s else x in
       let z := if j =? 0 then mul y s else y in if i =? 0 then mul z s else z) q)).
Proof.
  split.
  - intros. destruct (cheb2 s q N M A) as (A' & E & L' & P); auto. exists A'. split; auto. split; auto.
    intros i j x Hi Hj Ex. rewrite P by auto. now rewrite Ex.
  - intros. destruct (cheb3 s q N L M A) as (A' & E & L' & P); auto. exists A'. split; auto. split; auto.
    intros i j k x Hi Hj Hk Ex. rewrite P by auto. now rewrite Ex.
Qed.
Lemma consts_2d : (/ sqrt 2 * sqrt 2 = 1 /\ 2 / PI * (PI / 2) = 1)%R.
Proof.
  split; [apply Rinv_l; pose proof (sqrt_lt_R0 2 ltac:(lra)); lra|]. field. apply PI_neq0.
Qed.
Lemma consts_3d : (2 / PI * sqrt (2 / PI) * (PI / 2 * sqrt (PI / 2)) = 1)%R.
Proof.
  replace (2 / PI * sqrt (2 / PI) * (PI / 2 * sqrt (PI / 2)))%R with ((2 / PI * (PI / 2)) * (sqrt (2 / PI) * sqrt (PI / 2)))%R by ring.
  pose proof PI_RGT_0. rewrite <- sqrt_mult.
  - replace (2 / PI * (PI / 2))%R with 1%R by (field; apply PI_neq0). rewrite sqrt_1. ring.
  - apply Rlt_le. apply Rdiv_lt_0_compat; lra.
  - lra.
Qed.
Lemma D34_inverse N L M (A : list R) :
  let s := (/ sqrt 2)%R in let s' := sqrt 2 in let p := (2 / PI)%R in let p' := (PI / 2)%R in
  (1 <= N -> 1 <= M -> zlen A = N * M ->
   mutually_inverse_on (chebyshev_normalization_2d s p N M) (chebyshev_normalization_2d s' p' N M) A) /\
  (1 <= N -> 1 <= L -> 1 <= M -> zlen A = N * L * M ->
   mutually_inverse_on (chebyshev_normalization_3d s (p * sqrt p)%R N L M) (chebyshev_normalization_3d s' (p' * sqrt p')%R N L M) A).
Proof.
  cbv zeta. destruct consts_2d as [C1 C2]. pose proof consts_3d as C3. split.
  - intros. split; apply cheb2_inv; auto; rewrite Rmult_comm; auto.
  - intros. split; apply cheb3_inv; auto; rewrite Rmult_comm; auto.
Qed.

