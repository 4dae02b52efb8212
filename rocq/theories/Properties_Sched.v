(** * C12: the result does not depend on the number of threads or on the schedule

    Statements only; proofs are in PSched*.v.  Vocabulary in SpecSched.v: [schedule_of] (any
    distribution of the iterations over any number of threads) and [always_ends_in] (every
    interleaving of the threads' loads and stores is free of faults, terminates, and leaves
    the given memory).  The programs [p_..], [P_..] of MSched.v are the loop bodies of the
    parallel regions as sequences of loads and stores; the sequential result on the right is
    that of the drivers in MDrivers.v, which C10, C11 and C13 are about.  Since [rot] and [F]
    are arbitrary the statements are bit for bit. *)
From Coq Require Import ZArith List Lia Bool Permutation.
From Verif Require Import Base Arith MPermute MRotations MDrivers MBanded MSched SpecSched PSched PSchedThms.
Import ListNotations.
Open Scope Z_scope.

(** The distribution the library uses (thread [t] of [T] starts at [lo + st*t] and advances by
    [st*T]) is a schedule of the loop, for every number of threads. *)
Theorem C12_strided_partition : forall lo hi st T, 0 < st -> 0 < T ->
  schedule_of lo hi st (map (fun t => thread_iterations lo hi st T (Z.of_nat t)) (seq 0 (Z.to_nat T))).
Proof. exact strided_is_schedule. Qed.
Print Assumptions C12_strided_partition.
Theorem C12_sph_any_schedule :
  forall (F : Type) (rot : F -> F -> F -> F -> F * F) (RP : rotplan F) (assign : list (list Z)) (M : Z) (A A' : list F),
  let N := rp_n RP in 0 <= N -> schedule_of 2 (M / 2 + 1) 1 assign ->
  (execute_sph_default (kernel_sph_hi2lo rot RP) N M A = Some A' ->
     always_ends_in (p_sph_body (p_sph_hi2lo rot RP) N) assign A A') /\
  (execute_sph_default (kernel_sph_lo2hi rot RP) N M A = Some A' ->
     always_ends_in (p_sph_body (p_sph_lo2hi rot RP) N) assign A A').
Proof. exact @S12_sph. Qed.
Print Assumptions C12_sph_any_schedule.
Theorem C12_sphv_any_schedule :
  forall (F : Type) (rot : F -> F -> F -> F -> F * F) (RP : rotplan F) (assign : list (list Z)) (M : Z) (A A' : list F),
  let N := rp_n RP in 0 <= N -> schedule_of 2 (M / 2 - 1 + 1) 1 assign ->
  (execute_sphv_default (kernel_sph_hi2lo rot RP) N M A = Some A' ->
     always_ends_in (p_sphv_body (p_sph_hi2lo rot RP) N) assign A A') /\
  (execute_sphv_default (kernel_sph_lo2hi rot RP) N M A = Some A' ->
     always_ends_in (p_sphv_body (p_sph_lo2hi rot RP) N) assign A A').
Proof. exact @S12_sphv. Qed.
Print Assumptions C12_sphv_any_schedule.
Theorem C12_disk_any_schedule :
  forall (F : Type) (rot : F -> F -> F -> F -> F * F) (RP : rotplan F) (assign : list (list Z)) (M : Z) (A A' : list F),
  let N := rp_n RP in 0 <= N -> schedule_of 2 (M / 2 + 1) 1 assign ->
  (execute_sph_default (kernel_disk_hi2lo rot RP) N M A = Some A' ->
     always_ends_in (p_sph_body (p_disk_hi2lo rot RP) N) assign A A') /\
  (execute_sph_default (kernel_disk_lo2hi rot RP) N M A = Some A' ->
     always_ends_in (p_sph_body (p_disk_lo2hi rot RP) N) assign A A').
Proof. exact @S12_disk. Qed.
Print Assumptions C12_disk_any_schedule.
Theorem C12_tri_any_schedule :
  forall (F : Type) (rot : F -> F -> F -> F -> F * F) (RP : rotplan F) (assign : list (list Z)) (M : Z) (A A' : list F),
  let N := rp_n RP in 0 <= N -> schedule_of 1 M 1 assign ->
  (execute_tri_default (kernel_tri_hi2lo rot RP) N M A = Some A' ->
     always_ends_in (p_tri_body (p_tri_hi2lo rot RP) N) assign A A') /\
  (execute_tri_default (kernel_tri_lo2hi rot RP) N M A = Some A' ->
     always_ends_in (p_tri_body (p_tri_lo2hi rot RP) N) assign A A').
Proof. exact @S12_tri. Qed.
Print Assumptions C12_tri_any_schedule.
Theorem C12_rectdisk_any_schedule :
  forall (F : Type) (rot : F -> F -> F -> F -> F * F) (RP : rotplan F) (assign : list (list Z)) (M : Z) (A A' : list F),
  let N := rp_n RP in 0 <= N -> schedule_of 2 M 1 assign ->
  (execute_rectdisk_default (kernel_sph_hi2lo rot RP) N M A = Some A' ->
     always_ends_in (p_rectdisk_body (p_sph_hi2lo rot RP) N) assign A A') /\
  (execute_rectdisk_default (kernel_sph_lo2hi rot RP) N M A = Some A' ->
     always_ends_in (p_rectdisk_body (p_sph_lo2hi rot RP) N) assign A A').
Proof. exact @S12_rectdisk. Qed.
Print Assumptions C12_rectdisk_any_schedule.
Theorem C12_tet_any_schedule :
  forall (F : Type) (rot : F -> F -> F -> F -> F * F) (RP P : rotplan F) (L M : Z) (assign : list (list Z)) (A A' : list F),
  let N := rp_n RP in 0 <= N -> rp_n P = N -> 0 <= L -> schedule_of 0 M 1 assign ->
  (execute_tet_hi2lo (kernel_tri_hi2lo rot RP) (kernel_tet_hi2lo rot P) N L M A = Some A' ->
     always_ends_in (p_tet_hi2lo_body (p_tri_hi2lo rot RP) (p_tet_hi2lo rot P) N L) assign A A') /\
  (execute_tet_lo2hi (kernel_tri_lo2hi rot RP) (kernel_tet_lo2hi rot P) N L M A = Some A' ->
     always_ends_in (p_tet_lo2hi_body (p_tri_lo2hi rot RP) (p_tet_lo2hi rot P) N L) assign A A').
Proof. exact @S12_tet. Qed.
Print Assumptions C12_tet_any_schedule.
Theorem C12_spinsph_any_schedule :
  forall (F : Type) (rot rot_t : F -> F -> F -> F -> F * F) (SRP : spinplan F) (M : Z) (assign : list (list Z)) (A A' : list F),
  0 <= sp_n SRP -> schedule_of 1 (M / 2 + 1) 1 assign ->
  (for_up 1 (M / 2 + 1) (spin_body (kernel_spinsph_hi2lo rot rot_t apply_rotc SRP) (sp_n SRP)) A = Some A' ->
     always_ends_in (p_spin_body (p_spinsph_hi2lo rot rot_t SRP) (sp_n SRP)) assign A A') /\
  (for_up 1 (M / 2 + 1) (spin_body (kernel_spinsph_lo2hi rot rot_t apply_rotc SRP) (sp_n SRP)) A = Some A' ->
     always_ends_in (p_spin_body (p_spinsph_lo2hi rot rot_t SRP) (sp_n SRP)) assign A A').
Proof. exact @S12_spin. Qed.
Print Assumptions C12_spinsph_any_schedule.
(** The vector loops of the drivers.  (The scalar loop in front of each of them is the loop of
    [execute_sph_default], [execute_tri_default] on [M mod (2 S)], [M mod S] columns.) *)
Theorem C12_sph_simd_any_schedule :
  forall (F : Type) (rot : F -> F -> F -> F -> F * F) (RP : rotplan F) (S L : Z) (assign : list (list Z)) (M : Z) (A A' : list F),
  let N := rp_n RP in let lo := (M mod (2 * S) + 1) / 2 in let hi := M / 2 + 1 in
  0 <= N -> 0 < S -> S mod 2 = 0 -> 0 < L -> 0 <= M -> schedule_of lo hi S assign ->
  (for_upst lo hi S (sph_simd_body (KERNEL_SPH_HI2LO rot (Z.to_nat S) L RP) N S) A = Some A' ->
     always_ends_in (p_sph_simd_body (P_SPH_HI2LO rot (Z.to_nat S) L RP) N S) assign A A') /\
  (M mod 2 = 1 -> M <= 2 * N + 1 ->
   for_upst lo hi S (sph_simd_body (KERNEL_SPH_LO2HI rot (Z.to_nat S) L RP) N S) A = Some A' ->
     always_ends_in (p_sph_simd_body (P_SPH_LO2HI rot (Z.to_nat S) L RP) N S) assign A A').
Proof. exact @S12_sph_simd. Qed.
Print Assumptions C12_sph_simd_any_schedule.
Theorem C12_disk_simd_any_schedule :
  forall (F : Type) (rot : F -> F -> F -> F -> F * F) (RP : rotplan F) (S L : Z) (assign : list (list Z)) (M : Z) (A A' : list F),
  let N := rp_n RP in let lo := (M mod (2 * S) + 1) / 2 in let hi := M / 2 + 1 in
  0 <= N -> 0 < S -> S mod 2 = 0 -> 0 < L -> 0 <= M -> schedule_of lo hi S assign ->
  (for_upst lo hi S (sph_simd_body (KERNEL_DISK_HI2LO rot (Z.to_nat S) L RP) N S) A = Some A' ->
     always_ends_in (p_sph_simd_body (P_DISK_HI2LO rot (Z.to_nat S) L RP) N S) assign A A') /\
  (M mod 2 = 1 -> M <= 4 * N - 3 ->
   for_upst lo hi S (sph_simd_body (KERNEL_DISK_LO2HI rot (Z.to_nat S) L RP) N S) A = Some A' ->
     always_ends_in (p_sph_simd_body (P_DISK_LO2HI rot (Z.to_nat S) L RP) N S) assign A A').
Proof. exact @S12_disk_simd. Qed.
Print Assumptions C12_disk_simd_any_schedule.
Theorem C12_tri_simd_any_schedule :
  forall (F : Type) (rot : F -> F -> F -> F -> F * F) (RP : rotplan F) (S L : Z) (assign : list (list Z)) (M : Z) (A A' : list F),
  let N := rp_n RP in 0 <= N -> 0 < S -> 0 < L -> 0 <= M -> schedule_of (M mod S) M S assign ->
  (for_upst (M mod S) M S (fun m B => KERNEL_TRI_HI2LO rot (Z.to_nat S) L RP 0 m B (N * m) S) A = Some A' ->
     always_ends_in (p_tri_simd_body (P_TRI_HI2LO rot (Z.to_nat S) L RP) N S) assign A A') /\
  (M <= N + 2 * S - 2 ->
   for_upst (M mod S) M S (fun m B => KERNEL_TRI_LO2HI rot (Z.to_nat S) L RP 0 m B (N * m) S) A = Some A' ->
     always_ends_in (p_tri_simd_body (P_TRI_LO2HI rot (Z.to_nat S) L RP) N S) assign A A').
Proof. exact @S12_tri_simd. Qed.
Print Assumptions C12_tri_simd_any_schedule.
(** Dense triangular products and solves, one column per iteration. *)
Theorem C12_trmm_trsm_any_schedule :
  forall (F : Type) (HF : Arith F) (trans : bool) (n : Z) (T : list F) (LDT LDB cols : Z) (assign : list (list Z)) (B B' : list F),
  0 <= n <= LDB -> schedule_of 0 cols 1 assign ->
  (trmm trans n T LDT B LDB cols = Some B' ->
     always_ends_in (fun j => p_trmv trans n T 0 LDT (j * LDB)) assign B B') /\
  (trsm trans n T LDT B LDB cols = Some B' ->
     always_ends_in (fun j => p_trsv trans n T 0 LDT (j * LDB)) assign B B').
Proof. exact @S12_dense. Qed.
Print Assumptions C12_trmm_trsm_any_schedule.

(** hypotheses met: 6 rows, 13 columns, three threads, integer arithmetic, and the result
    differs from the input *)
Definition exSP : rotplan Z := RotPlan 6 (ztab 21 (fun i => i mod 3 - 1)) (ztab 21 (fun i => i mod 2 + 1)).
Definition exThreads : list (list Z) :=
  map (fun t => thread_iterations 2 (13 / 2 + 1) 1 3 (Z.of_nat t)) (seq 0 3).
Example C12_example :
  exThreads = [[2; 5]; [3; 6]; [4]] /\ schedule_of 2 (13 / 2 + 1) 1 exThreads /\
  exists A', A' <> ztab 78 (fun i => i) /\
    always_ends_in (p_sph_body (p_sph_hi2lo (@givens Z Z_arith) exSP) 6) exThreads (ztab 78 (fun i => i)) A'.
Proof.
  split; [reflexivity|]. assert (HS : schedule_of 2 (13 / 2 + 1) 1 exThreads) by (apply (C12_strided_partition 2 (13 / 2 + 1) 1 3); lia).
  split; [exact HS|].
  destruct (@execute_sph_default Z (kernel_sph_hi2lo (@givens Z Z_arith) exSP) 6 13 (ztab 78 (fun i => i))) as [A'|] eqn:E;
    [|vm_compute in E; discriminate].
  exists A'. split.
  - intros ->. vm_compute in E. discriminate.
  - apply (C12_sph_any_schedule Z (@givens Z Z_arith) exSP exThreads 13); [cbn; lia | exact HS | exact E].
Qed.
(** and [always_ends_in] does tell races: two iterations adding one to the same entry can lose
    an update *)
Definition racy (_ : Z) : thread Z := pdo x <- pload 0; pstore 0 (x + 1).
Example C12_race_detected : schedule_of 0 2 1 [[0]; [1]] /\ ~ always_ends_in racy [[0]; [1]] [0] [2].
Proof.
  split; [apply Permutation_refl|]. intros [H _].
  assert (E : psteps (region racy [[0]; [1]], [0]) ([Ret tt; Ret tt], [1])).
  { eapply Psteps_step; [apply (PStep [] _ [_]); reflexivity|]. cbn.
    eapply Psteps_step; [apply (PStep [_] _ []); reflexivity|]. cbn.
    eapply Psteps_step; [apply (PStep [] _ [_]); reflexivity|]. cbn.
    eapply Psteps_step; [apply (PStep [_] _ []); reflexivity|]. cbn. apply Psteps_refl. }
  destruct (H _ _ E) as [_ H2]. discriminate H2. intros p [<-|[<-|[]]]; reflexivity.
Qed.
