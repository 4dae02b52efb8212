(** * C47: ranges of the int expressions

    Statements only; proofs are in PInt*.v.  Vocabulary: MInt.v.  [exec c (params ..)] runs the int
    expressions and loops of a function in 32-bit int: [Done] if every operation stays in
    range, [Overflow] if execution reaches one that does not (undefined behaviour in C),
    [Endless] if a loop does not end.  [int_max] is 2^31 - 1. *)
From Coq Require Import ZArith List Lia Bool String.
From Verif Require Import Base MInt PInt PInt2 PInt3 PInt4.
Import ListNotations.
Open Scope string_scope.
Open Scope Z_scope.

(** An evaluated expression has its mathematical value: where nothing overflows, int is Z. *)
Theorem C47_int_is_Z :
  forall (e : env) (a : iexp) (v : Z), ev e a = Some v -> v = exact e a /\ int_min <= v <= int_max.
Proof. intros e a v H. split; [now apply ev_exact|now apply (ev_range e a)]. Qed.
Print Assumptions C47_int_is_Z.
Example C47_int_is_Z_nonvacuous : ev (params [("l", 3); ("m", 4); ("n", 10)]) (ix (V "l") (V "m")) = Some (3 + 4 * 17 / 2).
Proof. reflexivity. Qed.

(** ** The planners of rotations: the exact thresholds. *)
Theorem C47_plan_rotsphere :
  forall n : Z, 0 <= n <= int_max -> exec c_plan_rotsphere (params [("n", n)]) = if n <=? 23169 then Done else Overflow.
Proof. exact rotsphere_T. Qed.
Print Assumptions C47_plan_rotsphere.
Example C47_plan_rotsphere_nonvacuous : exec c_plan_rotsphere (params [("n", 23169)]) = Done /\ exec c_plan_rotsphere (params [("n", 23170)]) = Overflow.
Proof. split; [rewrite (C47_plan_rotsphere 23169)|rewrite (C47_plan_rotsphere 23170)]; try reflexivity; unfold int_max; lia. Qed.

Theorem C47_plan_rottriangle :
  forall n : Z, 0 <= n <= int_max -> exec c_plan_rottriangle (params [("n", n)]) = if n <=? 46340 then Done else Overflow.
Proof. exact rottriangle_T. Qed.
Print Assumptions C47_plan_rottriangle.

Theorem C47_plan_rotdisk :
  forall n : Z, 0 <= n <= int_max -> exec c_plan_rotdisk (params [("n", n)]) = if n <=? 32768 then Done else Overflow.
Proof. exact rotdisk_T. Qed.
Print Assumptions C47_plan_rotdisk.

Theorem C47_plan_rotrectdisk :
  forall n : Z, 0 <= n <= int_max -> exec c_plan_rotrectdisk (params [("n", n)]) = if n <=? 46340 then Done else Overflow.
Proof. exact rotrectdisk_T. Qed.
Print Assumptions C47_plan_rotrectdisk.

Theorem C47_plan_rotspinsphere :
  forall n s : Z, 0 <= n <= int_max -> int_min < s <= int_max ->
  exec c_plan_rotspinsphere (params [("n", n); ("s", s)]) = if (n <=? 23169) && (Z.abs s * n * n <=? int_max) then Done else Overflow.
Proof. exact rotspinsphere_T. Qed.
Print Assumptions C47_plan_rotspinsphere.
Example C47_plan_rotspinsphere_nonvacuous : exec c_plan_rotspinsphere (params [("n", 20000); ("s", -5)]) = Done /\ exec c_plan_rotspinsphere (params [("n", 20000); ("s", -6)]) = Overflow.
Proof. split; [rewrite (C47_plan_rotspinsphere 20000 (-5))|rewrite (C47_plan_rotspinsphere 20000 (-6))]; try reflexivity; unfold int_min, int_max; lia. Qed.

(** ** The drivers, for every thread t of T: no overflow for arrays of at most 2^31 - 1 entries ... *)
Theorem C47_execute_sph :
  forall N M t T : Z, 0 <= N <= 46340 -> 0 <= M <= int_max -> N * M <= int_max -> 0 <= t < T -> M + T + 2 <= int_max ->
  exec (c_execute_sph T c_kernel_sph_hi2lo) (params [("N", N); ("M", M); ("t", t)]) = Done /\
  exec (c_execute_sph T c_kernel_sph_lo2hi) (params [("N", N); ("M", M); ("t", t)]) = Done.
Proof. intros N M t T HN. intros. assert (N <= int_max) by (unfold int_max; lia). split; apply execute_sph_safe; try lia; try (cbn; repeat split; lia); [now apply sph_hi2lo_safe|now apply sph_lo2hi_safe]. Qed.
Print Assumptions C47_execute_sph.
Theorem C47_execute_disk :
  forall N M t T : Z, 0 <= N <= 32768 -> 0 <= M <= int_max -> N * M <= int_max -> 0 <= t < T -> M + T + 2 <= int_max ->
  exec (c_execute_sph T c_kernel_disk_hi2lo) (params [("N", N); ("M", M); ("t", t)]) = Done /\
  exec (c_execute_sph T c_kernel_disk_lo2hi) (params [("N", N); ("M", M); ("t", t)]) = Done.
Proof. intros N M t T HN. intros. assert (N <= int_max) by (unfold int_max; lia). split; apply execute_sph_safe; try lia; try (cbn; repeat split; lia); [now apply disk_hi2lo_safe|now apply disk_lo2hi_safe]. Qed.
Print Assumptions C47_execute_disk.
Theorem C47_execute_tri :
  forall N M t T : Z, 0 <= N <= 46340 -> 0 <= M -> 2 * M <= int_max -> N * M <= int_max -> 0 <= t < T -> M + T + 2 <= int_max ->
  exec (c_execute_tri T c_kernel_tri_hi2lo) (params [("N", N); ("M", M); ("t", t)]) = Done /\
  exec (c_execute_tri T c_kernel_tri_lo2hi) (params [("N", N); ("M", M); ("t", t)]) = Done.
Proof. intros N M t T HN. intros. assert (N <= int_max) by (unfold int_max; lia). split; apply execute_tri_safe; try lia; try (cbn; repeat split; lia); [now apply tri_hi2lo_safe|now apply tri_lo2hi_safe]. Qed.
Print Assumptions C47_execute_tri.
Theorem C47_execute_rectdisk :
  forall N M t T : Z, 0 <= N <= 46340 -> 0 <= M -> 2 * M <= int_max -> N * M <= int_max -> 0 <= t < T -> M + T + 2 <= int_max ->
  exec (c_execute_rectdisk T c_kernel_sph_hi2lo) (params [("N", N); ("M", M); ("t", t)]) = Done /\
  exec (c_execute_rectdisk T c_kernel_sph_lo2hi) (params [("N", N); ("M", M); ("t", t)]) = Done.
Proof. intros N M t T HN. intros. assert (N <= int_max) by (unfold int_max; lia). split; apply execute_rectdisk_safe; try lia; try (cbn; repeat split; lia); [now apply sph_hi2lo_safe|now apply sph_lo2hi_safe]. Qed.
Print Assumptions C47_execute_rectdisk.
Example C47_drivers_nonvacuous : 0 <= 32768 <= 46340 /\ 0 <= 2 * 32768 - 1 <= int_max /\ 32768 * (2 * 32768 - 1) <= int_max /\ 2 * (2 * 32768 - 1) <= int_max /\ 0 <= 3 < 4 /\ 2 * 32768 - 1 + 4 + 2 <= int_max.
Proof. unfold int_max. lia. Qed.
(** ... and the offset of the last column of a larger array overflows, in some thread. *)
Theorem C47_execute_sph_overflow :
  forall N M T : Z, 0 <= N <= int_max -> 4 <= M <= int_max -> int_max < N * (2 * (M / 2)) -> 0 < T -> T + M <= int_max ->
  (exists t, 0 <= t < T /\ exec (c_execute_sph T c_kernel_sph_hi2lo) (params [("N", N); ("M", M); ("t", t)]) = Overflow) /\
  (exists t, 0 <= t < T /\ exec (c_execute_sph T c_kernel_sph_lo2hi) (params [("N", N); ("M", M); ("t", t)]) = Overflow).
Proof. intros. split; apply execute_sph_over; auto; cbn; repeat split; lia. Qed.
Print Assumptions C47_execute_sph_overflow.
Example C47_execute_sph_overflow_nonvacuous : int_max < 32769 * (2 * ((2 * 32769 - 1) / 2)).
Proof. reflexivity. Qed.

(** ** The permutations with blocks of L columns. *)
Theorem C47_permute :
  forall N M L : Z, 1 <= L -> (L | M) -> 0 <= N -> 0 <= M -> N * M <= int_max -> L * L * N <= int_max -> M + L <= int_max ->
  exec (c_permute L) (params [("N", N); ("M", M); ("L", L)]) = Done.
Proof. exact permute_T. Qed.
Print Assumptions C47_permute.
Theorem C47_permute_sph :
  forall N M L : Z, 1 <= L -> 2 * L <= int_max -> 0 <= N -> 0 <= M -> N * M <= int_max -> L * L * N <= int_max -> M + L <= int_max ->
  exec (c_permute_sph L) (params [("N", N); ("M", M); ("L", L)]) = Done.
Proof. exact permute_sph_T. Qed.
Print Assumptions C47_permute_sph.
Theorem C47_permute_tri :
  forall N M L : Z, 1 <= L -> L <= int_max -> 0 <= N -> 0 <= M -> N * M <= int_max -> L * L * N <= int_max -> M + L <= int_max ->
  exec (c_permute_tri L) (params [("N", N); ("M", M); ("L", L)]) = Done.
Proof. exact permute_tri_T. Qed.
Print Assumptions C47_permute_tri.
Example C47_permute_nonvacuous : 1 <= 8 /\ (8 | 40000) /\ 40000 * 40000 <= int_max /\ 8 * 8 * 40000 <= int_max /\ 40000 + 8 <= int_max.
Proof. unfold int_max. repeat split; try lia. now exists 5000. Qed.
(** The product L i overflows for long columns, however few there are. *)
Theorem C47_permute_overflow :
  forall N M L : Z, 1 <= L <= int_max -> 1 <= N <= int_max -> 1 <= M <= int_max -> int_max < L * (L * N - 1) ->
  exec (c_permute L) (params [("N", N); ("M", M); ("L", L)]) = Overflow.
Proof. exact permute_over. Qed.
Print Assumptions C47_permute_overflow.
Example C47_permute_overflow_nonvacuous : int_max < 8 * (8 * 33554433 - 1) /\ 33554433 * 8 <= int_max.
Proof. split; [reflexivity|unfold int_max; lia]. Qed.

(** ** The normalizations: overflow exactly if the array has more than 2^31 entries. *)
Theorem C47_normalization_2d :
  forall N M : Z, 0 <= N <= int_max -> 0 <= M <= int_max ->
  exec c_chebyshev_normalization_2d (params [("N", N); ("M", M); ("L", 0)]) = if N * M <=? 2 ^ 31 then Done else Overflow.
Proof. exact norm2d_T. Qed.
Print Assumptions C47_normalization_2d.
Theorem C47_normalization_3d :
  forall N L M : Z, 1 <= N <= int_max -> 1 <= L <= int_max -> 0 <= M <= int_max -> N * L <= 2 ^ 31 ->
  exec c_chebyshev_normalization_3d (params [("N", N); ("M", M); ("L", L)]) = if N * L * M <=? 2 ^ 31 then Done else Overflow.
Proof. exact norm3d_T. Qed.
Print Assumptions C47_normalization_3d.
Example C47_normalization_3d_nonvacuous : exec c_chebyshev_normalization_3d (params [("N", 1290); ("M", 1290); ("L", 1290)]) = Done /\ exec c_chebyshev_normalization_3d (params [("N", 1291); ("M", 1291); ("L", 1291)]) = Overflow.
Proof. split; [rewrite (C47_normalization_3d 1290 1290 1290)|rewrite (C47_normalization_3d 1291 1291 1291)]; try reflexivity; unfold int_max; lia. Qed.

(** ** The dense connection planners and the buffers of the sphere's FFTW plan. *)
Theorem C47_dense_plan :
  forall n : Z, 0 <= n <= int_max -> exec c_dense_plan (params [("n", n)]) = if n <=? 46340 then Done else Overflow.
Proof. exact dense_T. Qed.
Print Assumptions C47_dense_plan.
Theorem C47_plan_sph_fftw :
  forall N M : Z, 0 <= N <= int_max -> 0 <= M -> M + 3 <= int_max ->
  exec c_plan_sph_fftw (params [("N", N); ("M", M); ("L", 0)]) = if (4 * N <=? int_max) && (N * (2 * (M / 2 + 1)) <=? int_max) then Done else Overflow.
Proof. exact sph_fftw_T. Qed.
Print Assumptions C47_plan_sph_fftw.
