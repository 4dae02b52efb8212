(** * Driver routines: model of src/drivers.c (coefficient-matrix loops)

    A coefficient matrix is stored by columns of [N = RP->n] entries; [M] is the number of
    columns.  An [omp parallel] loop is given here as the sequential loop over all its
    iterations; MSched.v models the threads and proves that every schedule gives the same
    result.  Kernels are arguments: [k m1 m2 A oA S] is the call
    [kernel(RP, m1, m2, A + oA, S)]. *)
From Coq Require Import ZArith List.
From Verif Require Import Base Arith MPermute MRotations.
Import ListNotations.
Open Scope Z_scope.

Section Drivers.
Context {F : Type}.
Definition kern := Z -> Z -> list F -> Z -> Z -> option (list F).

(** A pointer [A + k] handed to a routine: the routine sees the suffix of the array and
    any access in front of it is out of bounds. *)
Definition at_ptr (k : Z) (f : list F -> option (list F)) (A : list F) : option (list F) :=
  do T <- f (skipn (Z.to_nat k) A);
  Some (firstn (Z.to_nat k) A ++ T).
Definition at_ptr2 (k : Z) (f : list F -> list F -> option (list F * list F)) (A B : list F)
  : option (list F * list F) :=
  do TU <- f (skipn (Z.to_nat k) A) (skipn (Z.to_nat k) B);
  Some (firstn (Z.to_nat k) A ++ fst TU, firstn (Z.to_nat k) B ++ snd TU).

(** src/drivers.c:93-100 [execute_sph_hi2lo_default], 102-109 [execute_sph_lo2hi_default],
    411-418 [execute_disk_hi2lo_default], 420-427 [execute_disk_lo2hi_default] *)
Definition sph_body (k : kern) (N m : Z) (A : list F) : option (list F) :=
  do A <- k (m mod 2) m A (N * (2 * m - 1)) 1;
  k (m mod 2) m A (N * (2 * m)) 1.
Definition execute_sph_default (k : kern) (N M : Z) (A : list F) : option (list F) :=
  for_up 2 (M / 2 + 1) (sph_body k N) A.

(** src/drivers.c:111-126 [EXECUTE_SPH] and 432-446 [EXECUTE_DISK] ([permute_disk] is
    [permute_sph], src/ftinternal.h:531-532).  [kd] is the default kernel, [ks] the vector
    kernel, [swp] the column exchange selected at run time; both arrays are returned. *)
Definition sph_simd_body (ks : kern) (N S m : Z) (B : list F) : option (list F) :=
  do B <- ks (m mod 2) m B (N * (2 * m - 1)) S;
  ks ((m + 1) mod 2) (m + 1) B (N * (2 * m - 1 + S)) S.
Definition execute_sph_simd (kd ks : kern) (swp : list F -> Z -> Z -> Z -> option (list F))
    (S N M : Z) (A B : list F) : option (list F * list F) :=
  do A <- warp swp A 0 N M (S / 2);
  do B <- permute_sph A 0 B 0 N M S;
  do B <- for_up 2 ((M mod (2 * S)) / 2 + 1) (sph_body kd N) B;
  do B <- for_upst ((M mod (2 * S) + 1) / 2) (M / 2 + 1) S (sph_simd_body ks N S) B;
  do A <- permute_t_sph A 0 B 0 N M S;
  do A <- warp_t swp A 0 N M (S / 2);
  Some (A, B).

(** src/drivers.c:206-213 [execute_sphv_hi2lo_default], 215-222: columns [2m+1], [2m+2]
    of [A] are columns [2m-1], [2m] of [A + 2N], and [m <= M/2-1] is [m <= (M-2)/2] *)
Definition execute_sphv_default (k : kern) (N M : Z) (A : list F) : option (list F) :=
  for_up 2 (M / 2 - 1 + 1) (fun m A =>
    do A <- k (m mod 2) m A (N * (2 * m + 1)) 1;
    k (m mod 2) m A (N * (2 * m + 2)) 1) A.
(** src/drivers.c:224-239 [EXECUTE_SPHV], with every pointer written relative to [A + 2N],
    [B + 2N] *)
Definition execute_sphv_simd (kd ks : kern) (swp : list F -> Z -> Z -> Z -> option (list F))
    (S N M : Z) (A B : list F) : option (list F * list F) :=
  at_ptr2 (2 * N) (execute_sph_simd kd ks swp S N (M - 2)) A B.

(** src/drivers.c:313-318 [execute_tri_hi2lo_default], 320-325 [execute_tri_lo2hi_default] *)
Definition tri_body (k : kern) (N m : Z) (A : list F) : option (list F) := k 0 m A (N * m) 1.
Definition execute_tri_default (k : kern) (N M : Z) (A : list F) : option (list F) :=
  for_up 1 M (tri_body k N) A.
(** src/drivers.c:327-336 [EXECUTE_TRI] *)
Definition execute_tri_simd (kd ks : kern) (S N M : Z) (A B : list F) : option (list F * list F) :=
  do B <- permute_tri A 0 B 0 N M S;
  do B <- for_up 1 (M mod S) (tri_body kd N) B;
  do B <- for_upst (M mod S) M S (fun m B => ks 0 m B (N * m) S) B;
  do A <- permute_t_tri A 0 B 0 N M S;
  Some (A, B).

(** src/drivers.c:496-501 [execute_rectdisk_hi2lo_default], 503-508 *)
Definition rectdisk_body (k : kern) (N m : Z) (A : list F) : option (list F) :=
  k (m mod 2) m A (N * m) 1.
Definition execute_rectdisk_default (k : kern) (N M : Z) (A : list F) : option (list F) :=
  for_up 2 M (rectdisk_body k N) A.

(** src/drivers.c:510-518 [ft_execute_tet_hi2lo] and 520-528 [ft_execute_tet_lo2hi];
    [kt L m A oA] is the tetrahedral kernel *)
Definition tet_hi2lo_body (k : kern) (kt : Z -> Z -> list F -> Z -> option (list F)) (N L m : Z)
    (A : list F) : option (list F) :=
  do A <- for_up 0 (L - m) (fun l A => k 0 (l + m) A (N * (l + L * m)) 1) A;
  kt L m A (N * L * m).
Definition execute_tet_hi2lo (k : kern) kt (N L M : Z) (A : list F) : option (list F) :=
  for_up 0 M (tet_hi2lo_body k kt N L) A.
Definition tet_lo2hi_body (k : kern) (kt : Z -> Z -> list F -> Z -> option (list F)) (N L m : Z)
    (A : list F) : option (list F) :=
  do A <- kt L m A (N * L * m);
  for_up 0 (L - m) (fun l A => k 0 (l + m) A (N * (l + L * m)) 1) A.
Definition execute_tet_lo2hi (k : kern) kt (N L M : Z) (A : list F) : option (list F) :=
  for_up 0 M (tet_lo2hi_body k kt N L) A.

(** src/drivers.c:676-684 [execute_spinsph_hi2lo_default], 686-694; SSE2 and NEON versions
    697-715, 781-799 have the same text.  One complex entry is two adjacent reals, so
    [A + j] (complex) is offset [2 j]; [k m A oA S] is the kernel call. *)
Definition spin_body (k : Z -> list F -> Z -> Z -> option (list F)) (N m : Z) (A : list F)
  : option (list F) :=
  do A <- k (- m) A (2 * (N * (2 * m - 1))) 1;
  k m A (2 * (N * (2 * m))) 1.
Definition execute_spinsph_default (k : Z -> list F -> Z -> Z -> option (list F)) (N M : Z)
    (A : list F) : option (list F) :=
  do A <- k 0 A 0 1;
  for_up 1 (M / 2 + 1) (spin_body k N) A.
End Drivers.
Arguments kern : clear implicits.

(** ** Chebyshev normalisation *)
Section Norm.
Context {F : Type} `{Arith F}.
(** src/drivers.c:6-14 [chebyshev_normalization_2d] with [s = M_SQRT1_2], [p = M_2_PI], and
    16-24 [chebyshev_normalization_2d_t] with [s = M_SQRT2], [p = M_PI_2] *)
Definition scale_at (v : F) (A : list F) (i : Z) : option (list F) :=
  do x <- zget A i; zset A i (mul x v).
Definition chebyshev_normalization_2d (s p : F) (N M : Z) (A : list F) : option (list F) :=
  do A <- for_up 0 N (fun i A => scale_at s A i) A;
  for_up 0 M (fun j A =>
    do A <- scale_at s A (j * N);
    for_up 0 N (fun i A => scale_at p A (i + j * N)) A) A.
(** src/drivers.c:26-39 [chebyshev_normalization_3d] ([p = M_2_PI_POW_1P5]) and 41-54
    [chebyshev_normalization_3d_t] ([p = M_PI_2_POW_1P5]) *)
Definition chebyshev_normalization_3d (s p : F) (N L M : Z) (A : list F) : option (list F) :=
  do A <- for_up 0 L (fun j A => for_up 0 N (fun i A => scale_at s A (i + j * N)) A) A;
  for_up 0 M (fun k A =>
    do A <- for_up 0 N (fun i A => scale_at s A (i + k * L * N)) A;
    for_up 0 L (fun j A =>
      do A <- scale_at s A ((j + k * L) * N);
      for_up 0 N (fun i A => scale_at p A (i + (j + k * L) * N)) A) A) A.
End Norm.

(** ** Partition of a parallel loop among threads *)
(** src/drivers.c (every [omp parallel] loop, e.g. 96, 121, 333): thread [t] of [T] executes
    the iterations [lo + st*t, lo + st*(t+T), ...] below [hi] *)
Definition thread_iterations (lo hi st T t : Z) : list Z :=
  map (fun k => lo + st * t + Z.of_nat k * (st * T))
      (seq 0 (Z.to_nat ((hi - (lo + st * t) + st * T - 1) / (st * T)))).
(** all iterations in order *)
Definition loop_iterations (lo hi st : Z) : list Z :=
  map (fun k => lo + Z.of_nat k * st) (seq 0 (Z.to_nat ((hi - lo + st - 1) / st))).
