(** * Model of src/rotations/ (kernels) and of the planners in src/rotations.c

    - [rot S C x y] is what one Givens kernel computes from the two entries it loads:
      [givens] for apply_givens, [givens_t] for apply_givens_t.  Kernels take it as a
      parameter so that the same model covers the plain, SIMD and FMA versions.
    - Tables are arrays [rp_s], [rp_c] read through the packed-index macros.
    - [int] overflow is not modelled here (see C47). *)
From Coq Require Import ZArith List.
From Verif Require Import Base Arith MPermute.
Open Scope Z_scope.

(** src/ftinternal.h / fasttransforms.h [ft_rotation_plan] *)
Record rotplan (F : Type) := RotPlan { rp_n : Z; rp_s : list F; rp_c : list F }.
Arguments RotPlan {F}. Arguments rp_n {F}. Arguments rp_s {F}. Arguments rp_c {F}.

(** src/rotations/rotations.h:6-7  [s(l,m) = s[l+(m)*(2*n+1-(m))/2]].  The product
    [m*(2n+1-m)] is non-negative whenever it is evaluated, so C's [/] is [Z.div]. *)
Definition sidx (n l m : Z) : Z := l + (m * (2 * n + 1 - m)) / 2.
(** src/rotations/rotations.h:9-10  [sd(l,m) = s[l+(m)*n-((m)/2)*(((m)+1)/2)]] *)
Definition sdidx (n l m : Z) : Z := l + m * n - (m / 2) * ((m + 1) / 2).
(** src/rotations/rotations.h:12-13 [s1(l,m)], 15-16 [s2(l,j,m)] *)
Definition s1idx (n l m : Z) : Z := l + m * n.
Definition s2idx (n ass l j m : Z) : Z := l + j * n + m * ass * n.

Section Rot.
Context {F : Type} `{Arith F}.

(** src/rotations/rotations_default.c:3-8 [apply_givens] (values) *)
Definition givens (S C x y : F) : F * F :=
  (add (mul C x) (mul S y), sub (mul C y) (mul S x)).
(** src/rotations/rotations_default.c:10-15 [apply_givens_t] (values) *)
Definition givens_t (S C x y : F) : F * F :=
  (sub (mul C x) (mul S y), add (mul C y) (mul S x)).

Variable rot : F -> F -> F -> F -> F * F.

(** the memory effect of apply_givens / apply_givens_t on the entries [ix], [iy] *)
Definition apply_rot (S C : F) (A : list F) (ix iy : Z) : option (list F) :=
  do x <- zget A ix;
  do y <- zget A iy;
  do A <- zset A ix (fst (rot S C x y));
  zset A iy (snd (rot S C x y)).

(** one table lookup [RP->s(..)], [RP->c(..)] *)
Definition tab (RP : rotplan F) (i : Z) : option (F * F) :=
  do s <- zget (rp_s RP) i; do c <- zget (rp_c RP) i; Some (s, c).

(** src/rotations/rotations_default.c:31-36 [kernel_sph_hi2lo_default] (rot = givens);
    identical text: 73-78 [kernel_rectdisk_hi2lo_default] *)
Definition kernel_sph_hi2lo (RP : rotplan F) (m1 m2 : Z) (A : list F) (oA S : Z) : option (list F) :=
  let n := rp_n RP in
  for_dnst (m2 - 2) m1 2 (fun j A =>
    for_dn (n - 3 - j) 0 (fun k A =>
      do sc <- tab RP (sidx n k j);
      apply_rot (fst sc) (snd sc) A (oA + k * S) (oA + (k + 2) * S)) A) A.
(** src/rotations/rotations_default.c:38-43 [kernel_sph_lo2hi_default] (rot = givens_t);
    identical text: 80-85 [kernel_rectdisk_lo2hi_default] *)
Definition kernel_sph_lo2hi (RP : rotplan F) (m1 m2 : Z) (A : list F) (oA S : Z) : option (list F) :=
  let n := rp_n RP in
  for_upst m1 m2 2 (fun j A =>
    for_up 0 (n - 3 - j + 1) (fun k A =>
      do sc <- tab RP (sidx n k j);
      apply_rot (fst sc) (snd sc) A (oA + k * S) (oA + (k + 2) * S)) A) A.
(** src/rotations/rotations_default.c:45-50 [kernel_tri_hi2lo_default] *)
Definition kernel_tri_hi2lo (RP : rotplan F) (m1 m2 : Z) (A : list F) (oA S : Z) : option (list F) :=
  let n := rp_n RP in
  for_dn (m2 - 1) m1 (fun j A =>
    for_dn (n - 2 - j) 0 (fun k A =>
      do sc <- tab RP (sidx n k j);
      apply_rot (fst sc) (snd sc) A (oA + k * S) (oA + (k + 1) * S)) A) A.
(** src/rotations/rotations_default.c:52-57 [kernel_tri_lo2hi_default] *)
Definition kernel_tri_lo2hi (RP : rotplan F) (m1 m2 : Z) (A : list F) (oA S : Z) : option (list F) :=
  let n := rp_n RP in
  for_up m1 m2 (fun j A =>
    for_up 0 (n - 2 - j + 1) (fun k A =>
      do sc <- tab RP (sidx n k j);
      apply_rot (fst sc) (snd sc) A (oA + k * S) (oA + (k + 1) * S)) A) A.
(** src/rotations/rotations_default.c:59-64 [kernel_disk_hi2lo_default] *)
Definition kernel_disk_hi2lo (RP : rotplan F) (m1 m2 : Z) (A : list F) (oA S : Z) : option (list F) :=
  let n := rp_n RP in
  for_dnst (m2 - 2) m1 2 (fun j A =>
    for_dn (n - 2 - (j + 1) / 2) 0 (fun k A =>
      do sc <- tab RP (sdidx n k j);
      apply_rot (fst sc) (snd sc) A (oA + k * S) (oA + (k + 1) * S)) A) A.
(** src/rotations/rotations_default.c:66-71 [kernel_disk_lo2hi_default] *)
Definition kernel_disk_lo2hi (RP : rotplan F) (m1 m2 : Z) (A : list F) (oA S : Z) : option (list F) :=
  let n := rp_n RP in
  for_upst m1 m2 2 (fun j A =>
    for_up 0 (n - 2 - (j + 1) / 2 + 1) (fun k A =>
      do sc <- tab RP (sdidx n k j);
      apply_rot (fst sc) (snd sc) A (oA + k * S) (oA + (k + 1) * S)) A) A.

(** ** SIMD kernels: macros of src/rotations/rotations.h.  [VS] lanes, block size [L]. *)

(** lanewise rotation of two vector registers *)
Definition vrot1 (S C : F) (x y : list F) : list F :=
  map (fun p => fst (rot S C (fst p) (snd p))) (combine x y).
Definition vrot2 (S C : F) (x y : list F) : list F :=
  map (fun p => snd (rot S C (fst p) (snd p))) (combine x y).
(** e.g. src/rotations/rotations_SSE2.c:4-9 [apply_givens_SSE2] *)
Definition vapply_rot (VS : nat) (S C : F) (A : list F) (ix iy : Z) : option (list F) :=
  do x <- vload VS A ix;
  do y <- vload VS A iy;
  do A <- vstore A ix (vrot1 S C x y);
  vstore A iy (vrot2 S C x y).

(** [for (l = 0; l < K; l++) X[l] = VLOAD(A+(b+l)*S)] *)
Definition load_block (VS : nat) (K : Z) (A : list F) (oA S b : Z) : option (list (list F)) :=
  for_up 0 K (fun l X => do v <- vload VS A (oA + (b + l) * S); zset X l v) (zmake K nil).
(** [for (l = 0; l < K; l++) VSTORE(A+(b+l)*S, X[l])] *)
Definition store_block (K : Z) (X : list (list F)) (A : list F) (oA S b : Z) : option (list F) :=
  for_up 0 K (fun l A => do v <- zget X l; vstore A (oA + (b + l) * S) v) A.
(** one register rotation: [T1 = X[a]; T2 = X[b]; X[a] = ..; X[b] = ..] *)
Definition reg_rot (s c : F) (X : list (list F)) (a b : Z) : option (list (list F)) :=
  do t1 <- zget X a;
  do t2 <- zget X b;
  do X <- zset X a (vrot1 s c t1 t2);
  zset X b (vrot2 s c t1 t2).

(** src/rotations/rotations.h:18-58 [KERNEL_SPH_HI2LO] *)
Definition KERNEL_SPH_HI2LO (VS : nat) (L : Z) (RP : rotplan F) (m1 m2 : Z) (A : list F) (oA S : Z)
  : option (list F) :=
  let n := rp_n RP in
  do A <- for_up 1 (Z.of_nat VS / 2) (fun s A =>
    do A <- kernel_sph_hi2lo RP m2 (m2 + 2 * s) A (oA + 2 * s) S;
    kernel_sph_hi2lo RP m2 (m2 + 2 * s) A (oA + 2 * s + 1) S) A;
  do A <- for_dnst (m2 - 2) (m1 + 2 * L - 2) (2 * L) (fun j A =>
    do A <- for_dnst (n - 3 - j) (L - 1) L (fun k A =>
      do X <- load_block VS (3 * L) A oA S (k + 1 - L);
      do X <- for_up 0 L (fun lj X =>
        for_up 0 L (fun lk X =>
          let row := k - lk + 2 * lj in
          let col := j - 2 * lj in
          do sc <- tab RP (sidx n row col);
          reg_rot (fst sc) (snd sc) X (L - 1 - lk + 2 * lj) (L + 1 - lk + 2 * lj)) X) X;
      store_block (3 * L) X A oA S (k + 1 - L)) A;
    let k := end_dnst (n - 3 - j) (L - 1) L in
    for_up 0 L (fun lj A =>
      for_dn (k + 2 * lj) 0 (fun lk A =>
        let row := lk in
        let col := j - 2 * lj in
        do sc <- tab RP (sidx n row col);
        vapply_rot VS (fst sc) (snd sc) A (oA + row * S) (oA + (row + 2) * S)) A) A) A;
  for_dnst (end_dnst (m2 - 2) (m1 + 2 * L - 2) (2 * L)) m1 2 (fun j A =>
    for_dn (n - 3 - j) 0 (fun k A =>
      do sc <- tab RP (sidx n k j);
      vapply_rot VS (fst sc) (snd sc) A (oA + k * S) (oA + (k + 2) * S)) A) A.

(** src/rotations/rotations.h:60-100 [KERNEL_SPH_LO2HI].  [(n-L-2-j)%L] is C's
    truncated remainder. *)
Definition KERNEL_SPH_LO2HI (VS : nat) (L : Z) (RP : rotplan F) (m1 m2 : Z) (A : list F) (oA S : Z)
  : option (list F) :=
  let n := rp_n RP in
  let jend := m2 - 2 * L - 2 * Z.of_nat VS + 4 in
  do A <- for_upst m1 jend (2 * L) (fun j A =>
    let k0 := 2 * L + Z.rem (n - L - 2 - j) L in
    do A <- for_up 0 L (fun lj A =>
      for_up 0 (k0 - 2 * lj) (fun lk A =>
        let row := lk in
        let col := j + 2 * lj in
        do sc <- tab RP (sidx n row col);
        vapply_rot VS (fst sc) (snd sc) A (oA + row * S) (oA + (row + 2) * S)) A) A;
    for_upst k0 (n - L - 2 - j + 1) L (fun k A =>
      do X <- load_block VS (3 * L) A oA S (k + 2 - 2 * L);
      do X <- for_up 0 L (fun lj X =>
        for_up 0 L (fun lk X =>
          let row := k + lk - 2 * lj in
          let col := j + 2 * lj in
          do sc <- tab RP (sidx n row col);
          reg_rot (fst sc) (snd sc) X (2 * L - 2 + lk - 2 * lj) (2 * L + lk - 2 * lj)) X) X;
      store_block (3 * L) X A oA S (k + 2 - 2 * L)) A) A;
  do A <- for_upst (end_upst m1 jend (2 * L)) m2 2 (fun j A =>
    for_up 0 (n - 3 - j + 1) (fun k A =>
      do sc <- tab RP (sidx n k j);
      vapply_rot VS (fst sc) (snd sc) A (oA + k * S) (oA + (k + 2) * S)) A) A;
  for_up 1 (Z.of_nat VS / 2) (fun s A =>
    do A <- kernel_sph_lo2hi RP m2 (m2 + 2 * s) A (oA + 2 * s) S;
    kernel_sph_lo2hi RP m2 (m2 + 2 * s) A (oA + 2 * s + 1) S) A.

(** src/rotations/rotations.h:102-140 [KERNEL_TRI_HI2LO] *)
Definition KERNEL_TRI_HI2LO (VS : nat) (L : Z) (RP : rotplan F) (m1 m2 : Z) (A : list F) (oA S : Z)
  : option (list F) :=
  let n := rp_n RP in
  do A <- for_up 1 (Z.of_nat VS) (fun s A => kernel_tri_hi2lo RP m2 (m2 + s) A (oA + s) S) A;
  do A <- for_dnst (m2 - 1) (m1 + L - 1) L (fun j A =>
    do A <- for_dnst (n - 2 - j) (L - 1) L (fun k A =>
      do X <- load_block VS (2 * L) A oA S (k + 1 - L);
      do X <- for_up 0 L (fun lj X =>
        for_up 0 L (fun lk X =>
          let row := k - lk + lj in
          let col := j - lj in
          do sc <- tab RP (sidx n row col);
          reg_rot (fst sc) (snd sc) X (L - 1 - lk + lj) (L - lk + lj)) X) X;
      store_block (2 * L) X A oA S (k + 1 - L)) A;
    let k := end_dnst (n - 2 - j) (L - 1) L in
    for_up 0 L (fun lj A =>
      for_dn (k + lj) 0 (fun lk A =>
        let row := lk in
        let col := j - lj in
        do sc <- tab RP (sidx n row col);
        vapply_rot VS (fst sc) (snd sc) A (oA + row * S) (oA + (row + 1) * S)) A) A) A;
  for_dn (end_dnst (m2 - 1) (m1 + L - 1) L) m1 (fun j A =>
    for_dn (n - 2 - j) 0 (fun k A =>
      do sc <- tab RP (sidx n k j);
      vapply_rot VS (fst sc) (snd sc) A (oA + k * S) (oA + (k + 1) * S)) A) A.

(** src/rotations/rotations.h:142-180 [KERNEL_TRI_LO2HI] *)
Definition KERNEL_TRI_LO2HI (VS : nat) (L : Z) (RP : rotplan F) (m1 m2 : Z) (A : list F) (oA S : Z)
  : option (list F) :=
  let n := rp_n RP in
  let jend := m2 - L - Z.of_nat VS + 2 in
  do A <- for_upst m1 jend L (fun j A =>
    let k0 := L + Z.rem (n - L - 1 - j) L in
    do A <- for_up 0 L (fun lj A =>
      for_up 0 (k0 - lj) (fun lk A =>
        let row := lk in
        let col := j + lj in
        do sc <- tab RP (sidx n row col);
        vapply_rot VS (fst sc) (snd sc) A (oA + row * S) (oA + (row + 1) * S)) A) A;
    for_upst k0 (n - L - 1 - j + 1) L (fun k A =>
      do X <- load_block VS (2 * L) A oA S (k + 1 - L);
      do X <- for_up 0 L (fun lj X =>
        for_up 0 L (fun lk X =>
          let row := k + lk - lj in
          let col := j + lj in
          do sc <- tab RP (sidx n row col);
          reg_rot (fst sc) (snd sc) X (L - 1 + lk - lj) (L + lk - lj)) X) X;
      store_block (2 * L) X A oA S (k + 1 - L)) A) A;
  do A <- for_up (end_upst m1 jend L) m2 (fun j A =>
    for_up 0 (n - 2 - j + 1) (fun k A =>
      do sc <- tab RP (sidx n k j);
      vapply_rot VS (fst sc) (snd sc) A (oA + k * S) (oA + (k + 1) * S)) A) A;
  for_up 1 (Z.of_nat VS) (fun s A => kernel_tri_lo2hi RP m2 (m2 + s) A (oA + s) S) A.

(** src/rotations/rotations.h:182-222 [KERNEL_DISK_HI2LO] *)
Definition KERNEL_DISK_HI2LO (VS : nat) (L : Z) (RP : rotplan F) (m1 m2 : Z) (A : list F) (oA S : Z)
  : option (list F) :=
  let n := rp_n RP in
  do A <- for_up 1 (Z.of_nat VS / 2) (fun s A =>
    do A <- kernel_disk_hi2lo RP m2 (m2 + 2 * s) A (oA + 2 * s) S;
    kernel_disk_hi2lo RP m2 (m2 + 2 * s) A (oA + 2 * s + 1) S) A;
  do A <- for_dnst (m2 - 2) (m1 + 2 * L - 1) (2 * L) (fun j A =>
    do A <- for_dnst (n - 2 - (j + 1) / 2) (L - 1) L (fun k A =>
      do X <- load_block VS (2 * L) A oA S (k + 1 - L);
      do X <- for_up 0 L (fun lj X =>
        for_up 0 L (fun lk X =>
          let row := k - lk + lj in
          let col := j - 2 * lj in
          do sc <- tab RP (sdidx n row col);
          reg_rot (fst sc) (snd sc) X (L - 1 - lk + lj) (L - lk + lj)) X) X;
      store_block (2 * L) X A oA S (k + 1 - L)) A;
    let k := end_dnst (n - 2 - (j + 1) / 2) (L - 1) L in
    for_up 0 L (fun lj A =>
      for_dn (k + lj) 0 (fun lk A =>
        let row := lk in
        let col := j - 2 * lj in
        do sc <- tab RP (sdidx n row col);
        vapply_rot VS (fst sc) (snd sc) A (oA + row * S) (oA + (row + 1) * S)) A) A) A;
  for_dnst (end_dnst (m2 - 2) (m1 + 2 * L - 1) (2 * L)) m1 2 (fun j A =>
    for_dn (n - 2 - (j + 1) / 2) 0 (fun k A =>
      do sc <- tab RP (sdidx n k j);
      vapply_rot VS (fst sc) (snd sc) A (oA + k * S) (oA + (k + 1) * S)) A) A.

(** src/rotations/rotations.h:224-264 [KERNEL_DISK_LO2HI] *)
Definition KERNEL_DISK_LO2HI (VS : nat) (L : Z) (RP : rotplan F) (m1 m2 : Z) (A : list F) (oA S : Z)
  : option (list F) :=
  let n := rp_n RP in
  let jend := m2 - 2 * L - 2 * Z.of_nat VS + 4 in
  do A <- for_upst m1 jend (2 * L) (fun j A =>
    let k0 := L + Z.rem (n - L - 1 - (j + 1) / 2) L in
    do A <- for_up 0 L (fun lj A =>
      for_up 0 (k0 - lj) (fun lk A =>
        let row := lk in
        let col := j + 2 * lj in
        do sc <- tab RP (sdidx n row col);
        vapply_rot VS (fst sc) (snd sc) A (oA + row * S) (oA + (row + 1) * S)) A) A;
    for_upst k0 (n - L - 1 - (j + 1) / 2 + 1) L (fun k A =>
      do X <- load_block VS (2 * L) A oA S (k + 1 - L);
      do X <- for_up 0 L (fun lj X =>
        for_up 0 L (fun lk X =>
          let row := k + lk - lj in
          let col := j + 2 * lj in
          do sc <- tab RP (sdidx n row col);
          reg_rot (fst sc) (snd sc) X (L - 1 + lk - lj) (L + lk - lj)) X) X;
      store_block (2 * L) X A oA S (k + 1 - L)) A) A;
  do A <- for_upst (end_upst m1 jend (2 * L)) m2 2 (fun j A =>
    for_up 0 (n - 2 - (j + 1) / 2 + 1) (fun k A =>
      do sc <- tab RP (sdidx n k j);
      vapply_rot VS (fst sc) (snd sc) A (oA + k * S) (oA + (k + 1) * S)) A) A;
  for_up 1 (Z.of_nat VS / 2) (fun s A =>
    do A <- kernel_disk_lo2hi RP m2 (m2 + 2 * s) A (oA + 2 * s) S;
    kernel_disk_lo2hi RP m2 (m2 + 2 * s) A (oA + 2 * s + 1) S) A.

(** ** Tetrahedron kernels: rotations between whole columns of an [n]-by-[L] slice *)
(** src/rotations.c:297-308 [ft_kernel_tet_hi2lo] (rot = givens) *)
Definition kernel_tet_hi2lo (RP : rotplan F) (L m : Z) (A : list F) (oA : Z) : option (list F) :=
  let n := rp_n RP in
  for_dn (m - 1) 0 (fun j A =>
    for_dn (L - 2 - j) 0 (fun l A =>
      do sc <- tab RP (sidx n l j);
      for_up 0 n (fun k A =>
        apply_rot (fst sc) (snd sc) A (oA + k + n * l) (oA + k + n * (l + 1))) A) A) A.
(** src/rotations.c:310-321 [ft_kernel_tet_lo2hi] (rot = givens_t) *)
Definition kernel_tet_lo2hi (RP : rotplan F) (L m : Z) (A : list F) (oA : Z) : option (list F) :=
  let n := rp_n RP in
  for_up 0 m (fun j A =>
    for_up 0 (L - 2 - j + 1) (fun l A =>
      do sc <- tab RP (sidx n l j);
      for_up 0 n (fun k A =>
        apply_rot (fst sc) (snd sc) A (oA + k + n * l) (oA + k + n * (l + 1))) A) A) A.

(** src/rotations.c:323-430: the SSE2, AVX and AVX512F versions.  [Vs] is the list of
    vector widths tried in order ([[2;1]], [[4;2;1]], [[8;4;2;1]]): the loop for width
    [V] runs from [n - n % V'] ([V'] the previous width; 0 for the first) to
    [n - n % V] in steps of [V].  The scalar remainder (width 1) is [apply_givens].
    [nb = VALIGN(n)] is the padded column length, a parameter here. *)
Fixpoint tet_lanes (Vs : list nat) (n lo : Z) (s c : F) (A : list F) (ox oy : Z) : option (list F) :=
  match Vs with
  | nil => Some A
  | cons V Vs =>
      let hi := n - Z.rem n (Z.of_nat V) in
      do A <- for_upst lo hi (Z.of_nat V) (fun k A => vapply_rot V s c A (ox + k) (oy + k)) A;
      tet_lanes Vs n hi s c A ox oy
  end.
Definition kernel_tet_hi2lo_simd (Vs : list nat) (nb : Z) (RP : rotplan F) (L m : Z) (A : list F) (oA : Z) : option (list F) :=
  let n := rp_n RP in
  for_dn (m - 1) 0 (fun j A =>
    for_dn (L - 2 - j) 0 (fun l A =>
      do sc <- tab RP (sidx n l j);
      tet_lanes Vs n 0 (fst sc) (snd sc) A (oA + nb * l) (oA + nb * (l + 1))) A) A.
Definition kernel_tet_lo2hi_simd (Vs : list nat) (nb : Z) (RP : rotplan F) (L m : Z) (A : list F) (oA : Z) : option (list F) :=
  let n := rp_n RP in
  for_up 0 m (fun j A =>
    for_up 0 (L - 2 - j + 1) (fun l A =>
      do sc <- tab RP (sidx n l j);
      tet_lanes Vs n 0 (fst sc) (snd sc) A (oA + nb * l) (oA + nb * (l + 1))) A) A.
End Rot.

(** ** Spin-weighted spherical harmonics.  A complex array is the array of its doubles
    (real part first); entry [k] of a column of stride [S] complex numbers is at
    [oA + k*(2*S)]. *)
Record spinplan (F : Type) := SpinPlan
  { sp_n : Z; sp_s : Z; sp_s1 : list F; sp_c1 : list F; sp_s2 : list F; sp_c2 : list F }.
Arguments SpinPlan {F}. Arguments sp_n {F}. Arguments sp_s {F}. Arguments sp_s1 {F}.
Arguments sp_c1 {F}. Arguments sp_s2 {F}. Arguments sp_c2 {F}.

Section Spin.
Context {F : Type} `{Arith F}.
Definition tab2 (s c : list F) (i : Z) : option (F * F) :=
  do x <- zget s i; do y <- zget c i; Some (x, y).
(** src/rotations/rotations_default.c:17-29 [apply_givensc], [apply_givens_tc] *)
Definition apply_rotc (rot : F -> F -> F -> F -> F * F) (s c : F) (A : list F) (ix iy : Z) : option (list F) :=
  do A <- apply_rot rot s c A ix iy;
  apply_rot rot s c A (ix + 1) (iy + 1).

Variables (rot rot_t : F -> F -> F -> F -> F * F).
(** [ap rot s c A ix iy] is one complex rotation: [apply_rotc] for the default kernel
    (src/rotations/rotations_default.c), [vapply_rot 2] for SSE2 (rotations_SSE2.c). *)
Variable ap : (F -> F -> F -> F -> F * F) -> F -> F -> list F -> Z -> Z -> option (list F).

(** src/rotations/rotations_default.c:87-101 [kernel_spinsph_hi2lo_default];
    rotations_SSE2.c:40-55 [kernel_spinsph_hi2lo_SSE2] *)
Definition kernel_spinsph_hi2lo (SRP : spinplan F) (m : Z) (A : list F) (oA S : Z) : option (list F) :=
  let n := sp_n SRP in let s := sp_s SRP in
  let ass := Z.abs s in let am := Z.abs m in
  let dm := Z.abs (am - ass) in
  let r := if 0 <=? m * s then rot else rot_t in
  do A <- for_dn (Z.min am ass - 1) 0 (fun j A =>
    for_dn (n - 2 - dm - j) 0 (fun k A =>
      do sc <- tab2 (sp_s2 SRP) (sp_c2 SRP) (s2idx n ass k j dm);
      ap r (fst sc) (snd sc) A (oA + k * (2 * S)) (oA + (k + 1) * (2 * S))) A) A;
  for_dnst (dm - 2) (Z.rem (am + ass) 2) 2 (fun j A =>
    for_dn (n - 3 - j) 0 (fun k A =>
      do sc <- tab2 (sp_s1 SRP) (sp_c1 SRP) (s1idx n k j);
      ap rot (fst sc) (snd sc) A (oA + k * (2 * S)) (oA + (k + 2) * (2 * S))) A) A.
(** src/rotations/rotations_default.c:103-117 [kernel_spinsph_lo2hi_default];
    rotations_SSE2.c:56-69 [kernel_spinsph_lo2hi_SSE2] *)
Definition kernel_spinsph_lo2hi (SRP : spinplan F) (m : Z) (A : list F) (oA S : Z) : option (list F) :=
  let n := sp_n SRP in let s := sp_s SRP in
  let ass := Z.abs s in let am := Z.abs m in
  let dm := Z.abs (am - ass) in
  let r := if 0 <=? m * s then rot_t else rot in
  do A <- for_upst (Z.rem (am + ass) 2) (dm - 2 + 1) 2 (fun j A =>
    for_up 0 (n - 3 - j + 1) (fun k A =>
      do sc <- tab2 (sp_s1 SRP) (sp_c1 SRP) (s1idx n k j);
      ap rot_t (fst sc) (snd sc) A (oA + k * (2 * S)) (oA + (k + 2) * (2 * S))) A) A;
  for_up 0 (Z.min am ass) (fun j A =>
    for_up 0 (n - 2 - dm - j + 1) (fun k A =>
      do sc <- tab2 (sp_s2 SRP) (sp_c2 SRP) (s2idx n ass k j dm);
      ap r (fst sc) (snd sc) A (oA + k * (2 * S)) (oA + (k + 1) * (2 * S))) A) A.
End Spin.

(** ** Planners.  [malloc]ed tables start with junk [junk]; every product is computed in
    [int] or [double] in C and in the arithmetic of [F] here (for the integer-valued
    formulas see C47 about the range in which the two agree). *)
Section Plans.
Context {F : Type} `{Arith F}.
Variable junk : F.
(** the common loop nest: [for m < M; for l < cnt m; s(l,m) = ..; c(l,m) = ..] *)
Definition fill (M : Z) (cnt : Z -> Z) (ix : Z -> Z -> Z) (fs fc : Z -> Z -> F)
  (sc : list F * list F) : option (list F * list F) :=
  for_up 0 M (fun m sc =>
    for_up 0 (cnt m) (fun l sc =>
      do s <- zset (fst sc) (ix l m) (fs l m);
      do c <- zset (snd sc) (ix l m) (fc l m);
      Some (s, c)) sc) sc.
(** sqrt(num/den) *)
Definition sq (num den : F) : F := sqrtA (div num den).

(** src/rotations.c:116-134 [ft_plan_rotsphere] *)
Definition plan_rotsphere (n : Z) : option (rotplan F) :=
  let nums l := ofZ ((l + 1) * (l + 2)) in
  let numc l m := ofZ ((2 * m + 2) * (2 * l + 2 * m + 5)) in
  let den l m := ofZ ((l + 2 * m + 3) * (l + 2 * m + 4)) in
  do sc <- fill n (fun m => n - m) (sidx n)
    (fun l m => sq (nums l) (den l m)) (fun l m => sq (numc l m) (den l m))
    (zmake (n * (n + 1) / 2) junk, zmake (n * (n + 1) / 2) junk);
  Some (RotPlan n (fst sc) (snd sc)).
(** src/rotations.c:143-161 [ft_plan_rottriangle] *)
Definition plan_rottriangle (n : Z) (alpha beta gamma : F) : option (rotplan F) :=
  let nums l := mul (ofZ (l + 1)) (add (add (ofZ l) alpha) one) in
  let numc l m := mul (add (add (add (ofZ (2 * m)) beta) gamma) (ofZ 2))
                      (add (add (add (add (ofZ (2 * l + 2 * m)) alpha) beta) gamma) (ofZ 4)) in
  let den l m := mul (add (add (add (ofZ (l + 2 * m)) beta) gamma) (ofZ 3))
                     (add (add (add (add (ofZ (l + 2 * m)) alpha) beta) gamma) (ofZ 3)) in
  do sc <- fill n (fun m => n - m) (sidx n)
    (fun l m => sq (nums l) (den l m)) (fun l m => sq (numc l m) (den l m))
    (zmake (n * (n + 1) / 2) junk, zmake (n * (n + 1) / 2) junk);
  Some (RotPlan n (fst sc) (snd sc)).
(** src/rotations.c:173-191 [ft_plan_rotdisk] *)
Definition plan_rotdisk (n : Z) (alpha beta : F) : option (rotplan F) :=
  let nums l := mul (ofZ (l + 1)) (add (add (ofZ l) beta) one) in
  let numc l m := mul (add (add (ofZ m) alpha) one)
                      (add (add (add (ofZ (2 * l + m)) alpha) beta) (ofZ 3)) in
  let den l m := mul (add (add (ofZ (l + m)) alpha) (ofZ 2))
                     (add (add (add (ofZ (l + m)) alpha) beta) (ofZ 2)) in
  do sc <- fill (2 * n - 1) (fun m => n - (m + 1) / 2) (sdidx n)
    (fun l m => opp (sq (nums l) (den l m))) (fun l m => sq (numc l m) (den l m))
    (zmake (n * n) junk, zmake (n * n) junk);
  Some (RotPlan n (fst sc) (snd sc)).
(** src/rotations.c:270-288 [ft_plan_rotrectdisk] *)
Definition plan_rotrectdisk (n : Z) (beta : F) : option (rotplan F) :=
  let b2 := mul (ofZ 2) beta in
  let nums l := ofZ ((l + 1) * (l + 2)) in
  let numc l m := mul (add (add (ofZ (2 * m)) b2) (ofZ 3)) (add (add (ofZ (2 * l + 2 * m)) b2) (ofZ 6)) in
  let den l m := mul (add (add (ofZ (l + 2 * m)) b2) (ofZ 4)) (add (add (ofZ (l + 2 * m)) b2) (ofZ 5)) in
  do sc <- fill n (fun m => n - m) (sidx n)
    (fun l m => sq (nums l) (den l m)) (fun l m => sq (numc l m) (den l m))
    (zmake (n * (n + 1) / 2) junk, zmake (n * (n + 1) / 2) junk);
  Some (RotPlan n (fst sc) (snd sc)).
(** src/rotations.c:445-477 [ft_plan_rotspinsphere] ([calloc]: tables start at zero) *)
Definition plan_rotspinsphere (n s : Z) : option (spinplan F) :=
  let ass := Z.abs s in
  let nums1 l := ofZ ((l + 1) * (l + 2)) in
  let numc1 l m := ofZ ((2 * m + 2) * (2 * l + 2 * m + 5)) in
  let den1 l m := ofZ ((l + 2 * m + 3) * (l + 2 * m + 4)) in
  do t1 <- fill n (fun m => n - m) (s1idx n)
    (fun l m => sq (nums1 l) (den1 l m)) (fun l m => sq (numc1 l m) (den1 l m))
    (zmake (n * n) zero, zmake (n * n) zero);
  let nums2 l m := ofZ ((l + 1) * (l + m + 1)) in
  let numc2 l j m := ofZ ((2 * j + m + 1) * (2 * l + 2 * j + 2 * m + 3)) in
  let den2 l j m := ofZ ((l + 2 * j + m + 2) * (l + 2 * j + 2 * m + 2)) in
  do t2 <- for_up 0 n (fun m sc =>
    fill ass (fun j => n - m - j) (fun l j => s2idx n ass l j m)
      (fun l j => sq (nums2 l m) (den2 l j m)) (fun l j => sq (numc2 l j m) (den2 l j m)) sc)
    (zmake (ass * n * n) zero, zmake (ass * n * n) zero);
  Some (SpinPlan n s (fst t1) (snd t1) (fst t2) (snd t2)).
End Plans.
