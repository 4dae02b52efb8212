(** * Model of src/fftw.c: synthesis and analysis on tensor-product grids

    FFTW is external code: the execute functions are fields of a record, and the theorems hold
    for every implementation that meets the contract stated in SpecFftw.v (the formulas of the
    FFTW manual).  A plan is the data fixed when it was created: sizes, kinds, direction; the
    planning flags, FFTW's threads and the requirement that the arrays given to the new-array
    execute functions have the alignment of the planned ones are not modelled.  A pointer
    argument is the array with an offset.  TRANS is 'N' ([false]) or 'T'/'C' ([true]).
    The scratch array P->Y is an argument; what it holds afterwards is not returned (every
    function overwrites the entries it reads), and the theorems quantify over its contents.
    An ft_complex is two adjacent entries of the array.  The floating point constants of
    ftinternal.h and math.h are a record of element values; 2.0, 0.5, 0.25 and 0.125 are
    written as quotients of integers. *)
From Coq Require Import ZArith List Bool.
From Verif Require Import Base Arith.
Import ListNotations.
Open Scope Z_scope.

(** fftw3.h fftw_r2r_kind, the kinds used here *)
Inductive kind := REDFT01 | REDFT10 | RODFT01 | RODFT10 | REDFT11.

(** [r2r n howmany stride dist k X o]: fftw_execute_r2r(p, X+o, X+o) with p made by
      fftw_plan_many_r2r(1, {n}, howmany, .., stride, dist, .., stride, dist, {k});
    [r2r2 n0 n1 k0 k1 X]: fftw_execute_r2r(p, X, X), p made by fftw_plan_r2r_2d(n0, n1, .., k0, k1);
    [r2r3 n0 n1 n2 k0 k1 k2 X]: the same with fftw_plan_r2r_3d;
    [c2r n howmany stride Y X]: fftw_execute_dft_c2r(p, Y, X), p made by
      fftw_plan_many_dft_c2r(1, {n}, howmany, .., stride, 1, .., stride, 1): returns the new X;
    [r2c n howmany stride X Y]: fftw_execute_dft_r2c(p, X, Y): returns the new Y;
    [dft back n howmany stride X Y]: fftw_execute_dft(p, X, Y), p made by fftw_plan_many_dft with
      sign FFTW_BACKWARD ([true]) or FFTW_FORWARD: returns the new Y *)
Record fftw F := Fftw {
  r2r : Z -> Z -> Z -> Z -> kind -> list F -> Z -> option (list F);
  r2r2 : Z -> Z -> kind -> kind -> list F -> option (list F);
  r2r3 : Z -> Z -> Z -> kind -> kind -> kind -> list F -> option (list F);
  c2r : Z -> Z -> Z -> list F -> list F -> option (list F);
  r2c : Z -> Z -> Z -> list F -> list F -> option (list F);
  dft : bool -> Z -> Z -> Z -> list F -> list F -> option (list F) }.
Arguments Fftw {F}. Arguments r2r {F}. Arguments r2r2 {F}. Arguments r2r3 {F}. Arguments c2r {F}. Arguments r2c {F}. Arguments dft {F}.

(** ftinternal.h 51-56 and math.h: M_SQRT2, M_SQRT1_2, M_1_4_SQRT_PI, M_4_SQRT_PI, M_1_2_SQRT_PI,
    M_2_SQRT_PI, M_1_2_SQRT_2PI, M_2_SQRT_2PI *)
Record fconst F := Fconst {
  kSQRT2 : F; kSQRT1_2 : F; k1_4SP : F; k4SP : F; k1_2SP : F; k2SP : F; k1_2S2P : F; k2S2P : F }.
Arguments Fconst {F}. Arguments kSQRT2 {F}. Arguments kSQRT1_2 {F}. Arguments k1_4SP {F}. Arguments k4SP {F}.
Arguments k1_2SP {F}. Arguments k2SP {F}. Arguments k1_2S2P {F}. Arguments k2S2P {F}.

(** ft_sphere_fftw_plan, ft_disk_fftw_plan (fftw.c 75-109, 414-448), ft_spinsphere_fftw_plan and
    ft_annulus_fftw_plan: the sizes, the kinds of the first and of the second radial/polar plan, and
    the direction of the azimuthal plan ([true]: HC2R or FFTW_BACKWARD) *)
Record tplan := Tplan { pN : Z; pM : Z; k_even : kind; k_odd : kind; p_back : bool }.

(** fftw.c 111-129 ft_plan_sph_synthesis, ft_plan_sph_analysis, ft_plan_sphv_synthesis, ft_plan_sphv_analysis *)
Definition plan_sph_synthesis (N M : Z) := Tplan N M REDFT01 RODFT01 true.
Definition plan_sph_analysis (N M : Z) := Tplan N M REDFT10 RODFT10 false.
Definition plan_sphv_synthesis (N M : Z) := Tplan N M RODFT01 REDFT01 true.
Definition plan_sphv_analysis (N M : Z) := Tplan N M RODFT10 REDFT10 false.
(** fftw.c 450-458 ft_plan_disk_synthesis, ft_plan_disk_analysis *)
Definition plan_disk_synthesis (N M : Z) := Tplan N M REDFT01 REDFT11 true.
Definition plan_disk_analysis (N M : Z) := Tplan N M REDFT10 REDFT11 false.
(** fftw.c 573-581 ft_plan_annulus_synthesis, ft_plan_annulus_analysis: a single kind for all columns *)
Definition plan_annulus_synthesis (N M : Z) := Tplan N M REDFT01 REDFT01 true.
Definition plan_annulus_analysis (N M : Z) := Tplan N M REDFT10 REDFT10 false.
(** fftw.c 687-695 ft_plan_rectdisk_synthesis, ft_plan_rectdisk_analysis: kind[2] (the second
    variable) is REDFT01 resp. REDFT10, here given by the direction *)
Definition plan_rectdisk_synthesis (N M : Z) := Tplan N M REDFT01 RODFT01 true.
Definition plan_rectdisk_analysis (N M : Z) := Tplan N M REDFT10 RODFT10 false.
(** fftw.c 789-799 ft_plan_spinsph_synthesis, ft_plan_spinsph_analysis *)
Definition plan_spinsph_synthesis (N M S : Z) := if Z.rem S 2 =? 0 then Tplan N M REDFT01 RODFT01 true else Tplan N M RODFT01 REDFT01 true.
Definition plan_spinsph_analysis (N M S : Z) := if Z.rem S 2 =? 0 then Tplan N M REDFT10 RODFT10 false else Tplan N M RODFT10 REDFT10 false.

Section Model.
Context {F : Type} {AF : Arith F}.
Variable FT : fftw F.
Variable K : fconst F.

Definition half : F := div one (ofZ 2).
Definition quarter : F := div one (ofZ 4).
Definition eighth : F := div one (ofZ 8).
(** [X[i] *= c] and [X[i] /= c] *)
Definition mulat (c : F) (i : Z) (X : list F) : option (list F) := do x <- zget X i; zset X i (mul x c).
Definition divat (c : F) (i : Z) (X : list F) : option (list F) := do x <- zget X i; zset X i (div x c).
(** [for (int i = 0; i < n; i++) X[i] *= c;] and the same with [/=] *)
Definition mulfor (n : Z) (c : F) (X : list F) : option (list F) := for_up 0 n (mulat c) X.
Definition divfor (n : Z) (c : F) (X : list F) : option (list F) := for_up 0 n (divat c) X.
(** [for (int j = lo; j < M; j += 4) { X[j*N] *= c; X[(j+1)*N] *= c; }] (fftw.c 134-137 and others) *)
Definition first4 (lo N M : Z) (c : F) (X : list F) : option (list F) :=
  for_upst lo M 4 (fun j X => do X <- mulat c (j * N) X; mulat c ((j + 1) * N) X) X.
(** [for (int j = lo; j < M; j += 4) { X[(j+1)*N-1] *= c; X[(j+2)*N-1] *= c; }] (fftw.c 160-163 and others) *)
Definition last4 (lo N M : Z) (c : F) (X : list F) : option (list F) :=
  for_upst lo M 4 (fun j X => do X <- mulat c ((j + 1) * N - 1) X; mulat c ((j + 2) * N - 1) X) X.

(** fftw.c 40-49 data_r2c *)
Definition data_r2c (N M : Z) (X Y : list F) : option (list F) :=
  do Y <- for_up 0 N (fun i Y => do x <- zget X i; zset Y (2 * i) x) Y;
  for_up 1 (M / 2 + 1) (fun j Y =>
    do Y <- for_up 0 N (fun i Y => do x <- zget X (i + 2 * j * N); zset Y (2 * i + 2 * j * N) x) Y;
    for_up 0 N (fun i Y => do x <- zget X (i + (2 * j - 1) * N); zset Y (2 * i + 1 + 2 * j * N) (opp x)) Y) Y.
(** fftw.c 51-60 data_c2r *)
Definition data_c2r (N M : Z) (X Y : list F) : option (list F) :=
  do X <- for_up 0 N (fun i X => do y <- zget Y (2 * i); zset X i y) X;
  for_up 1 (M / 2 + 1) (fun j X =>
    do X <- for_up 0 N (fun i X => do y <- zget Y (2 * i + 2 * j * N); zset X (i + 2 * j * N) y) X;
    for_up 0 N (fun i X => do y <- zget Y (2 * i + 1 + 2 * j * N); zset X (i + (2 * j - 1) * N) (opp y)) X) X.
(** copy the ft_complex at [q] of [X] to position [p] of [Y] *)
Definition copyc (X : list F) (p q : Z) (Y : list F) : option (list F) :=
  do x <- zget X (2 * q); do Y <- zset Y (2 * p) x; do x <- zget X (2 * q + 1); zset Y (2 * p + 1) x.
(** fftw.c 6-21 colswap *)
Definition colswap (N M : Z) (X Y : list F) : option (list F) :=
  do Y <- for_up 0 N (fun i Y => copyc X i i Y) Y;
  for_up 1 ((M + 1) / 2) (fun j Y =>
    do Y <- for_up 0 N (fun i Y => copyc X (i + j * N) (i + 2 * j * N) Y) Y;
    for_up 0 N (fun i Y => copyc X (i + (M - j) * N) (i + (2 * j - 1) * N) Y) Y) Y.
(** fftw.c 23-38 colswap_t *)
Definition colswap_t (N M : Z) (X Y : list F) : option (list F) :=
  do X <- for_up 0 N (fun i X => copyc Y i i X) X;
  for_up 1 ((M + 1) / 2) (fun j X =>
    do X <- for_up 0 N (fun i X => copyc Y (i + 2 * j * N) (i + j * N) X) X;
    for_up 0 N (fun i X => copyc Y (i + (2 * j - 1) * N) (i + (M - j) * N) X) X) X.

(** the four calls on the columns congruent to 0, 1, 2, 3 modulo 4 (fftw.c 138-141 and others), with
    the plans of 86-96: transforms of length N, (M+3)/4 .. M/4 of them, 4N apart *)
Definition quad_r2r (P : tplan) (X : list F) : option (list F) :=
  do X <- r2r FT (pN P) ((pM P + 3) / 4) 1 (4 * pN P) (k_even P) X 0;
  do X <- r2r FT (pN P) ((pM P + 2) / 4) 1 (4 * pN P) (k_odd P) X (pN P);
  do X <- r2r FT (pN P) ((pM P + 1) / 4) 1 (4 * pN P) (k_odd P) X (2 * pN P);
  r2r FT (pN P) (pM P / 4) 1 (4 * pN P) (k_even P) X (3 * pN P).
(** the azimuthal plan of 98-107: it exists for one direction only *)
Definition run_c2r (P : tplan) (Y X : list F) : option (list F) :=
  if p_back P then c2r FT (pM P) (pN P) (pN P) Y X else None.
Definition run_r2c (P : tplan) (X Y : list F) : option (list F) :=
  if p_back P then None else r2c FT (pM P) (pN P) (pN P) X Y.
(** the two lines [data_r2c(X, P->Y, N, M); fftw_execute_dft_c2r(P->planphi, P->Y, X);] (fftw.c 146-147 and others) *)
Definition back_phi (P : tplan) (N M : Z) (Y X : list F) : option (list F) := do Y <- data_r2c N M X Y; run_c2r P Y X.
(** the two lines [fftw_execute_dft_r2c(P->planphi, X, P->Y); data_c2r(X, P->Y, N, M);] (fftw.c 150-151 and others) *)
Definition forw_phi (P : tplan) (N M : Z) (Y X : list F) : option (list F) := do Y <- run_r2c P X Y; data_c2r N M X Y.

(** fftw.c 131-165 ft_execute_sph_synthesis *)
Definition sph_synthesis (trans : bool) (P : tplan) (Y : list F) (N M : Z) (X : list F) : option (list F) :=
  if trans then
    do X <- forw_phi P N M Y X;
    do X <- mulfor (N * M) (k1_2SP K) X;
    do X <- mulfor N (kSQRT1_2 K) X;
    do X <- quad_r2r P X;
    last4 1 N M half X
  else
    do X <- mulat (ofZ 2) 0 X;
    do X <- first4 3 N M (ofZ 2) X;
    do X <- quad_r2r P X;
    do X <- mulfor (N * M) (k1_4SP K) X;
    do X <- mulfor N (kSQRT2 K) X;
    back_phi P N M Y X.
(** fftw.c 167-201 ft_execute_sph_analysis *)
Definition sph_analysis (trans : bool) (P : tplan) (Y : list F) (N M : Z) (X : list F) : option (list F) :=
  if trans then
    do X <- last4 1 N M (ofZ 2) X;
    do X <- quad_r2r P X;
    do X <- mulfor (N * M) (div (k2SP K) (ofZ (2 * N * M))) X;
    do X <- mulfor N (kSQRT2 K) X;
    back_phi P N M Y X
  else
    do X <- forw_phi P N M Y X;
    do X <- mulfor (N * M) (div (k4SP K) (ofZ (2 * N * M))) X;
    do X <- mulfor N (kSQRT1_2 K) X;
    do X <- quad_r2r P X;
    do X <- mulat half 0 X;
    first4 3 N M half X.
(** fftw.c 203-237 ft_execute_sphv_synthesis *)
Definition sphv_synthesis (trans : bool) (P : tplan) (Y : list F) (N M : Z) (X : list F) : option (list F) :=
  if trans then
    do X <- forw_phi P N M Y X;
    do X <- mulfor (N * M) (k1_2SP K) X;
    do X <- mulfor N (kSQRT1_2 K) X;
    do X <- quad_r2r P X;
    do X <- mulat half (N - 1) X;
    last4 3 N M half X
  else
    do X <- first4 1 N M (ofZ 2) X;
    do X <- quad_r2r P X;
    do X <- mulfor (N * M) (k1_4SP K) X;
    do X <- mulfor N (kSQRT2 K) X;
    back_phi P N M Y X.
(** fftw.c 239-273 ft_execute_sphv_analysis *)
Definition sphv_analysis (trans : bool) (P : tplan) (Y : list F) (N M : Z) (X : list F) : option (list F) :=
  if trans then
    do X <- mulat (ofZ 2) (N - 1) X;
    do X <- last4 3 N M (ofZ 2) X;
    do X <- quad_r2r P X;
    do X <- mulfor (N * M) (div (k2SP K) (ofZ (2 * N * M))) X;
    do X <- mulfor N (kSQRT2 K) X;
    back_phi P N M Y X
  else
    do X <- forw_phi P N M Y X;
    do X <- mulfor (N * M) (div (k4SP K) (ofZ (2 * N * M))) X;
    do X <- mulfor N (kSQRT1_2 K) X;
    do X <- quad_r2r P X;
    first4 1 N M half X.

(** fftw.c 281-290 ft_plan_tri_synthesis/analysis: [back] says which; fftw_plan_r2r_2d(N, M, ..) *)
Definition run_tri (back : bool) (N M : Z) (X : list F) : option (list F) :=
  let k := if back then REDFT01 else REDFT10 in r2r2 FT N M k k X.
(** [for (int j = 0; j < M; j++) X[j*N] *= c;] *)
Definition firstrow (N M : Z) (c : F) (X : list F) : option (list F) := for_up 0 M (fun j => mulat c (j * N)) X.
(** fftw.c 292-311 ft_execute_tri_synthesis; [back] is the direction of the plan *)
Definition tri_synthesis (trans back : bool) (N M : Z) (X : list F) : option (list F) :=
  if (1 <? N) && (1 <? M) then
    if trans then
      do X <- mulfor (N * M) quarter X; run_tri back N M X
    else
      do X <- mulfor N (ofZ 2) X; do X <- firstrow N M (ofZ 2) X; do X <- mulfor (N * M) quarter X; run_tri back N M X
  else Some X.
(** fftw.c 313-332 ft_execute_tri_analysis *)
Definition tri_analysis (trans back : bool) (N M : Z) (X : list F) : option (list F) :=
  if (1 <? N) && (1 <? M) then
    if trans then
      do X <- divfor (N * M) (ofZ (N * M)) X; run_tri back N M X
    else
      do X <- run_tri back N M X; do X <- mulfor N half X; do X <- firstrow N M half X; divfor (N * M) (ofZ (N * M)) X
  else Some X.

(** fftw.c 340-349 ft_plan_tet_synthesis/analysis: fftw_plan_r2r_3d(N, L, M, ..) *)
Definition run_tet (back : bool) (N L M : Z) (X : list F) : option (list F) :=
  let k := if back then REDFT01 else REDFT10 in r2r3 FT N L M k k k X.
(** the three loop nests of fftw.c 354-362 and 381-389 *)
Definition tet_scale (N L M : Z) (c : F) (X : list F) : option (list F) :=
  do X <- for_up 0 L (fun j => for_up 0 N (fun i => mulat c (i + j * N))) X;
  do X <- for_up 0 M (fun k => for_up 0 L (fun j => mulat c ((j + k * L) * N))) X;
  for_up 0 M (fun k => for_up 0 N (fun i => mulat c (i + k * L * N))) X.
(** fftw.c 351-375 ft_execute_tet_synthesis *)
Definition tet_synthesis (trans back : bool) (N L M : Z) (X : list F) : option (list F) :=
  if (1 <? N) && (1 <? L) && (1 <? M) then
    if trans then
      do X <- run_tet back N L M X; mulfor (N * L * M) eighth X
    else
      do X <- tet_scale N L M (ofZ 2) X; do X <- mulfor (N * L * M) eighth X; run_tet back N L M X
  else Some X.
(** fftw.c 377-401 ft_execute_tet_analysis *)
Definition tet_analysis (trans back : bool) (N L M : Z) (X : list F) : option (list F) :=
  if (1 <? N) && (1 <? L) && (1 <? M) then
    if trans then
      do X <- divfor (N * L * M) (ofZ (N * L * M)) X; run_tet back N L M X
    else
      do X <- run_tet back N L M X; do X <- tet_scale N L M half X; divfor (N * L * M) (ofZ (N * L * M)) X
  else Some X.

(** fftw.c 460-490 ft_execute_disk_synthesis *)
Definition disk_synthesis (trans : bool) (P : tplan) (Y : list F) (N M : Z) (X : list F) : option (list F) :=
  if trans then
    do X <- forw_phi P N M Y X;
    do X <- mulfor (N * M) (k1_2SP K) X;
    do X <- mulfor N (kSQRT1_2 K) X;
    quad_r2r P X
  else
    do X <- mulat (ofZ 2) 0 X;
    do X <- first4 3 N M (ofZ 2) X;
    do X <- quad_r2r P X;
    do X <- mulfor (N * M) (k1_4SP K) X;
    do X <- mulfor N (kSQRT2 K) X;
    back_phi P N M Y X.
(** fftw.c 492-522 ft_execute_disk_analysis *)
Definition disk_analysis (trans : bool) (P : tplan) (Y : list F) (N M : Z) (X : list F) : option (list F) :=
  if trans then
    do X <- quad_r2r P X;
    do X <- mulfor (N * M) (div (k2SP K) (ofZ (2 * N * M))) X;
    do X <- mulfor N (kSQRT2 K) X;
    back_phi P N M Y X
  else
    do X <- forw_phi P N M Y X;
    do X <- mulfor (N * M) (div (k4SP K) (ofZ (2 * N * M))) X;
    do X <- mulfor N (kSQRT1_2 K) X;
    do X <- quad_r2r P X;
    do X <- mulat half 0 X;
    first4 3 N M half X.

(** fftw.c 544-553 ft_plan_annulus_with_kind: the weights P->w, with sin, cos of the C library and M_PI as arguments *)
Definition annulus_w (fsin fcos : F -> F) (pi : F) (N : Z) (rho : F) : list F :=
  ztab N (fun n =>
    let t := div (mul (sub (ofZ (N - n)) half) pi) (mul (ofZ 2) (ofZ N)) in
    let ct := fsin t in
    let st := fcos t in
    sqrtA (div (mul (ofZ 2) (add (mul ct ct) (mul (mul (mul rho rho) st) st))) (sub one (mul rho rho)))).
(** fftw.c 557-558 and 587: one transform per column *)
Definition all_r2r (P : tplan) (X : list F) : option (list F) := r2r FT (pN P) (pM P) 1 (pN P) (k_even P) X 0.
(** the loop nest of fftw.c 589-593 and others; [op] is mulat or divat *)
Definition weigh (op : F -> Z -> list F -> option (list F)) (w : list F) (N M : Z) (X : list F) : option (list F) :=
  for_upst 1 M 4 (fun j => for_up 0 N (fun i X =>
    do c <- zget w i; do X <- op c (i + j * N) X; do c <- zget w i; op c (i + (j + 1) * N) X)) X.
(** fftw.c 583-616 ft_execute_annulus_synthesis *)
Definition annulus_synthesis (trans : bool) (P : tplan) (w Y : list F) (N M : Z) (X : list F) : option (list F) :=
  if trans then
    do X <- forw_phi P N M Y X;
    do X <- mulfor (N * M) (k1_2SP K) X;
    do X <- mulfor N (kSQRT1_2 K) X;
    do X <- weigh mulat w N M X;
    all_r2r P X
  else
    do X <- firstrow N M (ofZ 2) X;
    do X <- all_r2r P X;
    do X <- weigh mulat w N M X;
    do X <- mulfor (N * M) (k1_4SP K) X;
    do X <- mulfor N (kSQRT2 K) X;
    back_phi P N M Y X.
(** fftw.c 618-651 ft_execute_annulus_analysis *)
Definition annulus_analysis (trans : bool) (P : tplan) (w Y : list F) (N M : Z) (X : list F) : option (list F) :=
  if trans then
    do X <- all_r2r P X;
    do X <- weigh divat w N M X;
    do X <- mulfor (N * M) (div (k2SP K) (ofZ (2 * N * M))) X;
    do X <- mulfor N (kSQRT2 K) X;
    back_phi P N M Y X
  else
    do X <- forw_phi P N M Y X;
    do X <- mulfor (N * M) (div (k4SP K) (ofZ (2 * N * M))) X;
    do X <- mulfor N (kSQRT1_2 K) X;
    do X <- weigh divat w N M X;
    do X <- all_r2r P X;
    firstrow N M half X.

(** the two calls on the even and odd columns (fftw.c 701-702 and others), with the plans of 671-675 *)
Definition pair_r2r (P : tplan) (X : list F) : option (list F) :=
  do X <- r2r FT (pN P) ((pM P + 1) / 2) 1 (2 * pN P) (k_even P) X 0;
  r2r FT (pN P) (pM P / 2) 1 (2 * pN P) (k_odd P) X (pN P).
(** fftw.c 677-681: the plan in the second variable *)
Definition rows_r2r (P : tplan) (X : list F) : option (list F) :=
  r2r FT (pM P) (pN P) (pN P) 1 (if p_back P then REDFT01 else REDFT10) X 0.
(** [for (int j = lo; j < M; j += 2) X[f j] *= c;] with [f j] = [j*N] resp. [(j+1)*N-1] *)
Definition first2 (N M : Z) (c : F) (X : list F) : option (list F) := for_upst 0 M 2 (fun j => mulat c (j * N)) X.
Definition last2 (N M : Z) (c : F) (X : list F) : option (list F) := for_upst 1 M 2 (fun j => mulat c ((j + 1) * N - 1)) X.
(** fftw.c 697-718 ft_execute_rectdisk_synthesis *)
Definition rectdisk_synthesis (trans : bool) (P : tplan) (N M : Z) (X : list F) : option (list F) :=
  if trans then
    do X <- rows_r2r P X;
    do X <- mulfor (N * M) quarter X;
    do X <- pair_r2r P X;
    last2 N M half X
  else
    do X <- first2 N M (ofZ 2) X;
    do X <- pair_r2r P X;
    do X <- mulfor N (ofZ 2) X;
    do X <- mulfor (N * M) quarter X;
    rows_r2r P X.
(** fftw.c 720-741 ft_execute_rectdisk_analysis *)
Definition rectdisk_analysis (trans : bool) (P : tplan) (N M : Z) (X : list F) : option (list F) :=
  if trans then
    do X <- last2 N M (ofZ 2) X;
    do X <- pair_r2r P X;
    do X <- rows_r2r P X;
    divfor (N * M) (ofZ (N * M)) X
  else
    do X <- rows_r2r P X;
    do X <- divfor (N * M) (ofZ (N * M)) X;
    do X <- mulfor N half X;
    do X <- pair_r2r P X;
    first2 N M half X.

(** multiply the ft_complex at [i] by the real [c] *)
Definition mulatc (c : F) (i : Z) (X : list F) : option (list F) := do X <- mulat c (2 * i) X; mulat c (2 * i + 1) X.
(** fftw.c 803-820 and others *)
Definition first4c (lo N M : Z) (c : F) (X : list F) : option (list F) :=
  for_upst lo M 4 (fun j X => do X <- mulatc c (j * N) X; mulatc c ((j + 1) * N) X) X.
Definition last4c (lo N M : Z) (c : F) (X : list F) : option (list F) :=
  for_upst lo M 4 (fun j X => do X <- mulatc c ((j + 1) * N - 1) X; mulatc c ((j + 2) * N - 1) X) X.
Definition spin_first (S N M : Z) (c : F) (X : list F) : option (list F) :=
  if Z.rem S 2 =? 0 then do X <- mulatc c 0 X; first4c 3 N M c X else first4c 1 N M c X.
Definition spin_last (S N M : Z) (c : F) (X : list F) : option (list F) :=
  if Z.rem S 2 =? 0 then last4c 1 N M c X else do X <- mulatc c (N - 1) X; last4c 3 N M c X.
(** fftw.c 822-829: the eight calls, real and imaginary parts separately, with the plans of 766-776 *)
Definition oct_r2r (P : tplan) (X : list F) : option (list F) :=
  let run h k o X := do X <- r2r FT (pN P) h 2 (8 * pN P) k X o; r2r FT (pN P) h 2 (8 * pN P) k X (o + 1) in
  do X <- run ((pM P + 3) / 4) (k_even P) 0 X;
  do X <- run ((pM P + 2) / 4) (k_odd P) (2 * pN P) X;
  do X <- run ((pM P + 1) / 4) (k_odd P) (4 * pN P) X;
  run (pM P / 4) (k_even P) (6 * pN P) X.
(** fftw.c 832-833 and 836-837 *)
Definition back_phic (P : tplan) (N M : Z) (Y X : list F) : option (list F) :=
  do Y <- colswap N M X Y; dft FT (p_back P) (pM P) (pN P) (pN P) Y X.
Definition forw_phic (P : tplan) (N M : Z) (Y X : list F) : option (list F) :=
  do Y <- dft FT (p_back P) (pM P) (pN P) (pN P) X Y; colswap_t N M X Y.
(** fftw.c 801-868 ft_execute_spinsph_synthesis *)
Definition spinsph_synthesis (trans : bool) (P : tplan) (S : Z) (Y : list F) (N M : Z) (X : list F) : option (list F) :=
  if trans then
    do X <- forw_phic P N M Y X;
    do X <- mulfor (2 * N * M) (k1_2S2P K) X;
    do X <- oct_r2r P X;
    spin_last S N M half X
  else
    do X <- spin_first S N M (ofZ 2) X;
    do X <- oct_r2r P X;
    do X <- mulfor (2 * N * M) (k1_2S2P K) X;
    back_phic P N M Y X.
(** fftw.c 870-937 ft_execute_spinsph_analysis *)
Definition spinsph_analysis (trans : bool) (P : tplan) (S : Z) (Y : list F) (N M : Z) (X : list F) : option (list F) :=
  if trans then
    do X <- spin_last S N M (ofZ 2) X;
    do X <- oct_r2r P X;
    do X <- mulfor (2 * N * M) (div (k2S2P K) (ofZ (2 * N * M))) X;
    back_phic P N M Y X
  else
    do X <- forw_phic P N M Y X;
    do X <- mulfor (2 * N * M) (div (k2S2P K) (ofZ (2 * N * M))) X;
    do X <- oct_r2r P X;
    spin_first S N M half X.
End Model.
