(** * Model of the harmonic transforms of src/drivers.c (833-1361): sph2fourier, tri2cheb, ...

    BLAS is external code: the three routines used are fields of a record, and the theorems
    hold for every implementation that meets the BLAS contract stated in SpecHarm.v.
    A pointer argument is the array with an offset.  TRANS is 'N' ([false]) or 'T' ([true]);
    for any other character the C code does nothing.  Only the default hi2lo/lo2hi drivers are
    called here; C11 shows that the vectorised sphere, disk and triangle drivers leave the same
    coefficients.  Forming the address A+3*N when M < 3 (no access follows) is not modelled. *)
From Coq Require Import ZArith List Bool.
From Verif Require Import Base Arith MRotations MDrivers MBanded.
Import ListNotations.
Open Scope Z_scope.

(** [dtrmm_left trans n k T ldt B o ldb]: cblas_dtrmm(ColMajor, Left, Upper, trans, NonUnit, n, k, 1.0, T, ldt, B+o, ldb);
    [dtrmm_right trans n k T ldt B o ldb]: the same with Right;
    [dtrmv trans n T ldt x o inc]: cblas_dtrmv(ColMajor, Upper, trans, NonUnit, n, T, ldt, x+o, inc);
    [ztrmm_left trans n k T ldt B o ldb]: cblas_ztrmm(ColMajor, Left, Upper, trans, NonUnit, n, k, &one, T, ldt, B+o, ldb),
    where an ft_complex is two adjacent entries of the array and [o] counts ft_complex *)
Record blas F := Blas {
  dtrmm_left : bool -> Z -> Z -> list F -> Z -> list F -> Z -> Z -> option (list F);
  dtrmm_right : bool -> Z -> Z -> list F -> Z -> list F -> Z -> Z -> option (list F);
  dtrmv : bool -> Z -> list F -> Z -> list F -> Z -> Z -> option (list F);
  ztrmm_left : bool -> Z -> Z -> list F -> Z -> list F -> Z -> Z -> option (list F) }.
Arguments Blas {F}. Arguments dtrmm_left {F}. Arguments dtrmm_right {F}. Arguments dtrmv {F}. Arguments ztrmm_left {F}.

Section Model.
Context {F : Type} {AF : Arith F}.
Variable BL : blas F.

(** the four calls on the columns congruent to 0, 1, 2, 3 modulo 4, e.g. drivers.c 836-839 *)
Definition quad (trans : bool) (T0 T1 T2 T3 : list F) (N M : Z) (A : list F) : option (list F) :=
  do A <- dtrmm_left BL trans N ((M + 3) / 4) T0 N A 0 (4 * N);
  do A <- dtrmm_left BL trans N ((M + 2) / 4) T1 N A N (4 * N);
  do A <- dtrmm_left BL trans N ((M + 1) / 4) T2 N A (2 * N) (4 * N);
  dtrmm_left BL trans N (M / 4) T3 N A (3 * N) (4 * N).

(** drivers.c 833-848 ft_execute_sph2fourier; 989-1004 ft_execute_disk2cxf has the same text with
    the disk drivers; [hi], [lo] are the calls ft_execute_*_hi2lo(P->RP[0], A, P->B, M) and lo2hi *)
Definition sph2fourier (hi lo : list F -> option (list F)) (P0 P1 : list F) (trans : bool) (N M : Z) (A : list F) : option (list F) :=
  if trans then do A <- quad true P0 P1 P1 P0 N M A; lo A
  else do A <- hi A; quad false P0 P1 P1 P0 N M A.
(** 850-865 ft_execute_fourier2sph, 1006-1021 ft_execute_cxf2disk *)
Definition fourier2sph (hi lo : list F -> option (list F)) (Q0 Q1 : list F) (trans : bool) (N M : Z) (A : list F) : option (list F) :=
  if trans then do A <- hi A; quad true Q0 Q1 Q1 Q0 N M A
  else do A <- quad false Q0 Q1 Q1 Q0 N M A; lo A.
(** 867-882 ft_execute_sphv2fourier *)
Definition sphv2fourier (hi lo : list F -> option (list F)) (P0 P1 : list F) (trans : bool) (N M : Z) (A : list F) : option (list F) :=
  if trans then do A <- quad true P1 P0 P0 P1 N M A; lo A
  else do A <- hi A; quad false P1 P0 P0 P1 N M A.
(** 884-899 ft_execute_fourier2sphv *)
Definition fourier2sphv (hi lo : list F -> option (list F)) (Q0 Q1 : list F) (trans : bool) (N M : Z) (A : list F) : option (list F) :=
  if trans then do A <- hi A; quad true Q1 Q0 Q0 Q1 N M A
  else do A <- quad false Q1 Q0 Q0 Q1 N M A; lo A.

(** [if (c) call] *)
Definition guard (c : bool) (f : list F -> option (list F)) (A : list F) : option (list F) :=
  if c then f A else Some A.
(** 921-938 ft_execute_tri2cheb; [c0] is (beta+gamma != -1.5) || (alpha != -0.5), [c1] is
    (gamma != -0.5) || (beta != -0.5); [norm2], [norm2t] are chebyshev_normalization_2d and .._2d_t *)
Definition tri2cheb (hi lo norm2 : list F -> option (list F)) (c0 c1 : bool) (P0 P1 : list F) (trans : bool) (N M : Z) (A : list F) : option (list F) :=
  if trans then
    do A <- norm2 A;
    do A <- guard c1 (fun A => dtrmm_right BL false N M P1 N A 0 N) A;
    do A <- guard c0 (fun A => dtrmm_left BL true N M P0 N A 0 N) A;
    lo A
  else
    do A <- hi A;
    do A <- guard c0 (fun A => dtrmm_left BL false N M P0 N A 0 N) A;
    do A <- guard c1 (fun A => dtrmm_right BL true N M P1 N A 0 N) A;
    norm2 A.
(** 940-957 ft_execute_cheb2tri *)
Definition cheb2tri (hi lo norm2t : list F -> option (list F)) (c0 c1 : bool) (Q0 Q1 : list F) (trans : bool) (N M : Z) (A : list F) : option (list F) :=
  if trans then
    do A <- hi A;
    do A <- guard c0 (fun A => dtrmm_left BL true N M Q0 N A 0 N) A;
    do A <- guard c1 (fun A => dtrmm_right BL false N M Q1 N A 0 N) A;
    norm2t A
  else
    do A <- norm2t A;
    do A <- guard c1 (fun A => dtrmm_right BL true N M Q1 N A 0 N) A;
    do A <- guard c0 (fun A => dtrmm_left BL false N M Q0 N A 0 N) A;
    lo A.

(** 1143-1156 ft_execute_rectdisk2cheb *)
Definition rectdisk2cheb (hi lo : list F -> option (list F)) (P0 P1 P2 : list F) (trans : bool) (N M : Z) (A : list F) : option (list F) :=
  if trans then
    do A <- dtrmm_right BL false N M P2 N A 0 N;
    do A <- dtrmm_left BL true N ((M + 1) / 2) P0 N A 0 (2 * N);
    do A <- dtrmm_left BL true N (M / 2) P1 N A N (2 * N);
    lo A
  else
    do A <- hi A;
    do A <- dtrmm_left BL false N ((M + 1) / 2) P0 N A 0 (2 * N);
    do A <- dtrmm_left BL false N (M / 2) P1 N A N (2 * N);
    dtrmm_right BL true N M P2 N A 0 N.
(** 1158-1171 ft_execute_cheb2rectdisk *)
Definition cheb2rectdisk (hi lo : list F -> option (list F)) (Q0 Q1 Q2 : list F) (trans : bool) (N M : Z) (A : list F) : option (list F) :=
  if trans then
    do A <- hi A;
    do A <- dtrmm_left BL true N ((M + 1) / 2) Q0 N A 0 (2 * N);
    do A <- dtrmm_left BL true N (M / 2) Q1 N A N (2 * N);
    dtrmm_right BL false N M Q2 N A 0 N
  else
    do A <- dtrmm_right BL true N M Q2 N A 0 N;
    do A <- dtrmm_left BL false N ((M + 1) / 2) Q0 N A 0 (2 * N);
    do A <- dtrmm_left BL false N (M / 2) Q1 N A N (2 * N);
    lo A.

(** ft_mpmm / ft_mpsm called on B+o: the routine [f] on each of K columns *)
Definition columns_from (f : list F -> Z -> option (list F)) (o ld K : Z) (B : list F) : option (list F) :=
  for_up 0 K (fun j B => f B (o + j * ld)) B.
Definition quadm (f g : list F -> Z -> option (list F)) (N M : Z) (A : list F) : option (list F) :=
  do A <- columns_from f 0 (4 * N) ((M + 3) / 4) A;
  do A <- columns_from g N (4 * N) ((M + 2) / 4) A;
  do A <- columns_from g (2 * N) (4 * N) ((M + 1) / 4) A;
  columns_from f (3 * N) (4 * N) (M / 4) A.
(** 1073-1096 ft_execute_ann2cxf; the modified plans of ft_plan_ann2cxf have nv = 0, so K is not used:
    R0, R1 are MP[0]->R, MP[1]->R *)
Definition ann2cxf (hi lo : list F -> option (list F)) (R0 R1 : tbanded F) (P0 : list F) (trans : bool) (N M : Z) (A : list F) : option (list F) :=
  if trans then
    do A <- dtrmm_left BL true N M P0 N A 0 N;
    do A <- quadm (mpmv true 0 R0 R0) (mpmv true 0 R1 R1) N M A;
    lo A
  else
    do A <- hi A;
    do A <- quadm (mpmv false 0 R0 R0) (mpmv false 0 R1 R1) N M A;
    dtrmm_left BL false N M P0 N A 0 N.
(** 1098-1121 ft_execute_cxf2ann *)
Definition cxf2ann (hi lo : list F -> option (list F)) (R0 R1 : tbanded F) (Q0 : list F) (trans : bool) (N M : Z) (A : list F) : option (list F) :=
  if trans then
    do A <- hi A;
    do A <- quadm (mpsv true 0 R0 R0) (mpsv true 0 R1 R1) N M A;
    dtrmm_left BL true N M Q0 N A 0 N
  else
    do A <- dtrmm_left BL false N M Q0 N A 0 N;
    do A <- quadm (mpsv false 0 R0 R0) (mpsv false 0 R1 R1) N M A;
    lo A.

(** the three loops of the tetrahedral transforms: 1200-1202, 1203-1205, 1206-1209.
    The third applies a triangular matrix of order N to every line of stride N*L. *)
Definition dim1 (trans : bool) (T : list F) (N L M : Z) (A : list F) : option (list F) :=
  for_up 0 M (fun m A => dtrmm_left BL trans N L T N A (N * L * m) N) A.
Definition dim2 (trans : bool) (T : list F) (N L M : Z) (A : list F) : option (list F) :=
  for_up 0 M (fun m A => dtrmm_right BL trans N L T N A (N * L * m) N) A.
Definition dim3 (trans : bool) (T : list F) (N L : Z) (A : list F) : option (list F) :=
  for_up 0 N (fun n A => for_up 0 L (fun l A => dtrmv BL trans N T N A (n + N * l) (N * L)) A) A.
(** 1197-1226 ft_execute_tet2cheb; [norm3] is chebyshev_normalization_3d *)
Definition tet2cheb (hi lo norm3 : list F -> option (list F)) (c0 c1 c2 : bool) (P0 P1 P2 : list F) (trans : bool) (N L M : Z) (A : list F) : option (list F) :=
  if trans then
    do A <- norm3 A;
    do A <- guard c2 (dim3 false P2 N L) A;
    do A <- guard c1 (dim2 false P1 N L M) A;
    do A <- guard c0 (dim1 true P0 N L M) A;
    lo A
  else
    do A <- hi A;
    do A <- guard c0 (dim1 false P0 N L M) A;
    do A <- guard c1 (dim2 true P1 N L M) A;
    do A <- guard c2 (dim3 true P2 N L) A;
    norm3 A.
(** 1228-1257 ft_execute_cheb2tet *)
Definition cheb2tet (hi lo norm3t : list F -> option (list F)) (c0 c1 c2 : bool) (Q0 Q1 Q2 : list F) (trans : bool) (N L M : Z) (A : list F) : option (list F) :=
  if trans then
    do A <- hi A;
    do A <- guard c0 (dim1 true Q0 N L M) A;
    do A <- guard c1 (dim2 false Q1 N L M) A;
    do A <- guard c2 (dim3 false Q2 N L) A;
    norm3t A
  else
    do A <- norm3t A;
    do A <- guard c2 (dim3 true Q2 N L) A;
    do A <- guard c1 (dim2 true Q1 N L M) A;
    do A <- guard c0 (dim1 false Q0 N L M) A;
    lo A.

(** 1278-1287 (ft_plan_spinsph2fourier): a real n*n array copied into a zeroed ft_complex array *)
Definition complexify (n : Z) (P : list F) : option (list F) :=
  for_up 0 (n * n) (fun i C => do x <- zget P i; zset C (2 * i) x) (zmake (2 * (n * n)) zero).
(** 1300-1303, 1306-1309.: the four ztrmm calls *)
Definition zquad (trans : bool) (T0 T1 T2 T3 : list F) (N M : Z) (A : list F) : option (list F) :=
  do A <- ztrmm_left BL trans N ((M + 3) / 4) T0 N A 0 (4 * N);
  do A <- ztrmm_left BL trans N ((M + 2) / 4) T1 N A N (4 * N);
  do A <- ztrmm_left BL trans N ((M + 1) / 4) T2 N A (2 * N) (4 * N);
  ztrmm_left BL trans N (M / 4) T3 N A (3 * N) (4 * N).
Definition zquad_s (s : Z) (trans : bool) (P1 P2 : list F) (N M : Z) (A : list F) : option (list F) :=
  if Z.rem s 2 =? 0 then zquad trans P1 P2 P2 P1 N M A else zquad trans P2 P1 P1 P2 N M A.
(** 1295-1327 ft_execute_spinsph2fourier *)
Definition spinsph2fourier (hi lo : list F -> option (list F)) (s : Z) (P1 P2 : list F) (trans : bool) (N M : Z) (A : list F) : option (list F) :=
  if trans then do A <- zquad_s s true P1 P2 N M A; lo A
  else do A <- hi A; zquad_s s false P1 P2 N M A.
(** 1329-1361 ft_execute_fourier2spinsph *)
Definition fourier2spinsph (hi lo : list F -> option (list F)) (s : Z) (Q1 Q2 : list F) (trans : bool) (N M : Z) (A : list F) : option (list F) :=
  if trans then do A <- hi A; zquad_s s true Q1 Q2 N M A
  else do A <- zquad_s s false Q1 Q2 N M A; lo A.
End Model.
