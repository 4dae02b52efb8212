(** * Model of the allocations and frees of the harmonic, vector, isometry and fftw plans

    As in MLife.v, only the memory blocks are modelled.  Whether gamma is zero in the annulus plans is
    the argument [g0]. *)
From Coq Require Import ZArith List Bool.
From Verif Require Import SpecHeap MHeap MLife MLife2.
Import ListNotations.
Open Scope Z_scope.
Open Scope prog_scope.

(** ** Rotations: src/rotations.c *)
Record rotplan := RotPlan { rp_self : Z; rp_s : Z; rp_c : Z; rp_n : Z }.
(** 6-10 *)
Definition destroy_rotplan (P : rotplan) : prog unit :=
  freef (rp_self P) (rp_s P);; freef (rp_self P) (rp_c P);; free (rp_self P).
(** 116-133, 143-160, 270-287: plan_rotsphere, plan_rottriangle, plan_rotrectdisk *)
Definition plan_rot_half (n : Z) : prog rotplan :=
  s <- malloc (n * (n + 1) / 2);; c <- malloc (n * (n + 1) / 2);; self <- new;; ret (RotPlan self s c n).
(** 173-190: plan_rotdisk *)
Definition plan_rotdisk (n : Z) : prog rotplan :=
  s <- malloc (n * n);; c <- malloc (n * n);; self <- new;; ret (RotPlan self s c n).
(** 206-219 and 236-249: one step of the loops; QR->R is lent to P and taken back *)
Definition annulus_step (P : Z) (s c : Z) (JP : symtri) : prog symtri :=
  QR <- st_qrfact JP;; use (sq_self QR);; use s;; use c;; use P;;
  use (tb_self (sq_R QR));;
  JP2 <- jacobi_similarity (Z.min (st_n JP) (tb_n (sq_R QR)));;
  destroy_symtri JP;; use (sq_self QR);; destroy_stqr QR;; ret JP2.
Fixpoint annulus_loop (k : nat) (P s c : Z) (JP : symtri) : prog symtri :=
  match k with O => ret JP | S k => JP <- annulus_step P s c JP;; annulus_loop k P s c JP end.
(** 194-260 *)
Definition plan_rotannulus (g0 : bool) (n : Z) : prog rotplan :=
  s <- malloc (n * n);; c <- malloc (n * n);;
  (if g0 then
     P <- new;;
     XP <- op_multiplication (n + 1) (n + 1);; JP <- convert_banded_symtri XP;; use (st_self JP);;
     JP <- annulus_loop (Z.to_nat n) P s c JP;;
     destroy_symtri JP;;
     XP <- op_multiplication (n + 1) (n + 1);; JP <- convert_banded_symtri XP;; use (st_self JP);;
     XP <- op_multiplication (n + 1) (n + 1);; use (bd_self XP);;
     PR <- convert_banded XP;; use P;; use (tb_self PR);; use (st_self JP);;
     JP1 <- jacobi_similarity (Z.min (st_n JP) (tb_n PR));;
     destroy_symtri JP;; use P;; destroy_tbanded PR;;
     JP <- annulus_loop (Z.to_nat (n - 1)) P s c JP1;;
     destroy_symtri JP;; free P
   else ret tt);;
  self <- new;; ret (RotPlan self s c n).
Record spinrot := SpinRot { sr_self : Z; sr_s1 : Z; sr_c1 : Z; sr_s2 : Z; sr_c2 : Z; sr_n : Z }.
(** 431-437 *)
Definition destroy_spinrot (P : spinrot) : prog unit :=
  freef (sr_self P) (sr_s1 P);; freef (sr_self P) (sr_c1 P);; freef (sr_self P) (sr_s2 P);; freef (sr_self P) (sr_c2 P);;
  free (sr_self P).
(** 445-477 *)
Definition plan_rotspinsphere (n s : Z) : prog spinrot :=
  let as_ := Z.abs s in
  s1 <- malloc (n * n);; c1 <- malloc (n * n);; s2 <- malloc (as_ * n * n);; c2 <- malloc (as_ * n * n);;
  self <- new;; ret (SpinRot self s1 c1 s2 c2 n).

(** ** Harmonic plans: src/drivers.c *)
(** the arrays of pointers RP, MP, P and Pinv are an address and the list of the entries; MP is only
    written by the annulus plan with gamma zero *)
Record harmonic := Harmonic
  { hp_self : Z; hp_RP : Z; hp_rots : list rotplan; hp_MP : option (Z * list modplan); hp_B : Z;
    hp_P : Z; hp_Ps : list Z; hp_Pinv : Z; hp_Pinvs : list Z; hp_NRP : Z; hp_NMP : Z; hp_NP : Z }.
(** 802-810: the i-th entries of P and Pinv are freed together *)
Fixpoint free_pairs (self pp pi : Z) (P Pinv : list Z) (k : nat) : prog unit :=
  match k, P, Pinv with
  | O, _, _ => ret tt
  | S k, p :: P, q :: Pinv => use self;; use pp;; free p;; use self;; use pi;; free q;; free_pairs self pp pi P Pinv k
  | S k, _, _ => ub
  end.
(** 793-816 *)
Definition destroy_harmonic (P : harmonic) : prog unit :=
  let self := hp_self P in
  use self;;
  (if 0 <? hp_NRP P then
     each (hp_NRP P) (fun R => use self;; use (hp_RP P);; destroy_rotplan R) (hp_rots P);; freef self (hp_RP P)
   else ret tt);;
  use self;;
  (if 0 <? hp_NMP P then
     MP <- field (hp_MP P);;
     each (hp_NMP P) (fun R => use self;; use (fst MP);; destroy_modplan R) (snd MP);; freef self (fst MP)
   else ret tt);;
  freef self (hp_B P);;
  (if 0 <? hp_NP P then
     free_pairs self (hp_P P) (hp_Pinv P) (hp_Ps P) (hp_Pinvs P) (Z.to_nat (hp_NP P));;
     freef self (hp_P P);; freef self (hp_Pinv P)
   else ret tt);;
  free self.
(** the part common to the planners with one rotation plan: an array RP of one entry, B of size szB, and
    the lists of plans of P and Pinv *)
Definition plan_harmonic1 (rot : prog rotplan) (szB : Z) (Ps Pinvs : list (prog Z)) : prog harmonic :=
  self <- new;; RP <- malloc 1;; R <- rot;; use self;; use RP;; B <- malloc szB;;
  let NP := Z.of_nat (length Ps) in
  P <- malloc NP;; Pl <- (fix all (l : list (prog Z)) := match l with [] => ret [] | f :: l => p <- f;; use P;; r <- all l;; ret (p :: r) end) Ps;;
  Pinv <- malloc NP;; Ql <- (fix all (l : list (prog Z)) := match l with [] => ret [] | f :: l => p <- f;; use Pinv;; r <- all l;; ret (p :: r) end) Pinvs;;
  use self;; ret (Harmonic self RP [R] None B P Pl Pinv Ql 1 0 NP).
(** 818-833 *)
Definition plan_sph2fourier (n : Z) : prog harmonic :=
  plan_harmonic1 (plan_rot_half n) (n * (2 * n - 1))
    [plan_dense Legendre_Chebyshev n; plan_dense Ultraspherical n]
    [plan_dense Legendre_Chebyshev n; plan_dense Ultraspherical n].
(** 900-918 *)
Definition plan_tri2cheb (n : Z) : prog harmonic :=
  plan_harmonic1 (plan_rot_half n) (n * n)
    [plan_dense Jacobi n; plan_dense Jacobi n] [plan_dense Jacobi n; plan_dense Jacobi n].
(** 957-984 *)
Definition plan_disk2cxf (n : Z) : prog harmonic :=
  plan_harmonic1 (plan_rotdisk n) (n * (4 * n - 3))
    [plan_dense_scaled false n; plan_dense Jacobi n] [plan_dense_scaled false n; plan_dense Jacobi n].
(** 1122-1141; plan_ultraspherical_to_chebyshev(1, 0, ...) rescales once, transforms.c 188-212 *)
Definition plan_rectdisk2cheb (n : Z) : prog harmonic :=
  plan_harmonic1 (plan_rot_half n) (n * n)
    [plan_dense_scaled2 true false n; plan_dense Ultraspherical n; plan_dense_scaled2 true false n]
    [plan_dense_scaled2 true false n; plan_dense Ultraspherical n; plan_dense_scaled2 true false n].
(** 1023-1075 *)
Definition plan_ann2cxf (g0 : bool) (n : Z) : prog harmonic :=
  self <- new;; RP <- malloc 1;; R <- plan_rotannulus g0 n;; use RP;; use self;;
  MP <- (if g0 then
           MP <- malloc 2;; M0 <- new;; use MP;; R0 <- create_I_tbanded n 0;; use M0;;
           U <- op_multiplication n n;; use (bd_self U);; M1 <- new;; use MP;; R1 <- convert_banded U;; use M1;; use self;;
           ret (Some (MP, [ModPlan M0 None R0 n 0 0; ModPlan M1 None R1 n 1 0]))
         else use self;; ret None);;
  B <- malloc (n * (4 * n - 3));;
  P <- malloc 1;; P0 <- plan_dense_scaled false n;; use P;;
  Pinv <- malloc 1;; Q0 <- plan_dense_scaled false n;; use Pinv;;
  use self;; ret (Harmonic self RP [R] MP B P [P0] Pinv [Q0] 1 (if g0 then 2 else 0) 1).
(** 1173-1195 *)
Definition plan_tet2cheb (n : Z) : prog harmonic :=
  self <- new;; RP <- malloc 2;; R0 <- plan_rot_half n;; use RP;; R1 <- plan_rot_half n;; use RP;; use self;;
  B <- malloc (n * n * n);;
  P <- malloc 3;; P0 <- plan_dense Jacobi n;; use P;; P1 <- plan_dense Jacobi n;; use P;; P2 <- plan_dense Jacobi n;; use P;;
  Pinv <- malloc 3;; Q0 <- plan_dense Jacobi n;; use Pinv;; Q1 <- plan_dense Jacobi n;; use Pinv;; Q2 <- plan_dense Jacobi n;; use Pinv;;
  use self;; ret (Harmonic self RP [R0; R1] None B P [P0; P1; P2] Pinv [Q0; Q1; Q2] 2 0 3).
Record spinharm := SpinHarm { sh_self : Z; sh_SRP : spinrot; sh_B : Z; sh_P1 : Z; sh_P2 : Z; sh_P1inv : Z; sh_P2inv : Z }.
(** 1259-1267 *)
Definition destroy_spinharm (P : spinharm) : prog unit :=
  let self := sh_self P in
  use self;; destroy_spinrot (sh_SRP P);; freef self (sh_B P);; freef self (sh_P1 P);; freef self (sh_P2 P);;
  freef self (sh_P1inv P);; freef self (sh_P2inv P);; free self.
(** 1269-1297 *)
Definition plan_spinsph2fourier (n s : Z) : prog spinharm :=
  self <- new;; SRP <- plan_rotspinsphere n s;; use self;; B <- malloc (n * (2 * n - 1));;
  P1 <- plan_dense Legendre_Chebyshev n;; P2 <- plan_dense Ultraspherical n;;
  P1inv <- plan_dense Legendre_Chebyshev n;; P2inv <- plan_dense Ultraspherical n;;
  Q1 <- malloc (n * n);; Q2 <- malloc (n * n);; Q1inv <- malloc (n * n);; Q2inv <- malloc (n * n);;
  use P1;; use P2;; use P1inv;; use P2inv;;
  free P1;; free P2;; free P1inv;; free P2inv;; use self;;
  ret (SpinHarm self SRP B Q1 Q2 Q1inv Q2inv).

(** ** Isometries of the sphere: src/isometries.c *)
Record steigen := STEigen { se_self : Z; se_A : Z; se_B : Z; se_C : Z; se_lambda : Z }.
(** tridiagonal_source.c 18-24 *)
Definition destroy_steigen (F : steigen) : prog unit :=
  freef (se_self F) (se_A F);; freef (se_self F) (se_B F);; freef (se_self F) (se_C F);; freef (se_self F) (se_lambda F);;
  free (se_self F).
(** tridiagonal_source.c 347-371 *)
Definition st_symmetric_eig (T : symtri) (lambda : Z) : prog steigen :=
  use (st_self T);; let n := st_n T in
  A <- malloc n;; B <- malloc n;; C <- malloc n;; self <- new;; l <- malloc n;; use lambda;; ret (STEigen self A B C l).
Record partial_iso := PartialIso { pi_self : Z; pi_F11 : steigen; pi_F21 : steigen; pi_F12 : steigen; pi_F22 : steigen; pi_l : Z }.
(** 310-316 *)
Definition destroy_partial_iso (F : partial_iso) : prog unit :=
  let self := pi_self F in
  use self;; destroy_steigen (pi_F11 F);; use self;; destroy_steigen (pi_F21 F);;
  use self;; destroy_steigen (pi_F12 F);; use self;; destroy_steigen (pi_F22 F);; free self.
(** 324-431 *)
Definition plan_partial_iso (l : Z) : prog partial_iso :=
  let n11 := l / 2 in let n21 := (l + 1) / 2 in let n12 := (l + 1) / 2 in let n22 := (l + 2) / 2 in
  Y11 <- new_symtri n11;; l11 <- malloc n11;; F11 <- st_symmetric_eig Y11 l11;;
  Y21 <- new_symtri n21;; l21 <- malloc n21;; F21 <- st_symmetric_eig Y21 l21;;
  Y12 <- new_symtri n12;; l12 <- malloc n12;; F12 <- st_symmetric_eig Y12 l12;;
  Y22 <- new_symtri n22;; l22 <- malloc n22;; F22 <- st_symmetric_eig Y22 l22;;
  free l11;; free l21;; free l12;; free l22;;
  destroy_symtri Y11;; destroy_symtri Y21;; destroy_symtri Y12;; destroy_symtri Y22;;
  self <- new;; ret (PartialIso self F11 F21 F12 F22 l).
Record iso := Iso { is_self : Z; is_F : Z; is_parts : list partial_iso; is_n : Z }.
(** 318-322: the array F is not freed *)
Definition destroy_iso (F : iso) : prog unit :=
  use (is_self F);;
  each (is_n F - 2) (fun P => use (is_self F);; use (is_F F);; destroy_partial_iso P) (is_parts F);;
  free (is_self F).
(** 433-440 *)
Definition plan_sph_isometry (n : Z) : prog iso :=
  self <- new;; F <- malloc (n - 2);; l <- tabulate 2 n (fun l => P <- plan_partial_iso l;; use self;; use F;; ret P);;
  use self;; ret (Iso self F l n).

(** ** Vector calculus on the sphere: src/helmholtzhodge.c *)
Record gradplan := GradPlan { gp_self : Z; gp_B : Z; gp_T : Z; gp_l : list (banded * tbanded); gp_n : Z }.
(** 40-48 *)
Definition destroy_gradplan (P : gradplan) : prog unit :=
  let self := gp_self P in
  use self;;
  each (gp_n P) (fun BT => use self;; use (gp_B P);; destroy_banded (fst BT);; use self;; use (gp_T P);; destroy_tbanded (snd BT)) (gp_l P);;
  freef self (gp_B P);; freef self (gp_T P);; free self.
(** 50-62, with 4-38 *)
Definition plan_sph_gradient (n : Z) : prog gradplan :=
  B <- malloc n;; T <- malloc n;;
  l <- tabulate 1 (n + 1) (fun m => b <- alloc_banded (n + 1 - m) (n + 1 - m) 1 1;; use B;; t <- alloc_tbanded (n + 1 - m) 2;; use T;; ret (b, t));;
  self <- new;; ret (GradPlan self B T l n).
Record hhplan := HHPlan { hh_self : Z; hh_T : Z; hh_F : Z; hh_X : Z; hh_l : list (tbanded * bqr); hh_n : Z }.
(** 94-103 *)
Definition destroy_hhplan (P : hhplan) : prog unit :=
  let self := hh_self P in
  use self;;
  each (hh_n P) (fun TF => use self;; use (hh_T P);; destroy_tbanded (fst TF);; use self;; use (hh_F P);; destroy_bqr (snd TF)) (hh_l P);;
  freef self (hh_T P);; freef self (hh_F P);; freef self (hh_X P);; free self.
(** 127-143, with 105-125 *)
Definition plan_sph_helmholtzhodge (n : Z) : prog hhplan :=
  T <- malloc n;; F <- malloc n;;
  l <- tabulate 1 (n + 1) (fun m =>
         t <- alloc_tbanded (n + 1 - m) 2;; use T;; A <- alloc_banded (2 * n + 4 - 2 * m) (2 * n + 2 - 2 * m) 2 2;;
         f <- banded_fact false A;; use F;; destroy_banded A;; ret (t, f));;
  self <- new;; X <- malloc (2 * n + 2);; ret (HHPlan self T F X l n).

(** ** Plans for synthesis and analysis: src/fftw.c

    An fftw plan is one block that fftw_destroy_plan frees; a planner may return NULL, which
    fftw_destroy_plan ignores. *)
Definition fftw_plan : prog Z := k <- pick;; malloc k.
(** the pointer fields of a plan: fftw plans and arrays *)
Record fplan := FPlan { fp_self : Z; fp_ptrs : list Z }.
(** 65-73, 276-279, 335-338, 404-412, 524-530, 653-658, 743-751: every field, then the struct *)
Definition destroy_fplan (P : fplan) : prog unit :=
  (fix loop (l : list Z) : prog unit := match l with [] => ret tt | p :: l => freef (fp_self P) p;; loop l end) (fp_ptrs P);;
  free (fp_self P).
(** 75-109 and 414-448: plan_sph_with_kind, plan_disk_with_kind *)
Definition plan_fftw_sphere (N M : Z) : prog fplan :=
  self <- new;; Y <- malloc (N * 2 * (M / 2 + 1));;
  p1 <- fftw_plan;; p2 <- fftw_plan;; p3 <- fftw_plan;; p4 <- fftw_plan;; Zm <- malloc (N * M);; p5 <- fftw_plan;; use self;; free Zm;;
  ret (FPlan self [p1; p2; p3; p4; p5; Y]).
(** 281-287 *)
Definition plan_fftw_triangle (N M : Z) : prog fplan :=
  self <- new;; X <- malloc (N * M);; p <- fftw_plan;; use self;; free X;; ret (FPlan self [p]).
(** 340-346 *)
Definition plan_fftw_tetrahedron (N L M : Z) : prog fplan :=
  self <- new;; X <- malloc (N * L * M);; p <- fftw_plan;; use self;; free X;; ret (FPlan self [p]).
(** 534-571 *)
Definition plan_fftw_annulus (N M : Z) : prog fplan :=
  self <- new;; w <- malloc N;; Y <- malloc (N * 2 * (M / 2 + 1));; p1 <- fftw_plan;; Zm <- malloc (N * M);; p2 <- fftw_plan;;
  use self;; free Zm;; ret (FPlan self [p1; p2; w; Y]).
(** 660-685 *)
Definition plan_fftw_rectdisk (N M : Z) : prog fplan :=
  self <- new;; X <- malloc (N * M);; p1 <- fftw_plan;; p2 <- fftw_plan;; p3 <- fftw_plan;; use self;; free X;;
  ret (FPlan self [p1; p2; p3]).
(** 755-787 *)
Definition plan_fftw_spinsphere (N M : Z) : prog fplan :=
  self <- new;; Y <- malloc (2 * N * M);;
  p1 <- fftw_plan;; p2 <- fftw_plan;; p3 <- fftw_plan;; p4 <- fftw_plan;; Zm <- malloc (N * M);; p5 <- fftw_plan;; use self;; free Zm;;
  ret (FPlan self [p1; p2; p3; p4; p5; Y]).
