(** * Client programs: the plans a user creates and destroys, and the eigenvalue plans of a pencil

    The eigenvalue planners read matrices of the caller, so their lifecycles are those of small client
    programs, as in test/test_tdc_source.c 41-81, test/test_dprk_source.c 160-240 and
    test/test_banded_source.c 505-535: make the matrices, plan, optionally drop the precision, and
    destroy the matrices. *)
From Coq Require Import ZArith List Bool.
From Verif Require Import SpecHeap MHeap MLife MLife2 MLife3.
Import ListNotations.
Open Scope Z_scope.
Open Scope prog_scope.

Section Client.
Variables (thr rank BS TS : Z).
(** eigenvalue plans of triangular banded pencils, with bandwidths bA and bB *)
Definition fmm_of_pencil (n bA bB : Z) : prog tbeig :=
  A <- alloc_tbanded n bA;; B <- alloc_tbanded n bB;;
  F <- tb_eig_FMM thr rank BS (depth n) A B;; destroy_tbanded A;; destroy_tbanded B;; ret F.
Definition adi_of_pencil (n bA bB : Z) : prog adieig :=
  A <- alloc_tbanded n bA;; B <- alloc_tbanded n bB;;
  F <- tb_eig_ADI thr BS (depth n) A B;; destroy_tbanded A;; destroy_tbanded B;; ret F.
(** divide and conquer, without and with the fast multipole method; [low] drops the precision as in
    test/test_tdc_source2.c 14-75 *)
Definition tdc_of_pencil (low : bool) (n : Z) : prog (tdceig (E := dpr1eig)) :=
  T <- new_symtri n;; Sm <- new_symtri n;;
  F <- sdtdc_eig TS definite_dpr1_eig (depth n) T Sm;;
  G <- (if low then G <- drop_tdceig TS drop_dpr1eig F;; destroy_tdceig TS destroy_dpr1eig F;; ret G else ret F);;
  destroy_symtri T;; destroy_symtri Sm;; ret G.
Definition tdcfmm_of_pencil (low : bool) (n : Z) : prog (tdceig (E := dpr1fmm)) :=
  T <- new_symtri n;; Sm <- new_symtri n;;
  F <- sdtdc_eig TS (definite_dpr1_eig_FMM thr rank) (depth n) T Sm;;
  G <- (if low then G <- drop_tdceig TS (drop_dpr1fmm thr rank) F;; destroy_tdceig TS destroy_dpr1fmm F;; ret G else ret F);;
  destroy_symtri T;; destroy_symtri Sm;; ret G.
(** one diagonal-plus-rank-one pencil *)
Definition dpr1_of_pencil (n : Z) : prog dpr1eig :=
  a <- new;; d <- malloc n;; z <- malloc n;; b <- new;; zb <- malloc n;;
  let A := DPR1 a d z n in let B := IDPR1 b zb in
  F <- definite_dpr1_eig A B;; destroy_dpr1 A;; destroy_idpr1 B;; ret F.
Definition dpr1fmm_of_pencil (n : Z) : prog dpr1fmm :=
  a <- new;; d <- malloc n;; z <- malloc n;; b <- new;; zb <- malloc n;;
  let A := DPR1 a d z n in let B := IDPR1 b zb in
  F <- definite_dpr1_eig_FMM thr rank A B;; destroy_dpr1 A;; destroy_idpr1 B;; ret F.
End Client.

(** ** The plans of the public interface, src/fasttransforms.h 100-560, and their destructors *)
Section Api.
Variables (thr rank BS NMAX : Z).
Inductive kind : Type :=
(* dense arrays, freed by free(): transforms.c *)
| KDense (f : family) (n : Z) | KDenseScaled (norm1 norm2 : bool) (n : Z) | KDenseAssociated (f : associated) (n : Z)
(* ft_tb_eigen_FMM and ft_btb_eigen_FMM: transforms_source.c *)
| KFast (f : family) (n : Z) | KFastScaled (norm1 norm2 : bool) (n : Z) | KFastAssociated (f : associated) (n : Z)
(* ft_modified_plan *)
| KModified (n nu nv : Z)
(* ft_rotation_plan, ft_spin_rotation_plan *)
| KRotHalf (n : Z) | KRotDisk (n : Z) | KRotAnnulus (gamma_zero : bool) (n : Z) | KRotSpin (n s : Z)
(* ft_harmonic_plan, ft_spin_harmonic_plan *)
| KSphere (n : Z) | KTriangle (n : Z) | KDisk (n : Z) | KAnnulus (gamma_zero : bool) (n : Z) | KRectdisk (n : Z)
| KTetrahedron (n : Z) | KSpinSphere (n s : Z)
(* ft_gradient_plan, ft_helmholtzhodge_plan *)
| KGradient (n : Z) | KHelmholtzHodge (n : Z)
(* ft_*_fftw_plan *)
| KFftwSphere (N M : Z) | KFftwTriangle (N M : Z) | KFftwTetrahedron (N L M : Z) | KFftwAnnulus (N M : Z)
| KFftwRectdisk (N M : Z) | KFftwSpinSphere (N M : Z).
Definition obj (k : kind) : Type :=
  match k with
  | KDense _ _ | KDenseScaled _ _ _ | KDenseAssociated _ _ => Z
  | KFast _ _ | KFastScaled _ _ _ => tbeig
  | KFastAssociated _ _ => btbeig
  | KModified _ _ _ => modplan
  | KRotHalf _ | KRotDisk _ | KRotAnnulus _ _ => rotplan
  | KRotSpin _ _ => spinrot
  | KSphere _ | KTriangle _ | KDisk _ | KAnnulus _ _ | KRectdisk _ | KTetrahedron _ => harmonic
  | KSpinSphere _ _ => spinharm
  | KGradient _ => gradplan
  | KHelmholtzHodge _ => hhplan
  | KFftwSphere _ _ | KFftwTriangle _ _ | KFftwTetrahedron _ _ _ | KFftwAnnulus _ _ | KFftwRectdisk _ _
  | KFftwSpinSphere _ _ => fplan
  end.
Definition create (k : kind) : prog (obj k) :=
  match k return prog (obj k) with
  | KDense f n => plan_dense f n
  | KDenseScaled b1 b2 n => plan_dense_scaled2 b1 b2 n
  | KDenseAssociated f n => plan_dense_associated f n
  | KFast f n => plan_fast thr rank BS f n
  | KFastScaled b1 b2 n => plan_fast_scaled2 thr rank BS b1 b2 n
  | KFastAssociated f n => plan_fast_associated thr rank BS f n
  | KModified n nu nv => plan_modified NMAX (Z.to_nat (Z.max 0 NMAX + 1)) n nu nv
  | KRotHalf n => plan_rot_half n
  | KRotDisk n => plan_rotdisk n
  | KRotAnnulus g0 n => plan_rotannulus g0 n
  | KRotSpin n s => plan_rotspinsphere n s
  | KSphere n => plan_sph2fourier n
  | KTriangle n => plan_tri2cheb n
  | KDisk n => plan_disk2cxf n
  | KAnnulus g0 n => plan_ann2cxf g0 n
  | KRectdisk n => plan_rectdisk2cheb n
  | KTetrahedron n => plan_tet2cheb n
  | KSpinSphere n s => plan_spinsph2fourier n s
  | KGradient n => plan_sph_gradient n
  | KHelmholtzHodge n => plan_sph_helmholtzhodge n
  | KFftwSphere N M => plan_fftw_sphere N M
  | KFftwTriangle N M => plan_fftw_triangle N M
  | KFftwTetrahedron N L M => plan_fftw_tetrahedron N L M
  | KFftwAnnulus N M => plan_fftw_annulus N M
  | KFftwRectdisk N M => plan_fftw_rectdisk N M
  | KFftwSpinSphere N M => plan_fftw_spinsphere N M
  end.
Definition destroy (k : kind) : obj k -> prog unit :=
  match k return obj k -> prog unit with
  | KDense _ _ | KDenseScaled _ _ _ | KDenseAssociated _ _ => free
  | KFast _ _ | KFastScaled _ _ _ => destroy_tbeig BS
  | KFastAssociated _ _ => destroy_btbeig BS
  | KModified _ _ _ => destroy_modplan
  | KRotHalf _ | KRotDisk _ | KRotAnnulus _ _ => destroy_rotplan
  | KRotSpin _ _ => destroy_spinrot
  | KSphere _ | KTriangle _ | KDisk _ | KAnnulus _ _ | KRectdisk _ | KTetrahedron _ => destroy_harmonic
  | KSpinSphere _ _ => destroy_spinharm
  | KGradient _ => destroy_gradplan
  | KHelmholtzHodge _ => destroy_hhplan
  | KFftwSphere _ _ | KFftwTriangle _ _ | KFftwTetrahedron _ _ _ | KFftwAnnulus _ _ | KFftwRectdisk _ _
  | KFftwSpinSphere _ _ => destroy_fplan
  end.
(** the sizes for which a plan can be asked; the associated Hermite planners leak (findings 25) *)
Definition admissible (k : kind) : Prop :=
  match k with
  | KFast _ n | KFastScaled _ _ n => 0 <= n
  | KDenseAssociated f n | KFastAssociated f n => 0 <= n /\ f <> Associated_Hermite
  | KModified n _ _ => 1 <= n
  | _ => True
  end.
End Api.
