(** * What a connection transform does *)
From Coq Require Import ZArith List Reals.
From Verif Require Import Arith Base SpecLin MHier SpecHier MButter SpecClassical MEigPlan SpecEigPlan.
Open Scope Z_scope.

(** For every thread t < T: applying the plan [E] to the n numbers at [o] turns the coefficients of a polynomial in the
    basis [P] into its coefficients in the basis [Q], the solve turns them back, and no other number changes *)
Definition converts (BS T n : Z) (E : tbeig R) (P Q : Z -> R -> R) : Prop :=
  tbeig_n E = n /\ forall t x o, 0 <= t < T -> fits o n x ->
    (exists y, bfmv BS t false E x o = Some y /\ acts o n x y (fun c d => forall z, expansion n d Q z = expansion n c P z)) /\
    (exists y, bfsv BS t false E x o = Some y /\ acts o n x y (fun c d => forall z, expansion n d P z = expansion n c Q z)).
(** the block sizes, thread numbers and tolerance are sensible and admissible blocks are compressed without error *)
Record setting (BS T tn BLK : Z) (tol : R) (low : list R -> Z * Z -> Z * Z -> option (lowrank R)) : Prop := {
  set_BS : 4 <= BS; set_tn : 0 <= tn < T; set_BLK : 1 <= BLK; set_tol : (tol <= 1)%R;
  set_low : exact_lowrank (thresholded_cauchykernel tol) low }.
(** what is used of the functions tgamma and pow(2, .) *)
Record special (tgamma pow2 : R -> R) : Prop := {
  gamma_pos : forall x, (0 < x)%R -> (0 < tgamma x)%R; gamma_1 : tgamma 1%R = 1%R;
  pow2_pos : forall x, (0 < pow2 x)%R; pow2_0 : pow2 0%R = 1%R }.
(** the mass of the weight (1-x)^a (1+x)^b on [-1,1] *)
Definition jacobi_mass (tgamma pow2 : R -> R) (a b : R) : R := (pow2 (a + b + 1) * tgamma (a + 1) * tgamma (b + 1) / tgamma (a + b + 2))%R.
