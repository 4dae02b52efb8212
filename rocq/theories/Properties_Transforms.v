(** * C59: the connection transforms convert expansions

    [fam true P h] is the orthonormal family, [fam false P h] the standard one; families are characterised by their
    three-term recurrences and squared norms (SpecClassical.v, SpecConn.v).  The fresh blocks [d1], [d2], [data], [junk] are
    long enough but arbitrary.  tgamma and pow(2, .) are arguments: their values are the masses of the weights. *)
From Coq Require Import ZArith List Bool Reals QArith.
From Verif Require Import Arith Base SpecLin MHier SpecHier MButter MEigPlan SpecEigPlan SpecClassical SpecConn MTransforms SpecTransforms PEigPlan8 PTransforms3 PTransforms4 PTransforms5.
Import ListNotations.
Open Scope Z_scope.

Theorem C59_legendre_to_chebyshev : forall (BS T tn BLK : Z) (tol : R) (low : list R -> Z * Z -> Z * Z -> option (lowrank R)), setting BS T tn BLK tol low -> forall (tgamma pow2 : R -> R), special tgamma pow2 ->
  forall (junk : list R) (n : Z), 0 <= n -> n <= zlen junk ->
  forall (nl nc : bool) (P Q : Z -> R -> R) (hP hQ : Z -> R), is_jacobi 0 0 P -> is_chebyshev Q -> jacobi_norms 0 0 hP -> chebyshev_norms hQ -> hP 0 = 2%R -> hQ 0 = (tgamma (1/2) * tgamma (1/2))%R ->
  exists E, plan_legendre_to_chebyshev BS T tn BLK 0%R tol low (fun x => x) tgamma junk nl nc n = Some E /\ converts BS T n E (fam nl P hP) (fam nc Q hQ).
Proof. exact leg2cheb_conv. Qed.
Print Assumptions C59_legendre_to_chebyshev.
Theorem C59_chebyshev_to_legendre : forall (BS T tn BLK : Z) (tol : R) (low : list R -> Z * Z -> Z * Z -> option (lowrank R)), setting BS T tn BLK tol low -> forall (tgamma pow2 : R -> R), special tgamma pow2 ->
  forall (junk : list R) (n : Z), 0 <= n -> n <= zlen junk ->
  forall (nl nc : bool) (P Q : Z -> R -> R) (hP hQ : Z -> R), is_jacobi 0 0 P -> is_chebyshev Q -> jacobi_norms 0 0 hP -> chebyshev_norms hQ -> hP 0 = 2%R -> hQ 0 = (tgamma (1/2) * tgamma (1/2))%R ->
  exists E, plan_chebyshev_to_legendre BS T tn BLK 0%R tol low (fun x => x) tgamma junk nc nl n = Some E /\ converts BS T n E (fam nc Q hQ) (fam nl P hP).
Proof. exact cheb2leg_conv. Qed.
Print Assumptions C59_chebyshev_to_legendre.
Theorem C59_ultraspherical_to_ultraspherical : forall (BS T tn BLK : Z) (tol : R) (low : list R -> Z * Z -> Z * Z -> option (lowrank R)), setting BS T tn BLK tol low -> forall (tgamma pow2 : R -> R), special tgamma pow2 ->
  forall (junk : list R) (n : Z), 0 <= n -> n <= zlen junk ->
  forall (n1 n2 : bool) (la mu : R) (P Q : Z -> R -> R) (hP hQ : Z -> R), (- 1 / 2 < la)%R -> la <> 0%R -> (- 1 / 2 < mu)%R -> mu <> 0%R ->
  is_ultraspherical la P -> is_ultraspherical mu Q -> ultraspherical_norms la hP -> ultraspherical_norms mu hQ ->
  hP 0 = (tgamma (1/2) * tgamma (la + 1/2) / tgamma (la + 1))%R -> hQ 0 = (tgamma (1/2) * tgamma (mu + 1/2) / tgamma (mu + 1))%R ->
  exists E, plan_ultraspherical_to_ultraspherical BS T tn BLK 0%R tol low (fun x => x) tgamma junk n1 n2 n la mu = Some E /\ converts BS T n E (fam n1 P hP) (fam n2 Q hQ).
Proof. exact ult_conv. Qed.
Print Assumptions C59_ultraspherical_to_ultraspherical.
Theorem C59_jacobi_to_jacobi : forall (BS T tn BLK : Z) (tol : R) (low : list R -> Z * Z -> Z * Z -> option (lowrank R)), setting BS T tn BLK tol low -> forall (tgamma pow2 : R -> R), special tgamma pow2 ->
  forall (d1 d2 junk : list R) (n : Z), 0 <= n -> n <= zlen d1 -> n <= zlen d2 -> n <= zlen junk ->
  forall (n1 n2 : bool) (a b c e : R) (P Q : Z -> R -> R) (hP hQ : Z -> R), (-1 < a)%R -> (-1 < b)%R -> (-1 < c)%R -> (-1 < e)%R ->
  is_jacobi a b P -> is_jacobi c e Q -> jacobi_norms a b hP -> jacobi_norms c e hQ -> hP 0 = jacobi_mass tgamma pow2 a b -> hQ 0 = jacobi_mass tgamma pow2 c e ->
  exists E, plan_jacobi_to_jacobi BS T tn BLK 0%R tol low (fun x => x) tgamma pow2 d1 d2 junk n1 n2 n a b c e = Some E /\ converts BS T n E (fam n1 P hP) (fam n2 Q hQ).
Proof. exact jac_conv. Qed.
Print Assumptions C59_jacobi_to_jacobi.
Theorem C59_laguerre_to_laguerre : forall (BS T tn BLK : Z) (tol : R) (low : list R -> Z * Z -> Z * Z -> option (lowrank R)), setting BS T tn BLK tol low -> forall (tgamma pow2 : R -> R), special tgamma pow2 ->
  forall (data junk : list R) (n : Z), 0 <= n -> 2 * n <= zlen data -> n <= zlen junk ->
  forall (n1 n2 : bool) (a b : R) (P Q : Z -> R -> R) (hP hQ : Z -> R), (-1 < a)%R -> (-1 < b)%R ->
  is_laguerre a P -> is_laguerre b Q -> laguerre_norms a hP -> laguerre_norms b hQ -> hP 0 = tgamma (a + 1)%R -> hQ 0 = tgamma (b + 1)%R ->
  exists E, plan_laguerre_to_laguerre BS T tn BLK 0%R tol low (fun x => x) tgamma data junk n1 n2 n a b = Some E /\ converts BS T n E (fam n1 P hP) (fam n2 Q hQ).
Proof. exact lag_conv. Qed.
Print Assumptions C59_laguerre_to_laguerre.
(** planners that scale the rows or the columns of another plan; the orthonormal ultraspherical polynomials need la > 0 (see the refutation
    below), and scaling columns needs that no two eigenvalues are within the tolerance, for which n tol <= 1 suffices *)
Theorem C59_jacobi_to_ultraspherical : forall (BS T tn BLK : Z) (tol : R) (low : list R -> Z * Z -> Z * Z -> option (lowrank R)), setting BS T tn BLK tol low -> forall (tgamma pow2 : R -> R), special tgamma pow2 ->
  forall (d1 d2 junk : list R) (n : Z), 0 <= n -> n <= zlen d1 -> n <= zlen d2 -> n <= zlen junk ->
  forall (n1 n2 : bool) (a b la : R) (P Q : Z -> R -> R) (hP hQ : Z -> R), (-1 < a)%R -> (-1 < b)%R -> (- 1 / 2 < la)%R -> la <> 0%R -> (n2 = true -> (0 < la)%R) ->
  is_jacobi a b P -> is_ultraspherical la Q -> jacobi_norms a b hP -> ultraspherical_norms la hQ ->
  hP 0 = jacobi_mass tgamma pow2 a b -> hQ 0 = jacobi_mass tgamma pow2 (la - 1/2) (la - 1/2) ->
  exists E, plan_jacobi_to_ultraspherical BS T tn BLK 0%R tol low (fun x => x) tgamma pow2 d1 d2 junk n1 n2 n a b la = Some E /\ converts BS T n E (fam n1 P hP) (fam n2 Q hQ).
Proof. exact jac2ult_conv. Qed.
Print Assumptions C59_jacobi_to_ultraspherical.
Theorem C59_ultraspherical_to_jacobi : forall (BS T tn BLK : Z) (tol : R) (low : list R -> Z * Z -> Z * Z -> option (lowrank R)), setting BS T tn BLK tol low -> forall (tgamma pow2 : R -> R), special tgamma pow2 ->
  forall (d1 d2 junk : list R) (n : Z), 0 <= n -> n <= zlen d1 -> n <= zlen d2 -> n <= zlen junk ->
  forall (n1 n2 : bool) (a b la : R) (P Q : Z -> R -> R) (hP hQ : Z -> R), (n1 = false -> (IZR n * tol <= 1)%R) -> (-1 < a)%R -> (-1 < b)%R -> (- 1 / 2 < la)%R -> la <> 0%R -> (n1 = true -> (0 < la)%R) ->
  is_ultraspherical la P -> is_jacobi a b Q -> ultraspherical_norms la hP -> jacobi_norms a b hQ ->
  hP 0 = jacobi_mass tgamma pow2 (la - 1/2) (la - 1/2) -> hQ 0 = jacobi_mass tgamma pow2 a b ->
  exists E, plan_ultraspherical_to_jacobi BS T tn BLK 0%R tol low (fun x => x) tgamma pow2 d1 d2 junk n1 n2 n la a b = Some E /\ converts BS T n E (fam n1 P hP) (fam n2 Q hQ).
Proof. exact ult2jac_conv. Qed.
Print Assumptions C59_ultraspherical_to_jacobi.
Theorem C59_jacobi_to_chebyshev : forall (BS T tn BLK : Z) (tol : R) (low : list R -> Z * Z -> Z * Z -> option (lowrank R)), setting BS T tn BLK tol low -> forall (tgamma pow2 : R -> R), special tgamma pow2 ->
  forall (d1 d2 junk : list R) (n : Z), 0 <= n -> n <= zlen d1 -> n <= zlen d2 -> n <= zlen junk ->
  forall (n1 n2 : bool) (a b : R) (P Q : Z -> R -> R) (hP hQ : Z -> R), (-1 < a)%R -> (-1 < b)%R ->
  is_jacobi a b P -> is_chebyshev Q -> jacobi_norms a b hP -> chebyshev_norms hQ -> hP 0 = jacobi_mass tgamma pow2 a b -> hQ 0 = (tgamma (1/2) * tgamma (1/2))%R ->
  exists E, plan_jacobi_to_chebyshev BS T tn BLK 0%R tol low (fun x => x) tgamma pow2 d1 d2 junk n1 n2 n a b = Some E /\ converts BS T n E (fam n1 P hP) (fam n2 Q hQ).
Proof. exact jac2che_conv. Qed.
Print Assumptions C59_jacobi_to_chebyshev.
Theorem C59_chebyshev_to_jacobi : forall (BS T tn BLK : Z) (tol : R) (low : list R -> Z * Z -> Z * Z -> option (lowrank R)), setting BS T tn BLK tol low -> forall (tgamma pow2 : R -> R), special tgamma pow2 ->
  forall (d1 d2 junk : list R) (n : Z), 0 <= n -> n <= zlen d1 -> n <= zlen d2 -> n <= zlen junk ->
  forall (n1 n2 : bool) (a b : R) (P Q : Z -> R -> R) (hP hQ : Z -> R), (n1 = false -> (IZR n * tol <= 1)%R) -> (-1 < a)%R -> (-1 < b)%R ->
  is_chebyshev P -> is_jacobi a b Q -> chebyshev_norms hP -> jacobi_norms a b hQ -> hP 0 = (tgamma (1/2) * tgamma (1/2))%R -> hQ 0 = jacobi_mass tgamma pow2 a b ->
  exists E, plan_chebyshev_to_jacobi BS T tn BLK 0%R tol low (fun x => x) tgamma pow2 d1 d2 junk n1 n2 n a b = Some E /\ converts BS T n E (fam n1 P hP) (fam n2 Q hQ).
Proof. exact che2jac_conv. Qed.
Print Assumptions C59_chebyshev_to_jacobi.
Theorem C59_ultraspherical_to_chebyshev : forall (BS T tn BLK : Z) (tol : R) (low : list R -> Z * Z -> Z * Z -> option (lowrank R)), setting BS T tn BLK tol low -> forall (tgamma pow2 : R -> R), special tgamma pow2 ->
  forall (d1 d2 junk : list R) (n : Z), 0 <= n -> n <= zlen d1 -> n <= zlen d2 -> n <= zlen junk ->
  forall (n1 n2 : bool) (la : R) (P Q : Z -> R -> R) (hP hQ : Z -> R), (n1 = false -> (IZR n * tol <= 1)%R) -> (- 1 / 2 < la)%R -> la <> 0%R -> (n1 = true -> (0 < la)%R) ->
  is_ultraspherical la P -> is_chebyshev Q -> ultraspherical_norms la hP -> chebyshev_norms hQ ->
  hP 0 = jacobi_mass tgamma pow2 (la - 1/2) (la - 1/2) -> hQ 0 = (tgamma (1/2) * tgamma (1/2))%R ->
  exists E, plan_ultraspherical_to_chebyshev BS T tn BLK 0%R tol low (fun x => x) tgamma pow2 d1 d2 junk n1 n2 n la = Some E /\ converts BS T n E (fam n1 P hP) (fam n2 Q hQ).
Proof. exact ult2che_conv. Qed.
Print Assumptions C59_ultraspherical_to_chebyshev.
Theorem C59_chebyshev_to_ultraspherical : forall (BS T tn BLK : Z) (tol : R) (low : list R -> Z * Z -> Z * Z -> option (lowrank R)), setting BS T tn BLK tol low -> forall (tgamma pow2 : R -> R), special tgamma pow2 ->
  forall (d1 d2 junk : list R) (n : Z), 0 <= n -> n <= zlen d1 -> n <= zlen d2 -> n <= zlen junk ->
  forall (n1 n2 : bool) (la : R) (P Q : Z -> R -> R) (hP hQ : Z -> R), (n1 = false -> (IZR n * tol <= 1)%R) -> (- 1 / 2 < la)%R -> la <> 0%R -> (n2 = true -> (0 < la)%R) ->
  is_chebyshev P -> is_ultraspherical la Q -> chebyshev_norms hP -> ultraspherical_norms la hQ ->
  hP 0 = (tgamma (1/2) * tgamma (1/2))%R -> hQ 0 = jacobi_mass tgamma pow2 (la - 1/2) (la - 1/2) ->
  exists E, plan_chebyshev_to_ultraspherical BS T tn BLK 0%R tol low (fun x => x) tgamma pow2 d1 d2 junk n1 n2 n la = Some E /\ converts BS T n E (fam n1 P hP) (fam n2 Q hQ).
Proof. exact che2ult_conv. Qed.
Print Assumptions C59_chebyshev_to_ultraspherical.

(** For -1/2 < la < 0 the planner from Jacobi to orthonormal ultraspherical polynomials uses the polynomials with positive leading
    coefficients, whereas C_n^(la) has a negative one for n >= 1 (and the ultraspherical planner above keeps its sign): for
    every such la and every n >= 2 the result is wrong. *)
Theorem C59_ultraspherical_sign_refuted : forall (BS T tn BLK : Z) (tol : R) (low : list R -> Z * Z -> Z * Z -> option (lowrank R)), setting BS T tn BLK tol low ->
  forall (tgamma pow2 : R -> R), special tgamma pow2 ->
  forall (d1 d2 junk : list R) (n : Z), 2 <= n -> n <= zlen d1 -> n <= zlen d2 -> n <= zlen junk ->
  forall (n1 : bool) (a b la : R) (P Q : Z -> R -> R) (hP hQ : Z -> R), (-1 < a)%R -> (-1 < b)%R -> (- 1 / 2 < la)%R -> (la < 0)%R ->
  is_jacobi a b P -> is_ultraspherical la Q -> jacobi_norms a b hP -> ultraspherical_norms la hQ ->
  hP 0 = jacobi_mass tgamma pow2 a b -> hQ 0 = jacobi_mass tgamma pow2 (la - 1/2) (la - 1/2) ->
  exists E, plan_jacobi_to_ultraspherical BS T tn BLK 0%R tol low (fun x => x) tgamma pow2 d1 d2 junk n1 true n a b la = Some E /\
    ~ converts BS T n E (fam n1 P hP) (fam true Q hQ).
Proof. exact sign_plan. Qed.
Print Assumptions C59_ultraspherical_sign_refuted.

(** settings and special functions as required exist; families with any masses exist by the examples of C56 *)
Example C59_nonvacuous : setting 4 1 0 1 0%R (low_exact (thresholded_cauchykernel 0%R)) /\ special (fun _ => 1%R) exp.
Proof. split; [exact setting_ok|exact special_ok]. Qed.
(** in rational arithmetic, with n = 6 and one level of recursion: P_4 = 9/64 T_0 + 20/64 T_2 + 35/64 T_4, P_5 = (30 T_1 + 35 T_3 + 63 T_5)/128 *)
Example C59_computed : apply_plan l2c6 4 = Some [9#64; 0; 5#16; 0; 35#64; 0]%Q /\ apply_plan l2c6 5 = Some [0; 15#64; 0; 35#128; 0; 63#128]%Q /\
  undo_plan l2c6 [0; 15#64; 0; 35#128; 0; 63#128]%Q = Some (unitQ 5).
Proof. vm_compute. repeat split. Qed.
