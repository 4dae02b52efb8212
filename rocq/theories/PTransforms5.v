(** * Plans of connection transforms: the statements *)
From Coq Require Import ZArith List Lia Bool Reals.
From Verif Require Import Arith Base SpecLin MHier SpecHier MButter MEigPlan SpecEigPlan SpecClassical SpecConn MTransforms SpecTransforms PTransforms3 PTransforms4.
Import ListNotations.
Open Scope Z_scope.

Lemma leg2cheb_conv : forall (BS T tn BLK : Z) (tol : R) (low : list R -> Z * Z -> Z * Z -> option (lowrank R)), setting BS T tn BLK tol low -> forall (tgamma pow2 : R -> R), special tgamma pow2 ->
  forall (junk : list R) (n : Z), 0 <= n -> n <= zlen junk ->
  forall (nl nc : bool) (P Q : Z -> R -> R) (hP hQ : Z -> R), is_jacobi 0 0 P -> is_chebyshev Q -> jacobi_norms 0 0 hP -> chebyshev_norms hQ -> hP 0 = 2%R -> hQ 0 = (tgamma (1/2) * tgamma (1/2))%R ->
  exists E, plan_legendre_to_chebyshev BS T tn BLK 0%R tol low (fun x => x) tgamma junk nl nc n = Some E /\ converts BS T n E (fam nl P hP) (fam nc Q hQ).
Proof. intros. edestruct leg2cheb_plan with (nl := nl) (nc := nc) (P := P) (Q := Q) (hP := hP) (hQ := hQ) as (E & EE & PE); eauto. exists E. split; [exact EE|]. eapply plans_converts; eauto. Qed.
Lemma cheb2leg_conv : forall (BS T tn BLK : Z) (tol : R) (low : list R -> Z * Z -> Z * Z -> option (lowrank R)), setting BS T tn BLK tol low -> forall (tgamma pow2 : R -> R), special tgamma pow2 ->
  forall (junk : list R) (n : Z), 0 <= n -> n <= zlen junk ->
  forall (nl nc : bool) (P Q : Z -> R -> R) (hP hQ : Z -> R), is_jacobi 0 0 P -> is_chebyshev Q -> jacobi_norms 0 0 hP -> chebyshev_norms hQ -> hP 0 = 2%R -> hQ 0 = (tgamma (1/2) * tgamma (1/2))%R ->
  exists E, plan_chebyshev_to_legendre BS T tn BLK 0%R tol low (fun x => x) tgamma junk nc nl n = Some E /\ converts BS T n E (fam nc Q hQ) (fam nl P hP).
Proof. intros. edestruct cheb2leg_plan with (nl := nl) (nc := nc) (P := P) (Q := Q) (hP := hP) (hQ := hQ) as (E & EE & PE); eauto. exists E. split; [exact EE|]. eapply plans_converts; eauto. Qed.
Lemma ult_conv : forall (BS T tn BLK : Z) (tol : R) (low : list R -> Z * Z -> Z * Z -> option (lowrank R)), setting BS T tn BLK tol low -> forall (tgamma pow2 : R -> R), special tgamma pow2 ->
  forall (junk : list R) (n : Z), 0 <= n -> n <= zlen junk ->
  forall (n1 n2 : bool) (la mu : R) (P Q : Z -> R -> R) (hP hQ : Z -> R), (- 1 / 2 < la)%R -> la <> 0%R -> (- 1 / 2 < mu)%R -> mu <> 0%R ->
  is_ultraspherical la P -> is_ultraspherical mu Q -> ultraspherical_norms la hP -> ultraspherical_norms mu hQ ->
  hP 0 = (tgamma (1/2) * tgamma (la + 1/2) / tgamma (la + 1))%R -> hQ 0 = (tgamma (1/2) * tgamma (mu + 1/2) / tgamma (mu + 1))%R ->
  exists E, plan_ultraspherical_to_ultraspherical BS T tn BLK 0%R tol low (fun x => x) tgamma junk n1 n2 n la mu = Some E /\ converts BS T n E (fam n1 P hP) (fam n2 Q hQ).
Proof. intros. edestruct ult_plan with (n1 := n1) (n2 := n2) (la := la) (mu := mu) (P := P) (Q := Q) (hP := hP) (hQ := hQ) as (E & EE & PE); eauto. exists E. split; [exact EE|]. eapply plans_converts; eauto. Qed.
Lemma jac_conv : forall (BS T tn BLK : Z) (tol : R) (low : list R -> Z * Z -> Z * Z -> option (lowrank R)), setting BS T tn BLK tol low -> forall (tgamma pow2 : R -> R), special tgamma pow2 ->
  forall (d1 d2 junk : list R) (n : Z), 0 <= n -> n <= zlen d1 -> n <= zlen d2 -> n <= zlen junk ->
  forall (n1 n2 : bool) (a b c e : R) (P Q : Z -> R -> R) (hP hQ : Z -> R), (-1 < a)%R -> (-1 < b)%R -> (-1 < c)%R -> (-1 < e)%R ->
  is_jacobi a b P -> is_jacobi c e Q -> jacobi_norms a b hP -> jacobi_norms c e hQ -> hP 0 = jacobi_mass tgamma pow2 a b -> hQ 0 = jacobi_mass tgamma pow2 c e ->
  exists E, plan_jacobi_to_jacobi BS T tn BLK 0%R tol low (fun x => x) tgamma pow2 d1 d2 junk n1 n2 n a b c e = Some E /\ converts BS T n E (fam n1 P hP) (fam n2 Q hQ).
Proof. intros. edestruct jac_plan with (d1 := d1) (d2 := d2) (junk := junk) (n1 := n1) (n2 := n2) (a := a) (b := b) (c := c) (e := e) (P := P) (Q := Q) (hP := hP) (hQ := hQ) as (E & EE & PE); eauto. exists E. split; [exact EE|]. eapply plans_converts; eauto. Qed.
Lemma lag_conv : forall (BS T tn BLK : Z) (tol : R) (low : list R -> Z * Z -> Z * Z -> option (lowrank R)), setting BS T tn BLK tol low -> forall (tgamma pow2 : R -> R), special tgamma pow2 ->
  forall (data junk : list R) (n : Z), 0 <= n -> 2 * n <= zlen data -> n <= zlen junk ->
  forall (n1 n2 : bool) (a b : R) (P Q : Z -> R -> R) (hP hQ : Z -> R), (-1 < a)%R -> (-1 < b)%R ->
  is_laguerre a P -> is_laguerre b Q -> laguerre_norms a hP -> laguerre_norms b hQ -> hP 0 = tgamma (a + 1)%R -> hQ 0 = tgamma (b + 1)%R ->
  exists E, plan_laguerre_to_laguerre BS T tn BLK 0%R tol low (fun x => x) tgamma data junk n1 n2 n a b = Some E /\ converts BS T n E (fam n1 P hP) (fam n2 Q hQ).
Proof. intros. edestruct lag_plan with (data := data) (junk := junk) (n1 := n1) (n2 := n2) (a := a) (b := b) (P := P) (Q := Q) (hP := hP) (hQ := hQ) as (E & EE & PE); eauto. exists E. split; [exact EE|]. eapply plans_converts; eauto. Qed.
Lemma jac2ult_conv : forall (BS T tn BLK : Z) (tol : R) (low : list R -> Z * Z -> Z * Z -> option (lowrank R)), setting BS T tn BLK tol low -> forall (tgamma pow2 : R -> R), special tgamma pow2 ->
  forall (d1 d2 junk : list R) (n : Z), 0 <= n -> n <= zlen d1 -> n <= zlen d2 -> n <= zlen junk ->
  forall (n1 n2 : bool) (a b la : R) (P Q : Z -> R -> R) (hP hQ : Z -> R), (-1 < a)%R -> (-1 < b)%R -> (- 1 / 2 < la)%R -> la <> 0%R -> (n2 = true -> (0 < la)%R) ->
  is_jacobi a b P -> is_ultraspherical la Q -> jacobi_norms a b hP -> ultraspherical_norms la hQ ->
  hP 0 = jacobi_mass tgamma pow2 a b -> hQ 0 = jacobi_mass tgamma pow2 (la - 1/2) (la - 1/2) ->
  exists E, plan_jacobi_to_ultraspherical BS T tn BLK 0%R tol low (fun x => x) tgamma pow2 d1 d2 junk n1 n2 n a b la = Some E /\ converts BS T n E (fam n1 P hP) (fam n2 Q hQ).
Proof. intros. edestruct jac2ult_plan with (d1 := d1) (d2 := d2) (junk := junk) (n1 := n1) (n2 := n2) (a := a) (b := b) (la := la) (P := P) (Q := Q) (hP := hP) (hQ := hQ) as (E & EE & PE); eauto. exists E. split; [exact EE|]. eapply plans_converts; eauto. Qed.
Lemma ult2jac_conv : forall (BS T tn BLK : Z) (tol : R) (low : list R -> Z * Z -> Z * Z -> option (lowrank R)), setting BS T tn BLK tol low -> forall (tgamma pow2 : R -> R), special tgamma pow2 ->
  forall (d1 d2 junk : list R) (n : Z), 0 <= n -> n <= zlen d1 -> n <= zlen d2 -> n <= zlen junk ->
  forall (n1 n2 : bool) (a b la : R) (P Q : Z -> R -> R) (hP hQ : Z -> R), (n1 = false -> (IZR n * tol <= 1)%R) -> (-1 < a)%R -> (-1 < b)%R -> (- 1 / 2 < la)%R -> la <> 0%R -> (n1 = true -> (0 < la)%R) ->
  is_ultraspherical la P -> is_jacobi a b Q -> ultraspherical_norms la hP -> jacobi_norms a b hQ ->
  hP 0 = jacobi_mass tgamma pow2 (la - 1/2) (la - 1/2) -> hQ 0 = jacobi_mass tgamma pow2 a b ->
  exists E, plan_ultraspherical_to_jacobi BS T tn BLK 0%R tol low (fun x => x) tgamma pow2 d1 d2 junk n1 n2 n la a b = Some E /\ converts BS T n E (fam n1 P hP) (fam n2 Q hQ).
Proof. intros. edestruct ult2jac_plan with (d1 := d1) (d2 := d2) (junk := junk) (n1 := n1) (n2 := n2) (a := a) (b := b) (la := la) (P := P) (Q := Q) (hP := hP) (hQ := hQ) as (E & EE & PE); eauto. exists E. split; [exact EE|]. eapply plans_converts; eauto. Qed.
Lemma jac2che_conv : forall (BS T tn BLK : Z) (tol : R) (low : list R -> Z * Z -> Z * Z -> option (lowrank R)), setting BS T tn BLK tol low -> forall (tgamma pow2 : R -> R), special tgamma pow2 ->
  forall (d1 d2 junk : list R) (n : Z), 0 <= n -> n <= zlen d1 -> n <= zlen d2 -> n <= zlen junk ->
  forall (n1 n2 : bool) (a b : R) (P Q : Z -> R -> R) (hP hQ : Z -> R), (-1 < a)%R -> (-1 < b)%R ->
  is_jacobi a b P -> is_chebyshev Q -> jacobi_norms a b hP -> chebyshev_norms hQ -> hP 0 = jacobi_mass tgamma pow2 a b -> hQ 0 = (tgamma (1/2) * tgamma (1/2))%R ->
  exists E, plan_jacobi_to_chebyshev BS T tn BLK 0%R tol low (fun x => x) tgamma pow2 d1 d2 junk n1 n2 n a b = Some E /\ converts BS T n E (fam n1 P hP) (fam n2 Q hQ).
Proof. intros. edestruct jac2che_plan with (d1 := d1) (d2 := d2) (junk := junk) (n1 := n1) (n2 := n2) (a := a) (b := b) (P := P) (Q := Q) (hP := hP) (hQ := hQ) as (E & EE & PE); eauto. exists E. split; [exact EE|]. eapply plans_converts; eauto. Qed.
Lemma che2jac_conv : forall (BS T tn BLK : Z) (tol : R) (low : list R -> Z * Z -> Z * Z -> option (lowrank R)), setting BS T tn BLK tol low -> forall (tgamma pow2 : R -> R), special tgamma pow2 ->
  forall (d1 d2 junk : list R) (n : Z), 0 <= n -> n <= zlen d1 -> n <= zlen d2 -> n <= zlen junk ->
  forall (n1 n2 : bool) (a b : R) (P Q : Z -> R -> R) (hP hQ : Z -> R), (n1 = false -> (IZR n * tol <= 1)%R) -> (-1 < a)%R -> (-1 < b)%R ->
  is_chebyshev P -> is_jacobi a b Q -> chebyshev_norms hP -> jacobi_norms a b hQ -> hP 0 = (tgamma (1/2) * tgamma (1/2))%R -> hQ 0 = jacobi_mass tgamma pow2 a b ->
  exists E, plan_chebyshev_to_jacobi BS T tn BLK 0%R tol low (fun x => x) tgamma pow2 d1 d2 junk n1 n2 n a b = Some E /\ converts BS T n E (fam n1 P hP) (fam n2 Q hQ).
Proof. intros. edestruct che2jac_plan with (d1 := d1) (d2 := d2) (junk := junk) (n1 := n1) (n2 := n2) (a := a) (b := b) (P := P) (Q := Q) (hP := hP) (hQ := hQ) as (E & EE & PE); eauto. exists E. split; [exact EE|]. eapply plans_converts; eauto. Qed.
Lemma ult2che_conv : forall (BS T tn BLK : Z) (tol : R) (low : list R -> Z * Z -> Z * Z -> option (lowrank R)), setting BS T tn BLK tol low -> forall (tgamma pow2 : R -> R), special tgamma pow2 ->
  forall (d1 d2 junk : list R) (n : Z), 0 <= n -> n <= zlen d1 -> n <= zlen d2 -> n <= zlen junk ->
  forall (n1 n2 : bool) (la : R) (P Q : Z -> R -> R) (hP hQ : Z -> R), (n1 = false -> (IZR n * tol <= 1)%R) -> (- 1 / 2 < la)%R -> la <> 0%R -> (n1 = true -> (0 < la)%R) ->
  is_ultraspherical la P -> is_chebyshev Q -> ultraspherical_norms la hP -> chebyshev_norms hQ ->
  hP 0 = jacobi_mass tgamma pow2 (la - 1/2) (la - 1/2) -> hQ 0 = (tgamma (1/2) * tgamma (1/2))%R ->
  exists E, plan_ultraspherical_to_chebyshev BS T tn BLK 0%R tol low (fun x => x) tgamma pow2 d1 d2 junk n1 n2 n la = Some E /\ converts BS T n E (fam n1 P hP) (fam n2 Q hQ).
Proof. intros. edestruct ult2che_plan with (d1 := d1) (d2 := d2) (junk := junk) (n1 := n1) (n2 := n2) (la := la) (P := P) (Q := Q) (hP := hP) (hQ := hQ) as (E & EE & PE); eauto. exists E. split; [exact EE|]. eapply plans_converts; eauto. Qed.
Lemma che2ult_conv : forall (BS T tn BLK : Z) (tol : R) (low : list R -> Z * Z -> Z * Z -> option (lowrank R)), setting BS T tn BLK tol low -> forall (tgamma pow2 : R -> R), special tgamma pow2 ->
  forall (d1 d2 junk : list R) (n : Z), 0 <= n -> n <= zlen d1 -> n <= zlen d2 -> n <= zlen junk ->
  forall (n1 n2 : bool) (la : R) (P Q : Z -> R -> R) (hP hQ : Z -> R), (n1 = false -> (IZR n * tol <= 1)%R) -> (- 1 / 2 < la)%R -> la <> 0%R -> (n2 = true -> (0 < la)%R) ->
  is_chebyshev P -> is_ultraspherical la Q -> chebyshev_norms hP -> ultraspherical_norms la hQ ->
  hP 0 = (tgamma (1/2) * tgamma (1/2))%R -> hQ 0 = jacobi_mass tgamma pow2 (la - 1/2) (la - 1/2) ->
  exists E, plan_chebyshev_to_ultraspherical BS T tn BLK 0%R tol low (fun x => x) tgamma pow2 d1 d2 junk n1 n2 n la = Some E /\ converts BS T n E (fam n1 P hP) (fam n2 Q hQ).
Proof. intros. edestruct che2ult_plan with (d1 := d1) (d2 := d2) (junk := junk) (n1 := n1) (n2 := n2) (la := la) (P := P) (Q := Q) (hP := hP) (hQ := hQ) as (E & EE & PE); eauto. exists E. split; [exact EE|]. eapply plans_converts; eauto. Qed.
