(** * Plans of connection transforms: the planners *)
From Coq Require Import ZArith List Lia Bool Reals Lra ZifyBool ZifyNat.
From Verif Require Import Base BaseFacts Arith SpecSum PSum SpecLin MBanded SpecBanded PTri MHier SpecHier MEig SpecEig MButter SpecButter PButter2 PButter3 PButterThms MEigPlan SpecEigPlan PEigPlan3 PEigPlan5 PEigPlan7
  SpecClassical SpecConn MClassical MConn PClass1 PClass2 PClass3 PClass4 PClass5 PClass6 PClass7 PClass8 PPoly PPenJ PPenU PPenC PPenL PDiag MTransforms SpecTransforms PTransforms PTransforms2.
Import ListNotations.
Open Scope Z_scope.

Section Planners.
Variables (BS T tn BLK : Z) (tol : R) (low : list R -> Z * Z -> Z * Z -> option (lowrank R)).
Hypothesis HS : setting BS T tn BLK tol low.
Variables (tgamma pow2 : R -> R).
Hypothesis HG : special tgamma pow2.
Variables (d1 d2 data junk : list R) (n : Z).
Hypotheses (Hn : 0 <= n) (L1 : n <= zlen d1) (L2 : n <= zlen d2) (L3 : 2 * n <= zlen data) (L4 : n <= zlen junk).
Let idR := fun x : R => x.
(** a plan E of a matrix that connects P and Q *)
Definition plans (E : tbeig R) (P Q : Z -> R -> R) (sparse_free : Prop) : Prop :=
  exists U, connects n U P Q /\ (forall j, 0 <= j < n -> U j j <> 0%R) /\ realises BS T n E U /\ (sparse_free -> no_sparse E).
Lemma plans_converts E P Q X : plans E P Q X -> converts BS T n E P Q.
Proof. intros (U & C & D & RL & _). eapply realises_converts; eauto. Qed.
Ltac setup := destruct HS as [S1 S2 S3 S4 S5]; destruct HG as [G1 G2 G3 G4].

Lemma jac_plan n1 n2 a b c e P Q hP hQ : (-1 < a)%R -> (-1 < b)%R -> (-1 < c)%R -> (-1 < e)%R ->
  is_jacobi a b P -> is_jacobi c e Q -> jacobi_norms a b hP -> jacobi_norms c e hQ ->
  hP 0 = jacobi_mass tgamma pow2 a b -> hQ 0 = jacobi_mass tgamma pow2 c e ->
  exists E, plan_jacobi_to_jacobi BS T tn BLK 0%R tol low idR tgamma pow2 d1 d2 junk n1 n2 n a b c e = Some E /\
    plans E (fam n1 P hP) (fam n2 Q hQ) (IZR n * tol <= 1)%R.
Proof.
  setup. intros Ha Hb Hc He HP HQ NP NQ MP MQ.
  destruct (jac_one n1 n2 n a b c e P Q hP hQ) as [[U C] _]; auto.
  destruct (jacobi_pencil_proof n1 n2 n a b c e P Q hP hQ d1 d2) as (A & B & EA & EB & bA & bB & DG); auto. specialize (DG U C).
  destruct (jac_diag_ok tgamma pow2 n1 n2 n 1 a b c e P Q hP hQ U junk) as (D & ED & HD); auto; try lia.
  assert (NZ : forall j, 0 <= j < n -> U j j <> 0%R).
  { refine (connects_diag_nz n _ _ U _ _ _ _ C); [apply graded_fam; [apply (jac_graded a b); auto|intros; eapply (jn_pos a b); eauto]|apply graded_fam; [apply (jac_graded c e); auto|intros; eapply (jn_pos c e); eauto]]. }
  destruct (plan_of_ok BS T tn BLK tol low S1 S2 S3 S4 S5 n A B U _ junk D Hn DG (proj1 C) ltac:(lia) ltac:(lia) NZ) as (E & EE & RL & NS); auto.
  { intros i j Hi Hj. replace (IZR i + a + b + 1)%R with (IZR i + (a + b + 1))%R by ring. replace (IZR j + a + b + 1)%R with (IZR j + (a + b + 1))%R by ring. apply (quad_lam_ne _ n); auto. lra. }
  exists E. unfold plan_jacobi_to_jacobi. rewrite EA, EB, ED. cbn [obind]. split; [exact EE|]. exists U. split; [exact C|]. split; [exact NZ|]. split; [exact RL|].
  intros Ht. apply NS. intros i j Hi Hj. replace (IZR i + a + b + 1)%R with (IZR i + (a + b + 1))%R by ring. replace (IZR j + a + b + 1)%R with (IZR j + (a + b + 1))%R by ring.
  apply (quad_far tol (a + b + 1) n); auto. lra.
Qed.
Lemma lag_plan n1 n2 a b P Q hP hQ : (-1 < a)%R -> (-1 < b)%R ->
  is_laguerre a P -> is_laguerre b Q -> laguerre_norms a hP -> laguerre_norms b hQ -> hP 0 = tgamma (a + 1)%R -> hQ 0 = tgamma (b + 1)%R ->
  exists E, plan_laguerre_to_laguerre BS T tn BLK 0%R tol low idR tgamma data junk n1 n2 n a b = Some E /\
    plans E (fam n1 P hP) (fam n2 Q hQ) (IZR n * tol <= 1)%R.
Proof.
  setup. intros Ha Hb HP HQ NP NQ MP MQ.
  destruct (lag_one n1 n2 n a b P Q hP hQ) as [[U C] _]; auto.
  destruct (laguerre_pencil_proof n1 n2 n a b P Q hP hQ data) as (A & B & EA & EB & bA & bB & DG); auto. specialize (DG U C).
  destruct (lag_diag_ok tgamma n1 n2 n 1 a b P Q hP hQ U junk) as (D & ED & HD); auto; try lia.
  assert (NZ : forall j, 0 <= j < n -> U j j <> 0%R).
  { refine (connects_diag_nz n _ _ U _ _ _ _ C); [apply graded_fam; [apply (lag_graded a); auto|apply (ln_pos a); auto]|apply graded_fam; [apply (lag_graded b); auto|apply (ln_pos b); auto]]. }
  destruct (plan_of_ok BS T tn BLK tol low S1 S2 S3 S4 S5 n A B U _ junk D Hn DG (proj1 C) ltac:(lia) ltac:(lia) NZ) as (E & EE & RL & NS); auto.
  { intros i j Hi Hj HE. apply eq_IZR in HE. lia. }
  exists E. unfold plan_laguerre_to_laguerre. rewrite EA, EB, ED. cbn [obind]. split; [exact EE|]. exists U. split; [exact C|]. split; [exact NZ|]. split; [exact RL|].
  intros Ht. apply NS. apply lin_far; auto.
Qed.
Lemma ult_plan n1 n2 la mu P Q hP hQ : (- 1 / 2 < la)%R -> la <> 0%R -> (- 1 / 2 < mu)%R -> mu <> 0%R ->
  is_ultraspherical la P -> is_ultraspherical mu Q -> ultraspherical_norms la hP -> ultraspherical_norms mu hQ ->
  hP 0 = (tgamma (1/2) * tgamma (la + 1/2) / tgamma (la + 1))%R -> hQ 0 = (tgamma (1/2) * tgamma (mu + 1/2) / tgamma (mu + 1))%R ->
  exists E, plan_ultraspherical_to_ultraspherical BS T tn BLK 0%R tol low idR tgamma junk n1 n2 n la mu = Some E /\
    plans E (fam n1 P hP) (fam n2 Q hQ) (IZR n * tol <= 1)%R.
Proof.
  setup. intros Ha Ha0 Hb Hb0 HP HQ NP NQ MP MQ.
  destruct (ult_one n1 n2 n la mu P Q hP hQ) as [[U C] _]; auto.
  destruct (ultra_pencil_proof n1 n2 n la mu P Q hP hQ) as (A & B & EA & EB & bA & bB & DG); auto. specialize (DG U C).
  destruct (ult_diag_ok tgamma n1 n2 n 1 la mu P Q hP hQ U junk) as (D & ED & HD); auto; try lia.
  assert (NZ : forall j, 0 <= j < n -> U j j <> 0%R).
  { refine (connects_diag_nz n _ _ U _ _ _ _ C); [apply graded_fam; [apply (ult_graded la); auto|apply (un_pos la); auto]|apply graded_fam; [apply (ult_graded mu); auto|apply (un_pos mu); auto]]. }
  destruct (plan_of_ok BS T tn BLK tol low S1 S2 S3 S4 S5 n A B U _ junk D Hn DG (proj1 C) ltac:(lia) ltac:(lia) NZ) as (E & EE & RL & NS); auto.
  { intros i j Hi Hj. apply (quad_lam_ne _ n); auto. lra. }
  exists E. unfold plan_ultraspherical_to_ultraspherical. rewrite EA, EB, ED. cbn [obind]. split; [exact EE|]. exists U. split; [exact C|]. split; [exact NZ|]. split; [exact RL|].
  intros Ht. apply NS. apply (quad_far tol (2 * la) n); auto. lra.
Qed.
Lemma leg2cheb_plan nl nc P Q hP hQ : is_jacobi 0 0 P -> is_chebyshev Q -> jacobi_norms 0 0 hP -> chebyshev_norms hQ ->
  hP 0 = 2%R -> hQ 0 = (tgamma (1/2) * tgamma (1/2))%R ->
  exists E, plan_legendre_to_chebyshev BS T tn BLK 0%R tol low idR tgamma junk nl nc n = Some E /\
    plans E (fam nl P hP) (fam nc Q hQ) (IZR n * tol <= 1)%R.
Proof.
  setup. intros HP HQ NP NQ MP MQ.
  destruct (legcheb_one nl nc n P Q hP hQ) as [[[U C] _] _]; auto.
  destruct (leg2cheb_pencil_proof nl nc n P Q hP hQ) as (A & B & EA & EB & bA & bB & DG); auto. specialize (DG U C).
  destruct (leg2cheb_diag_ok tgamma nl nc n 1 P Q hP hQ U junk) as (D & ED & HD); auto; try lia. { apply G1. lra. }
  assert (NZ : forall j, 0 <= j < n -> U j j <> 0%R).
  { refine (connects_diag_nz n _ _ U _ _ _ _ C); [apply graded_fam; [apply (jac_graded 0 0); auto; lra|intros; eapply (jn_pos 0 0); eauto; lra]|apply graded_fam; [apply cheb_graded; auto|apply chn_pos; auto]]. }
  destruct (plan_of_ok BS T tn BLK tol low S1 S2 S3 S4 S5 n A B U _ junk D Hn DG (proj1 C) ltac:(lia) ltac:(lia) NZ) as (E & EE & RL & NS); auto.
  { intros i j Hi Hj. apply (quad_lam_ne _ n); auto. lra. }
  exists E. unfold plan_legendre_to_chebyshev. rewrite EA, EB, ED. cbn [obind]. split; [exact EE|]. exists U. split; [exact C|]. split; [exact NZ|]. split; [exact RL|].
  intros Ht. apply NS. apply (quad_far tol 1 n); auto. lra.
Qed.
Lemma cheb2leg_plan nl nc P Q hP hQ : is_jacobi 0 0 P -> is_chebyshev Q -> jacobi_norms 0 0 hP -> chebyshev_norms hQ ->
  hP 0 = 2%R -> hQ 0 = (tgamma (1/2) * tgamma (1/2))%R ->
  exists E, plan_chebyshev_to_legendre BS T tn BLK 0%R tol low idR tgamma junk nc nl n = Some E /\
    plans E (fam nc Q hQ) (fam nl P hP) (IZR n * tol <= 1)%R.
Proof.
  setup. intros HP HQ NP NQ MP MQ.
  destruct (legcheb_one nl nc n P Q hP hQ) as [_ [[U C] _]]; auto.
  destruct (cheb2leg_pencil_proof nc nl n Q P hQ hP) as (A & B & EA & EB & bA & bB & DG); auto. specialize (DG U C).
  destruct (cheb2leg_diag_ok tgamma nl nc n 1 P Q hP hQ U junk) as (D & ED & HD); auto; try lia. { apply G1. lra. }
  assert (NZ : forall j, 0 <= j < n -> U j j <> 0%R).
  { refine (connects_diag_nz n _ _ U _ _ _ _ C); [apply graded_fam; [apply cheb_graded; auto|apply chn_pos; auto]|apply graded_fam; [apply (jac_graded 0 0); auto; lra|intros; eapply (jn_pos 0 0); eauto; lra]]. }
  destruct (plan_of_ok BS T tn BLK tol low S1 S2 S3 S4 S5 n A B U _ junk D Hn DG (proj1 C) ltac:(lia) ltac:(lia) NZ) as (E & EE & RL & NS); auto.
  { intros i j Hi Hj. replace (IZR i * IZR i)%R with (IZR i * (IZR i + 0))%R by ring. replace (IZR j * IZR j)%R with (IZR j * (IZR j + 0))%R by ring. apply (quad_lam_ne _ n); auto. lra. }
  exists E. unfold plan_chebyshev_to_legendre. rewrite EA, EB, ED. cbn [obind]. split; [exact EE|]. exists U. split; [exact C|]. split; [exact NZ|]. split; [exact RL|].
  intros Ht. apply NS. intros i j Hi Hj. replace (IZR i * IZR i)%R with (IZR i * (IZR i + 0))%R by ring. replace (IZR j * IZR j)%R with (IZR j * (IZR j + 0))%R by ring.
  apply (quad_far tol 0 n); auto. lra.
Qed.

(** ** Scaled plans *)
Lemma plans_rows E P Q Q' X v0 step r : plans E P Q X -> r 0%Z = v0 -> (forall i, 1 <= i < n -> r i = step i (r (i - 1)%Z)) -> (forall i, 0 <= i < n -> r i <> 0%R) ->
  (forall i x, 0 <= i < n -> Q i x = (r i * Q' i x)%R) ->
  exists E', (do x <- scl_array junk n v0 step; scale_rows_tb BS 1%R x 0 E) = Some E' /\ plans E' P Q' X.
Proof.
  destruct HS as [S1 S2 S3 S4 S5]. intros (U & C & D & RL & NS) R0 RS RN HQ. destruct (scl_array_ok junk n v0 step r Hn L4 R0 RS) as (x & Ex & Lx & Hx). rewrite Ex. cbn [obind].
  destruct (rows_ok BS T tn S2 n E U x r RL) as (E' & EE & RL' & NS'); [split; lia|exact Hx|]. exists E'. split; [exact EE|].
  exists (fun i j => (r i * U i j)%R). split; [eapply connects_rows; eauto|]. split; [intros; apply Rmult_integral_contrapositive_currified; auto|]. split; [exact RL'|]. auto.
Qed.
Lemma plans_columns E P P' Q (X : Prop) v0 step r : plans E P Q X -> X -> r 0%Z = v0 -> (forall i, 1 <= i < n -> r i = step i (r (i - 1)%Z)) -> (forall i, 0 <= i < n -> r i <> 0%R) ->
  (forall i x, 0 <= i < n -> P' i x = (r i * P i x)%R) ->
  exists E', (do x <- scl_array junk n v0 step; scale_columns_tb BS 1%R x 0 E) = Some E' /\ plans E' P' Q X.
Proof.
  destruct HS as [S1 S2 S3 S4 S5]. intros (U & C & D & RL & NS) HX R0 RS RN HP. destruct (scl_array_ok junk n v0 step r Hn L4 R0 RS) as (x & Ex & Lx & Hx). rewrite Ex. cbn [obind].
  destruct (columns_ok BS T tn S2 n E U x r RL (NS HX)) as (E' & EE & RL' & NS'); [split; lia|exact Hx|exact RN|]. exists E'. split; [exact EE|].
  exists (fun i j => (U i j * r j)%R). split; [eapply connects_columns; eauto|]. split; [intros; apply Rmult_integral_contrapositive_currified; auto|]. split; [exact RL'|]. auto.
Qed.
Lemma plans_ext E P Q P' Q' X : plans E P Q X -> (forall i x, 0 <= i < n -> P' i x = P i x) -> (forall i x, 0 <= i < n -> Q' i x = Q i x) -> plans E P' Q' X.
Proof. intros (U & C & D & RL & NS) HP HQ. exists U. split; [eapply connects_ext; eauto|]. auto. Qed.
Lemma mass_pos a b : (-1 < a)%R -> (-1 < b)%R -> (0 < jacobi_mass tgamma pow2 a b)%R.
Proof.
  destruct HG as [G1 G2 G3 G4]. intros. unfold jacobi_mass. apply Rdiv_lt_0_compat; [|apply G1; lra]. apply Rmult_lt_0_compat; [apply Rmult_lt_0_compat|]; [apply G3|apply G1; lra|apply G1; lra].
Qed.
(** the Jacobi family that stands for an ultraspherical one *)
Definition uJ (la : R) : Z -> R -> R := std_jacobi (la - 1 / 2) (la - 1 / 2).
Definition uh (la : R) : Z -> R := std_jacobi_norms (la - 1 / 2) (la - 1 / 2) (jacobi_mass tgamma pow2 (la - 1 / 2) (la - 1 / 2)).
Lemma uJ_ok la : (- 1 / 2 < la)%R -> is_jacobi (la - 1 / 2) (la - 1 / 2) (uJ la) /\ jacobi_norms (la - 1 / 2) (la - 1 / 2) (uh la) /\ uh la 0 = jacobi_mass tgamma pow2 (la - 1 / 2) (la - 1 / 2).
Proof.
  intros. split; [apply std_jacobi_ok; lra|]. split; [|reflexivity]. apply std_jacobi_norms_ok; try lra. apply mass_pos; lra.
Qed.
Definition cJ : Z -> R -> R := std_jacobi (- (1 / 2)) (- (1 / 2)).
Definition ch : Z -> R := std_jacobi_norms (- (1 / 2)) (- (1 / 2)) (jacobi_mass tgamma pow2 (- (1 / 2)) (- (1 / 2))).
Lemma cJ_ok : is_jacobi (- (1 / 2)) (- (1 / 2)) cJ /\ jacobi_norms (- (1 / 2)) (- (1 / 2)) ch /\ ch 0 = jacobi_mass tgamma pow2 (- (1 / 2)) (- (1 / 2)).
Proof.
  intros. split; [apply std_jacobi_ok; lra|]. split; [|reflexivity]. apply std_jacobi_norms_ok; try lra. apply mass_pos; lra.
Qed.
Lemma che_mass : jacobi_mass tgamma pow2 (- (1 / 2)) (- (1 / 2)) = (tgamma (1/2) * tgamma (1/2))%R.
Proof.
  destruct HG as [G1 G2 G3 G4]. unfold jacobi_mass. replace (- (1 / 2) + - (1 / 2) + 1)%R with 0%R by lra. replace (- (1 / 2) + - (1 / 2) + 2)%R with 1%R by lra. replace (- (1 / 2) + 1)%R with (1 / 2)%R by lra.
  rewrite G2, G4. field.
Qed.

Lemma jac2ult_plan n1 n2 a b la P Q hP hQ : (-1 < a)%R -> (-1 < b)%R -> (- 1 / 2 < la)%R -> la <> 0%R -> (n2 = true -> 0 < la)%R ->
  is_jacobi a b P -> is_ultraspherical la Q -> jacobi_norms a b hP -> ultraspherical_norms la hQ ->
  hP 0 = jacobi_mass tgamma pow2 a b -> hQ 0 = jacobi_mass tgamma pow2 (la - 1 / 2) (la - 1 / 2) ->
  exists E, plan_jacobi_to_ultraspherical BS T tn BLK 0%R tol low idR tgamma pow2 d1 d2 junk n1 n2 n a b la = Some E /\
    plans E (fam n1 P hP) (fam n2 Q hQ) (IZR n * tol <= 1)%R.
Proof.
  intros Ha Hb Hl Hl0 Hs HP HQ NP NQ MP MQ. destruct (uJ_ok la Hl) as (UJ & UN & UM).
  destruct (jac_plan n1 n2 a b (la - 1 / 2) (la - 1 / 2) P (uJ la) hP (uh la)) as (E & EE & PE); auto; try lra.
  unfold plan_jacobi_to_ultraspherical. change (sub la half) with (la - 1 / 2)%R. unfold idR in *. rewrite EE. cbn [obind]. destruct n2.
  - exists E. split; [reflexivity|]. eapply plans_ext; [exact PE|reflexivity|]. intros i x Hi. symmetry. apply (jac_ult_fam la); auto; try lia; try (now rewrite UM, MQ).
  - apply (plans_rows E _ (fam false (uJ la) (uh la)) _ _ _ _ (rs la) PE).
    + reflexivity.
    + intros i Hi. unfold rs. rewrite kz_step by lia. unfold rsA. rewrite minus_IZR. replace (IZR i - 1 + 1)%R with (IZR i) by ring. reflexivity.
    + intros i Hi. apply rs_nz; auto; lia.
    + intros i x Hi. unfold fam. apply (jac_ult la); auto. lia.
Qed.
Lemma ult2jac_plan n1 n2 a b la P Q hP hQ : (n1 = false -> IZR n * tol <= 1)%R -> (-1 < a)%R -> (-1 < b)%R -> (- 1 / 2 < la)%R -> la <> 0%R -> (n1 = true -> 0 < la)%R ->
  is_ultraspherical la P -> is_jacobi a b Q -> ultraspherical_norms la hP -> jacobi_norms a b hQ ->
  hP 0 = jacobi_mass tgamma pow2 (la - 1 / 2) (la - 1 / 2) -> hQ 0 = jacobi_mass tgamma pow2 a b ->
  exists E, plan_ultraspherical_to_jacobi BS T tn BLK 0%R tol low idR tgamma pow2 d1 d2 junk n1 n2 n la a b = Some E /\
    plans E (fam n1 P hP) (fam n2 Q hQ) (IZR n * tol <= 1)%R.
Proof.
  intros Ht Ha Hb Hl Hl0 Hs HP HQ NP NQ MP MQ. destruct (uJ_ok la Hl) as (UJ & UN & UM).
  destruct (jac_plan n1 n2 (la - 1 / 2) (la - 1 / 2) a b (uJ la) Q (uh la) hQ) as (E & EE & PE); auto; try lra.
  unfold plan_ultraspherical_to_jacobi. change (sub la half) with (la - 1 / 2)%R. unfold idR in *. rewrite EE. cbn [obind]. destruct n1.
  - exists E. split; [reflexivity|]. eapply plans_ext; [exact PE| |reflexivity]. intros i x Hi. symmetry. apply (jac_ult_fam la); auto; try lia; try (now rewrite UM, MP).
  - assert (RN : forall i, 0 <= i -> rs la i <> 0%R) by (intros; apply rs_nz; auto).
    apply (plans_columns E (fam false (uJ la) (uh la)) _ _ _ _ _ (fun i => / rs la i)%R PE (Ht eq_refl)).
    + unfold rs. rewrite kz_0. cbn. lra.
    + intros i Hi. specialize (RN (i - 1) ltac:(lia)). unfold rs at 1. rewrite kz_step by lia. fold (rs la). pose proof (rsA_nz la Hl Hl0 (i - 1) ltac:(lia)) as AN. unfold rsA in *. rewrite minus_IZR in *. cbn -[IZR].
      assert (X1 : (la + IZR i - 1 / 2 <> 0)%R) by (assert (1 <= IZR i)%R by (apply IZR_le; lia); lra).
      assert (X2 : (2 * la + IZR i - 1 <> 0)%R). { pose proof (rs_den la Hl Hl0 (i - 1) ltac:(lia)) as H. rewrite minus_IZR in H. lra. }
      unfold rs in *. field. repeat split; auto; try lra. 
    + intros i Hi. apply Rinv_neq_0_compat. apply RN. lia.
    + intros i x Hi. unfold fam. rewrite (jac_ult la Hl Hl0 (uJ la) P UJ HP i) by lia. field. apply RN. lia.
Qed.

Definition che_r (i : Z) : R := if i =? 0 then (1 / tgamma (1/2))%R else (sqrt 2 / tgamma (1/2))%R.
Definition che_c (i : Z) : R := if i =? 0 then tgamma (1/2)%R else (tgamma (1/2) / sqrt 2)%R.
Lemma g_pos : (0 < tgamma (1/2))%R. Proof. destruct HG as [G1 G2 G3 G4]. apply G1. lra. Qed.
Lemma s2_pos : (0 < sqrt 2)%R. Proof. apply sqrt_lt_R0. lra. Qed.
Lemma che_norm h i : chebyshev_norms h -> h 0 = (tgamma (1/2) * tgamma (1/2))%R -> 0 <= i -> sqrt (h i) = che_c i.
Proof.
  intros N M Hi. pose proof g_pos. pose proof s2_pos. unfold che_c. destruct (Z.eqb_spec i 0) as [->|].
  - rewrite M. apply sqrt_square. lra.
  - pose proof (chn_S _ N i ltac:(lia)) as E. replace (h i) with ((tgamma (1/2) * tgamma (1/2)) / 2)%R by lra.
    rewrite sqrt_div by nra. rewrite sqrt_square by lra. reflexivity.
Qed.
Lemma che_c_pos i : (0 < che_c i)%R.
Proof. pose proof g_pos. pose proof s2_pos. unfold che_c. destruct (_ =? _); [lra|]. apply Rdiv_lt_0_compat; auto. Qed.
Lemma che_rc i : che_r i = (/ che_c i)%R.
Proof. pose proof g_pos. pose proof s2_pos. unfold che_c, che_r. destruct (_ =? _); field; lra. Qed.
Lemma cheb_rows E P Q hQ X : chebyshev_norms hQ -> hQ 0 = (tgamma (1/2) * tgamma (1/2))%R -> plans E P (fam true Q hQ) X ->
  exists E', chebyshev_rows BS idR tgamma junk n E = Some E' /\ plans E' P (fam false Q hQ) X.
Proof.
  intros N M PE. apply (plans_rows E _ (fam true Q hQ) _ _ _ _ che_r PE).
  - reflexivity.
  - intros i Hi. unfold che_r. now replace (i =? 0) with false by lia.
  - intros i Hi. rewrite che_rc. apply Rinv_neq_0_compat. pose proof (che_c_pos i). lra.
  - intros i x Hi. unfold fam. rewrite (che_norm hQ) by (auto; lia). rewrite che_rc. pose proof (che_c_pos i). field. lra.
Qed.
Lemma cheb_columns E P Q hP (X : Prop) : X -> chebyshev_norms hP -> hP 0 = (tgamma (1/2) * tgamma (1/2))%R -> plans E (fam true P hP) Q X ->
  exists E', chebyshev_columns BS idR tgamma junk n E = Some E' /\ plans E' (fam false P hP) Q X.
Proof.
  intros HX N M PE. apply (plans_columns E (fam true P hP) _ _ _ _ _ che_c PE HX).
  - reflexivity.
  - intros i Hi. unfold che_c. now replace (i =? 0) with false by lia.
  - intros i Hi. pose proof (che_c_pos i). lra.
  - intros i x Hi. unfold fam. rewrite (che_norm hP) by (auto; lia). pose proof (che_c_pos i). field. lra.
Qed.
Lemma jac2che_plan n1 n2 a b P Q hP hQ : (-1 < a)%R -> (-1 < b)%R ->
  is_jacobi a b P -> is_chebyshev Q -> jacobi_norms a b hP -> chebyshev_norms hQ ->
  hP 0 = jacobi_mass tgamma pow2 a b -> hQ 0 = (tgamma (1/2) * tgamma (1/2))%R ->
  exists E, plan_jacobi_to_chebyshev BS T tn BLK 0%R tol low idR tgamma pow2 d1 d2 junk n1 n2 n a b = Some E /\
    plans E (fam n1 P hP) (fam n2 Q hQ) (IZR n * tol <= 1)%R.
Proof.
  intros Ha Hb HP HQ NP NQ MP MQ. destruct cJ_ok as (UJ & UN & UM).
  destruct (jac_plan n1 true a b (- (1 / 2)) (- (1 / 2)) P cJ hP ch) as (E & EE & PE); auto; try lra.
  assert (PE' : plans E (fam n1 P hP) (fam true Q hQ) (IZR n * tol <= 1)%R).
  { eapply plans_ext; [exact PE|reflexivity|]. intros i x Hi. symmetry. apply jac_che_fam; auto; try lia; try (rewrite UM, MQ; apply che_mass). }
  unfold plan_jacobi_to_chebyshev. change (opp half) with (- (1 / 2))%R. unfold idR in *. rewrite EE. cbn [obind]. destruct n2.
  - exists E. split; [reflexivity|exact PE'].
  - apply (cheb_rows E _ Q hQ); auto.
Qed.
Lemma che2jac_plan n1 n2 a b P Q hP hQ : (n1 = false -> IZR n * tol <= 1)%R -> (-1 < a)%R -> (-1 < b)%R ->
  is_chebyshev P -> is_jacobi a b Q -> chebyshev_norms hP -> jacobi_norms a b hQ ->
  hP 0 = (tgamma (1/2) * tgamma (1/2))%R -> hQ 0 = jacobi_mass tgamma pow2 a b ->
  exists E, plan_chebyshev_to_jacobi BS T tn BLK 0%R tol low idR tgamma pow2 d1 d2 junk n1 n2 n a b = Some E /\
    plans E (fam n1 P hP) (fam n2 Q hQ) (IZR n * tol <= 1)%R.
Proof.
  intros Ht Ha Hb HP HQ NP NQ MP MQ. destruct cJ_ok as (UJ & UN & UM).
  destruct (jac_plan true n2 (- (1 / 2)) (- (1 / 2)) a b cJ Q ch hQ) as (E & EE & PE); auto; try lra.
  assert (PE' : plans E (fam true P hP) (fam n2 Q hQ) (IZR n * tol <= 1)%R).
  { eapply plans_ext; [exact PE| |reflexivity]. intros i x Hi. symmetry. apply jac_che_fam; auto; try lia; try (rewrite UM, MP; apply che_mass). }
  unfold plan_chebyshev_to_jacobi. change (opp half) with (- (1 / 2))%R. unfold idR in *. rewrite EE. cbn [obind]. destruct n1.
  - exists E. split; [reflexivity|exact PE'].
  - apply (cheb_columns E P); auto.
Qed.
Lemma ult2che_plan n1 n2 la P Q hP hQ : (n1 = false -> IZR n * tol <= 1)%R -> (- 1 / 2 < la)%R -> la <> 0%R -> (n1 = true -> 0 < la)%R ->
  is_ultraspherical la P -> is_chebyshev Q -> ultraspherical_norms la hP -> chebyshev_norms hQ ->
  hP 0 = jacobi_mass tgamma pow2 (la - 1 / 2) (la - 1 / 2) -> hQ 0 = (tgamma (1/2) * tgamma (1/2))%R ->
  exists E, plan_ultraspherical_to_chebyshev BS T tn BLK 0%R tol low idR tgamma pow2 d1 d2 junk n1 n2 n la = Some E /\
    plans E (fam n1 P hP) (fam n2 Q hQ) (IZR n * tol <= 1)%R.
Proof.
  intros Ht Hl Hl0 Hs HP HQ NP NQ MP MQ. destruct cJ_ok as (UJ & UN & UM).
  destruct (ult2jac_plan n1 true (- (1 / 2)) (- (1 / 2)) la P cJ hP ch) as (E & EE & PE); auto; try lra.
  assert (PE' : plans E (fam n1 P hP) (fam true Q hQ) (IZR n * tol <= 1)%R).
  { eapply plans_ext; [exact PE|reflexivity|]. intros i x Hi. symmetry. apply jac_che_fam; auto; try lia; try (rewrite UM, MQ; apply che_mass). }
  unfold plan_ultraspherical_to_chebyshev. change (opp half) with (- (1 / 2))%R. unfold idR in *. rewrite EE. cbn [obind]. destruct n2.
  - exists E. split; [reflexivity|exact PE'].
  - apply (cheb_rows E _ Q hQ); auto.
Qed.
Lemma che2ult_plan n1 n2 la P Q hP hQ : (n1 = false -> IZR n * tol <= 1)%R -> (- 1 / 2 < la)%R -> la <> 0%R -> (n2 = true -> 0 < la)%R ->
  is_chebyshev P -> is_ultraspherical la Q -> chebyshev_norms hP -> ultraspherical_norms la hQ ->
  hP 0 = (tgamma (1/2) * tgamma (1/2))%R -> hQ 0 = jacobi_mass tgamma pow2 (la - 1 / 2) (la - 1 / 2) ->
  exists E, plan_chebyshev_to_ultraspherical BS T tn BLK 0%R tol low idR tgamma pow2 d1 d2 junk n1 n2 n la = Some E /\
    plans E (fam n1 P hP) (fam n2 Q hQ) (IZR n * tol <= 1)%R.
Proof.
  intros Ht Hl Hl0 Hs HP HQ NP NQ MP MQ. destruct cJ_ok as (UJ & UN & UM).
  destruct (jac2ult_plan true n2 (- (1 / 2)) (- (1 / 2)) la cJ Q ch hQ) as (E & EE & PE); auto; try lra.
  assert (PE' : plans E (fam true P hP) (fam n2 Q hQ) (IZR n * tol <= 1)%R).
  { eapply plans_ext; [exact PE| |reflexivity]. intros i x Hi. symmetry. apply jac_che_fam; auto; try lia; try (rewrite UM, MP; apply che_mass). }
  unfold plan_chebyshev_to_ultraspherical. change (opp half) with (- (1 / 2))%R. unfold idR in *. rewrite EE. cbn [obind]. destruct n1.
  - exists E. split; [reflexivity|exact PE'].
  - apply (cheb_columns E P); auto.
Qed.
End Planners.
