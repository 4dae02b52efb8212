(** * Dense planners: the five that solve a pencil *)
From Coq Require Import ZArith List Lia Bool Reals Lra ZifyBool ZifyNat.
From Verif Require Import Base BaseFacts Arith SpecSum PSum SpecLin MBanded SpecBanded PTri MEig SpecEig PEigThms PEigPlan3
  SpecClassical SpecConn MClassical MConn PPoly PPenJ PPenU PPenC PPenL PDiag MTransforms SpecTransforms PTransforms MDense SpecConvert.
Import ListNotations.
Open Scope Z_scope.

Lemma dense_of_ok n A B U lam diag D' : 0 <= n -> diagonalizes n A B U lam -> (forall i j, 0 <= j < i -> i < n -> U i j = 0%R) ->
  (forall i j, 0 <= i < j -> j < n -> lam i <> lam j) ->
  diag (n + 1) (zmake (n * n) 0%R) = Some D' -> holds_diag n (n + 1) U (zmake (n * n) 0%R) D' ->
  exists V, dense_of 0%R (fun x => x) n A B diag = Some V /\ zlen V = n * n /\ forall i j, 0 <= i < n -> 0 <= j < n -> mat 0 n V i j = U i j.
Proof.
  intros Hn (OA & OB & nA & nB & NZ & EV & DG) Up Hlam ED (H1 & H2 & H3).
  assert (NN : 0 <= n * n) by nia. rewrite zlen_zmake in H1 by auto.
  assert (V2 : forall j, 0 <= j < n -> mat 0 n D' j j = U j j). { intros j Hj. unfold mat. apply nthZ_zget. rewrite <- (H2 j Hj). f_equal. lia. }
  assert (V0 : forall i j, 0 <= i < n -> 0 <= j < n -> i <> j -> mat 0 n D' i j = 0%R).
  { intros i j Hi Hj Hij. unfold mat. apply nthZ_zget. rewrite H3; [apply zget_zmake; nia|]. intros k Hk E. assert (j = k) by nia. subst k. nia. }
  destruct (C43_exact_proof A B D') as (V & E & (L & KD & _) & EQ); auto; try (rewrite nA; auto).
  - intros i j Hi Hj. rewrite !EV by lia. now apply Hlam.
  - lia.
  - intros i j Hj Hi. apply V0; lia.
  - rewrite nA in *. unfold dense_of. cbn [zero R_arith]. rewrite ED. cbn [obind]. rewrite E. cbn [obind]. rewrite map_id. exists V. split; [reflexivity|]. split; [lia|].
    intros i j Hi Hj.
    refine (eig_column_unique (fun i k => tb_mat A i k - lam j * tb_mat B i k)%R j (fun i => mat 0 n V i j) (fun i => U i j) n ltac:(lia) _ _ _ _ _ _ _ i Hi).
    + intros i' k Hk Hi'. rewrite (tb_upper A n i' k), (tb_upper B n i' k) by lia. ring.
    + intros i' Hi' Hz. specialize (EV i' ltac:(lia)). unfold pencil_eig in EV. specialize (NZ i' ltac:(lia)).
      apply (Hlam i' j); try lia. rewrite <- EV. apply (Rmult_eq_reg_r (tb_mat B i' i')); auto. unfold Rdiv. rewrite Rmult_assoc, Rinv_l by auto. lra.
    + rewrite KD by lia. apply V2; auto.
    + intros i' Hi'. rewrite KD by lia. apply V0; lia.
    + intros i' Hi'. apply Up; lia.
    + intros i' Hi'. specialize (EQ i' j Hi' Hj). unfold matmul in EQ. rewrite EV in EQ by lia.
      rewrite (sumZ_ext n _ (fun k => tb_mat A i' k * mat 0 n V k j - lam j * (tb_mat B i' k * mat 0 n V k j))%R) by (intros; ring).
      rewrite sumZ_minus, sumZ_scal, EQ. ring.
    + intros i' Hi'. specialize (DG i' j Hi' Hj). unfold matmul in DG.
      rewrite (sumZ_ext n _ (fun k => tb_mat A i' k * U k j - lam j * (tb_mat B i' k * U k j))%R) by (intros; ring).
      rewrite sumZ_minus, sumZ_scal, DG. ring.
Qed.

Lemma connects_mat n V U P Q : zlen V = n * n -> (forall i j, 0 <= i < n -> 0 <= j < n -> mat 0 n V i j = U i j) -> connects n U P Q -> table n V P Q.
Proof.
  intros L E [C1 C2]. split; [exact L|]. split.
  - intros i j Hj Hi. rewrite E by lia. auto.
  - intros j x Hj. rewrite C2 by auto. unfold expansion. apply sumZ_ext. intros i Hi. now rewrite E by lia.
Qed.

Section Planners.
Variables (tgamma pow2 : R -> R).
Hypothesis HG : special tgamma pow2.
Variables (d1 d2 data junk : list R) (n : Z).
Hypotheses (Hn : 0 <= n) (L1 : n <= zlen d1) (L2 : n <= zlen d2) (L3 : 2 * n <= zlen data) (L4 : n <= zlen junk).
Let idR := fun x : R => x.
Ltac setup := destruct HG as [G1 G2 G3 G4].
Lemma incd_ok : (n - 1) * (n + 1) < zlen (zmake (n * n) 0%R).
Proof. rewrite zlen_zmake; nia. Qed.

Lemma jac_dense n1 n2 a b c e P Q hP hQ : (-1 < a)%R -> (-1 < b)%R -> (-1 < c)%R -> (-1 < e)%R ->
  is_jacobi a b P -> is_jacobi c e Q -> jacobi_norms a b hP -> jacobi_norms c e hQ ->
  hP 0 = jacobi_mass tgamma pow2 a b -> hQ 0 = jacobi_mass tgamma pow2 c e ->
  exists V, dense_jacobi_to_jacobi 0%R idR tgamma pow2 d1 d2 n1 n2 n a b c e = Some V /\ table n V (fam n1 P hP) (fam n2 Q hQ).
Proof.
  setup. intros Ha Hb Hc He HP HQ NP NQ MP MQ.
  destruct (jac_one n1 n2 n a b c e P Q hP hQ) as [[U C] _]; auto.
  destruct (jacobi_pencil_proof n1 n2 n a b c e P Q hP hQ d1 d2) as (A & B & EA & EB & bA & bB & DG); auto. specialize (DG U C).
  destruct (jac_diag_ok tgamma pow2 n1 n2 n (n + 1) a b c e P Q hP hQ U (zmake (n * n) 0%R)) as (D & ED & HD); auto; try lia; try apply incd_ok.
  destruct (dense_of_ok n A B U _ (jacobi_diag tgamma pow2 n1 n2 n a b c e) D Hn DG (proj1 C)) as (V & EV & LV & HV); [|exact ED|exact HD|].
  { intros i j Hi Hj. replace (IZR i + a + b + 1)%R with (IZR i + (a + b + 1))%R by ring. replace (IZR j + a + b + 1)%R with (IZR j + (a + b + 1))%R by ring. apply (quad_lam_ne _ n); auto. lra. }
  exists V. unfold dense_jacobi_to_jacobi. rewrite EA, EB. cbn [obind]. split; [exact EV|]. now apply (connects_mat n V U).
Qed.
Lemma lag_dense n1 n2 a b P Q hP hQ : (-1 < a)%R -> (-1 < b)%R ->
  is_laguerre a P -> is_laguerre b Q -> laguerre_norms a hP -> laguerre_norms b hQ -> hP 0 = tgamma (a + 1)%R -> hQ 0 = tgamma (b + 1)%R ->
  exists V, dense_laguerre_to_laguerre 0%R idR tgamma data n1 n2 n a b = Some V /\ table n V (fam n1 P hP) (fam n2 Q hQ).
Proof.
  setup. intros Ha Hb HP HQ NP NQ MP MQ.
  destruct (lag_one n1 n2 n a b P Q hP hQ) as [[U C] _]; auto.
  destruct (laguerre_pencil_proof n1 n2 n a b P Q hP hQ data) as (A & B & EA & EB & bA & bB & DG); auto. specialize (DG U C).
  destruct (lag_diag_ok tgamma n1 n2 n (n + 1) a b P Q hP hQ U (zmake (n * n) 0%R)) as (D & ED & HD); auto; try lia; try apply incd_ok.
  destruct (dense_of_ok n A B U _ (laguerre_diag tgamma n1 n2 n a b) D Hn DG (proj1 C)) as (V & EV & LV & HV); [|exact ED|exact HD|].
  { intros i j Hi Hj HE. apply eq_IZR in HE. lia. }
  exists V. unfold dense_laguerre_to_laguerre. rewrite EA, EB. cbn [obind]. split; [exact EV|]. now apply (connects_mat n V U).
Qed.
Lemma ult_dense n1 n2 la mu P Q hP hQ : (- 1 / 2 < la)%R -> la <> 0%R -> (- 1 / 2 < mu)%R -> mu <> 0%R ->
  is_ultraspherical la P -> is_ultraspherical mu Q -> ultraspherical_norms la hP -> ultraspherical_norms mu hQ ->
  hP 0 = (tgamma (1/2) * tgamma (la + 1/2) / tgamma (la + 1))%R -> hQ 0 = (tgamma (1/2) * tgamma (mu + 1/2) / tgamma (mu + 1))%R ->
  exists V, dense_ultraspherical_to_ultraspherical 0%R idR tgamma n1 n2 n la mu = Some V /\ table n V (fam n1 P hP) (fam n2 Q hQ).
Proof.
  setup. intros Ha Ha0 Hb Hb0 HP HQ NP NQ MP MQ.
  destruct (ult_one n1 n2 n la mu P Q hP hQ) as [[U C] _]; auto.
  destruct (ultra_pencil_proof n1 n2 n la mu P Q hP hQ) as (A & B & EA & EB & bA & bB & DG); auto. specialize (DG U C).
  destruct (ult_diag_ok tgamma n1 n2 n (n + 1) la mu P Q hP hQ U (zmake (n * n) 0%R)) as (D & ED & HD); auto; try lia; try apply incd_ok.
  destruct (dense_of_ok n A B U _ (ultra_diag tgamma n1 n2 n la mu) D Hn DG (proj1 C)) as (V & EV & LV & HV); [|exact ED|exact HD|].
  { intros i j Hi Hj. apply (quad_lam_ne _ n); auto. lra. }
  exists V. unfold dense_ultraspherical_to_ultraspherical. rewrite EA, EB. cbn [obind]. split; [exact EV|]. now apply (connects_mat n V U).
Qed.
Lemma leg2cheb_dense nl nc P Q hP hQ : is_jacobi 0 0 P -> is_chebyshev Q -> jacobi_norms 0 0 hP -> chebyshev_norms hQ ->
  hP 0 = 2%R -> hQ 0 = (tgamma (1/2) * tgamma (1/2))%R ->
  exists V, dense_legendre_to_chebyshev 0%R idR tgamma nl nc n = Some V /\ table n V (fam nl P hP) (fam nc Q hQ).
Proof.
  setup. intros HP HQ NP NQ MP MQ.
  destruct (legcheb_one nl nc n P Q hP hQ) as [[[U C] _] _]; auto.
  destruct (leg2cheb_pencil_proof nl nc n P Q hP hQ) as (A & B & EA & EB & bA & bB & DG); auto. specialize (DG U C).
  destruct (leg2cheb_diag_ok tgamma nl nc n (n + 1) P Q hP hQ U (zmake (n * n) 0%R)) as (D & ED & HD); auto; try lia; try apply incd_ok. { apply G1. lra. }
  destruct (dense_of_ok n A B U _ (leg2cheb_diag tgamma nl nc n) D Hn DG (proj1 C)) as (V & EV & LV & HV); [|exact ED|exact HD|].
  { intros i j Hi Hj. apply (quad_lam_ne _ n); auto. lra. }
  exists V. unfold dense_legendre_to_chebyshev. rewrite EA, EB. cbn [obind]. split; [exact EV|]. now apply (connects_mat n V U).
Qed.
Lemma cheb2leg_dense nl nc P Q hP hQ : is_jacobi 0 0 P -> is_chebyshev Q -> jacobi_norms 0 0 hP -> chebyshev_norms hQ ->
  hP 0 = 2%R -> hQ 0 = (tgamma (1/2) * tgamma (1/2))%R ->
  exists V, dense_chebyshev_to_legendre 0%R idR tgamma nc nl n = Some V /\ table n V (fam nc Q hQ) (fam nl P hP).
Proof.
  setup. intros HP HQ NP NQ MP MQ.
  destruct (legcheb_one nl nc n P Q hP hQ) as [_ [[U C] _]]; auto.
  destruct (cheb2leg_pencil_proof nc nl n Q P hQ hP) as (A & B & EA & EB & bA & bB & DG); auto. specialize (DG U C).
  destruct (cheb2leg_diag_ok tgamma nl nc n (n + 1) P Q hP hQ U (zmake (n * n) 0%R)) as (D & ED & HD); auto; try lia; try apply incd_ok. { apply G1. lra. }
  destruct (dense_of_ok n A B U _ (cheb2leg_diag tgamma nc nl n) D Hn DG (proj1 C)) as (V & EV & LV & HV); [|exact ED|exact HD|].
  { intros i j Hi Hj. replace (IZR i * IZR i)%R with (IZR i * (IZR i + 0))%R by ring. replace (IZR j * IZR j)%R with (IZR j * (IZR j + 0))%R by ring. apply (quad_lam_ne _ n); auto. lra. }
  exists V. unfold dense_chebyshev_to_legendre. rewrite EA, EB. cbn [obind]. split; [exact EV|]. now apply (connects_mat n V U).
Qed.
End Planners.
