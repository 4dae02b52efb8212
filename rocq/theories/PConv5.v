(** * The two tables of the sphere: associated Legendre functions of orders 0 and 1 as cosines and sines *)
From Coq Require Import ZArith List Lia Bool Reals Lra ZifyBool ZifyNat Factorial.
From Verif Require Import Base BaseFacts Arith SpecSum PSum SpecLin SpecHarm SpecClassical SpecConn PClass8 PPoly PPenU PDiag PTransforms2 SpecTransforms SpecGeo SpecConvert PGrad1 PGrad3 PDense PDense2.
Import ListNotations.
Open Scope Z_scope.

(** ** Polynomials at cos t *)
Lemma cheb_cos P : is_chebyshev P -> forall i t, 0 <= i -> P i (cos t) = cos (IZR i * t).
Proof.
  intros H i t Hi. revert i Hi. apply two_step.
  - rewrite (che_0 P H). now rewrite Rmult_0_l, cos_0.
  - rewrite (che_1 P H). now rewrite Rmult_1_l.
  - intros k Hk I1 I2. rewrite (che_S P H) by auto. rewrite I1, I2. rewrite plus_IZR, minus_IZR.
    replace ((IZR k - 1) * t)%R with (IZR k * t - t)%R by ring. replace ((IZR k + 1) * t)%R with (IZR k * t + t)%R by ring. rewrite cos_plus, cos_minus. ring.
Qed.
Lemma ult1_sin P : is_ultraspherical 1 P -> forall i t, 0 <= i -> (sin t * P i (cos t) = sin ((IZR i + 1) * t))%R.
Proof.
  intros H i t Hi. revert i Hi. apply two_step.
  - rewrite (ult_0 1 P H). rewrite Rplus_0_l, !Rmult_1_l, Rmult_1_r. reflexivity.
  - rewrite (ult_1 1 P H). replace ((1 + 1) * t)%R with (2 * t)%R by ring. rewrite sin_2a. ring.
  - intros k Hk I1 I2. assert (1 <= IZR k)%R by (apply IZR_le; lia). pose proof (ult_S 1 P H k (cos t) Hk) as E. cbv zeta in E. rewrite plus_IZR. rewrite minus_IZR in I1.
    apply (Rmult_eq_reg_l (IZR k + 1)); [|lra]. replace ((IZR k + 1) * (sin t * P (k + 1)%Z (cos t)))%R with (sin t * ((IZR k + 1) * P (k + 1)%Z (cos t)))%R by ring. rewrite E.
    replace (sin t * (2 * (IZR k + 1) * cos t * P k (cos t) - (IZR k + 2 * 1 - 1) * P (k - 1)%Z (cos t)))%R
      with ((IZR k + 1) * (2 * cos t * (sin t * P k (cos t)) - (sin t * P (k - 1)%Z (cos t))))%R by ring. rewrite I1, I2. f_equal.
    replace ((IZR k - 1 + 1) * t)%R with ((IZR k + 1) * t - t)%R by ring. replace ((IZR k + 1 + 1) * t)%R with ((IZR k + 1) * t + t)%R by ring. rewrite sin_plus, sin_minus. ring.
Qed.
(** the recurrence of the associated Legendre functions over Z *)
Lemma Lz_rec m k t : 0 <= m -> 1 <= k ->
  ((IZR k + 1) * Lz m (k + 1) t = (2 * (IZR m + IZR k) + 1) * cos t * Lz m k t - (2 * IZR m + IZR k) * Lz m (k - 1) t)%R.
Proof.
  intros Hm Hk. unfold Lz, L. replace (Z.to_nat (k + 1)) with (S (S (Z.to_nat (k - 1)))) by lia. replace (Z.to_nat k) with (S (Z.to_nat (k - 1))) by lia.
  cbn [legendre2]. destruct (legendre2 (Z.to_nat m) t (Z.to_nat (k - 1))) as [p q] eqn:E. cbn [fst].
  assert (EK : INR (S (Z.to_nat (k - 1))) = IZR k) by (rewrite INR_IZR_INZ; f_equal; lia).
  assert (E0 : INR (Z.to_nat m) = IZR m) by (rewrite INR_IZR_INZ; f_equal; lia).
  assert (EJ : INR (Z.to_nat (k - 1)) = (IZR k - 1)%R) by (rewrite INR_IZR_INZ, <- minus_IZR; f_equal; lia).
  rewrite !plus_INR, ?mult_INR, EK, E0, EJ. change (INR 2) with 2%R. assert (1 <= IZR k)%R by (apply IZR_le; lia). field. lra.
Qed.
Lemma Lz_0 m t : 0 <= m -> Lz m 0 t = (oddfact (Z.to_nat m) * sin t ^ Z.to_nat m)%R. Proof. reflexivity. Qed.
Lemma Lz_1 m t : 0 <= m -> Lz m 1 t = ((2 * IZR m + 1) * cos t * Lz m 0 t)%R.
Proof.
  intros Hm. unfold Lz, L. change (Z.to_nat 1) with 1%nat. change (Z.to_nat 0) with 0%nat. cbn [legendre2 fst]. rewrite Nat.add_0_r.
  assert (E : INR (Z.to_nat m) = IZR m) by (rewrite INR_IZR_INZ; f_equal; lia). rewrite E. cbn [INR]. field.
Qed.
Lemma leg_cos P : is_jacobi 0 0 P -> forall i t, 0 <= i -> Lz 0 i t = P i (cos t).
Proof.
  intros H i t Hi. revert i Hi. apply two_step.
  - rewrite (jac_0 0 0 P H), Lz_0 by lia. cbn. ring.
  - rewrite (jac_1 0 0 P H), Lz_1, Lz_0 by lia. cbn. field.
  - intros k Hk I1 I2. assert (1 <= IZR k)%R by (apply IZR_le; lia). pose proof (jac_S 0 0 P H k (cos t) Hk) as E. cbv zeta in E. pose proof (Lz_rec 0 k t ltac:(lia) Hk) as E'. rewrite I1, I2 in E'.
    apply (Rmult_eq_reg_l (IZR k + 1)); [|lra]. rewrite E'. apply (Rmult_eq_reg_l (4 * (IZR k + 1) * IZR k)); [|nra].
    transitivity (2 * (IZR k + 1) * (IZR k + 0 + 0 + 1) * (2 * IZR k + 0 + 0) * P (k + 1)%Z (cos t))%R; [rewrite E; ring|ring].
Qed.
Lemma ult3_cos P : is_ultraspherical (3/2) P -> forall i t, 0 <= i -> Lz 1 i t = (sin t * P i (cos t))%R.
Proof.
  intros H i t Hi. revert i Hi. apply two_step.
  - rewrite (ult_0 _ P H), Lz_0 by lia. change (Z.to_nat 1) with 1%nat. cbn [oddfact pow INR]. ring.
  - rewrite (ult_1 _ P H), Lz_1, Lz_0 by lia. change (Z.to_nat 1) with 1%nat. cbn [oddfact pow INR]. field.
  - intros k Hk I1 I2. assert (1 <= IZR k)%R by (apply IZR_le; lia). pose proof (ult_S _ P H k (cos t) Hk) as E. cbv zeta in E. pose proof (Lz_rec 1 k t ltac:(lia) Hk) as E'. rewrite I1, I2 in E'.
    apply (Rmult_eq_reg_l (IZR k + 1)); [|lra]. rewrite E'. replace ((IZR k + 1) * (sin t * P (k + 1)%Z (cos t)))%R with (sin t * ((IZR k + 1) * P (k + 1)%Z (cos t)))%R by ring. rewrite E. field.
Qed.
(** ** Norms *)
Lemma leg_norm h : jacobi_norms 0 0 h -> h 0 = 2%R -> forall i, 0 <= i -> h i = (2 / (2 * IZR i + 1))%R.
Proof.
  intros N M. apply two_step.
  - rewrite M. field.
  - pose proof (jn_1 0 0 h N) as E. rewrite M in E. lra.
  - intros k Hk I1 I2. assert (1 <= IZR k)%R by (apply IZR_le; lia). pose proof (jn_S 0 0 h N k Hk) as E. cbv zeta in E. rewrite plus_IZR. rewrite I2 in E.
    apply (Rmult_eq_reg_l ((2 * IZR k + 3) * (IZR k + 1) * (IZR k + 1))). 2:{ assert (0 < (2 * IZR k + 3) * (IZR k + 1) * (IZR k + 1))%R; [|lra]. repeat apply Rmult_lt_0_compat; lra. }
    transitivity ((2 * IZR k + 0 + 0 + 3) * (IZR k + 1) * (IZR k + 0 + 0 + 1) * h (k + 1)%Z)%R; [ring|]. rewrite E. field. lra.
Qed.
Lemma ult3_norm h : ultraspherical_norms (3/2) h -> h 0 = (4/3)%R -> forall i, 0 <= i -> h i = ((IZR i + 1) * (IZR i + 2) / (IZR i + 3/2))%R.
Proof.
  intros N M i Hi. pattern i. apply natlike_ind; auto; clear i Hi.
  - rewrite M. field.
  - intros k Hk I. assert (0 <= IZR k)%R by (apply IZR_le; lia). pose proof (un_S _ h N k Hk) as E. cbv zeta in E. unfold Z.succ. rewrite plus_IZR. rewrite I in E.
    apply (Rmult_eq_reg_l ((IZR k + 1) * (IZR k + 1 + 3/2))). 2:{ assert (0 < (IZR k + 1) * (IZR k + 1 + 3/2))%R; [|lra]. apply Rmult_lt_0_compat; lra. }
    rewrite E. field. lra.
Qed.
Lemma fact2 i : 0 <= i -> (INR (fact (Z.to_nat (2 * 1 + i))) = (IZR i + 1) * (IZR i + 2) * INR (fact (Z.to_nat i)))%R.
Proof.
  intros Hi. change (fz (2 * 1 + i) = (IZR i + 1) * (IZR i + 2) * fz i)%R. replace (2 * 1 + i) with (i + 1 + 1) by lia. rewrite !fz_S by lia. rewrite plus_IZR. ring.
Qed.
Lemma polar_0 P h i t : is_jacobi 0 0 P -> jacobi_norms 0 0 h -> h 0 = 2%R -> 0 <= i -> polar 0 i t = fam true P h i (cos t).
Proof.
  intros H N M Hi. unfold polar. change (fst (legendre2 (Z.to_nat 0) t (Z.to_nat i))) with (Lz 0 i t). rewrite (leg_cos P H) by auto. unfold fam. rewrite (leg_norm h N M) by auto.
  pose proof (INR_fact_lt_0 (Z.to_nat i)) as F. assert (0 <= IZR i)%R by (apply IZR_le; lia). replace (2 * 0 + i) with i by lia. replace (INR (fact (Z.to_nat i)) / INR (fact (Z.to_nat i)))%R with 1%R by (field; lra).
  rewrite Z.add_0_l. replace ((IZR i + 1 / 2) * 1)%R with (/ (2 / (2 * IZR i + 1)))%R by (field; lra).
  assert (0 < 2 / (2 * IZR i + 1))%R by (apply Rdiv_lt_0_compat; lra). rewrite sqrt_inv. unfold Rdiv. ring.
Qed.
Lemma polar_1 P h i t : is_ultraspherical (3/2) P -> ultraspherical_norms (3/2) h -> h 0 = (4/3)%R -> 0 <= i -> polar 1 i t = (sin t * fam true P h i (cos t))%R.
Proof.
  intros H N M Hi. unfold polar. change (fst (legendre2 (Z.to_nat 1) t (Z.to_nat i))) with (Lz 1 i t). rewrite (ult3_cos P H) by auto. unfold fam. rewrite (ult3_norm h N M) by auto.
  pose proof (INR_fact_lt_0 (Z.to_nat i)) as F. assert (0 <= IZR i)%R by (apply IZR_le; lia). rewrite fact2 by auto. rewrite plus_IZR.
  replace ((1 + IZR i + 1 / 2) * (INR (fact (Z.to_nat i)) / ((IZR i + 1) * (IZR i + 2) * INR (fact (Z.to_nat i)))))%R with (/ ((IZR i + 1) * (IZR i + 2) / (IZR i + 3 / 2)))%R by (field; lra).
  rewrite sqrt_inv. unfold Rdiv. ring.
Qed.

(** ** Tables *)
Lemma utri_mat n V P Q i j : table n V P Q -> 0 <= i < n -> 0 <= j < n -> utri n V i j = mat 0 n V i j.
Proof. intros [_ [C _]] Hi Hj. unfold utri. destruct (Z.leb_spec i j); auto. symmetry. apply C; lia. Qed.
(** a product with the table turns a sum in P into a sum in Q *)
Lemma table_sum n V P Q (c d : Z -> R) x : table n V P Q -> (forall i, 0 <= i < n -> d i = sumZ n (fun k => utri n V i k * c k)%R) ->
  sumZ n (fun i => d i * Q i x)%R = sumZ n (fun i => c i * P i x)%R.
Proof.
  intros T H. pose proof (proj2 T) as C. change (expansion n d Q x = expansion n c P x). apply (PTransforms.expansion_conn n (mat 0 n V) P Q c d C).
  intros i Hi. rewrite H by auto. unfold matvec. apply sumZ_ext. intros k Hk. now rewrite (utri_mat n V P Q) by auto.
Qed.
Lemma connects_id n P : 0 <= n -> connects n delta P P.
Proof.
  intros Hn. split. { intros i j Hj Hi. unfold delta. now replace (i =? j) with false by lia. }
  intros j x Hj. unfold expansion. rewrite (sumZ_single n j); auto.
  - unfold delta. rewrite Z.eqb_refl. ring.
  - intros i Hi Hij. unfold delta. replace (i =? j) with false by lia. ring.
Qed.
Lemma connects_mul n U V P Q W : connects n U P Q -> connects n V Q W -> connects n (matmul n V U) P W.
Proof.
  intros [U1 U2] [V1 V2]. split.
  - intros i j Hj Hi. unfold matmul. apply sumZ_zero. intros k Hk. destruct (Z_lt_ge_dec k i); [rewrite V1 by lia; ring|rewrite U1 by lia; ring].
  - intros j x Hj. rewrite (U2 j x Hj). unfold expansion, matmul.
    rewrite (sumZ_ext n _ (fun i => sumZ n (fun k => V k i * U i j * W k x))%R).
    2:{ intros i Hi. rewrite (V2 i x Hi). unfold expansion. rewrite <- sumZ_scal. apply sumZ_ext. intros; ring. }
    rewrite sumZ_swap. apply sumZ_ext. intros k Hk. rewrite <- sumZ_scal_r. reflexivity.
Qed.
Lemma tables_inverse n V W P Q : 0 <= n -> table n V P Q -> table n W Q P -> one_connection n P P -> one_connection n Q Q -> inverse_tables n V W.
Proof.
  intros Hn TV TW [_ OP] [_ OQ]. split; [apply TV|]. split; [apply TW|]. intros i j Hi Hj.
  assert (E : forall A B, (forall i k, 0 <= i < n -> 0 <= k < n -> utri n A i k = mat 0 n A i k) -> (forall i k, 0 <= i < n -> 0 <= k < n -> utri n B i k = mat 0 n B i k) -> matmul n (utri n A) (utri n B) i j = matmul n (mat 0 n A) (mat 0 n B) i j).
  { intros A B HA HB. unfold matmul. apply sumZ_ext. intros k Hk. now rewrite HA, HB by auto. }
  split; rewrite E; try (intros; eapply utri_mat; eauto).
  - apply OQ; auto; [|now apply connects_id]. eapply connects_mul; [apply TW|apply TV].
  - apply OP; auto; [|now apply connects_id]. eapply connects_mul; [apply TV|apply TW].
Qed.
