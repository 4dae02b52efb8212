(** * The powers of the quadratic form are the spherical harmonics of one degree *)
From Coq Require Import ZArith List Lia Bool Reals Lra Factorial FunctionalExtensionality ZifyBool ZifyNat.
From Verif Require Import Base Arith SpecSum PSum PKraw PKraw2 MIso SpecIso SpecGeo PGeo1.
Open Scope Z_scope.

(** powers of  s v^2 - 2z uv - s u^2 *)
Fixpoint ww (s z : R) (l : nat) : Z -> R :=
  match l with O => d0 | S l' => fun k => (s * ww s z l' k - 2 * z * ww s z l' (k - 1)%Z - s * ww s z l' (k - 2)%Z)%R end.
Lemma ww_S s z l k : ww s z (S l) k = (s * ww s z l k - 2 * z * ww s z l (k - 1)%Z - s * ww s z l (k - 2)%Z)%R. Proof. reflexivity. Qed.
Lemma ww_out s z l k : k < 0 \/ 2 * Z.of_nat l < k -> ww s z l k = 0%R.
Proof.
  revert k. induction l as [|l IH]; intros k Hk.
  - cbn. unfold d0. now replace (k =? 0) with false by lia.
  - rewrite ww_S, !IH by lia. ring.
Qed.
Lemma sgn_m1 k : sgn (k - 1) = (- sgn k)%R.
Proof. assert (E := sgn_S (k - 1)). replace (k - 1 + 1) with k in E by lia. lra. Qed.
Lemma ww_sym s z l k : ww s z l (2 * Z.of_nat l - k) = (sgn (Z.of_nat l + k) * ww s z l k)%R.
Proof.
  revert k. induction l as [|l IH]; intros k.
  - cbn [ww]. unfold d0. change (Z.of_nat 0) with 0. destruct (k =? 0) eqn:E.
    + replace (2 * 0 - k =? 0) with true by lia. replace k with 0 by lia. unfold sgn. cbn. ring.
    + replace (2 * 0 - k =? 0) with false by lia. ring.
  - rewrite !ww_S. replace (2 * Z.of_nat (S l) - k) with (2 * Z.of_nat l - (k - 2)) by lia. replace (2 * Z.of_nat l - (k - 2) - 1) with (2 * Z.of_nat l - (k - 1)) by lia. replace (2 * Z.of_nat l - (k - 2) - 2) with (2 * Z.of_nat l - k) by lia.
    rewrite !IH. replace (Z.of_nat (S l) + k) with (Z.of_nat l + k + 1) by lia. rewrite sgn_S.
    replace (Z.of_nat l + (k - 1)) with (Z.of_nat l + k - 1) by lia. replace (Z.of_nat l + (k - 2)) with (Z.of_nat l + k - 1 - 1) by lia. rewrite !sgn_m1. ring.
Qed.
Lemma ww_du s z l k : (IZR k * ww s z (S l) k = - 2 * (INR l + 1) * (z * ww s z l (k - 1)%Z + s * ww s z l (k - 2)%Z))%R.
Proof.
  revert k. induction l as [|l IH]; intros k.
  - rewrite ww_S. cbn [ww INR]. unfold d0. destruct (k =? 0) eqn:E0, (k - 1 =? 0) eqn:E1, (k - 2 =? 0) eqn:E2; try lia; try ring.
    + replace k with 0 by lia. ring.
    + replace k with 1 by lia. ring.
    + replace k with 2 by lia. ring.
  - rewrite (ww_S s z (S l) k). assert (A := IH k). assert (B := IH (k - 1)). assert (C := IH (k - 2)). rewrite minus_IZR in B, C.
    replace (IZR k * (s * ww s z (S l) k - 2 * z * ww s z (S l) (k - 1) - s * ww s z (S l) (k - 2)))%R with
      (s * (IZR k * ww s z (S l) k) - 2 * z * ((IZR k - 1) * ww s z (S l) (k - 1)%Z) - s * ((IZR k - 2) * ww s z (S l) (k - 2)%Z) - 2 * (z * ww s z (S l) (k - 1)%Z + s * ww s z (S l) (k - 2)%Z))%R by ring.
    rewrite A, B, C, S_INR, !(ww_S s z l). replace (k - 2 - 1) with (k - 1 - 2) by lia. ring.
Qed.
Lemma ww_dv s z l k : (IZR (2 * Z.of_nat l + 2 - k) * ww s z (S l) k = 2 * (INR l + 1) * (s * ww s z l k - z * ww s z l (k - 1)%Z))%R.
Proof.
  assert (A := ww_du s z l k). rewrite minus_IZR, plus_IZR, mult_IZR, <- INR_IZR_INZ. rewrite Rmult_minus_distr_r, A, ww_S. ring.
Qed.
Lemma ww_degree s z l k : (s * s + z * z = 1)%R ->
  (IZR (k + 1) * IZR (2 * Z.of_nat l - k + 1) * ww s z (S l) (k + 1) = - 2 * (INR l + 1) * ((2 * INR l + 1) * z * ww s z l k + 2 * INR l * ww s z (pred l) (k - 1)%Z))%R.
Proof.
  intros HSZ. assert (A := ww_du s z l (k + 1)). replace (k + 1 - 1) with k in A by lia. replace (k + 1 - 2) with (k - 1) in A by lia.
  replace (IZR (k + 1) * IZR (2 * Z.of_nat l - k + 1) * ww s z (S l) (k + 1))%R with (IZR (2 * Z.of_nat l - k + 1) * (IZR (k + 1) * ww s z (S l) (k + 1)))%R by ring. rewrite A.
  destruct l as [|l].
  - cbn [ww pred]. change (INR 0) with 0%R. change (Z.of_nat 0) with 0. unfold d0. replace (2 * 0 - k + 1) with (1 - k) by lia. rewrite minus_IZR. destruct (k =? 0) eqn:E0, (k - 1 =? 0) eqn:E1; try lia; try ring.
    + replace k with 0 by lia. ring.
    + replace k with 1 by lia. ring.
  - cbn [pred]. assert (B := ww_dv s z l k). assert (C := ww_dv s z l (k - 1)). replace (2 * Z.of_nat (S l) - k + 1) with (2 * Z.of_nat l + 2 - k + 1) by lia. replace (2 * Z.of_nat l + 2 - (k - 1)) with (2 * Z.of_nat l + 2 - k + 1) in C by lia. rewrite plus_IZR in *. replace (k - 1 - 1) with (k - 2) in * by lia.
    assert (D := ww_S s z l k). rewrite S_INR. set (a := IZR (2 * Z.of_nat l + 2 - k)) in *. set (W := ww s z (S l) k) in *. set (W1 := ww s z (S l) (k - 1)) in *. set (x0 := ww s z l k) in *. set (x1 := ww s z l (k - 1)) in *. set (x2 := ww s z l (k - 2)) in *. clearbody a W W1 x0 x1 x2. set (L := INR l) in *. clearbody L.
    assert (E : ((a + 1) * (z * W + s * W1) = z * (2 * (L + 1) * (s * x0 - z * x1)) + z * W + s * (2 * (L + 1) * (s * x1 - z * x2)))%R) by (rewrite <- B, <- C; ring).
    transitivity (-2 * (L + 1 + 1) * ((a + 1) * (z * W + s * W1)))%R; [ring|]. rewrite E. rewrite D.
    replace x1 with ((s * s + z * z) * x1)%R at 5 by (rewrite HSZ; ring). ring.
Qed.
(** the form with a complex coefficient *)
Lemma UU_polar s z e l : UU (s * cos e) (s * sin e) z l = ((fun k => (ww s z l k * cos (IZR (Z.of_nat l - k) * e))%R), (fun k => (ww s z l k * sin (IZR (Z.of_nat l - k) * e))%R)).
Proof.
  induction l as [|l IH].
  - cbn [UU ww]. f_equal; apply functional_extensionality; intros q; unfold d0; destruct (q =? 0) eqn:E; try ring; replace (Z.of_nat 0 - q) with 0 by lia; rewrite Rmult_0_l; [rewrite cos_0|rewrite sin_0]; ring.
  - cbn [UU]. rewrite IH. f_equal; apply functional_extensionality; intros q; rewrite ww_S; cbv beta.
    + replace (IZR (Z.of_nat l - q) * e)%R with (IZR (Z.of_nat (S l) - q) * e - e)%R by (rewrite Nat2Z.inj_succ; replace (Z.succ (Z.of_nat l) - q) with (Z.of_nat l - q + 1) by lia; rewrite plus_IZR; ring).
      replace (Z.of_nat l - (q - 1)) with (Z.of_nat (S l) - q) by lia. replace (Z.of_nat l - (q - 2)) with (Z.of_nat (S l) - q + 1) by lia. rewrite plus_IZR, Rmult_plus_distr_r, Rmult_1_l.
      set (u := (IZR (Z.of_nat (S l) - q) * e)%R). rewrite cos_minus, sin_minus, cos_plus, sin_plus. assert (SC := sin2_cos2 e). unfold Rsqr in SC.
      replace (ww s z l q * cos u)%R with (ww s z l q * cos u * (sin e * sin e + cos e * cos e))%R by (rewrite SC; ring).
      transitivity (s * ww s z l q * cos u * (sin e * sin e + cos e * cos e) - 2 * z * ww s z l (q - 1) * cos u - s * ww s z l (q - 2) * cos u * (sin e * sin e + cos e * cos e))%R; [ring|rewrite SC; ring].
    + replace (IZR (Z.of_nat l - q) * e)%R with (IZR (Z.of_nat (S l) - q) * e - e)%R by (rewrite Nat2Z.inj_succ; replace (Z.succ (Z.of_nat l) - q) with (Z.of_nat l - q + 1) by lia; rewrite plus_IZR; ring).
      replace (Z.of_nat l - (q - 1)) with (Z.of_nat (S l) - q) by lia. replace (Z.of_nat l - (q - 2)) with (Z.of_nat (S l) - q + 1) by lia. rewrite plus_IZR, Rmult_plus_distr_r, Rmult_1_l.
      set (u := (IZR (Z.of_nat (S l) - q) * e)%R). rewrite cos_minus, sin_minus, cos_plus, sin_plus. assert (SC := sin2_cos2 e). unfold Rsqr in SC.
      transitivity (s * ww s z l q * sin u * (sin e * sin e + cos e * cos e) - 2 * z * ww s z l (q - 1) * sin u - s * ww s z l (q - 2) * sin u * (sin e * sin e + cos e * cos e))%R; [ring|rewrite SC; ring].
Qed.

(** ** associated Legendre functions *)
Definition cf (m i : nat) : R := ((-1) ^ i * 2 ^ (m + i) * INR (fact (m + i)) / INR (fact (2 * m + i)))%R.
Lemma fact_nz n : INR (fact n) <> 0%R. Proof. apply INR_fact_neq_0. Qed.
Lemma fact_SR n : INR (fact (S n)) = ((INR n + 1) * INR (fact n))%R.
Proof. change (fact (S n)) with ((S n) * fact n)%nat. now rewrite mult_INR, S_INR. Qed.
Lemma cf_S m i : ((INR (2 * m + i) + 1) * cf m (S i) = - 2 * (INR (m + i) + 1) * cf m i)%R.
Proof.
  unfold cf. replace (m + S i)%nat with (S (m + i)) by lia. replace (2 * m + S i)%nat with (S (2 * m + i)) by lia. rewrite !fact_SR. cbn [pow]. pose proof (fact_nz (2 * m + i)). pose proof (pos_INR (2 * m + i)). field. split; lra.
Qed.
Lemma cf_0 m : (cf m 0 * oddfact m = 1)%R.
Proof.
  unfold cf. induction m as [|m IH].
  - cbn. field.
  - cbn [oddfact]. rewrite !Nat.add_0_r in *. replace (2 * S m)%nat with (S (S (2 * m))) by lia. rewrite !fact_SR. cbn [pow]. cbn [pow] in IH.
    rewrite S_INR, mult_INR. replace (INR 2) with 2%R by (cbn; ring). pose proof (fact_nz (2 * m)). pose proof (pos_INR m).
    transitivity (1 * 2 ^ m * INR (fact m) / INR (fact (2 * m)) * oddfact m)%R; [|exact IH]. field. repeat split; lra.
Qed.
Lemma ww_leg t m i : ww (sin t) (cos t) (m + i) (Z.of_nat i) = (cf m i * fst (legendre2 m t i))%R /\
  (match i with O => snd (legendre2 m t i) = 0%R | S j => ww (sin t) (cos t) (m + j) (Z.of_nat j) = (cf m j * snd (legendre2 m t i))%R end).
Proof.
  induction i as [|i [IH IH']].
  - cbn [legendre2 fst snd]. split; auto. rewrite Nat.add_0_r. change (Z.of_nat 0) with 0.
    replace (cf m 0 * (oddfact m * sin t ^ m))%R with (cf m 0 * oddfact m * sin t ^ m)%R by ring. rewrite cf_0, Rmult_1_l. induction m as [|m IHm]; [reflexivity|]. rewrite ww_S, IHm, !ww_out by lia. cbn [pow]. ring.
  - cbn [legendre2]. destruct (legendre2 m t i) as [p q] eqn:EL. cbn [fst snd] in *. split; [|exact IH].
    assert (D := ww_degree (sin t) (cos t) (m + i) (Z.of_nat i)). specialize (D ltac:(generalize (sin2_cos2 t); unfold Rsqr; auto)).
    assert (Q : (2 * INR (m + i) * ww (sin t) (cos t) (pred (m + i)) (Z.of_nat i - 1) = - INR (2 * m + i) * cf m i * q)%R).
    { destruct i as [|i].
      - rewrite IH', ww_out by lia. ring.
      - replace (pred (m + S i)) with (m + i)%nat by lia. replace (Z.of_nat (S i) - 1) with (Z.of_nat i) by lia. rewrite IH'. assert (X := cf_S m i). replace (m + S i)%nat with (S (m + i)) by lia. replace (2 * m + S i)%nat with (S (2 * m + i)) by lia. rewrite !S_INR.
        transitivity (- (-2 * (INR (m + i) + 1) * cf m i) * q)%R; [ring|]. rewrite <- X. ring. }
    rewrite IH in D. replace (m + S i)%nat with (S (m + i)) by lia. replace (Z.of_nat (S i)) with (Z.of_nat i + 1) by lia.
    replace (2 * Z.of_nat (m + i) - Z.of_nat i + 1) with (Z.of_nat (2 * m + i) + 1) in D by lia. rewrite !plus_IZR, <- !INR_IZR_INZ in D. rewrite Q in D.
    assert (X := cf_S m i). pose proof (pos_INR i). pose proof (pos_INR (2 * m + i)).
    apply (Rmult_eq_reg_l ((INR i + 1) * (INR (2 * m + i) + 1))). 2:{ apply Rmult_integral_contrapositive. split; lra. }
    rewrite D. transitivity (((INR (2 * m + i) + 1) * cf m (S i)) * ((2 * INR (m + i) + 1) * cos t * p - INR (2 * m + i) * q))%R.
    + rewrite X. ring.
    + field. lra.
Qed.
