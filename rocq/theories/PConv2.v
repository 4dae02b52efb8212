(** * Associated Legendre functions of orders j+2 and j *)
From Coq Require Import ZArith List Lia Bool Reals Lra Factorial ZifyBool.
From Verif Require Import Base BaseFacts Arith SpecSum PSum MIso SpecIso SpecGeo SpecGrad PGrad1 PGrad2 PGrad3 SpecConvert.
Open Scope R_scope.

Definition Lpp (m i : nat) (t : R) : R := match i with S (S j) => L m j t | _ => 0 end.
(** (2(j+k)+3) sin P^{j+1}_k = (2j+k+1)(2j+k+2) P^j_k - (k+1)(k+2) P^j_{k+2} *)
Lemma lower_step j k t : (2 * INR (j + k) + 3) * sin t * L (S j) k t =
  (2 * INR j + INR k + 1) * (2 * INR j + INR k + 2) * L j k t - (INR k + 1) * (INR k + 2) * L j (S (S k)) t.
Proof.
  set (D := fun t => ((2 * INR (j + k) + 3) * (sin t * L (S j) k t)) + (- ((2 * INR j + INR k + 1) * (2 * INR j + INR k + 2)) * L j k t + (INR k + 1) * (INR k + 2) * L j (S (S k)) t)).
  assert (Z : forall t, D t = 0).
  { apply dense_sin.
    - intros x. eapply C1_cont. unfold D.
      apply (C1_plus (fun t => (2 * INR (j + k) + 3) * (sin t * L (S j) k t))).
      + apply (C1_scal _ (fun t => sin t * L (S j) k t)). apply C1_mult; [apply C1_sin|apply L_C1].
      + apply C1_plus; apply C1_scal; apply L_C1.
    - intros x. unfold D.
      pose proof (sine_step j x k) as S0. pose proof (sine_step j x (S (S k))) as S2. fold (Lpp (S j) k x) in S0.
      pose proof (L_S (S j) (S k) x) as A2. pose proof (L_S (S j) k x) as A1.
      assert (A0 : INR k * L (S j) k x = (2 * INR j + 2 * INR k + 1) * cos x * Lp (S j) k x - (2 * INR j + INR k + 1) * Lpp (S j) k x).
      { destruct k as [|k']; [cbn [Lp Lpp INR]; ring|]. pose proof (L_S (S j) k' x) as A0. cbn [Lp]. rewrite !plus_INR, !mult_INR, !S_INR in *. cbn [INR] in *.
        assert (El : Lpp (S j) (S k') x = Lp (S j) k' x) by (destruct k'; reflexivity). rewrite El. replace (INR k' + 1) with (INR k' + 1) in A0 by ring. lra. }
      cbn [Lp] in *. pose proof (sin2_cos2 x) as P. unfold Rsqr in P. pose proof (pos_INR j) as Pj. pose proof (pos_INR k) as Pk.
      rewrite !plus_INR, !mult_INR, !S_INR in *. cbn [INR] in *.
      set (a2 := L (S j) (S (S k)) x) in *. set (a1 := L (S j) (S k) x) in *. set (a0 := L (S j) k x) in *. set (b1 := Lp (S j) k x) in *. set (b2 := Lpp (S j) k x) in *.
      set (u := INR j) in *. set (v := INR k) in *. set (l0 := L j k x) in *. set (l2 := L j (S (S k)) x) in *.
      assert (E0 : sin x * l0 = (a0 - b2) / (2 * (u + v) + 1)) by (field_simplify_eq; [|lra]; lra).
      assert (E2 : sin x * l2 = (a2 - a0) / (2 * (u + v) + 5)) by (field_simplify_eq; [|lra]; lra).
      assert (Eb : cos x * b1 = (v * a0 + (2 * u + v + 1) * b2) / (2 * u + 2 * v + 1)) by (field_simplify_eq; [|lra]; lra).
      assert (Ec : cos x * a1 = ((v + 2) * a2 + (2 * u + v + 3) * a0) / (2 * u + 2 * v + 5)) by (field_simplify_eq; [|lra]; lra).
      assert (Ea : cos x * a0 = ((v + 1) * a1 + (2 * u + v + 2) * b1) / (2 * u + 2 * v + 3)) by (field_simplify_eq; [|lra]; lra).
      assert (Ecc : cos x * (cos x * a0) = ((v + 1) * (cos x * a1) + (2 * u + v + 2) * (cos x * b1)) / (2 * u + 2 * v + 3)) by (rewrite Ea; field; lra).
      assert (Ess : sin x * (sin x * a0) = a0 - cos x * (cos x * a0)) by (replace (sin x * (sin x * a0)) with ((sin x * sin x + cos x * cos x) * a0 - cos x * (cos x * a0)) by ring; rewrite P; ring).
      replace (sin x * ((2 * (u + v) + 3) * (sin x * a0) + (- ((2 * u + v + 1) * (2 * u + v + 2)) * l0 + (v + 1) * (v + 2) * l2)))
        with ((2 * (u + v) + 3) * (sin x * (sin x * a0)) - (2 * u + v + 1) * (2 * u + v + 2) * (sin x * l0) + (v + 1) * (v + 2) * (sin x * l2)) by ring.
      rewrite Ess, Ecc, Ec, Eb, E0, E2. field. lra. }
  specialize (Z t). unfold D in Z. lra.
Qed.

(** in integer indices *)
Lemma Lz_lower j k t : (0 <= j)%Z -> (0 <= k)%Z ->
  Lz (j + 2) k t - (if (k <? 2)%Z then 0 else Lz (j + 2) (k - 2) t) = (2 * IZR j + IZR k + 1) * (2 * IZR j + IZR k + 2) * Lz j k t - (IZR k + 1) * (IZR k + 2) * Lz j (k + 2) t.
Proof.
  intros Hj Hk. pose proof (Lz_sine (j + 2) k t ltac:(lia) Hk) as E. rewrite <- E. replace (j + 2 - 1)%Z with (j + 1)%Z by lia.
  pose proof (lower_step (Z.to_nat j) (Z.to_nat k) t) as Q. rewrite !INR_IZR_INZ in Q. rewrite Nat2Z.inj_add, !Z2Nat.id in Q by lia.
  replace (S (Z.to_nat j)) with (Z.to_nat (j + 1)) in Q by lia. replace (S (S (Z.to_nat k))) with (Z.to_nat (k + 2)) in Q by lia. fold (Lz (j + 1) k t) in Q. fold (Lz j k t) in Q. fold (Lz j (k + 2) t) in Q.
  rewrite <- Q. zr. ring.
Qed.

Lemma polar_eq m i t : polar m i t = nrm m i * Lz m i t. Proof. reflexivity. Qed.

(** the planned sines and cosines *)
Definition ss (k j : Z) : R := sqrt (IZR ((k + 1) * (k + 2)) / IZR ((k + 2 * j + 3) * (k + 2 * j + 4))).
Definition cs (k j : Z) : R := sqrt (IZR ((2 * j + 2) * (2 * k + 2 * j + 5)) / IZR ((k + 2 * j + 3) * (k + 2 * j + 4))).
Lemma cs_pos k j : (0 <= j)%Z -> (0 <= k + 2)%Z -> 0 < cs k j.
Proof. intros. apply sqrt_lt_R0. apply Rdiv_lt_0_compat; apply IZR_lt; nia. Qed.
Lemma cs_init k j : (0 <= j)%Z -> (-2 <= k < 0)%Z -> cs k j = 1.
Proof. intros. unfold cs. assert (k = -2 \/ k = -1)%Z as [-> | ->] by lia; rewrite <- sqrt_1; f_equal; zr; apply IZR_le in H; field; lra. Qed.
Lemma ss_cs k j : (0 <= j)%Z -> (0 <= k)%Z -> ss k j * ss k j + cs k j * cs k j = 1.
Proof.
  intros. unfold ss, cs. rewrite !sqrt_sqrt by (left; apply Rdiv_lt_0_compat; apply IZR_lt; nia).
  apply IZR_le in H, H0. zr. field. split; lra.
Qed.
Lemma sqrt2_eq q a b c d : 0 <= q -> 0 <= a -> 0 <= b -> 0 <= c -> 0 <= d -> a * b = q * q * (c * d) -> sqrt a * sqrt b = q * (sqrt c * sqrt d).
Proof. intros. rewrite <- (sqrt_mult a b) by assumption. apply sqrt_split; assumption. Qed.
Lemma sqrt3_eq q a b e c d : 0 <= q -> 0 <= a -> 0 <= b -> 0 <= e -> 0 <= c -> 0 <= d -> a * (b * e) = q * q * (c * d) -> sqrt a * (sqrt b * sqrt e) = q * (sqrt c * sqrt d).
Proof. intros. rewrite <- (sqrt_mult b e) by assumption. apply sqrt2_eq; auto. now apply Rmult_le_pos. Qed.
Lemma den_pos k j : (0 <= j)%Z -> (-2 <= k)%Z -> 0 < IZR ((k + 2 * j + 3) * (k + 2 * j + 4)). Proof. intros. apply IZR_lt. nia. Qed.
Lemma cs_arg k j : (0 <= j)%Z -> (-2 <= k)%Z -> 0 <= IZR ((2 * j + 2) * (2 * k + 2 * j + 5)) / IZR ((k + 2 * j + 3) * (k + 2 * j + 4)).
Proof. intros. apply pos_quot; [apply IZR_le; nia|now apply den_pos]. Qed.
Lemma ss_arg k j : (0 <= j)%Z -> (-2 <= k)%Z -> 0 <= IZR ((k + 1) * (k + 2)) / IZR ((k + 2 * j + 3) * (k + 2 * j + 4)).
Proof. intros. apply pos_quot; [apply IZR_le; nia|now apply den_pos]. Qed.

Ltac posf := repeat match goal with |- context [fz ?z] => lazymatch goal with H : 0 < fz z |- _ => fail | _ => pose proof (fz_pos z) end end.
Lemma ratio1 k j : (0 <= j)%Z -> (0 <= k)%Z -> cs k j * nrm j k = (2 * IZR j + IZR k + 1) * (2 * IZR j + IZR k + 2) * (cs (k - 2) j * nrm (j + 2) k).
Proof.
  intros Hj Hk. assert (Rj : 0 <= IZR j) by (apply IZR_le; lia). assert (Rk : 0 <= IZR k) by (apply IZR_le; lia).
  unfold cs, nrm. apply sqrt2_eq; [nra|apply cs_arg; lia|apply nrm_arg_pos; lia|apply cs_arg; lia|apply nrm_arg_pos; lia|].
  replace (2 * (j + 2) + k)%Z with (2 * j + k + 1 + 1 + 1 + 1)%Z by lia. rewrite !fz_S by lia. pose proof (fz_pos k). pose proof (fz_pos (2 * j + k)).
  zr. field. repeat split; try lra; zr; lra.
Qed.
Lemma ratio2 k j : (0 <= j)%Z -> (0 <= k)%Z -> ss k j * nrm j (k + 2) = (IZR k + 1) * (IZR k + 2) * nrm (j + 2) k.
Proof.
  intros Hj Hk. assert (Rj : 0 <= IZR j) by (apply IZR_le; lia). assert (Rk : 0 <= IZR k) by (apply IZR_le; lia).
  replace (nrm (j + 2) k) with (sqrt 1 * nrm (j + 2) k) by (rewrite sqrt_1; ring).
  unfold ss, nrm. apply sqrt2_eq; [nra|apply ss_arg; lia|apply nrm_arg_pos; lia|lra|apply nrm_arg_pos; lia|].
  replace (2 * (j + 2) + k)%Z with (2 * j + k + 1 + 1 + 1 + 1)%Z by lia. replace (2 * j + (k + 2))%Z with (2 * j + k + 1 + 1)%Z by lia. replace (k + 2)%Z with (k + 1 + 1)%Z by lia.
  rewrite !fz_S by lia. pose proof (fz_pos k). pose proof (fz_pos (2 * j + k)).
  zr. field. repeat split; try lra; zr; lra.
Qed.
Lemma ratio3 k j : (0 <= j)%Z -> (0 <= k)%Z -> cs (k + 2) j * (ss k j * nrm (j + 2) k) = cs k j * nrm (j + 2) (k + 2).
Proof.
  intros Hj Hk. assert (Rj : 0 <= IZR j) by (apply IZR_le; lia). assert (Rk : 0 <= IZR k) by (apply IZR_le; lia).
  replace (cs k j * nrm (j + 2) (k + 2)) with (1 * (cs k j * nrm (j + 2) (k + 2))) by ring.
  unfold cs, ss, nrm. apply sqrt3_eq; [lra|apply cs_arg; lia|apply ss_arg; lia|apply nrm_arg_pos; lia|apply cs_arg; lia|apply nrm_arg_pos; lia|].
  replace (2 * (j + 2) + (k + 2))%Z with (2 * (j + 2) + k + 1 + 1)%Z by lia. rewrite (fz_S (2 * (j + 2) + k + 1)), (fz_S (2 * (j + 2) + k)) by lia. replace (k + 2)%Z with (k + 1 + 1)%Z by lia.
  rewrite !fz_S by lia. pose proof (fz_pos k). pose proof (fz_pos (2 * (j + 2) + k)).
  zr. field. repeat split; try lra; zr; lra.
Qed.

(** the mixed functions *)
Definition mixed (j k : Z) (t : R) : R := (polar (j + 2) k t + ss k j * polar j (k + 2) t) / cs k j.
Lemma mixed_low j k t : (0 <= j)%Z -> (0 <= k)%Z -> cs (k - 2) j * mixed j k t = polar j k t + (if (k <? 2)%Z then 0 else ss (k - 2) j * polar (j + 2) (k - 2) t).
Proof.
  intros Hj Hk. pose proof (cs_pos k j Hj ltac:(lia)) as P. unfold mixed.
  apply (Rmult_eq_reg_l (cs k j)); [|lra].
  replace (cs k j * (cs (k - 2) j * ((polar (j + 2) k t + ss k j * polar j (k + 2) t) / cs k j))) with (cs (k - 2) j * (polar (j + 2) k t + ss k j * polar j (k + 2) t)) by (field; lra).
  rewrite !polar_eq. pose proof (Lz_lower j k t Hj Hk) as E. pose proof (ratio1 k j Hj Hk) as R1. pose proof (ratio2 k j Hj Hk) as R2.
  replace (cs (k - 2) j * (nrm (j + 2) k * Lz (j + 2) k t + ss k j * (nrm j (k + 2) * Lz j (k + 2) t)))
    with (cs (k - 2) j * (nrm (j + 2) k * Lz (j + 2) k t + (ss k j * nrm j (k + 2)) * Lz j (k + 2) t)) by ring. rewrite R2.
  destruct (k <? 2)%Z eqn:E2.
  - replace (cs k j * (nrm j k * Lz j k t + 0)) with (cs k j * nrm j k * Lz j k t) by ring. rewrite R1.
    assert (X : Lz (j + 2) k t = (2 * IZR j + IZR k + 1) * (2 * IZR j + IZR k + 2) * Lz j k t - (IZR k + 1) * (IZR k + 2) * Lz j (k + 2) t) by lra. rewrite X. ring.
  - pose proof (ratio3 (k - 2) j Hj ltac:(lia)) as R3. replace (k - 2 + 2)%Z with k in R3 by lia.
    replace (cs k j * (nrm j k * Lz j k t + ss (k - 2) j * (nrm (j + 2) (k - 2) * Lz (j + 2) (k - 2) t)))
      with (cs k j * nrm j k * Lz j k t + cs k j * (ss (k - 2) j * nrm (j + 2) (k - 2)) * Lz (j + 2) (k - 2) t) by ring. rewrite R1, R3.
    assert (X : Lz (j + 2) k t = Lz (j + 2) (k - 2) t + (2 * IZR j + IZR k + 1) * (2 * IZR j + IZR k + 2) * Lz j k t - (IZR k + 1) * (IZR k + 2) * Lz j (k + 2) t) by lra. rewrite X. ring.
Qed.
Lemma mixed_H1 j k t : (0 <= j)%Z -> (0 <= k)%Z -> polar (j + 2) k t = cs k j * mixed j k t - ss k j * polar j (k + 2) t.
Proof. intros. pose proof (cs_pos k j H ltac:(lia)). unfold mixed. field. lra. Qed.
Lemma mixed_H2 j k t : (0 <= j)%Z -> (0 <= k)%Z -> mixed j (k + 2) t = ss k j * mixed j k t + cs k j * polar j (k + 2) t.
Proof.
  intros Hj Hk. pose proof (cs_pos k j Hj ltac:(lia)) as P. pose proof (mixed_low j (k + 2) t Hj ltac:(lia)) as E. replace (k + 2 - 2)%Z with k in E by lia. replace (k + 2 <? 2)%Z with false in E by lia.
  apply (Rmult_eq_reg_l (cs k j)); [|lra]. rewrite E. unfold mixed. pose proof (ss_cs k j Hj Hk) as U.
  replace (cs k j * (ss k j * ((polar (j + 2) k t + ss k j * polar j (k + 2) t) / cs k j) + cs k j * polar j (k + 2) t))
    with (ss k j * polar (j + 2) k t + (ss k j * ss k j + cs k j * cs k j) * polar j (k + 2) t) by (field; lra). rewrite U. ring.
Qed.
Lemma mixed_H0 j k t : (0 <= j)%Z -> (0 <= k < 2)%Z -> mixed j k t = polar j k t.
Proof. intros Hj Hk. pose proof (mixed_low j k t Hj ltac:(lia)) as E. rewrite cs_init in E by lia. replace (k <? 2)%Z with true in E by lia. lra. Qed.
