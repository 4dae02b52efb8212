(** * The normalised polar factors: multiplication by sin and sin d/dt *)
From Coq Require Import ZArith List Lia Bool Reals Lra Factorial.
From Verif Require Import Base BaseFacts Arith SpecSum PSum MIso SpecIso SpecGeo SpecGrad PGrad1 PGrad2.
Open Scope R_scope.

Definition fz (i : Z) : R := INR (fact (Z.to_nat i)).
Lemma fz_pos i : 0 < fz i. Proof. apply INR_fact_lt_0. Qed.
Lemma fz_S i : (0 <= i)%Z -> fz (i + 1) = (IZR i + 1) * fz i.
Proof. intros. unfold fz. replace (Z.to_nat (i + 1)) with (S (Z.to_nat i)) by lia. rewrite fact_simpl, mult_INR, S_INR, INR_IZR_INZ, Z2Nat.id by lia. reflexivity. Qed.
Definition nrm (m i : Z) : R := sqrt ((IZR (m + i) + 1 / 2) * (fz i / fz (2 * m + i))).
Definition lf (m : Z) : R := sqrt ((if (m =? 0)%Z then 1 else 2) / (2 * PI)).
Definition Lz (m i : Z) (t : R) : R := L (Z.to_nat m) (Z.to_nat i) t.
Definition dsphP (m i : Z) (t : R) : R := nrm m i * dL (Z.to_nat m) (Z.to_nat i) t * lf m.
Lemma sphP_eq m i t : sphP m i t = nrm m i * Lz m i t * lf m. Proof. reflexivity. Qed.
Lemma vsphP_eq m i t : (1 <= m)%Z -> vsphP m i t = nrm (m - 1) i * Lz (m - 1) i t * lf m.
Proof. intros. unfold vsphP, lf. replace (m =? 0)%Z with false by lia. reflexivity. Qed.
Lemma vsphP_0 i t : vsphP 0 i t = nrm 1 i * Lz 1 i t * lf 0. Proof. reflexivity. Qed.

Definition tt_ (m k : Z) : R := sqrt (IZR ((k + 2 * m - 1) * (k + 2 * m)) / IZR ((2 * k + 2 * m - 1) * (2 * k + 2 * m + 1))).
Definition tu_ (m k : Z) : R := sqrt (IZR ((k + 1) * (k + 2)) / IZR ((2 * k + 2 * m + 1) * (2 * k + 2 * m + 3))).
Definition gg_ (m k : Z) : R := sqrt (IZR ((k + 1) * (k + 2 * m + 1)) / IZR ((2 * k + 2 * m + 1) * (2 * k + 2 * m + 3))).

Lemma sqrt_split c a b d : 0 <= c -> 0 <= b -> 0 <= d -> a = c * c * (b * d) -> sqrt a = c * (sqrt b * sqrt d).
Proof. intros Hc Hb Hd ->. rewrite (sqrt_mult (c * c) (b * d)); [|nra|now apply Rmult_le_pos]. rewrite sqrt_square by lra. rewrite (sqrt_mult b d) by lra. reflexivity. Qed.
Lemma pos_quot a b : 0 <= a -> 0 < b -> 0 <= a / b.
Proof. intros. apply Rmult_le_pos; [lra|left; now apply Rinv_0_lt_compat]. Qed.
Lemma nrm_arg_pos m i : (0 <= m)%Z -> (0 <= i)%Z -> 0 <= (IZR (m + i) + 1 / 2) * (fz i / fz (2 * m + i)).
Proof. intros. assert (0 <= IZR (m + i)) by (apply IZR_le; lia). apply Rmult_le_pos; [lra|]. apply pos_quot; [left|]; apply fz_pos. Qed.
Ltac zr := repeat rewrite ?plus_IZR, ?mult_IZR, ?minus_IZR.
Lemma tt_arg_pos m k : (1 <= m)%Z -> (0 <= k)%Z -> 0 < IZR ((k + 2 * m - 1) * (k + 2 * m)) / IZR ((2 * k + 2 * m - 1) * (2 * k + 2 * m + 1)).
Proof. intros. apply Rdiv_lt_0_compat; apply IZR_lt; nia. Qed.
Lemma tu_arg_pos m k : (0 <= m)%Z -> (0 <= k)%Z -> 0 < IZR ((k + 1) * (k + 2)) / IZR ((2 * k + 2 * m + 1) * (2 * k + 2 * m + 3)).
Proof. intros. apply Rdiv_lt_0_compat; apply IZR_lt; nia. Qed.
Lemma gg_arg_pos m k : (0 <= m)%Z -> (0 <= k)%Z -> 0 < IZR ((k + 1) * (k + 2 * m + 1)) / IZR ((2 * k + 2 * m + 1) * (2 * k + 2 * m + 3)).
Proof. intros. apply Rdiv_lt_0_compat; apply IZR_lt; nia. Qed.

Lemma nrm_diag m k : (1 <= m)%Z -> (0 <= k)%Z -> nrm (m - 1) k = (2 * IZR (m - 1 + k) + 1) * (tt_ m k * nrm m k).
Proof.
  intros Hm Hk. assert (0 <= IZR (m - 1 + k)) by (apply IZR_le; lia). unfold nrm at 1. apply sqrt_split; [lra|left; now apply tt_arg_pos|apply nrm_arg_pos; lia|].
  replace (2 * m + k)%Z with (2 * (m - 1) + k + 1 + 1)%Z by lia. rewrite !fz_S by lia. pose proof (fz_pos k). pose proof (fz_pos (2 * (m - 1) + k)).
  apply IZR_le in Hm, Hk. zr. field. repeat split; try lra; zr; lra.
Qed.
Lemma nrm_off m k : (1 <= m)%Z -> (0 <= k)%Z -> nrm (m - 1) (k + 2) = (2 * IZR (m + 1 + k) + 1) * (tu_ m k * nrm m k).
Proof.
  intros Hm Hk. assert (0 <= IZR (m + 1 + k)) by (apply IZR_le; lia). unfold nrm at 1. apply sqrt_split; [lra|left; apply tu_arg_pos; lia|apply nrm_arg_pos; lia|].
  replace (2 * (m - 1) + (k + 2))%Z with (2 * m + k)%Z by lia. replace (k + 2)%Z with (k + 1 + 1)%Z by lia. rewrite !fz_S by lia. pose proof (fz_pos k). pose proof (fz_pos (2 * m + k)).
  apply IZR_le in Hm, Hk. zr. field. repeat split; try lra; zr; lra.
Qed.
Lemma nrm_up m i : (0 <= m)%Z -> (0 <= i)%Z -> nrm m i * (IZR i + 1) = (2 * IZR (m + i) + 1) * (gg_ m i * nrm m (i + 1)).
Proof.
  intros Hm Hk. assert (0 <= IZR (m + i)) by (apply IZR_le; lia). assert (0 <= IZR i) by (apply IZR_le; lia).
  enough (nrm m i = ((2 * IZR (m + i) + 1) / (IZR i + 1)) * (gg_ m i * nrm m (i + 1))) as -> by (field; lra).
  unfold nrm at 1. apply sqrt_split; [apply pos_quot; lra|left; apply gg_arg_pos; lia|apply nrm_arg_pos; lia|].
  replace (2 * m + (i + 1))%Z with (2 * m + i + 1)%Z by lia. rewrite !fz_S by lia. pose proof (fz_pos i). pose proof (fz_pos (2 * m + i)).
  apply IZR_le in Hm, Hk. zr. field. repeat split; try lra; zr; lra.
Qed.
Lemma nrm_dn m i : (0 <= m)%Z -> (0 <= i)%Z -> nrm m (i + 1) * (IZR (2 * m + i) + 1) = (2 * IZR (m + i) + 3) * (gg_ m i * nrm m i).
Proof.
  intros Hm Hk. assert (0 <= IZR (m + i)) by (apply IZR_le; lia). assert (0 <= IZR (2 * m + i)) by (apply IZR_le; lia).
  enough (nrm m (i + 1) = ((2 * IZR (m + i) + 3) / (IZR (2 * m + i) + 1)) * (gg_ m i * nrm m i)) as -> by (field; lra).
  unfold nrm at 1. apply sqrt_split; [apply pos_quot; lra|left; apply gg_arg_pos; lia|apply nrm_arg_pos; lia|].
  replace (2 * m + (i + 1))%Z with (2 * m + i + 1)%Z by lia. rewrite !fz_S by lia. pose proof (fz_pos i). pose proof (fz_pos (2 * m + i)).
  apply IZR_le in Hm, Hk. zr. field. repeat split; try lra; zr; lra.
Qed.

(** Legendre identities with integer indices *)
Lemma Lz_sine m k t : (1 <= m)%Z -> (0 <= k)%Z -> (2 * IZR (m - 1 + k) + 1) * sin t * Lz (m - 1) k t = Lz m k t - (if (k <? 2)%Z then 0 else Lz m (k - 2) t).
Proof.
  intros Hm Hk. pose proof (sine_step (Z.to_nat (m - 1)) t (Z.to_nat k)) as E. rewrite INR_IZR_INZ in E.
  replace (Z.of_nat (Z.to_nat (m - 1) + Z.to_nat k)) with (m - 1 + k)%Z in E by lia. replace (S (Z.to_nat (m - 1))) with (Z.to_nat m) in E by lia.
  fold (Lz (m - 1) k t) in E. fold (Lz m k t) in E. rewrite <- E. f_equal. destruct (k <? 2)%Z eqn:E2.
  - assert (k = 0 \/ k = 1)%Z as [-> | ->] by lia; reflexivity.
  - destruct (Z.to_nat k) as [|[|j]] eqn:Ek; try lia. unfold Lz. replace (Z.to_nat (k - 2)) with j by lia. reflexivity.
Qed.
Lemma Lz_pre m i t : (0 <= i)%Z -> Lp (Z.to_nat m) (Z.to_nat i) t = if (i <? 1)%Z then 0 else Lz m (i - 1) t.
Proof.
  intros. destruct (i <? 1)%Z eqn:E; [replace (Z.to_nat i) with O by lia; reflexivity|].
  unfold Lz. destruct (Z.to_nat i) eqn:Ei; [lia|]. cbn [Lp]. replace (Z.to_nat (i - 1)) with n by lia. reflexivity.
Qed.
Lemma Lz_next m i t : (0 <= m)%Z -> (0 <= i)%Z -> (IZR i + 1) * Lz m (i + 1) t = (2 * IZR (m + i) + 1) * cos t * Lz m i t - IZR (2 * m + i) * (if (i <? 1)%Z then 0 else Lz m (i - 1) t).
Proof.
  intros Hm Hi. pose proof (L_S (Z.to_nat m) (Z.to_nat i) t) as E. rewrite Lz_pre in E by lia. rewrite !INR_IZR_INZ in E.
  replace (Z.of_nat (Z.to_nat i)) with i in E by lia. replace (Z.of_nat (Z.to_nat m + Z.to_nat i)) with (m + i)%Z in E by lia. replace (Z.of_nat (2 * Z.to_nat m + Z.to_nat i)) with (2 * m + i)%Z in E by lia.
  unfold Lz at 2. rewrite <- E. unfold Lz. replace (Z.to_nat (i + 1)) with (S (Z.to_nat i)) by lia. reflexivity.
Qed.
Lemma dLz_sin m i t : (0 <= m)%Z -> (0 <= i)%Z -> sin t * dL (Z.to_nat m) (Z.to_nat i) t = IZR (m + i) * cos t * Lz m i t - IZR (2 * m + i) * (if (i <? 1)%Z then 0 else Lz m (i - 1) t).
Proof.
  intros Hm Hi. rewrite dL_sin, Lz_pre by lia. rewrite !INR_IZR_INZ.
  replace (Z.of_nat (Z.to_nat m + Z.to_nat i)) with (m + i)%Z by lia. replace (Z.of_nat (2 * Z.to_nat m + Z.to_nat i)) with (2 * m + i)%Z by lia. reflexivity.
Qed.

(** ** the matrices *)
Lemma sine_prod m k t : (1 <= m)%Z -> (0 <= k)%Z ->
  sin t * vsphP m k t = tt_ m k * sphP m k t - (if (k <? 2)%Z then 0 else tu_ m (k - 2) * sphP m (k - 2) t).
Proof.
  intros Hm Hk. rewrite vsphP_eq, !sphP_eq by lia. assert (0 <= IZR (m - 1 + k)) by (apply IZR_le; lia).
  pose proof (Lz_sine m k t Hm Hk) as E. pose proof (nrm_diag m k Hm Hk) as D. set (w := 2 * IZR (m - 1 + k) + 1) in *.
  replace (sin t * (nrm (m - 1) k * Lz (m - 1) k t * lf m)) with (nrm (m - 1) k / w * (w * sin t * Lz (m - 1) k t) * lf m) by (field; unfold w; lra).
  rewrite E. assert (D' : nrm (m - 1) k / w = tt_ m k * nrm m k) by (rewrite D; field; unfold w; lra).
  destruct (k <? 2)%Z eqn:E2; [rewrite D'; ring|].
  pose proof (nrm_off m (k - 2) Hm ltac:(lia)) as O. replace (k - 2 + 2)%Z with k in O by lia. replace (m + 1 + (k - 2))%Z with (m - 1 + k)%Z in O by lia. fold w in O.
  assert (O' : nrm (m - 1) k / w = tu_ m (k - 2) * nrm m (k - 2)) by (rewrite O; field; unfold w; lra).
  replace (nrm (m - 1) k / w * (Lz m k t - Lz m (k - 2) t) * lf m) with (nrm (m - 1) k / w * Lz m k t * lf m - nrm (m - 1) k / w * Lz m (k - 2) t * lf m) by ring.
  rewrite D' at 1. rewrite O'. ring.
Qed.
Lemma theta_der m i t : (0 <= m)%Z -> (0 <= i)%Z ->
  sin t * dsphP m i t = IZR (m + i) * gg_ m i * sphP m (i + 1) t - (if (i <? 1)%Z then 0 else IZR (m + i + 1) * gg_ m (i - 1) * sphP m (i - 1) t).
Proof.
  intros Hm Hi. unfold dsphP. rewrite !sphP_eq. assert (Hmi : 0 <= IZR (m + i)) by (apply IZR_le; lia). assert (Hi0 : 0 <= IZR i) by (apply IZR_le; lia).
  pose proof (Lz_next m i t Hm Hi) as E. pose proof (dLz_sin m i t Hm Hi) as D. set (w := 2 * IZR (m + i) + 1) in *.
  set (pre := if (i <? 1)%Z then 0 else Lz m (i - 1) t) in *.
  replace (sin t * (nrm m i * dL (Z.to_nat m) (Z.to_nat i) t * lf m)) with (nrm m i * (sin t * dL (Z.to_nat m) (Z.to_nat i) t) * lf m) by ring. rewrite D.
  assert (Ec : cos t * Lz m i t = ((IZR i + 1) * Lz m (i + 1) t + IZR (2 * m + i) * pre) / w) by (rewrite E; field; unfold w; lra).
  replace (nrm m i * (IZR (m + i) * cos t * Lz m i t - IZR (2 * m + i) * pre) * lf m) with (nrm m i * (IZR (m + i) * (cos t * Lz m i t) - IZR (2 * m + i) * pre) * lf m) by ring. rewrite Ec.
  pose proof (nrm_up m i Hm Hi) as U. fold w in U. assert (U' : nrm m i * (IZR i + 1) / w = gg_ m i * nrm m (i + 1)) by (rewrite U; field; unfold w; lra).
  replace (nrm m i * (IZR (m + i) * (((IZR i + 1) * Lz m (i + 1) t + IZR (2 * m + i) * pre) / w) - IZR (2 * m + i) * pre) * lf m)
    with (IZR (m + i) * (nrm m i * (IZR i + 1) / w) * Lz m (i + 1) t * lf m + nrm m i * IZR (2 * m + i) * pre * (IZR (m + i) / w - 1) * lf m) by (field; unfold w; lra).
  rewrite U'. unfold pre. destruct (i <? 1)%Z eqn:E1; [ring|].
  pose proof (nrm_dn m (i - 1) Hm ltac:(lia)) as V. replace (i - 1 + 1)%Z with i in V by lia. replace (IZR (2 * m + (i - 1)) + 1) with (IZR (2 * m + i)) in V by (zr; ring).
  replace (2 * IZR (m + (i - 1)) + 3) with w in V by (unfold w; zr; ring).
  rewrite V. replace (IZR (m + i + 1)) with (IZR (m + i) + 1) by (rewrite (plus_IZR (m + i)); ring). unfold w. field. lra.
Qed.
Lemma zonal_der i t : (0 <= i)%Z -> dsphP 0 (i + 1) t = - sqrt ((IZR i + 1) * (IZR i + 2)) * vsphP 0 i t.
Proof.
  intros Hi. unfold dsphP. rewrite vsphP_0. replace (Z.to_nat (i + 1)) with (S (Z.to_nat i)) by lia. rewrite dL_zonal. cbn [Lp]. change (L 1 (Z.to_nat i) t) with (Lz 1 i t).
  assert (E : nrm 0 (i + 1) = sqrt ((IZR i + 1) * (IZR i + 2)) * nrm 1 i); [|rewrite E; ring].
  assert (Hi0 : 0 <= IZR i) by (apply IZR_le; lia).
  unfold nrm. rewrite <- sqrt_mult; [|nra|apply (nrm_arg_pos 1 i); lia]. f_equal. replace (2 * 0 + (i + 1))%Z with (i + 1)%Z by lia. replace (2 * 1 + i)%Z with (i + 1 + 1)%Z by lia. rewrite !fz_S by lia.
  pose proof (fz_pos i). zr. field. repeat split; try lra; zr; lra.
Qed.
Lemma dsphP_00 t : dsphP 0 0 t = 0.
Proof. unfold dsphP. rewrite dL_zonal. cbn [Z.to_nat Lp]. ring. Qed.
Lemma sphP_C1 m i : C1 (sphP m i) (dsphP m i).
Proof.
  apply (C1_ext (fun t => nrm m i * lf m * L (Z.to_nat m) (Z.to_nat i) t) (fun t => nrm m i * lf m * dL (Z.to_nat m) (Z.to_nat i) t)).
  - intros. rewrite sphP_eq. unfold Lz. ring.
  - intros. unfold dsphP. ring.
  - apply C1_scal, L_C1.
Qed.
Lemma vsphP_cont m i t : continuity_pt (vsphP m i) t.
Proof.
  set (mu := (if m =? 0 then 1 else m - 1)%Z).
  eapply C1_cont. apply (C1_ext (fun t => nrm mu i * lf m * L (Z.to_nat mu) (Z.to_nat i) t) (fun t => nrm mu i * lf m * dL (Z.to_nat mu) (Z.to_nat i) t) _ (fun t => nrm mu i * lf m * dL (Z.to_nat mu) (Z.to_nat i) t)).
  - intros. unfold vsphP. fold mu. unfold nrm, fz, lf, L. ring.
  - reflexivity.
  - apply C1_scal, L_C1.
Qed.
