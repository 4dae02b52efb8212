(** * The exchange of the axes in the basis of one degree *)
From Coq Require Import ZArith List Lia Bool Reals Lra Factorial ZifyBool ZifyNat.
From Verif Require Import Base Arith SpecSum PSum PKraw PKraw2 MIso SpecIso SpecGeo PGeo1 PGeo2.
Open Scope Z_scope.

(** the two directions: t' phi' is the image of t phi under (x, y, z) -> (x, -z, -y) *)
Definition exch_pt (t phi t' phi' : R) : Prop := let '(x, y, z) := xyz t phi in xyz t' phi' = (x, - z, - y)%R.
Lemma exch_pt_sym t phi t' phi' : exch_pt t phi t' phi' -> exch_pt t' phi' t phi.
Proof. unfold exch_pt, xyz. intros H. injection H. intros. f_equal; [f_equal|]; lra. Qed.

Lemma sum_fold l f : 0 <= l -> sumZ (2 * l + 1) f = (f l + sumZ l (fun k => f (l - (k + 1))%Z + f (l + (k + 1))%Z))%R.
Proof.
  intros Hl. rewrite (sumZ_split (2 * l + 1) l) by lia. replace (2 * l + 1 - l) with (l + 1) by lia. rewrite (sumZ_first (l + 1)) by lia. replace (l + 1 - 1) with l by lia.
  rewrite (sumZ_rev l f), sumZ_plus. rewrite (sumZ_ext l (fun i => f (l - 1 - i)) (fun k => f (l - (k + 1))%Z)) by (intros; f_equal; lia).
  rewrite (sumZ_ext l (fun i => f (l + (1 + i))) (fun k => f (l + (k + 1))%Z)) by (intros; f_equal; lia). replace (l + 0) with l by lia. ring.
Qed.
Lemma sgn_add a b : sgn (a + b) = (sgn a * sgn b)%R.
Proof. unfold sgn. rewrite Z.even_add. destruct (Z.even a), (Z.even b); cbn; ring. Qed.
Lemma sgn_2 a : sgn (2 * a) = 1%R. Proof. unfold sgn. now rewrite Z.even_mul. Qed.
Lemma sgn_opp a : sgn (- a) = sgn a. Proof. unfold sgn. now rewrite Z.even_opp. Qed.
Lemma sgn_sq a : (sgn a * sgn a = 1)%R. Proof. unfold sgn. destruct (Z.even a); ring. Qed.
Lemma sgn_pm a : sgn a = 1%R \/ sgn a = (-1)%R. Proof. unfold sgn. destruct (Z.even a); auto. Qed.

Definition eta (phi : R) : R := (phi - PI / 2)%R.
Lemma cos_eta phi : cos (eta phi) = sin phi. Proof. unfold eta. rewrite cos_minus, cos_PI2, sin_PI2. ring. Qed.
Lemma sin_eta phi : sin (eta phi) = (- cos phi)%R. Proof. unfold eta. rewrite sin_minus, cos_PI2, sin_PI2. ring. Qed.

Section Fold.
Variable l : Z.
Hypothesis Hl : 0 <= l.
Let T (t : R) (m : Z) : R := ww (sin t) (cos t) (Z.to_nat l) (l - m).
Lemma T_neg t m : T t (- m) = (sgn m * T t m)%R.
Proof.
  unfold T. assert (E := ww_sym (sin t) (cos t) (Z.to_nat l) (l - m)). rewrite Z2Nat.id in E by lia. replace (2 * l - (l - m)) with (l - - m) in E by lia. rewrite E. f_equal.
  replace (l + (l - m)) with (2 * l + - m) by lia. now rewrite sgn_add, sgn_2, sgn_opp, Rmult_1_l.
Qed.
Lemma KZ_neg k m : 0 <= k <= 2 * l -> 0 <= m <= l -> KZ (2 * l) k (l + m) = (sgn k * KZ (2 * l) k (l - m))%R.
Proof. intros Hk Hm. rewrite !KZ_kp by lia. replace (l + m) with (2 * l - (l - m)) by lia. rewrite kp_parity by lia. ring. Qed.

Lemma exchange_forms t phi t' phi' mu : exch_pt t phi t' phi' ->
  (2 ^ Z.to_nat l * (T t' mu * cos (IZR mu * eta phi')) = sumZ (2 * l + 1) (fun j => T t (l - j) * cos (IZR (l - j) * eta phi) * KZ (2 * l) (l - mu) j))%R /\
  (2 ^ Z.to_nat l * (T t' mu * sin (IZR mu * eta phi')) = sumZ (2 * l + 1) (fun j => T t (l - j) * sin (IZR (l - j) * eta phi) * KZ (2 * l) (l - mu) j))%R.
Proof.
  intros H. unfold exch_pt, xyz in H. injection H. intros Hz Hy Hx.
  assert (E := UU_exchange (sin t * cos (eta phi)) (sin t * sin (eta phi)) (cos t) (Z.to_nat l) (l - mu)).
  rewrite UU_polar in E.
  replace (- cos t)%R with (sin t' * cos (eta phi'))%R in E by (rewrite cos_eta; lra).
  replace (- (sin t * cos (eta phi)))%R with (cos t') in E by (rewrite cos_eta; lra).
  replace (sin t * sin (eta phi))%R with (sin t' * sin (eta phi'))%R in E by (rewrite !sin_eta; lra).
  rewrite UU_polar in E. cbn [fst snd] in E. rewrite Z2Nat.id in E by lia. replace (l - (l - mu)) with mu in E by lia. destruct E as [E1 E2]. unfold T. split.
  - rewrite E1. apply sumZ_ext. intros j Hj. replace (l - (l - j)) with j by lia. reflexivity.
  - rewrite E2. apply sumZ_ext. intros j Hj. replace (l - (l - j)) with j by lia. reflexivity.
Qed.
Definition om2 (m : Z) : R := if m =? 0 then 1%R else 2%R.
Lemma exchange_fold t phi t' phi' mu : exch_pt t phi t' phi' -> 0 <= mu <= l ->
  (2 ^ Z.to_nat l * (T t' mu * cos (IZR mu * eta phi')) = sumZ (l + 1) (fun m => if Z.even (l - mu - m) then om2 m * KZ (2 * l) (l - mu) (l - m) * (T t m * cos (IZR m * eta phi)) else 0))%R /\
  (2 ^ Z.to_nat l * (T t' mu * sin (IZR mu * eta phi')) = sumZ (l + 1) (fun m => if Z.even (l - mu - m) then 0 else om2 m * KZ (2 * l) (l - mu) (l - m) * (T t m * sin (IZR m * eta phi))))%R.
Proof.
  intros H Hmu. destruct (exchange_forms t phi t' phi' mu H) as [-> ->].
  rewrite !(sumZ_first (l + 1)) by lia. replace (l + 1 - 1) with l by lia. rewrite !sum_fold by lia. replace (l - l) with 0 by lia. unfold om2. change (0 =? 0) with true. cbv iota.
  assert (Z0 : Z.even (l - mu - 0) = false -> KZ (2 * l) (l - mu) (l - 0) = 0%R).
  { intros Ev. assert (E := KZ_neg (l - mu) 0 ltac:(lia) ltac:(lia)). unfold sgn in E. replace (l - mu - 0) with (l - mu) in Ev by lia. rewrite Ev in E. replace (l + 0) with (l - 0) in E by lia. lra. }
  assert (SG : forall m, sgn (l - mu - m) = (sgn m * sgn (l - mu))%R) by (intros m; replace (l - mu - m) with (- m + (l - mu)) by lia; now rewrite sgn_add, sgn_opp).
  split; f_equal.
  - replace (l - 0) with l in * by lia. destruct (Z.even (l - mu - 0)) eqn:Ev; [ring|]. rewrite Z0 by auto. ring.
  - apply sumZ_ext. intros k Hk. replace (1 + k) with (k + 1) by lia. set (m := k + 1). assert (Hm : 1 <= m <= l) by (unfold m; lia). clearbody m. replace (m =? 0) with false by lia.
    replace (l - (l - m)) with m by lia. replace (l - (l + m)) with (- m) by lia. rewrite T_neg, KZ_neg by lia. rewrite opp_IZR, <- Ropp_mult_distr_l, cos_neg. assert (S0 := SG m). unfold sgn at 1 in S0. destruct (Z.even (l - mu - m)).
    + transitivity ((1 + sgn m * sgn (l - mu)) * (T t m * cos (IZR m * eta phi) * KZ (2 * l) (l - mu) (l - m)))%R; [ring|rewrite <- S0; ring].
    + transitivity ((1 + sgn m * sgn (l - mu)) * (T t m * cos (IZR m * eta phi) * KZ (2 * l) (l - mu) (l - m)))%R; [ring|rewrite <- S0; ring].
  - rewrite !Rmult_0_l, sin_0. destruct (Z.even (l - mu - 0)); ring.
  - apply sumZ_ext. intros k Hk. replace (1 + k) with (k + 1) by lia. set (m := k + 1). assert (Hm : 1 <= m <= l) by (unfold m; lia). clearbody m. replace (m =? 0) with false by lia.
    replace (l - (l - m)) with m by lia. replace (l - (l + m)) with (- m) by lia. rewrite T_neg, KZ_neg by lia. rewrite opp_IZR, <- Ropp_mult_distr_l, sin_neg. assert (S0 := SG m). unfold sgn at 1 in S0. destruct (Z.even (l - mu - m)).
    + transitivity ((1 - sgn m * sgn (l - mu)) * (T t m * sin (IZR m * eta phi) * KZ (2 * l) (l - mu) (l - m)))%R; [ring|rewrite <- S0; ring].
    + transitivity ((1 - sgn m * sgn (l - mu)) * (T t m * sin (IZR m * eta phi) * KZ (2 * l) (l - mu) (l - m)))%R; [ring|rewrite <- S0; ring].
Qed.

(** ** normalisation *)
Lemma hb_fact n k : 0 <= k <= n -> (hb (IZR n) (Z.to_nat k) * (INR (fact (Z.to_nat k)) * INR (fact (Z.to_nat (n - k)))) = INR (fact (Z.to_nat n)))%R.
Proof.
  intros Hk. destruct Hk as [Hk Hk']. revert Hk'. pattern k. apply natlike_ind; [| |exact Hk]; cbv beta.
  - intros Hn. cbn. replace (n - 0) with n by lia. ring.
  - intros q Hq IH Hn. replace (Z.succ q) with (q + 1) by lia. specialize (IH ltac:(lia)). rewrite <- IH.
    replace (Z.to_nat (n - q)) with (S (Z.to_nat (n - (q + 1)))) by lia. rewrite fact_SR. assert (E := hb_S n q Hq).
    replace (INR (Z.to_nat (n - (q + 1))) + 1)%R with (IZR (n - q)) by (rewrite INR_IZR_INZ, Z2Nat.id, <- plus_IZR by lia; f_equal; lia).
    replace (INR (fact (Z.to_nat (q + 1)))) with (IZR (q + 1) * INR (fact (Z.to_nat q)))%R.
    2:{ replace (Z.to_nat (q + 1)) with (S (Z.to_nat q)) by lia. rewrite fact_SR, (INR_IZR_INZ (Z.to_nat q)), Z2Nat.id, <- plus_IZR by lia. reflexivity. }
    transitivity ((IZR (q + 1) * hb (IZR n) (Z.to_nat (q + 1))) * INR (fact (Z.to_nat q)) * INR (fact (Z.to_nat (n - (q + 1)))))%R; [ring|rewrite E; ring].
Qed.
Definition cl : R := (2 ^ Z.to_nat l * INR (fact (Z.to_nat l)) * sqrt (2 * PI) / (sqrt (INR (fact (Z.to_nat (2 * l)))) * sqrt (IZR l + 1 / 2)))%R.
Lemma cl_pos : (0 < cl)%R.
Proof.
  assert (F : forall n, (0 < INR (fact n))%R) by (intros; apply INR_fact_lt_0). pose proof PI_RGT_0.
  unfold cl. apply Rdiv_lt_0_compat; repeat apply Rmult_lt_0_compat; auto; try (apply sqrt_lt_R0); auto; try lra.
  - apply pow_lt. lra.
  - assert (0 <= IZR l)%R by (apply IZR_le; lia). lra.
Qed.
Lemma sqrt_eq a b : (0 <= a -> 0 <= b -> a * a = b -> sqrt b = a)%R.
Proof. intros Ha Hb <-. now apply sqrt_square. Qed.
Lemma T_norm t m : 0 <= m <= l -> (om m * T t m = sgn (l - m) * cl * gw (2 * l) (l - m) * sphP m (l - m) t)%R.
Proof.
  intros Hm. unfold T, sphP. replace (m + (l - m)) with l by lia. replace (2 * m + (l - m)) with (l + m) by lia.
  assert (E := proj1 (ww_leg t (Z.to_nat m) (Z.to_nat (l - m)))). replace (Z.to_nat m + Z.to_nat (l - m))%nat with (Z.to_nat l) in E by lia. rewrite Z2Nat.id in E by lia. rewrite E. clear E.
  set (L := fst (legendre2 (Z.to_nat m) t (Z.to_nat (l - m)))). unfold cf. replace (Z.to_nat m + Z.to_nat (l - m))%nat with (Z.to_nat l) by lia. replace (2 * Z.to_nat m + Z.to_nat (l - m))%nat with (Z.to_nat (l + m)) by lia.
  assert (SG : ((-1) ^ Z.to_nat (l - m))%R = sgn (l - m)).
  { set (i := l - m). assert (Hi : 0 <= i) by (unfold i; lia). clearbody i. pattern i. apply natlike_ind; [reflexivity| |exact Hi]. intros q Hq IH. replace (Z.to_nat (Z.succ q)) with (S (Z.to_nat q)) by lia. cbn [pow]. rewrite IH. replace (Z.succ q) with (q + 1) by lia. rewrite sgn_S. ring. }
  rewrite SG. set (f1 := INR (fact (Z.to_nat (l - m)))). set (f2 := INR (fact (Z.to_nat (l + m)))). set (f3 := INR (fact (Z.to_nat (2 * l)))). set (f4 := INR (fact (Z.to_nat l))).
  assert (P1 : (0 < f1)%R) by apply INR_fact_lt_0. assert (P2 : (0 < f2)%R) by apply INR_fact_lt_0. assert (P3 : (0 < f3)%R) by apply INR_fact_lt_0.
  assert (G : (gw (2 * l) (l - m) = sqrt f3 / (sqrt f1 * sqrt f2))%R).
  { assert (X := hb_fact (2 * l) (l - m) ltac:(lia)). replace (2 * l - (l - m)) with (l + m) in X by lia. fold f1 f2 f3 in X. unfold gw. rewrite <- sqrt_mult by lra. rewrite <- sqrt_div by nra. f_equal. rewrite <- X. field. lra. }
  rewrite G. unfold cl. fold f3 f4. assert (Pl : (0 < IZR l + 1 / 2)%R) by (assert (0 <= IZR l)%R by (apply IZR_le; lia); lra).
  rewrite (sqrt_mult (IZR l + 1 / 2) (f1 / f2)); [|lra|apply Rlt_le, Rdiv_lt_0_compat; lra]. rewrite (sqrt_div f1 f2) by lra. pose proof PI_RGT_0 as PP.
  rewrite (sqrt_div (if m =? 0 then 1 else 2) (2 * PI)) by (destruct (m =? 0); lra).
  replace (sqrt (if m =? 0 then 1%R else 2%R)) with (om m) by (unfold om; destruct (m =? 0); [now rewrite sqrt_1|reflexivity]).
  assert (Q1 := sqrt_lt_R0 _ P1). assert (Q2 := sqrt_lt_R0 _ P2). assert (Q3 := sqrt_lt_R0 _ P3). assert (Q4 := sqrt_lt_R0 _ Pl). assert (Q5 := sqrt_lt_R0 (2 * PI) ltac:(lra)).
  assert (S2 := sqrt_sqrt f2 ltac:(lra)). 
  replace f2 with (sqrt f2 * sqrt f2)%R at 1 by exact S2. field. repeat split; lra.
Qed.
Definition qc (t phi : R) (m : Z) : R := (sgn m * tau (l - m) * (sphP m (l - m) t * cos (IZR m * eta phi)))%R.
Definition qs (t phi : R) (m : Z) : R := (sgn m * tau (l - m) * (sphP m (l - m) t * sin (IZR m * eta phi)))%R.
Lemma om_sq m : (om m * om m = om2 m)%R.
Proof. unfold om, om2. destruct (m =? 0); [ring|apply sqrt2_sq]. Qed.
Lemma om_nz m : om m <> 0%R.
Proof. unfold om. destruct (m =? 0); [lra|]. pose proof (sqrt_lt_R0 2 ltac:(lra)). lra. Qed.
Lemma tau_sq j : (tau j * tau j = 1)%R. Proof. destruct (tau_pm j) as [-> | ->]; ring. Qed.
Lemma term_norm t mu m e : 0 <= mu <= l -> 0 <= m <= l ->
  (sgn (l - mu) * tau (l - mu) * om mu * (om2 m * KZ (2 * l) (l - mu) (l - m) * (T t m * e)) = cl * gw (2 * l) (l - mu) * (SS l mu m * (sgn mu * (sgn mu * (sgn m * tau (l - m) * (sphP m (l - m) t * e))))) * sgn mu)%R.
Proof.
  intros Hmu Hm. rewrite KZ_kp by lia. rewrite <- gw_sq by lia. unfold SS. rewrite <- om_sq.
  transitivity (sgn (l - mu) * tau (l - mu) * om mu * (om m * (gw (2 * l) (l - mu) * gw (2 * l) (l - mu) * kp (2 * l) (l - mu) (l - m))) * ((om m * T t m) * e))%R; [ring|].
  rewrite T_norm by auto. assert (B1 : sgn (l - mu) = (sgn l * sgn mu)%R) by (replace (l - mu) with (l + - mu) by lia; now rewrite sgn_add, sgn_opp). assert (B2 : sgn (l - m) = (sgn l * sgn m)%R) by (replace (l - m) with (l + - m) by lia; now rewrite sgn_add, sgn_opp). rewrite B1, B2.
  assert (A1 := sgn_sq l). assert (A2 := sgn_sq mu). assert (A3 := tau_sq (l - m)).
  transitivity ((sgn l * sgn l) * sgn mu * tau (l - mu) * om mu * (om m * (gw (2 * l) (l - mu) * gw (2 * l) (l - mu) * kp (2 * l) (l - mu) (l - m))) * (sgn m * cl * gw (2 * l) (l - m) * sphP m (l - m) t * e))%R; [ring|]. rewrite A1.
  transitivity ((tau (l - m) * tau (l - m)) * (sgn mu * sgn mu) * sgn mu * tau (l - mu) * om mu * (om m * (gw (2 * l) (l - mu) * gw (2 * l) (l - mu) * kp (2 * l) (l - mu) (l - m))) * (sgn m * cl * gw (2 * l) (l - m) * sphP m (l - m) t * e))%R; [rewrite A2, A3; ring|ring].
Qed.
Lemma sum_norm c (f g : Z -> R) : (forall m, 0 <= m <= l -> f m = (c * g m)%R) -> sumZ (l + 1) f = (c * sumZ (l + 1) g)%R.
Proof. intros H. rewrite <- sumZ_scal. apply sumZ_ext. intros. apply H. lia. Qed.
Lemma exchange_q t phi t' phi' mu : exch_pt t phi t' phi' -> 0 <= mu <= l ->
  (2 ^ Z.to_nat l * qc t' phi' mu = sumZ (l + 1) (fun m => if Z.even (l - mu - m) then SS l mu m * qc t phi m else 0))%R /\
  (2 ^ Z.to_nat l * qs t' phi' mu = sumZ (l + 1) (fun m => if Z.even (l - mu - m) then 0 else SS l mu m * qs t phi m))%R.
Proof.
  intros H Hmu. destruct (exchange_fold t phi t' phi' mu H Hmu) as [E1 E2].
  set (C := (cl * gw (2 * l) (l - mu) * sgn mu)%R). assert (C0 : C <> 0%R).
  { unfold C. pose proof cl_pos. pose proof (gw_pos (2 * l) (l - mu) ltac:(lia)). destruct (sgn_pm mu) as [-> | ->]; nra. }
  assert (LH : forall e, (sgn (l - mu) * tau (l - mu) * om mu * (2 ^ Z.to_nat l * (T t' mu * e)) = C * (2 ^ Z.to_nat l * (sgn mu * tau (l - mu) * (sphP mu (l - mu) t' * e))))%R).
  { intros e. transitivity (sgn (l - mu) * tau (l - mu) * 2 ^ Z.to_nat l * e * (om mu * T t' mu))%R; [ring|]. rewrite T_norm by auto. unfold C.
    transitivity ((sgn (l - mu) * sgn (l - mu)) * tau (l - mu) * 2 ^ Z.to_nat l * e * (cl * gw (2 * l) (l - mu) * sphP mu (l - mu) t'))%R; [ring|]. rewrite sgn_sq.
    transitivity ((sgn mu * sgn mu) * tau (l - mu) * 2 ^ Z.to_nat l * e * (cl * gw (2 * l) (l - mu) * sphP mu (l - mu) t'))%R; [rewrite sgn_sq; ring|ring]. }
  split; apply (Rmult_eq_reg_l C); auto.
  - unfold qc at 1. rewrite <- LH, E1, <- sumZ_scal. apply sum_norm. intros m Hm. destruct (Z.even (l - mu - m)); [|ring]. rewrite term_norm by auto. unfold C, qc.
    transitivity ((sgn mu * sgn mu) * (cl * gw (2 * l) (l - mu) * sgn mu * (SS l mu m * (sgn m * tau (l - m) * (sphP m (l - m) t * cos (IZR m * eta phi))))))%R; [ring|rewrite sgn_sq; ring].
  - unfold qs at 1. rewrite <- LH, E2, <- sumZ_scal. apply sum_norm. intros m Hm. destruct (Z.even (l - mu - m)); [ring|]. rewrite term_norm by auto. unfold C, qs.
    transitivity ((sgn mu * sgn mu) * (cl * gw (2 * l) (l - mu) * sgn mu * (SS l mu m * (sgn m * tau (l - m) * (sphP m (l - m) t * sin (IZR m * eta phi))))))%R; [ring|rewrite sgn_sq; ring].
Qed.
End Fold.
