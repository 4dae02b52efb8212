(** * The blocks of the exchange move the harmonics of one degree to the exchanged point *)
From Coq Require Import ZArith List Lia Bool Reals Lra Factorial ZifyBool ZifyNat.
From Verif Require Import Base Arith SpecSum PSum PKraw PKraw2 PDual MIso SpecIso SpecGeo PIso7 PIso8 PIso9 PGeo1 PGeo2 PGeo3.
Open Scope Z_scope.

(** ** spherical coordinates exist *)
Lemma triple_eq (a b c a' b' c' : R) : a = a' -> b = b' -> c = c' -> (a, b, c) = (a', b', c').
Proof. intros; subst; reflexivity. Qed.
Lemma sphere_point x y z : (x * x + y * y + z * z = 1)%R -> exists t phi, xyz t phi = (x, y, z).
Proof.
  intros H. destruct (angle (sqrt (1 - z * z)) z) as (t & Et & Ez). { rewrite sqrt_sqrt by nra. ring. }
  destruct (Req_dec (sqrt (1 - z * z)) 0) as [E0|N0].
  - exists t, 0%R. unfold xyz. rewrite <- Et, <- Ez, E0. assert (1 - z * z = 0)%R by (rewrite <- (sqrt_sqrt (1 - z * z)) by nra; rewrite E0; ring).
    assert (x = 0)%R by nra. assert (y = 0)%R by nra. subst. apply triple_eq; ring.
  - set (r := sqrt (1 - z * z)) in *. assert (R2 : (r * r = 1 - z * z)%R) by (unfold r; apply sqrt_sqrt; nra).
    destruct (angle (y / r) (x / r)) as (phi & Ey & Ex). { replace (y / r * (y / r) + x / r * (x / r))%R with ((x * x + y * y) / (r * r))%R by (field; auto). rewrite R2. replace (x * x + y * y)%R with (1 - z * z)%R by lra. field. rewrite <- R2. now apply Rmult_integral_contrapositive_currified. }
    exists t, phi. unfold xyz. rewrite <- Et, <- Ez, <- Ey, <- Ex. apply triple_eq; [field; auto|field; auto|reflexivity].
Qed.
Lemma exch_exists t phi : exists t' phi', exch_pt t phi t' phi'.
Proof.
  unfold exch_pt, xyz. apply sphere_point. pose proof (sin2_cos2 t) as S1. pose proof (sin2_cos2 phi) as S2. unfold Rsqr in *.
  transitivity (sin t * sin t * (sin phi * sin phi + cos phi * cos phi) + cos t * cos t)%R; [ring|rewrite S2; lra].
Qed.

Lemma class_sum l m0 n G : 0 <= m0 <= 2 -> 1 <= n -> m0 + 2 * (n - 1) = l \/ m0 + 2 * (n - 1) = l - 1 -> (m0 = 2 -> G 0 = 0%R) ->
  (forall m, Z.even (m - m0) = false -> G m = 0%R) -> sumZ (l + 1) G = sumZ n (fun v => G (m0 + 2 * v)).
Proof.
  intros Hm Hn Hl H0 HO.
  assert (K : forall k, 0 <= k -> sumZ (m0 + 2 * k) G = sumZ k (fun v => G (m0 + 2 * v))).
  { intros k Hk. pattern k. apply natlike_ind; [| |exact Hk]; cbv beta.
    - replace (m0 + 2 * 0) with m0 by lia. rewrite (sumZ_0 0) by lia. apply sumZ_zero. intros i Hi. destruct (Z.eq_dec m0 2) as [->|].
      + assert (i = 0 \/ i = 1) as [->| ->] by lia; auto.
      + apply HO. assert (i = 0) by lia. assert (m0 = 1) by lia. subst. reflexivity.
    - intros q Hq IH. replace (Z.succ q) with (q + 1) by lia. replace (m0 + 2 * (q + 1)) with (m0 + 2 * q + 1 + 1) by lia. rewrite !sumZ_S by lia. rewrite IH.
      rewrite (HO (m0 + 2 * q + 1)); [ring|]. replace (m0 + 2 * q + 1 - m0) with (1 + 2 * q) by lia. apply Z.even_add_mul_2. }
  rewrite <- (K n) by lia. destruct Hl as [Hl|Hl].
  - replace (m0 + 2 * n) with (l + 1 + 1) by lia. rewrite (sumZ_S (l + 1)) by lia. rewrite (HO (l + 1)); [ring|]. replace (l + 1 - m0) with (1 + 2 * (n - 1)) by lia. apply Z.even_add_mul_2.
  - f_equal. lia.
Qed.

(** ** the functions of one degree *)
Definition tri_ (s : bool) (x : R) : R := if s then sin x else cos x.
Definition YY (s : bool) (l m : Z) (t phi : R) : R := (sphP m (l - m) t * tri_ s (IZR m * phi))%R.
Definition qq (b : bool) (l : Z) (t phi : R) (m : Z) : R := (sgn m * tau (l - m) * (sphP m (l - m) t * tri_ (negb b) (IZR m * eta phi)))%R.
Lemma tau_even k : tau (2 * k) = sgn k. Proof. unfold tau, sgn. replace (2 * k / 2) with k by lia. reflexivity. Qed.
Lemma tau_odd k : tau (2 * k + 1) = sgn k. Proof. unfold tau, sgn. replace ((2 * k + 1) / 2) with k by lia. reflexivity. Qed.
Lemma half_turns k x : 0 <= k -> cos (x - IZR k * PI) = (sgn k * cos x)%R /\ sin (x - IZR k * PI) = (sgn k * sin x)%R.
Proof.
  intros Hk. pattern k. apply natlike_ind; [| |exact Hk]; cbv beta.
  - replace (x - 0 * PI)%R with x by ring. unfold sgn. cbn. split; ring.
  - intros q Hq (I1 & I2). replace (Z.succ q) with (q + 1) by lia. rewrite plus_IZR. replace (x - (IZR q + 1) * PI)%R with ((x - IZR q * PI) - PI)%R by ring.
    rewrite (cos_minus (x - IZR q * PI) PI), (sin_minus (x - IZR q * PI) PI), cos_PI, sin_PI, I1, I2, sgn_S. split; ring.
Qed.
Lemma tri_eta b m phi : 0 <= m -> tri_ (negb b) (IZR m * eta phi) = (tau m * (if b then 1 else sgn m) * tri_ (xorb b (Z.even m)) (IZR m * phi))%R.
Proof.
  intros Hm. destruct (Z.even m) eqn:Ev.
  - apply Z.even_spec in Ev. destruct Ev as (k & ->). rewrite tau_even, sgn_2. destruct (half_turns k (IZR (2 * k) * phi) ltac:(lia)) as (I1 & I2).
    replace (IZR (2 * k) * eta phi)%R with (IZR (2 * k) * phi - IZR k * PI)%R by (unfold eta; rewrite mult_IZR; field).
    destruct b; cbn [negb xorb tri_]; rewrite ?I1, ?I2; ring.
  - rewrite <- Z.negb_odd in Ev. assert (Od : Z.odd m = true) by (destruct (Z.odd m); [reflexivity|discriminate]). apply Z.odd_spec in Od. destruct Od as (k & ->). rewrite tau_odd, sgn_S, sgn_2.
    destruct (half_turns k (IZR (2 * k + 1) * phi - PI / 2) ltac:(lia)) as (I1 & I2).
    replace (IZR (2 * k + 1) * eta phi)%R with (IZR (2 * k + 1) * phi - PI / 2 - IZR k * PI)%R by (unfold eta; rewrite plus_IZR, mult_IZR; field).
    destruct b; cbn [negb xorb tri_]; rewrite ?I1, ?I2, ?cos_minus, ?sin_minus, cos_PI2, sin_PI2; ring.
Qed.
Definition sig (b : bool) (l m : Z) : R := (sgn m * tau (l - m) * (tau m * (if b then 1 else sgn m)))%R.
Lemma qq_YY b l t phi m : 0 <= m -> qq b l t phi m = (sig b l m * YY (xorb b (Z.even m)) l m t phi)%R.
Proof. intros Hm. unfold qq, sig, YY. rewrite tri_eta by auto. ring. Qed.
Lemma sgn_step m v : sgn (m + 2 * v) = sgn m. Proof. rewrite sgn_add, sgn_2. ring. Qed.
Lemma sig_step b l m v : 0 <= v -> sig b l (m + 2 * v) = sig b l m.
Proof.
  intros Hv. pattern v. apply natlike_ind; [| |exact Hv]; cbv beta.
  - f_equal. lia.
  - intros q Hq IH. rewrite <- IH. unfold sig. rewrite !sgn_step. replace (l - (m + 2 * Z.succ q)) with (l - (m + 2 * q) - 2) by lia. replace (m + 2 * Z.succ q) with (m + 2 * q + 2) by lia. rewrite tau_m2, tau_2. ring.
Qed.
Lemma sig_sq b l m : (sig b l m * sig b l m = 1)%R.
Proof. unfold sig. assert (A := sgn_sq m). assert (B := tau_sq (l - m)). assert (C := tau_sq m). destruct b.
  - transitivity ((sgn m * sgn m) * (tau (l - m) * tau (l - m)) * (tau m * tau m))%R; [ring|rewrite A, B, C; ring].
  - transitivity ((sgn m * sgn m) * (sgn m * sgn m) * (tau (l - m) * tau (l - m)) * (tau m * tau m))%R; [ring|rewrite A, B, C; ring].
Qed.
Lemma even_step m v : Z.even (m + 2 * v) = Z.even m. Proof. apply Z.even_add_mul_2. Qed.
(** the largest orders do not vanish somewhere *)
Lemma oddfact_pos m : (0 < oddfact m)%R.
Proof. induction m; cbn [oddfact]; [lra|]. apply Rmult_lt_0_compat; auto. pose proof (pos_INR m). lra. Qed.
Lemma YY_nz s l m : 2 <= l -> m = l \/ m = l - 1 -> exists t phi, YY s l m t phi <> 0%R.
Proof.
  intros Hl Hm. exists (PI / 4)%R, (if s then PI / 2 / IZR m else 0)%R. unfold YY. assert (M1 : (1 <= IZR m)%R) by (apply IZR_le; lia).
  assert (TR : tri_ s (IZR m * (if s then PI / 2 / IZR m else 0)) = 1%R).
  { destruct s; cbn [tri_]; [replace (IZR m * (PI / 2 / IZR m))%R with (PI / 2)%R by (field; lra); apply sin_PI2|rewrite Rmult_0_r; apply cos_0]. }
  rewrite TR, Rmult_1_r. unfold sphP. pose proof PI_RGT_0 as PP.
  assert (sin (PI / 4) <> 0)%R. { rewrite sin_PI4. apply Rgt_not_eq, Rdiv_lt_0_compat; [lra|apply sqrt_lt_R0; lra]. }
  assert (cos (PI / 4) <> 0)%R. { rewrite cos_PI4. apply Rgt_not_eq, Rdiv_lt_0_compat; [lra|apply sqrt_lt_R0; lra]. }
  assert (FL : forall k, (0 < INR (fact k))%R) by (intros; apply INR_fact_lt_0).
  repeat apply Rmult_integral_contrapositive_currified.
  - apply Rgt_not_eq, sqrt_lt_R0. apply Rmult_lt_0_compat; [|apply Rdiv_lt_0_compat; auto]. replace (m + (l - m)) with l by lia. assert (2 <= IZR l)%R by (apply IZR_le; lia). lra.
  - pose proof (oddfact_pos (Z.to_nat m)) as OF. assert (PW : forall k, (sin (PI / 4) ^ k <> 0)%R) by (intros; now apply pow_nonzero). assert (P0 := PW (Z.to_nat m)). destruct Hm as [->| ->].
    + replace (Z.to_nat (l - l)) with 0%nat by lia. cbn [legendre2 fst]. apply Rmult_integral_contrapositive_currified; [lra|auto].
    + replace (Z.to_nat (l - (l - 1))) with 1%nat by lia. cbn [legendre2 fst]. change (INR 0) with 0%R. rewrite Rmult_0_r, Rminus_0_r. unfold Rdiv. 
      pose proof (pos_INR (Z.to_nat (l - 1) + 0)). repeat apply Rmult_integral_contrapositive_currified; auto; try lra.
  - apply Rgt_not_eq, sqrt_lt_R0. apply Rdiv_lt_0_compat; [destruct (m =? 0); lra|lra].
Qed.

Section Block.
Variables (l nu0 m0 n : Z) (c c' : bool) (b : bool).
Hypothesis F : fits l nu0 m0 n c.
Hypothesis F' : fits l m0 nu0 n c'.
Hypothesis Hb : Z.even (l - nu0 - m0) = b.

Lemma fold_sum b' nu mu0 k t phi t' phi' : 2 <= l -> 0 <= nu <= l -> 0 <= mu0 <= 2 -> 1 <= k -> mu0 + 2 * (k - 1) = l \/ mu0 + 2 * (k - 1) = l - 1 -> (mu0 = 2 -> b' = false) -> Z.even (l - nu - mu0) = b' ->
  exch_pt t phi t' phi' -> (2 ^ Z.to_nat l * qq b' l t' phi' nu = sumZ k (fun v => SS l nu (mu0 + 2 * v) * qq b' l t phi (mu0 + 2 * v)))%R.
Proof.
  intros Hl Hnu Hmu Hk Hend H2 HE HP. destruct (exchange_q l ltac:(lia) t phi t' phi' nu HP Hnu) as (E1 & E2).
  assert (PAR : forall m, Z.even (m - mu0) = Bool.eqb (Z.even (l - nu - m)) b').
  { intros m. subst b'. rewrite !Z.even_sub. destruct (Z.even l), (Z.even nu), (Z.even m), (Z.even mu0); reflexivity. }
  destruct b'.
  - change (qq true l t' phi' nu) with (qc l t' phi' nu). rewrite E1. rewrite (class_sum l mu0 k); [|assumption|assumption|assumption|intros X; specialize (H2 X); discriminate|intros m Hm; rewrite PAR in Hm; destruct (Z.even (l - nu - m)); [discriminate|reflexivity]].
    apply sumZ_ext. intros v Hv. assert (X := PAR (mu0 + 2 * v)). replace (mu0 + 2 * v - mu0) with (0 + 2 * v) in X by lia. rewrite even_step in X. destruct (Z.even (l - nu - (mu0 + 2 * v))); [reflexivity|discriminate].
  - change (qq false l t' phi' nu) with (qs l t' phi' nu). rewrite E2. rewrite (class_sum l mu0 k); auto.
    + apply sumZ_ext. intros v Hv. assert (X := PAR (mu0 + 2 * v)). replace (mu0 + 2 * v - mu0) with (0 + 2 * v) in X by lia. rewrite even_step in X. destruct (Z.even (l - nu - (mu0 + 2 * v))); [discriminate|reflexivity].
    + intros _. unfold qs. rewrite Rmult_0_l, sin_0. destruct (Z.even (l - nu - 0)); ring.
    + intros m Hm. rewrite PAR in Hm. destruct (Z.even (l - nu - m)); [reflexivity|discriminate].
Qed.
Lemma geo_rel t phi t' phi' p : exch_pt t phi t' phi' -> 0 <= p < n ->
  sumZ n (fun v => (MB l nu0 m0 v p * YY (xorb b (Z.even nu0)) l (nu0 + 2 * v) t phi)%R) = (sig b l nu0 * sig b l m0 * 2 ^ Z.to_nat l * YY (xorb b (Z.even m0)) l (m0 + 2 * p) t' phi')%R.
Proof.
  intros HP Hp. destruct F as (Hl & Hn & Hc & Hm & Hnu & Hlast & Hlast'). destruct F' as (_ & _ & Hc' & Hm' & Hnu' & Hlst & Hlst').
  assert (E := fold_sum b (m0 + 2 * p) nu0 n t phi t' phi' Hl ltac:(lia) ltac:(destruct c'; lia) ltac:(lia) ltac:(lia)).
  rewrite qq_YY, sig_step, even_step in E by lia.
  rewrite (sumZ_ext n (fun v => (SS l (m0 + 2 * p) (nu0 + 2 * v) * qq b l t phi (nu0 + 2 * v))%R) (fun v => (sig b l nu0 * (MB l nu0 m0 v p * YY (xorb b (Z.even nu0)) l (nu0 + 2 * v) t phi))%R)) in E.
  2:{ intros v Hv. rewrite qq_YY, sig_step, even_step by lia. unfold MB. rewrite SS_sym. ring. }
  rewrite sumZ_scal in E. assert (Q := sig_sq b l nu0). 
  transitivity (sig b l nu0 * (sig b l nu0 * sumZ n (fun v => (MB l nu0 m0 v p * YY (xorb b (Z.even nu0)) l (nu0 + 2 * v) t phi)%R)))%R; [rewrite <- Rmult_assoc, Q; ring|].
  rewrite <- E; auto; [ring| |].
  - intros ->. subst b. rewrite Z.even_sub. replace (Z.even 2) with true by reflexivity. rewrite Z.even_sub in Hc, Hc' |- *. destruct c'; [lia|]. destruct (Z.even l), (Z.even m0); cbn in *; congruence.
  - subst b. replace (l - (m0 + 2 * p) - nu0) with (l - nu0 - m0 + 2 * (- p)) by lia. apply even_step.
Qed.
End Block.
Section Block2.
Variables (l nu0 m0 n : Z) (c c' : bool) (sign : Z) (b : bool).
Hypothesis F : fits l nu0 m0 n c.
Hypothesis F' : fits l m0 nu0 n c'.
Hypothesis Hs : sign = 1 \/ sign = -1.
Hypothesis Hb : Z.even (l - nu0 - m0) = b.
Let k : R := (sig b l nu0 * sig b l m0 * 2 ^ Z.to_nat l)%R.
Lemma Hb_t : Z.even (l - m0 - nu0) = b.
Proof. rewrite <- Hb. f_equal. lia. Qed.
Lemma geo_norm v : 0 <= v < n -> dot n (MB l nu0 m0 v) (MB l nu0 m0 v) = (k * k)%R.
Proof.
  intros Hv. assert (Hn : 1 <= n) by (destruct F; lia).
  assert (E0 : dot n (MB l nu0 m0 v) (MB l nu0 m0 v) = dot n (MB l nu0 m0 (n - 1)) (MB l nu0 m0 (n - 1))).
  { assert (A1 := block_rows l nu0 m0 n c c' sign F F' Hs v v Hv Hv). assert (A2 := block_rows l nu0 m0 n c c' sign F F' Hs (n - 1) (n - 1) ltac:(lia) ltac:(lia)).
    rewrite Z.eqb_refl in A1, A2. apply (Rmult_eq_reg_l (kapB l nu0 m0 n sign * kapB l nu0 m0 n sign)); [congruence|]. intros Z0. rewrite Z0 in A1. lra. }
  rewrite E0. clear v Hv E0.
  destruct (YY_nz (xorb b (Z.even nu0)) l (nu0 + 2 * (n - 1))) as (t & phi & NZ). { destruct F; lia. } { destruct F'. lia. }
  destruct (exch_exists t phi) as (t' & phi' & HP). apply (Rmult_eq_reg_r (YY (xorb b (Z.even nu0)) l (nu0 + 2 * (n - 1)) t phi)); auto.
  assert (G1 := fun p => geo_rel l nu0 m0 n c c' b F F' Hb t phi t' phi' p HP). assert (G2 := geo_rel l m0 nu0 n c' c b F' F Hb_t t' phi' t phi (n - 1) (exch_pt_sym _ _ _ _ HP) ltac:(lia)).
  set (y := fun v => YY (xorb b (Z.even nu0)) l (nu0 + 2 * v) t phi) in *. set (x := fun p => YY (xorb b (Z.even m0)) l (m0 + 2 * p) t' phi') in *.
  change (YY (xorb b (Z.even nu0)) l (nu0 + 2 * (n - 1)) t phi) with (y (n - 1)) in *.
  assert (G3 : sumZ n (fun p => (MB l nu0 m0 (n - 1) p * (k * x p))%R) = (k * k * y (n - 1)%Z)%R).
  { rewrite (sumZ_ext n _ (fun p => (k * (MB l m0 nu0 p (n - 1) * x p))%R)) by (intros p Hp; unfold MB; rewrite SS_sym; ring). rewrite sumZ_scal. unfold x at 1. rewrite G2. unfold k, y. ring. }
  rewrite <- G3. rewrite (sumZ_ext n _ (fun p => sumZ n (fun v => (MB l nu0 m0 (n - 1) p * MB l nu0 m0 v p * y v)%R))).
  2:{ intros p Hp. unfold k, x. rewrite <- (G1 p Hp), <- sumZ_scal. apply sumZ_ext. intros. unfold y. ring. }
  rewrite sumZ_swap. rewrite (sumZ_single n (n - 1)); [|lia|].
  - rewrite sumZ_scal_r. reflexivity.
  - intros v Hv Ne. rewrite sumZ_scal_r. change (dot n (MB l nu0 m0 (n - 1)) (MB l nu0 m0 v) * y v = 0)%R.
    assert (A1 := block_rows l nu0 m0 n c c' sign F F' Hs (n - 1) v ltac:(lia) Hv). replace (n - 1 =? v) with false in A1 by lia.
    assert (A2 := block_rows l nu0 m0 n c c' sign F F' Hs v v Hv Hv). rewrite Z.eqb_refl in A2.
    assert (N0 : (kapB l nu0 m0 n sign * kapB l nu0 m0 n sign <> 0)%R) by (intros Z0; rewrite Z0 in A2; lra). apply Rmult_integral in A1. destruct A1 as [A1|A1]; [contradiction|]. rewrite A1. ring.
Qed.
Lemma MB_last_sign : (0 < tau (l - nu0) * MB l nu0 m0 0 (n - 1))%R.
Proof.
  destruct F as (Hl & Hn & Hc & Hm & Hnu & Hlast & Hlast'). unfold MB, SS. replace (nu0 + 2 * 0) with nu0 by lia. set (m := m0 + 2 * (n - 1)) in *.
  assert (O : forall q, (0 < om q)%R) by (intros q; unfold om; destruct (q =? 0); [lra|]; apply sqrt_lt_R0; lra).
  assert (P1 := gw_pos (2 * l) (l - nu0) ltac:(lia)). assert (P2 := gw_pos (2 * l) (l - m) ltac:(lia)).
  assert (K : (0 < tau (l - m) * kp (2 * l) (l - nu0) (l - m))%R).
  { destruct Hlast as [->|(-> & H1)].
    - replace (l - l) with 0 by lia. rewrite kp_0 by lia. unfold tau. cbn. lra.
    - replace (l - (l - 1)) with 1 by lia. assert (E := kp_1 (2 * l) (l - nu0) ltac:(lia)). replace (2 * l - 2 * (l - nu0)) with (2 * nu0) in E by lia.
      assert (0 < IZR (2 * nu0))%R by (apply IZR_lt; lia). assert (0 < IZR (2 * l))%R by (apply IZR_lt; lia). replace (tau 1) with 1%R by reflexivity. rewrite Rmult_1_l. nra. }
  replace (tau (l - nu0) * (om nu0 * om m * (tau (l - nu0) * gw (2 * l) (l - nu0)) * (tau (l - m) * gw (2 * l) (l - m)) * kp (2 * l) (l - nu0) (l - m)))%R
    with (tau (l - nu0) * tau (l - nu0) * (om nu0 * om m * gw (2 * l) (l - nu0) * gw (2 * l) (l - m) * (tau (l - m) * kp (2 * l) (l - nu0) (l - m))))%R by ring.
  rewrite tau_sq, Rmult_1_l. apply Rmult_lt_0_compat; [|exact K]. repeat apply Rmult_lt_0_compat; auto.
Qed.
Lemma kapB_sign : (0 < IZR sign * tau (l - nu0) * kapB l nu0 m0 n sign)%R.
Proof.
  assert (Hn : 1 <= n) by (destruct F; lia). assert (LS := MB_last_sign).
  assert (SM := same_sign n (fun p => ya c l (m0 + 2 * p)) (fun p => yb l (m0 + 2 * p)) (fun v => zv l (nu0 + 2 * v)) (fun p => ya c' l (nu0 + 2 * p)) (fun p => yb l (nu0 + 2 * p)) (fun v => zv l (m0 + 2 * v)) (MB l nu0 m0) Hn
    (block_tri _ _ _ _ _ F) (block_tri_t _ _ _ _ _ F') (fits_b _ _ _ _ _ F) (fits_b _ _ _ _ _ F') (fits_lam _ _ _ _ _ F) (fits_lam _ _ _ _ _ F') (fits_last _ _ _ _ _ F) (fits_last_t _ _ _ _ _ F') (n - 1) ltac:(lia)).
  assert (DP : (0 < DD n (MB l nu0 m0))%R). { unfold DD. rewrite (geo_norm 0) by lia. assert (X := sig_sq b l nu0). assert (Y := sig_sq b l m0). assert (PW := pow_lt 2 (Z.to_nat l) ltac:(lra)).
    replace (k * k)%R with ((sig b l nu0 * sig b l nu0) * (sig b l m0 * sig b l m0) * (2 ^ Z.to_nat l * 2 ^ Z.to_nat l))%R by (unfold k; ring). rewrite X, Y. nra. }
  assert (S0 := sqrt_lt_R0 _ DP). unfold kapB, kap.
  replace (IZR sign * tau (l - nu0) * (IZR sign * (if Rlt_dec 0 (MB l nu0 m0 0 0) then 1 else -1) / sqrt (DD n (MB l nu0 m0))))%R
    with ((IZR sign * IZR sign) * (tau (l - nu0) * (if Rlt_dec 0 (MB l nu0 m0 0 0) then 1 else -1)) / sqrt (DD n (MB l nu0 m0)))%R by (field; lra).
  replace (IZR sign * IZR sign)%R with 1%R by (destruct Hs as [->| ->]; ring). rewrite Rmult_1_l. apply Rdiv_lt_0_compat; auto.
  destruct (tau_pm (l - nu0)) as [T|T]; rewrite T in *; destruct (Rlt_dec 0 (MB l nu0 m0 0 0)); nra.
Qed.
Hypothesis Hsig : (IZR sign * tau (l - nu0) * (sig b l nu0 * sig b l m0) = 1)%R.
Lemma kapB_val : (kapB l nu0 m0 n sign * k = 1)%R.
Proof.
  assert (Hn : 1 <= n) by (destruct F; lia). assert (A1 := block_rows l nu0 m0 n c c' sign F F' Hs 0 0 ltac:(lia) ltac:(lia)). change (0 =? 0) with true in A1. cbv iota in A1. rewrite (geo_norm 0) in A1 by lia.
  assert (P := kapB_sign). assert (PW := pow_lt 2 (Z.to_nat l) ltac:(lra)). set (q := (sig b l nu0 * sig b l m0)%R) in *. set (st := (IZR sign * tau (l - nu0))%R) in *.
  assert (Q2 : (st * st = 1)%R). { unfold st. replace (IZR sign * tau (l - nu0) * (IZR sign * tau (l - nu0)))%R with ((IZR sign * IZR sign) * (tau (l - nu0) * tau (l - nu0)))%R by ring. rewrite tau_sq. destruct Hs as [->| ->]; ring. }
  assert (Q : q = st) by (transitivity (st * st * q)%R; [rewrite Q2; ring|rewrite Rmult_assoc, Hsig; ring]).
  assert (PK : (0 < kapB l nu0 m0 n sign * k)%R). { unfold k. fold q. rewrite Q. replace (kapB l nu0 m0 n sign * (st * 2 ^ Z.to_nat l))%R with (st * kapB l nu0 m0 n sign * 2 ^ Z.to_nat l)%R by ring. now apply Rmult_lt_0_compat. }
  set (z := (kapB l nu0 m0 n sign * k)%R) in *. assert (Z2 : (z * z = 1)%R) by (rewrite <- A1; unfold z; ring). nra.
Qed.
Lemma block_geo t phi t' phi' p : exch_pt t phi t' phi' -> 0 <= p < n ->
  (kapB l nu0 m0 n sign * sumZ n (fun v => MB l nu0 m0 v p * YY (xorb b (Z.even nu0)) l (nu0 + 2 * v) t phi) = YY (xorb b (Z.even m0)) l (m0 + 2 * p) t' phi')%R.
Proof. intros HP Hp. rewrite (geo_rel l nu0 m0 n c c' b F F' Hb t phi t' phi' p HP Hp). fold k. rewrite <- Rmult_assoc, kapB_val. ring. Qed.
(** the part of the function in the block *)
Lemma block_move (x y : Z -> R) t phi t' phi' : exch_pt t phi t' phi' ->
  (forall v, 0 <= v < n -> y v = (kapB l nu0 m0 n sign * dot n (MB l nu0 m0 v) x)%R) ->
  sumZ n (fun v => (y v * YY (xorb b (Z.even nu0)) l (nu0 + 2 * v) t phi)%R) = sumZ n (fun p => (x p * YY (xorb b (Z.even m0)) l (m0 + 2 * p) t' phi')%R).
Proof.
  intros HP Hy. rewrite (sumZ_ext n _ (fun v => sumZ n (fun p => (kapB l nu0 m0 n sign * x p * (MB l nu0 m0 v p * YY (xorb b (Z.even nu0)) l (nu0 + 2 * v) t phi))%R))).
  2:{ intros v Hv. rewrite Hy by auto. unfold dot. rewrite <- sumZ_scal, <- sumZ_scal_r. apply sumZ_ext. intros. ring. }
  rewrite sumZ_swap. apply sumZ_ext. intros p Hp. rewrite sumZ_scal. rewrite <- (block_geo t phi t' phi' p HP Hp). ring.
Qed.
End Block2.
