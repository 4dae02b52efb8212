(** * The folded Krawtchouk matrix: its rows are eigenvectors of the blocks of the exchange *)
From Coq Require Import ZArith List Lia Bool Reals Lra ZifyBool ZifyNat.
From Verif Require Import Base SpecSum PSum PKraw.
Open Scope Z_scope.

Definition om (m : Z) : R := if m =? 0 then 1%R else sqrt 2.
Definition SS (l nu mu : Z) : R :=
  (om nu * om mu * (tau (l - nu) * gw (2 * l) (l - nu)) * (tau (l - mu) * gw (2 * l) (l - mu)) * kp (2 * l) (l - nu) (l - mu))%R.
Definition zv (l nu : Z) : R := IZR (4 * ((l + 1) * (l + 1) - nu * nu)).
(** diagonal and coupling (of mu and mu+2) of the cosine (c = true) and sine blocks *)
Definition ya (c : bool) (l mu : Z) : R :=
  IZR ((l - mu + 1) * (l - mu + 2) + (l + 1 + mu) * (l + 2 + mu) + (if mu =? 1 then if c then - (l * (l + 1)) else l * (l + 1) else 0)).
Definition yb (l mu : Z) : R := ((if mu =? 0 then sqrt 2 else 1) * kB (2 * l) (l - mu - 2))%R.

Lemma SS_sym l nu mu : SS l nu mu = SS l mu nu.
Proof. unfold SS. rewrite (kp_sym (2 * l) (l - nu)). ring. Qed.
Definition cw (l nu : Z) : R := (om nu * (tau (l - nu) * gw (2 * l) (l - nu)))%R.
Lemma SS_kw l nu mu : SS l nu mu = (cw l nu * (om mu * kw (2 * l) (l - nu) (l - mu)))%R.
Proof. unfold SS, cw, kw. ring. Qed.
Lemma gw_mid1 l : 1 <= l -> gw (2 * l) (l + 1) = gw (2 * l) (l - 1).
Proof.
  intros Hl. unfold gw. f_equal. assert (H1 := hb_S (2 * l) l ltac:(lia)). assert (H2 := hb_S (2 * l) (l - 1) ltac:(lia)).
  replace (2 * l - l) with l in H1 by lia. replace (l - 1 + 1) with l in H2 by lia. replace (2 * l - (l - 1)) with (l + 1) in H2 by lia.
  apply (Rmult_eq_reg_l (IZR (l + 1))); [|apply not_0_IZR; lia]. congruence.
Qed.
Lemma gw_mid2 l : 2 <= l -> gw (2 * l) (l + 2) = gw (2 * l) (l - 2).
Proof.
  intros Hl. assert (G := gw_mid1 l ltac:(lia)). unfold gw. f_equal.
  assert (G' : hb (IZR (2 * l)) (Z.to_nat (l + 1)) = hb (IZR (2 * l)) (Z.to_nat (l - 1))).
  { rewrite <- (gw_sq (2 * l) (l + 1)), <- (gw_sq (2 * l) (l - 1)) by lia. now rewrite G. }
  assert (H1 := hb_S (2 * l) (l + 1) ltac:(lia)). assert (H2 := hb_S (2 * l) (l - 2) ltac:(lia)).
  replace (2 * l - (l + 1)) with (l - 1) in H1 by lia. replace (l + 1 + 1) with (l + 2) in H1 by lia. replace (l - 2 + 1) with (l - 1) in H2 by lia. replace (2 * l - (l - 2)) with (l + 2) in H2 by lia.
  apply (Rmult_eq_reg_l (IZR (l + 2))); [|apply not_0_IZR; lia]. congruence.
Qed.
Lemma kw_mid1 l k : 1 <= l -> 0 <= k <= 2 * l -> kw (2 * l) k (l + 1) = (- sgn k * kw (2 * l) k (l - 1))%R.
Proof.
  intros Hl Hk. unfold kw. rewrite gw_mid1 by lia. assert (E := kp_parity (2 * l) k (l - 1) Hk ltac:(lia)). replace (2 * l - (l - 1)) with (l + 1) in E by lia. rewrite E.
  assert (T := tau_2 (l - 1)). replace (l - 1 + 2) with (l + 1) in T by lia. rewrite T. ring.
Qed.
Lemma kw_mid2 l k : 2 <= l -> 0 <= k <= 2 * l -> kw (2 * l) k (l + 2) = (sgn k * kw (2 * l) k (l - 2))%R.
Proof.
  intros Hl Hk. unfold kw. rewrite gw_mid2 by lia. assert (E := kp_parity (2 * l) k (l - 2) Hk ltac:(lia)). replace (2 * l - (l - 2)) with (l + 2) in E by lia. rewrite E.
  rewrite tau_2, tau_m2. ring.
Qed.
Lemma kw_mid0 l k : 0 <= l -> 0 <= k <= 2 * l -> Z.even k = false -> kw (2 * l) k l = 0%R.
Proof.
  intros Hl Hk Ek. assert (E := kp_parity (2 * l) k l Hk ltac:(lia)). replace (2 * l - l) with l in E by lia. unfold sgn in E. rewrite Ek in E. unfold kw.
  replace (kp (2 * l) k l) with 0%R by lra. ring.
Qed.
Lemma kB_mid l : 1 <= l -> kB (2 * l) (l - 1) = IZR (l * (l + 1)).
Proof.
  intros Hl. unfold kB. replace ((l - 1 + 1) * (l - 1 + 2) * ((2 * l - (l - 1)) * (2 * l - (l - 1) - 1))) with ((l * (l + 1)) * (l * (l + 1))) by ring.
  rewrite mult_IZR. apply sqrt_square. apply IZR_le. nia.
Qed.
Lemma sqrt2_sq : (sqrt 2 * sqrt 2 = 2)%R.
Proof. apply sqrt_sqrt. lra. Qed.

Lemma SS_row l nu mu : 1 <= l -> 0 <= nu <= l -> 0 <= mu <= l ->
  forall c, Z.even (l - nu) = c -> (if c then 0 else 1) <= mu ->
  (zv l nu * SS l nu mu = ya c l mu * SS l nu mu + yb l mu * SS l nu (mu + 2) + (if (if c then 2 else 3) <=? mu then yb l (mu - 2) * SS l nu (mu - 2) else 0))%R.
Proof.
  intros Hl Hnu Hmu c Hc Hm. rewrite !SS_kw. assert (E := kw_rec (2 * l) (l - nu) (l - mu) ltac:(lia) ltac:(lia)).
  replace (zv l nu) with (IZR ((2 * l + 2) * (2 * l + 2) - (2 * l - 2 * (l - nu)) * (2 * l - 2 * (l - nu)))) by (unfold zv; f_equal; ring).
  set (X := IZR ((2 * l + 2) * (2 * l + 2) - (2 * l - 2 * (l - nu)) * (2 * l - 2 * (l - nu)))) in *.
  set (Y := IZR ((l - mu + 1) * (l - mu + 2) + (2 * l + 1 - (l - mu)) * (2 * l + 2 - (l - mu)))) in *.
  replace (l - mu + 2) with (l - (mu - 2)) in E by lia. replace (l - mu - 2) with (l - (mu + 2)) in E by lia.
  assert (YA : (ya c l mu = Y + (if mu =? 1 then if c then - IZR (l * (l + 1)) else IZR (l * (l + 1)) else 0))%R).
  { unfold ya, Y. replace ((l - mu + 1) * (l - mu + 2) + (2 * l + 1 - (l - mu)) * (2 * l + 2 - (l - mu))) with ((l - mu + 1) * (l - mu + 2) + (l + 1 + mu) * (l + 2 + mu)) by ring.
    rewrite plus_IZR. destruct (mu =? 1); [|reflexivity]. destruct c; [now rewrite opp_IZR|reflexivity]. }
  assert (YB : yb l mu = ((if (mu =? 0)%Z then sqrt 2 else 1) * kB (2 * l) (l - (mu + 2)))%R) by (unfold yb; do 2 f_equal; lia).
  assert (Q := sqrt2_sq).
  assert (G : (X * (om mu * kw (2 * l) (l - nu) (l - mu)) = ya c l mu * (om mu * kw (2 * l) (l - nu) (l - mu)) + yb l mu * (om (mu + 2) * kw (2 * l) (l - nu) (l - (mu + 2))) +
     (if (if c then 2 else 3) <=? mu then yb l (mu - 2) * (om (mu - 2) * kw (2 * l) (l - nu) (l - (mu - 2))) else 0))%R).
  { rewrite YA, YB. unfold om at 3. replace (mu + 2 =? 0) with false by lia.
    destruct (Z.eq_dec mu 0) as [->|N0].
    - (* mu = 0: cosines only *) destruct c; [|lia]. change (om 0) with 1%R. change (0 =? 0) with true. change (0 =? 1) with false. change (2 <=? 0) with false. cbv iota.
      rewrite (Rmult_comm 1). replace (l - 0) with l in * by lia. replace (l - (0 - 2)) with (l + 2) in * by lia. replace (l - (0 + 2)) with (l - 2) in * by lia.
      destruct (Z.eq_dec l 1) as [->|].
      + rewrite (kB_zero (2 * 1) 1), (kB_zero (2 * 1) (1 - 2)) in * by reflexivity. lra.
      + rewrite kw_mid2 in E by lia. unfold sgn in E. rewrite Hc in E.
        assert (KK : kB (2 * l) l = kB (2 * l) (l - 2)) by (unfold kB; apply (f_equal (fun t => sqrt (IZR t))); ring). rewrite KK in E. 
        transitivity (Y * kw (2 * l) (l - nu) l + 2 * (kB (2 * l) (l - 2) * kw (2 * l) (l - nu) (l - 2)))%R; [lra|].
        transitivity (Y * kw (2 * l) (l - nu) l + (sqrt 2 * sqrt 2) * (kB (2 * l) (l - 2) * kw (2 * l) (l - nu) (l - 2)))%R; [rewrite Q; ring|ring].
    - replace (mu =? 0) with false by lia. destruct (Z.eq_dec mu 1) as [->|N1].
      + change (om 1) with (sqrt 2). change (1 =? 1) with true. replace ((if c then 2 else 3) <=? 1) with false by (destruct c; reflexivity). cbv iota.
        replace (l - (1 - 2)) with (l + 1) in E by lia. rewrite kw_mid1, kB_mid in E by lia. unfold sgn in E. rewrite Hc in E. apply (f_equal (fun t => (sqrt 2 * t)%R)) in E.
        destruct c; lra.
      + replace (mu =? 1) with false by lia. replace (om mu) with (sqrt 2) by (unfold om; replace (mu =? 0) with false by lia; reflexivity).
        destruct (Z.eq_dec mu 2) as [->|N2].
        * change (2 - 2) with 0 in *. change (om 0) with 1%R. replace (l - 0) with l in * by lia. unfold yb. change (0 =? 0) with true. cbv iota. replace (l - 0 - 2) with (l - 2) by lia.
          apply (f_equal (fun t => (sqrt 2 * t)%R)) in E. destruct c; change (2 <=? 2) with true || change (3 <=? 2) with false; cbv iota.
          -- lra.
          -- rewrite kw_mid0 in E by lia. lra.
        * replace ((if c then 2 else 3) <=? mu) with true by (destruct c; lia). replace (om (mu - 2)) with (sqrt 2) by (unfold om; replace (mu - 2 =? 0) with false by lia; reflexivity).
          unfold yb. replace (mu - 2 =? 0) with false by lia. replace (l - (mu - 2) - 2) with (l - mu) by lia. apply (f_equal (fun t => (sqrt 2 * t)%R)) in E. lra. }
  apply (f_equal (fun t => (cw l nu * t)%R)) in G. destruct ((if c then 2 else 3) <=? mu); lra.
Qed.
Lemma SS_last l nu m : 2 <= l -> 0 <= nu <= l -> (m = l \/ (m = l - 1 /\ 1 <= nu)) -> SS l nu m <> 0%R.
Proof.
  intros Hl Hn Hm. unfold SS.
  assert (O : forall q, (om q <> 0)%R) by (intros q; unfold om; destruct (q =? 0); [lra|]; pose proof (sqrt_lt_R0 2 ltac:(lra)); lra).
  assert (T : forall q, (tau q <> 0)%R) by (intros q; destruct (tau_pm q) as [->| ->]; lra).
  assert (G : forall q, 0 <= q <= 2 * l -> (gw (2 * l) q <> 0)%R) by (intros q Hq; pose proof (gw_pos (2 * l) q Hq); lra).
  assert (K : (kp (2 * l) (l - nu) (l - m) <> 0)%R).
  { destruct Hm as [->|(-> & Hnu)].
    - replace (l - l) with 0 by lia. rewrite kp_0 by lia. lra.
    - replace (l - (l - 1)) with 1 by lia. assert (E := kp_1 (2 * l) (l - nu) ltac:(lia)). intros E0. rewrite E0, Rmult_0_r in E. symmetry in E. apply eq_IZR_R0 in E. lia. }
  repeat apply Rmult_integral_contrapositive_currified; auto; apply G; destruct Hm as [->|(-> & _)]; lia.
Qed.
Lemma yb_pos l mu : 0 <= mu <= l - 2 -> (0 < yb l mu)%R.
Proof.
  intros H. unfold yb. apply Rmult_lt_0_compat.
  - destruct (mu =? 0); [apply sqrt_lt_R0|]; lra.
  - apply sqrt_lt_R0, IZR_lt. apply Z.mul_pos_pos; apply Z.mul_pos_pos; lia.
Qed.
Lemma zv_dec l a b : 0 <= a < b -> (zv l b < zv l a)%R.
Proof. intros H. apply IZR_lt. nia. Qed.
