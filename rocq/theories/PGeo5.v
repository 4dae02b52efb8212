(** * The exchange moves the part of one degree, and the whole function, to the exchanged point *)
From Coq Require Import ZArith List Lia Bool Reals Lra Factorial ZifyBool ZifyNat.
From Verif Require Import Base Arith SpecSum PSum PKraw PKraw2 PDual MRecur MIso SpecIso SpecGeo PIso2 PIso3 PIso4 PIso5 PIso7 PIso8 PIso9 PGeo1 PGeo2 PGeo3 PGeo4.
Open Scope Z_scope.

Lemma tau_4 q j : tau (4 * q + j) = tau j.
Proof. unfold tau. replace ((4 * q + j) / 2) with (j / 2 + 2 * q) by lia. now rewrite Z.even_add_mul_2. Qed.
Lemma even_4 q j : Z.even (4 * q + j) = Z.even j.
Proof. replace (4 * q + j) with (j + 2 * (2 * q)) by lia. apply Z.even_add_mul_2. Qed.
Lemma sig_4 b q j m : sig b (4 * q + j) m = sig b j m.
Proof. unfold sig. replace (4 * q + j - m) with (4 * q + (j - m)) by lia. now rewrite tau_4. Qed.
Ltac mod4 l := let q := fresh "q" in let E := fresh "E" in
  set (q := l / 4); assert (E : l = 4 * q + 0 \/ l = 4 * q + 1 \/ l = 4 * q + 2 \/ l = 4 * q + 3) by (unfold q; lia); clearbody q; destruct E as [E|[E|[E|E]]]; subst l.
Lemma mod2_4 q j : (4 * q + j) mod 2 = j mod 2. Proof. lia. Qed.
Lemma mod4_4 q j : (4 * q + j) mod 4 = j mod 4. Proof. lia. Qed.
Definition sgood (l nu0 m0 sign : Z) (s s' : bool) : Prop := let b := Z.even (l - nu0 - m0) in
  (IZR sign * tau (l - nu0) * (sig b l nu0 * sig b l m0) = 1)%R /\ xorb b (Z.even nu0) = s /\ xorb b (Z.even m0) = s'.
Lemma sgood_4 q j nu0 m0 sign s s' : sgood j nu0 m0 sign s s' -> sgood (4 * q + j) nu0 m0 sign s s'.
Proof. unfold sgood. replace (4 * q + j - nu0 - m0) with (4 * q + (j - nu0 - m0)) by lia. replace (4 * q + j - nu0) with (4 * q + (j - nu0)) by lia. cbv zeta. rewrite even_4, tau_4, !sig_4. auto. Qed.
Ltac sg_case l := mod4 l; rewrite !mod2_4; apply sgood_4; unfold sg1, sg2, sg4; rewrite <- ?Z.add_assoc, ?mod4_4; unfold sgood; cbn; unfold sig, tau, sgn; cbn; (split; [ring|split; reflexivity]).
Lemma sgood1 l : sgood l (1 + l mod 2) (1 + l mod 2) (sg1 l) true true. Proof. sg_case l. Qed.
Lemma sgood4 l : sgood l (l mod 2) (l mod 2) (sg4 l) false false. Proof. sg_case l. Qed.
Lemma sgood2 l : sgood l (2 - l mod 2) (1 - l mod 2) (sg2 l) true false. Proof. sg_case l. Qed.
Lemma sgood2' l : sgood l (1 - l mod 2) (2 - l mod 2) (sg2 l) false true. Proof. sg_case l. Qed.

(** ** the part of degree l *)
Definition dsum (N l : Z) (A : list R) (t phi : R) : R :=
  sumZ (l + 1) (fun m => nthZ 0%R A (pc N l m) * YY false l m t phi + nthZ 0%R A (ps N l m) * YY true l m t phi)%R.
Lemma YY_s0 l t phi : YY true l 0 t phi = 0%R.
Proof. unfold YY. cbn [tri_]. rewrite Rmult_0_l, sin_0. ring. Qed.
Lemma two_classes l m0 m1 n0 n1 f : 1 <= n0 -> 1 <= n1 -> 0 <= m0 <= 2 -> 0 <= m1 <= 2 -> m0 + 2 * (n0 - 1) = l \/ m0 + 2 * (n0 - 1) = l - 1 -> m1 + 2 * (n1 - 1) = l \/ m1 + 2 * (n1 - 1) = l - 1 ->
  Z.even (m1 - m0) = false -> (m0 = 2 -> f 0 = 0%R) -> (m1 = 2 -> f 0 = 0%R) ->
  sumZ (l + 1) f = (sumZ n0 (fun v => f (m0 + 2 * v)%Z) + sumZ n1 (fun v => f (m1 + 2 * v)%Z))%R.
Proof.
  intros H0 H1 M0 M1 E0 E1 HE Z0 Z1.
  transitivity (sumZ (l + 1) (fun m => (if Z.even (m - m0)%Z then f m else 0) + (if Z.even (m - m1)%Z then f m else 0))%R).
  { apply sumZ_ext. intros m Hm. assert (Z.even (m - m1) = negb (Z.even (m - m0))). { rewrite !Z.even_sub in *. destruct (Z.even m), (Z.even m0), (Z.even m1); cbn in *; congruence. }
    rewrite H. destruct (Z.even (m - m0)); cbn [negb]; ring. }
  rewrite sumZ_plus. f_equal.
  - rewrite (class_sum l m0 n0); auto.
    + apply sumZ_ext. intros v Hv. replace (m0 + 2 * v - m0) with (0 + 2 * v) by lia. now rewrite even_step.
    + intros X. rewrite Z0 by auto. destruct (Z.even (0 - m0)); reflexivity.
    + intros m ->. reflexivity.
  - rewrite (class_sum l m1 n1); auto.
    + apply sumZ_ext. intros v Hv. replace (m1 + 2 * v - m1) with (0 + 2 * v) by lia. now rewrite even_step.
    + intros X. rewrite Z1 by auto. destruct (Z.even (0 - m1)); reflexivity.
    + intros m ->. reflexivity.
Qed.
Lemma dsum_classes N l A t phi : 2 <= l -> dsum N l A t phi = (let e := (l mod 2)%Z in
  sumZ ((l + 2) / 2) (fun v => pcv N l A e v * YY false l (e + 2 * v) t phi) + sumZ ((l + 1) / 2) (fun v => pcv N l A (1 - e) v * YY false l (1 - e + 2 * v) t phi) +
  (sumZ (l / 2) (fun v => psv N l A (1 + e) v * YY true l (1 + e + 2 * v) t phi) + sumZ ((l + 1) / 2) (fun v => psv N l A (2 - e) v * YY true l (2 - e + 2 * v) t phi)))%R.
Proof.
  intros Hl. cbv zeta. unfold dsum. rewrite sumZ_plus. f_equal.
  - rewrite (two_classes l (l mod 2) (1 - l mod 2) ((l + 2) / 2) ((l + 1) / 2)); try lia; auto. apply even_mod. lia.
  - rewrite (two_classes l (1 + l mod 2) (2 - l mod 2) (l / 2) ((l + 1) / 2)); try lia; auto.
    + apply even_mod. lia.
    + intros _. rewrite YY_s0. ring.
    + intros _. rewrite YY_s0. ring.
Qed.
Lemma deg_move N l A A' t phi t' phi' : 2 <= l -> deg_lin (sg1 l) (sg2 l) (sg4 l) N l A A' -> exch_pt t phi t' phi' -> dsum N l A' t phi = dsum N l A t' phi'.
Proof.
  intros Hl (D1 & D2 & D3 & D4) HP. rewrite !dsum_classes by auto. cbv zeta. destruct (sg_pm l) as (P1 & P2 & P4).
  destruct (sgood1 l) as (G1 & S1 & S1'). destruct (sgood4 l) as (G4 & S4 & S4'). destruct (sgood2 l) as (G2 & S2 & S2'). destruct (sgood2' l) as (G3 & S3 & S3').
  assert (B1 := block_move l _ _ _ _ _ (sg1 l) _ (fits11 l Hl) (fits11 l Hl) P1 eq_refl G1 _ _ t phi t' phi' HP D1). rewrite S1 in B1.
  assert (B4 := block_move l _ _ _ _ _ (sg4 l) _ (fits22 l Hl) (fits22 l Hl) P4 eq_refl G4 _ _ t phi t' phi' HP D2). rewrite S4 in B4.
  assert (B2 := block_move l _ _ _ _ _ (sg2 l) _ (fits12 l Hl) (fits21 l Hl) P2 eq_refl G2 _ _ t phi t' phi' HP D3). rewrite S2, S2' in B2.
  assert (B3 := block_move l _ _ _ _ _ (sg2 l) _ (fits21 l Hl) (fits12 l Hl) P2 eq_refl G3 _ _ t phi t' phi' HP D4). rewrite S3, S3' in B3.
  cbv beta in *. rewrite B1, B4, B2, B3. ring.
Qed.
