(** * Diagonal connection coefficients *)
From Coq Require Import ZArith List Lia Bool Reals Lra ZifyBool.
From Verif Require Import Base BaseFacts Arith SpecSum PSum SpecLin SpecBanded SpecClassical SpecConn MClassical PClass1 PClass2 PClass3 PClass6 PClass7 PClass8 PPoly PPenJ PUltra PPenU PPenC PPenL.
Import ListNotations.
Open Scope Z_scope.

(** the entries D[0], D[incd], ..., D[(n-1) incd] hold the diagonal [t]; the others are those of D0 *)
Definition dinv (t : Z -> R) (incd : Z) (D0 : list R) (k : Z) (D : list R) : Prop :=
  zlen D = zlen D0 /\ (forall i, 0 <= i < k -> zget D (i * incd) = Some (t i)) /\
  forall p, (forall i, 0 <= i < k -> p <> i * incd) -> zget D p = zget D0 p.
Lemma dinv_0 t incd D : dinv t incd D 0 D.
Proof. split; [auto|split; [intros; lia|auto]]. Qed.
Lemma dinv_S t incd D0 k D v : 1 <= incd -> 0 <= k -> k * incd < zlen D0 -> dinv t incd D0 k D -> v = t k ->
  exists D', zset D (k * incd) v = Some D' /\ dinv t incd D0 (k + 1) D'.
Proof.
  intros Hi Hk Hl (L & V & O) ->. rewrite zset_some by nia. eexists. split; [reflexivity|]. split; [now rewrite zlen_zupd|]. split.
  - intros i H. destruct (Z.eq_dec i k) as [->|].
    + rewrite zget_zupd_same by nia. reflexivity.
    + rewrite zget_zupd_other by nia. apply V. lia.
  - intros p Hp. rewrite zget_zupd_other; [apply O; intros; apply Hp; lia|]. apply not_eq_sym. apply Hp. lia.
Qed.
Lemma diag_loop_ok t incd D0 from n f D : 1 <= from -> 1 <= incd -> (n - 1) * incd < zlen D0 ->
  (forall i, from <= i < n -> f i (t (i - 1)) = t i) -> dinv t incd D0 (Z.min from n) D ->
  exists D', diag_loop from n incd f D = Some D' /\ dinv t incd D0 n D'.
Proof.
  intros Hf Hi Hl Hs HD. unfold diag_loop. destruct (Z_le_dec n from).
  { rewrite for_up_nil by lia. exists D. split; auto. now rewrite Z.min_r in HD by lia. }
  rewrite Z.min_l in HD by lia.
  destruct (for_up_inv (fun k D => dinv t incd D0 k D) from n (fun i D => do d <- zget D ((i-1)*incd); zset D (i*incd) (f i d)) D) as [D' [E H]]; auto; [lia| |eauto].
  intros i A Hr HA. destruct HA as (L & V & O). rewrite V by lia. cbn [obind]. apply dinv_S; auto; try lia; [|split; [|split]; auto].
  assert (i * incd <= (n - 1) * incd) by (apply Z.mul_le_mono_nonneg_r; lia). lia.
Qed.
Lemma set_if_ok t incd D n v : 1 <= incd -> 0 <= n -> (n - 1) * incd < zlen D -> v = t 0 ->
  exists D', set_if (0 <? n) 0 v D = Some D' /\ dinv t incd D (Z.min 1 n) D'.
Proof.
  intros Hi Hn Hl Hv. unfold set_if. destruct (Z.ltb_spec 0 n).
  - destruct (dinv_S t incd D 0 D v) as [D' [E H']]; auto; try lia. { assert (0 * incd <= (n - 1) * incd) by (apply Z.mul_le_mono_nonneg_r; lia). lia. } { apply dinv_0. }
    exists D'. split; auto. now rewrite Z.min_l by lia.
  - exists D. split; auto. rewrite Z.min_r by lia. replace n with 0 by lia. apply dinv_0.
Qed.
(** D[0]; D[incd] from D[0]; the others by recurrence *)
Lemma diag3_ok t incd n v0 (g : R -> R) f D : 1 <= incd -> 0 <= n -> (n - 1) * incd < zlen D -> v0 = t 0 -> (1 < n -> g (t 0) = t 1) ->
  (forall i, 2 <= i < n -> f i (t (i - 1)) = t i) ->
  exists D', (do D <- set_if (0 <? n) 0 v0 D; do D <- (if 1 <? n then do d0 <- zget D 0; zset D incd (g d0) else Some D); diag_loop 2 n incd f D) = Some D' /\ dinv t incd D n D'.
Proof.
  intros Hi Hn Hl H0 H1 H2. destruct (set_if_ok t incd D n v0 Hi Hn Hl H0) as [D1 [E1 V1]]. rewrite E1. cbn [obind].
  assert (X : exists D2, (if 1 <? n then do d0 <- zget D1 0; zset D1 incd (g d0) else Some D1) = Some D2 /\ dinv t incd D (Z.min 2 n) D2).
  { destruct (Z.ltb_spec 1 n).
    - rewrite Z.min_l in V1 by lia. assert (V1' := V1). destruct V1 as (L & V & O). change 0 with (0 * incd) at 1. rewrite V by lia. cbn [obind].
      destruct (dinv_S t incd D 1 D1 (g (t 0))) as [D2 [E2 V2]]; auto; try lia.
      { assert (1 * incd <= (n - 1) * incd) by (apply Z.mul_le_mono_nonneg_r; lia). lia. }
      rewrite Z.mul_1_l in E2. exists D2. split; auto. now rewrite Z.min_l by lia.
    - exists D1. split; auto. rewrite Z.min_r in * by lia. auto. }
  destruct X as [D2 [E2 V2]]. rewrite E2. cbn [obind]. apply diag_loop_ok; auto; lia.
Qed.
Lemma diag2_ok t incd n v0 f D : 1 <= incd -> 0 <= n -> (n - 1) * incd < zlen D -> v0 = t 0 ->
  (forall i, 1 <= i < n -> f i (t (i - 1)) = t i) ->
  exists D', (do D <- set_if (0 <? n) 0 v0 D; diag_loop 1 n incd f D) = Some D' /\ dinv t incd D n D'.
Proof.
  intros Hi Hn Hl H0 H1. destruct (set_if_ok t incd D n v0 Hi Hn Hl H0) as [D1 [E1 V1]]. rewrite E1. cbn [obind]. apply diag_loop_ok; auto; lia.
Qed.

(** the target: quotient of the leading coefficients *)
Lemma kz_nz A k : (forall k, 0 <= k -> A k <> 0%R) -> 0 <= k -> kz 1 A k <> 0%R.
Proof. intros HA Hk. unfold kz. induction (Z.to_nat k) as [|m IH]; cbn; [lra|]. apply Rmult_integral_contrapositive_currified; auto. apply HA. lia. Qed.

Section T.
Variables (n1 n2 : bool) (AP AQ hP hQ : Z -> R).
Definition tgt (i : Z) : R := (sc n1 hP i * kz 1 AP i / (sc n2 hQ i * kz 1 AQ i))%R.
Hypotheses (PA : forall k, 0 <= k -> AP k <> 0%R) (QA : forall k, 0 <= k -> AQ k <> 0%R) (Pp : forall k, 0 <= k -> (0 < hP k)%R) (Qp : forall k, 0 <= k -> (0 < hQ k)%R).
Lemma kz_0 A : kz 1 A 0 = 1%R. Proof. reflexivity. Qed.
Definition rt1 (i : Z) : R := if n1 then (sqrt (hP (i - 1)) / sqrt (hP i))%R else 1%R.
Definition rt2 (i : Z) : R := if n2 then (sqrt (hQ i) / sqrt (hQ (i - 1)))%R else 1%R.
Lemma tgt_S i : 1 <= i -> tgt i = (AP (i - 1)%Z / AQ (i - 1)%Z * rt1 i * rt2 i * tgt (i - 1))%R.
Proof.
  intros Hi. unfold tgt, rt1, rt2. assert (K1 := kz_S 1 AP (i - 1) ltac:(lia)). assert (K2 := kz_S 1 AQ (i - 1) ltac:(lia)). replace (i - 1 + 1) with i in * by lia. rewrite K1, K2.
  assert (Z1 := PA (i - 1) ltac:(lia)). assert (Z2 := QA (i - 1) ltac:(lia)). assert (Z3 := kz_nz AP (i - 1) PA ltac:(lia)). assert (Z4 := kz_nz AQ (i - 1) QA ltac:(lia)).
  assert (X1 := sqrt_lt_R0 _ (Pp i ltac:(lia))). assert (X2 := sqrt_lt_R0 _ (Pp (i-1) ltac:(lia))). assert (X3 := sqrt_lt_R0 _ (Qp i ltac:(lia))). assert (X4 := sqrt_lt_R0 _ (Qp (i-1) ltac:(lia))).
  unfold sc. destruct n1, n2; field; repeat split; lra.
Qed.
Lemma tgt_0 : tgt 0 = (sc n1 hP 0 / sc n2 hQ 0)%R.
Proof. unfold tgt. rewrite !kz_0. field. apply sc_nz. now apply Qp. Qed.
Lemma tgt_U n U P Q : graded n (kz 1 AP) P -> graded n (kz 1 AQ) Q -> connects n U (fam n1 P hP) (fam n2 Q hQ) -> forall i, 0 <= i < n -> tgt i = U i i.
Proof.
  intros GP GQ HU i Hi. assert (E := connects_lead n n _ _ U _ _ (graded_fam n1 n _ P hP GP Pp) (graded_fam n2 n _ Q hQ GQ Qp) ltac:(lia) HU i Hi).
  cbv beta in E. unfold tgt. rewrite <- E. field. split; [apply kz_nz; auto; lia|apply sc_nz; apply Qp; lia].
Qed.
End T.

Lemma sqf (X c a b d e : R) : (0 < a)%R -> (0 < b)%R -> (0 < d)%R -> (0 < e)%R -> (0 <= c)%R -> (X = c * c * (a * b / (d * e)) -> sqrt X = c * (sqrt a * sqrt b / (sqrt d * sqrt e)))%R.
Proof.
  intros Pa Pb Pd Pe Hc ->. assert (0 < a * b)%R by now apply Rmult_lt_0_compat. assert (0 < d * e)%R by now apply Rmult_lt_0_compat.
  rewrite sqrt_mult. rewrite sqrt_square by auto. rewrite sqrt_div, !sqrt_mult by lra. reflexivity. apply Rle_0_sqr. apply Rlt_le. now apply Rdiv_lt_0_compat.
Qed.
(** two norms, one norm *)
Lemma sqf2 (X c a d : R) : (0 < a)%R -> (0 < d)%R -> (0 <= c)%R -> (X = c * c * (a / d) -> sqrt X = c * (sqrt a / sqrt d))%R.
Proof. intros Pa Pd Hc E. rewrite (sqf X c a 1 d 1); auto; try lra. - rewrite sqrt_1. apply sqrt_lt_R0 in Pd. field. lra. - rewrite E. field. lra. Qed.

Lemma dinv_holds t incd D n D' U : dinv t incd D n D' -> (forall i, 0 <= i < n -> t i = U i i) -> holds_diag n incd U D D'.
Proof. intros (L & V & O) H. split; [auto|split; [|auto]]. intros i Hi. rewrite V by auto. now rewrite H. Qed.
Ltac ar := cbn [add sub mul div opp sqrtA ofZ one zero R_arith].
Ltac sqp H := let X := fresh in pose proof (sqrt_lt_R0 _ H) as X.

Lemma jac_r1 x y h : (-1 < x)%R -> (-1 < y)%R -> jacobi_norms x y h -> h 1%Z = ((x + 1) * (y + 1) / (x + y + 3) * h 0%Z)%R.
Proof. intros Hx Hy N. assert (E := jn_1 _ _ _ N). apply (Rmult_eq_reg_l (x + y + 3)); [|lra]. rewrite E. field. lra. Qed.
Lemma jac_r2 x y h i : (-1 < x)%R -> (-1 < y)%R -> jacobi_norms x y h -> 2 <= i ->
  h i = ((2 * IZR i + x + y - 1) * (IZR i + x) * (IZR i + y) / ((2 * IZR i + x + y + 1) * IZR i * (IZR i + x + y)) * h (i - 1)%Z)%R.
Proof.
  intros Hx Hy N H. assert (E := jn_S _ _ _ N (i - 1) ltac:(lia)). cbn zeta in E. replace (i - 1 + 1) with i in E by lia. rewrite minus_IZR in E. assert (2 <= IZR i)%R by (apply IZR_le; lia).
  apply (Rmult_eq_reg_l ((2 * (IZR i - 1) + x + y + 3) * (IZR i - 1 + 1) * (IZR i - 1 + x + y + 1))).
  - rewrite E. field. repeat split; lra.
  - repeat apply Rmult_integral_contrapositive_currified; lra.
Qed.
Lemma jA_val x y i : 2 <= i -> jA x y (i - 1) = ((2 * IZR i + x + y - 1) * (2 * IZR i + x + y) / (2 * IZR i * (IZR i + x + y)))%R.
Proof. intros H. unfold jA. replace (i - 1 =? 0) with false by lia. unfold rA. rewrite minus_IZR. assert (2 <= IZR i)%R by (apply IZR_le; lia). f_equal; [|f_equal]; ring. Qed.

Section Jac.
Variables (tgamma pow2 : R -> R) (n1 n2 : bool) (n incd : Z) (a b c e : R) (P Q : Z -> R -> R) (hP hQ : Z -> R) (U : Z -> Z -> R) (D : list R).
Hypotheses (Ha : (-1 < a)%R) (Hb : (-1 < b)%R) (Hc : (-1 < c)%R) (He : (-1 < e)%R) (Hn : 0 <= n) (Hi : 1 <= incd) (HL : (n - 1) * incd < zlen D).
Hypotheses (HP : is_jacobi a b P) (HQ : is_jacobi c e Q) (NP : jacobi_norms a b hP) (NQ : jacobi_norms c e hQ).
Hypotheses (Gp : forall x, (0 < x)%R -> (0 < tgamma x)%R) (Pp : forall x, (0 < pow2 x)%R).
Hypotheses (P0 : (hP 0%Z = pow2 (a + b + 1) * tgamma (a + 1) * tgamma (b + 1) / tgamma (a + b + 2))%R).
Hypotheses (Q0 : (hQ 0%Z = pow2 (c + e + 1) * tgamma (c + 1) * tgamma (e + 1) / tgamma (c + e + 2))%R).
Hypothesis HU : connects n U (fam n1 P hP) (fam n2 Q hQ).
Let T := tgt n1 n2 (jA a b) (jA c e) hP hQ.
Lemma jac_diag_ok : exists D', jacobi_diag tgamma pow2 n1 n2 n a b c e incd D = Some D' /\ holds_diag n incd U D D'.
Proof.
  assert (Pp' := fun k => jn_pos a b hP Ha Hb NP k). assert (Qp' := fun k => jn_pos c e hQ Hc He NQ k).
  assert (PA : forall k, 0 <= k -> jA a b k <> 0%R) by (intros k Hk; pose proof (jA_pos a b Ha Hb k Hk); lra).
  assert (QA : forall k, 0 <= k -> jA c e k <> 0%R) by (intros k Hk; pose proof (jA_pos c e Hc He k Hk); lra).
  assert (TS := tgt_S n1 n2 (jA a b) (jA c e) hP hQ PA QA Pp' Qp'). fold T in TS.
  assert (T0 := tgt_0 n1 n2 (jA a b) (jA c e) hP hQ Qp'). fold T in T0.
  assert (PP0 := Pp' 0 ltac:(lia)). assert (QQ0 := Qp' 0 ltac:(lia)).
  assert (S1 := sqrt_lt_R0 _ PP0). assert (S2 := sqrt_lt_R0 _ QQ0).
  assert (g1 := Gp (a+1) ltac:(lra)). assert (g2 := Gp (b+1) ltac:(lra)). assert (g3 := Gp (a+b+2) ltac:(lra)). assert (g4 := Pp (a+b+1)).
  assert (g5 := Gp (c+1) ltac:(lra)). assert (g6 := Gp (e+1) ltac:(lra)). assert (g7 := Gp (c+e+2) ltac:(lra)). assert (g8 := Pp (c+e+1)).
  unfold jacobi_diag. cbv zeta.
  match goal with |- exists D', ?cd = Some D' /\ _ => assert (X : exists D', cd = Some D' /\ dinv T incd D n D') end; [apply (diag3_ok T incd n); [exact Hi|exact Hn|exact HL| | |]|destruct X as [D' [E V]]; exists D'; split; [exact E|]].
  - ar. rewrite T0. unfold sc. destruct n1, n2.
    + rewrite (sqf _ 1 1 (hQ 0%Z) (hP 0%Z) 1); try lra; [rewrite sqrt_1; field; lra|]. rewrite P0, Q0. field. repeat split; lra.
    + rewrite (sqf2 _ 1 1 (hP 0%Z)); try lra; [rewrite sqrt_1; field; lra|]. rewrite P0. field. repeat split; lra.
    + rewrite (sqf2 _ 1 (hQ 0%Z) 1); try lra. rewrite sqrt_1; field; lra.
    + field.
  - intros H1. ar. cbv beta. rewrite (TS 1) by lia. change (1 - 1) with 0. unfold jA, rt1, rt2. cbn [Z.eqb]. change (1 - 1) with 0.
    assert (PP1 := Pp' 1 ltac:(lia)). assert (QQ1 := Qp' 1 ltac:(lia)). assert (S3 := sqrt_lt_R0 _ PP1). assert (S4 := sqrt_lt_R0 _ QQ1).
    assert (R1 := jac_r1 a b hP Ha Hb NP). assert (R2 := jac_r1 c e hQ Hc He NQ).
    destruct n1, n2.
    + rewrite (sqf _ 1 (hP 0%Z) (hQ 1%Z) (hP 1%Z) (hQ 0%Z)); try lra; [field; repeat split; lra|]. rewrite R1, R2. field. repeat split; lra.
    + rewrite (sqf2 _ 1 (hP 0%Z) (hP 1%Z)); try lra; [field; repeat split; lra|]. rewrite R1. field. repeat split; lra.
    + rewrite (sqf2 _ 1 (hQ 1%Z) (hQ 0%Z)); try lra; [field; repeat split; lra|]. rewrite R2. field. repeat split; lra.
    + rewrite T0. unfold sc. field. lra.
  - intros i H2. cbv beta. ar. rewrite (TS i) by lia. rewrite !jA_val by lia. unfold rt1, rt2. rewrite !mult_IZR.
    assert (2 <= IZR i)%R by (apply IZR_le; lia).
    assert (PPi := Pp' i ltac:(lia)). assert (QQi := Qp' i ltac:(lia)). assert (S3 := sqrt_lt_R0 _ PPi). assert (S4 := sqrt_lt_R0 _ QQi).
    assert (PPj := Pp' (i - 1) ltac:(lia)). assert (QQj := Qp' (i - 1) ltac:(lia)). assert (S5 := sqrt_lt_R0 _ PPj). assert (S6 := sqrt_lt_R0 _ QQj).
    assert (R1 := jac_r2 a b hP i Ha Hb NP ltac:(lia)). assert (R2 := jac_r2 c e hQ i Hc He NQ ltac:(lia)).
    destruct n1, n2.
    + rewrite (sqf _ ((2 * IZR i + a + b - 1) * (IZR i + c + e) / ((IZR i + a + b) * (2 * IZR i + c + e - 1))) (hP (i-1)%Z) (hQ i) (hP i) (hQ (i-1)%Z)); try assumption; [field; repeat split; lra| |].
      * apply Rlt_le. apply Rdiv_lt_0_compat; apply Rmult_lt_0_compat; lra.
      * rewrite R1, R2. field. repeat split; lra.
    + rewrite (sqf2 _ ((2 * IZR i + a + b - 1) * (2 * IZR i + a + b) / (IZR i * (IZR i + a + b))) (hP (i-1)%Z) (hP i)); try assumption; [field; repeat split; lra| |].
      * apply Rlt_le. apply Rdiv_lt_0_compat; apply Rmult_lt_0_compat; lra.
      * rewrite R1. field. repeat split; lra.
    + rewrite (sqf2 _ (IZR i * (IZR i + c + e) / ((2 * IZR i + c + e - 1) * (2 * IZR i + c + e))) (hQ i) (hQ (i-1)%Z)); try assumption; [field; repeat split; lra| |].
      * apply Rlt_le. apply Rdiv_lt_0_compat; apply Rmult_lt_0_compat; lra.
      * rewrite R2. field. repeat split; lra.
    + field. repeat split; lra.
  - apply (dinv_holds T); auto. intros i H. apply (tgt_U n1 n2 (jA a b) (jA c e) hP hQ PA QA Pp' Qp' n U P Q); auto; apply jac_graded; auto.
Qed.
End Jac.

Lemma lag_r x h i : (-1 < x)%R -> laguerre_norms x h -> 1 <= i -> h i = ((IZR i + x) / IZR i * h (i - 1)%Z)%R.
Proof.
  intros Hx N H. assert (E := ln_S _ _ N (i - 1) ltac:(lia)). cbn zeta in E. replace (i - 1 + 1) with i in E by lia. rewrite minus_IZR in E. assert (1 <= IZR i)%R by (apply IZR_le; lia).
  apply (Rmult_eq_reg_l (IZR i - 1 + 1)); [|lra]. rewrite E. field. lra.
Qed.

Section Lag.
Variables (tgamma : R -> R) (n1 n2 : bool) (n incd : Z) (a b : R) (P Q : Z -> R -> R) (hP hQ : Z -> R) (U : Z -> Z -> R) (D : list R).
Hypotheses (Ha : (-1 < a)%R) (Hb : (-1 < b)%R) (Hn : 0 <= n) (Hi : 1 <= incd) (HL : (n - 1) * incd < zlen D).
Hypotheses (HP : is_laguerre a P) (HQ : is_laguerre b Q) (NP : laguerre_norms a hP) (NQ : laguerre_norms b hQ).
Hypotheses (P0 : hP 0%Z = tgamma (a + 1)%R) (Q0 : hQ 0%Z = tgamma (b + 1)%R).
Hypothesis HU : connects n U (fam n1 P hP) (fam n2 Q hQ).
Let T := tgt n1 n2 lA lA hP hQ.
Lemma lag_diag_ok : exists D', laguerre_diag tgamma n1 n2 n a b incd D = Some D' /\ holds_diag n incd U D D'.
Proof.
  assert (Pp' := ln_pos a Ha hP NP). assert (Qp' := ln_pos b Hb hQ NQ).
  assert (PA : forall k, 0 <= k -> lA k <> 0%R).
  { intros k Hk. unfold lA. apply IZR_le in Hk. intros E. apply (f_equal (fun t => t * (IZR k + 1))%R) in E. field_simplify in E; lra. }
  assert (TS := tgt_S n1 n2 lA lA hP hQ PA PA Pp' Qp'). fold T in TS.
  assert (T0 := tgt_0 n1 n2 lA lA hP hQ Qp'). fold T in T0.
  assert (PP0 := Pp' 0 ltac:(lia)). assert (QQ0 := Qp' 0 ltac:(lia)).
  assert (S1 := sqrt_lt_R0 _ PP0). assert (S2 := sqrt_lt_R0 _ QQ0).
  assert (TU : forall i, 0 <= i < n -> T i = U i i).
  { intros i H. apply (tgt_U n1 n2 lA lA hP hQ PA PA Pp' Qp' n U P Q); auto; eapply lag_graded; eauto. }
  unfold laguerre_diag. destruct (n1 || n2) eqn:En.
  - match goal with |- exists D', ?cd = Some D' /\ _ => assert (X : exists D', cd = Some D' /\ dinv T incd D n D') end; [apply (diag2_ok T incd n); [exact Hi|exact Hn|exact HL| | ]|destruct X as [D' [E V]]; exists D'; split; [exact E|]].
    + ar. rewrite T0. unfold sc. rewrite <- P0, <- Q0. destruct n1, n2; try discriminate.
      * rewrite (sqf2 _ 1 (hQ 0%Z) (hP 0%Z)); try lra. field. lra.
      * field. lra.
      * field. lra.
    + intros i H. cbv beta. ar. rewrite (TS i) by lia. assert (1 <= IZR i)%R by (apply IZR_le; lia). unfold rt1, rt2. assert (Z1 := PA (i - 1) ltac:(lia)).
      assert (PPi := Pp' i ltac:(lia)). assert (QQi := Qp' i ltac:(lia)). assert (S3 := sqrt_lt_R0 _ PPi). assert (S4 := sqrt_lt_R0 _ QQi).
      assert (PPj := Pp' (i - 1) ltac:(lia)). assert (QQj := Qp' (i - 1) ltac:(lia)). assert (S5 := sqrt_lt_R0 _ PPj). assert (S6 := sqrt_lt_R0 _ QQj).
      assert (R1 := lag_r a hP i Ha NP ltac:(lia)). assert (R2 := lag_r b hQ i Hb NQ ltac:(lia)).
      destruct n1, n2; try discriminate.
      * rewrite (sqf _ 1 (hP (i-1)%Z) (hQ i) (hP i) (hQ (i-1)%Z)); try lra; [field; repeat split; lra|]. rewrite R1, R2. field. repeat split; lra.
      * rewrite (sqf2 _ 1 (hP (i-1)%Z) (hP i)); try lra; [field; repeat split; lra|]. rewrite R1. field. repeat split; lra.
      * rewrite (sqf2 _ 1 (hQ i) (hQ (i-1)%Z)); try lra; [field; repeat split; lra|]. rewrite R2. field. repeat split; lra.
    + now apply (dinv_holds T).
  - destruct n1, n2; try discriminate.
    assert (T1 : forall i, 0 <= i -> T i = 1%R).
    { intros i H. unfold T, tgt, sc. field. eapply kz_nz; eauto. }
    destruct (for_up_inv (fun k D' => dinv T incd D k D') 0 n (fun i D => zset D (i*incd) (ofZ 1)) D) as [D' [E V]]; auto.
    + apply dinv_0.
    + intros i D1 H V. apply dinv_S; auto; try lia. { assert (i * incd <= (n - 1) * incd) by (apply Z.mul_le_mono_nonneg_r; lia). lia. } rewrite T1 by lia. reflexivity.
    + exists D'. split; [exact E|]. now apply (dinv_holds T).
Qed.
End Lag.

Lemma ult_r x h i : (- 1 / 2 < x)%R -> ultraspherical_norms x h -> 1 <= i -> h i = ((IZR i - 1 + x) * (IZR i - 1 + 2 * x) / (IZR i * (IZR i + x)) * h (i - 1)%Z)%R.
Proof.
  intros Hx N H. assert (E := un_S _ _ N (i - 1) ltac:(lia)). cbn zeta in E. replace (i - 1 + 1) with i in E by lia. rewrite minus_IZR in E. assert (1 <= IZR i)%R by (apply IZR_le; lia).
  apply (Rmult_eq_reg_l ((IZR i - 1 + 1) * (IZR i - 1 + 1 + x))); [|apply Rmult_integral_contrapositive_currified; lra]. rewrite E. field. lra.
Qed.
Lemma uA_nz x k : (- 1 / 2 < x)%R -> x <> 0%R -> 0 <= k -> uA x k <> 0%R.
Proof. intros Hx Hx0 Hk. unfold uA. assert (N := nl0 x Hx Hx0 k Hk). apply IZR_le in Hk. intros E. apply (f_equal (fun t => t * (IZR k + 1))%R) in E. field_simplify in E; lra. Qed.

Section Ult.
Variables (tgamma : R -> R) (n1 n2 : bool) (n incd : Z) (la mu : R) (P Q : Z -> R -> R) (hP hQ : Z -> R) (U : Z -> Z -> R) (D : list R).
Hypotheses (Hl : (- 1 / 2 < la)%R) (Hl0 : la <> 0%R) (Hm : (- 1 / 2 < mu)%R) (Hm0 : mu <> 0%R) (Hn : 0 <= n) (Hi : 1 <= incd) (HL : (n - 1) * incd < zlen D).
Hypotheses (HP : is_ultraspherical la P) (HQ : is_ultraspherical mu Q) (NP : ultraspherical_norms la hP) (NQ : ultraspherical_norms mu hQ).
Hypotheses (Gp : forall x, (0 < x)%R -> (0 < tgamma x)%R).
Hypotheses (P0 : (hP 0%Z = tgamma (1/2) * tgamma (la + 1/2) / tgamma (la + 1))%R).
Hypotheses (Q0 : (hQ 0%Z = tgamma (1/2) * tgamma (mu + 1/2) / tgamma (mu + 1))%R).
Hypothesis HU : connects n U (fam n1 P hP) (fam n2 Q hQ).
Let T := tgt n1 n2 (uA la) (uA mu) hP hQ.
Lemma ult_diag_ok : exists D', ultra_diag tgamma n1 n2 n la mu incd D = Some D' /\ holds_diag n incd U D D'.
Proof.
  assert (Pp' := un_pos la Hl Hl0 hP NP). assert (Qp' := un_pos mu Hm Hm0 hQ NQ).
  assert (PA := fun k => uA_nz la k Hl Hl0). assert (QA := fun k => uA_nz mu k Hm Hm0).
  assert (TS := tgt_S n1 n2 (uA la) (uA mu) hP hQ PA QA Pp' Qp'). fold T in TS.
  assert (T0 := tgt_0 n1 n2 (uA la) (uA mu) hP hQ Qp'). fold T in T0.
  assert (PP0 := Pp' 0 ltac:(lia)). assert (QQ0 := Qp' 0 ltac:(lia)).
  assert (S1 := sqrt_lt_R0 _ PP0). assert (S2 := sqrt_lt_R0 _ QQ0).
  assert (g1 := Gp (la+1) ltac:(lra)). assert (g2 := Gp (la+1/2) ltac:(lra)). assert (g3 := Gp (mu+1) ltac:(lra)). assert (g4 := Gp (mu+1/2) ltac:(lra)). assert (g5 := Gp (1/2) ltac:(lra)).
  unfold ultra_diag. cbv zeta.
  match goal with |- exists D', ?cd = Some D' /\ _ => assert (X : exists D', cd = Some D' /\ dinv T incd D n D') end; [apply (diag2_ok T incd n); [exact Hi|exact Hn|exact HL| | ]|destruct X as [D' [E V]]; exists D'; split; [exact E|]].
  - ar. rewrite T0. unfold sc.
    assert (X1 : sqrt (tgamma (la + 1) / (tgamma (1 / 2) * tgamma (la + 1 / 2))) = (1 * (sqrt 1 / sqrt (hP 0%Z)))%R) by (apply sqf2; try lra; rewrite P0; field; repeat split; lra).
    assert (X2 : sqrt (tgamma (1 / 2) * tgamma (mu + 1 / 2) / tgamma (mu + 1)) = sqrt (hQ 0%Z)) by now rewrite Q0.
    rewrite sqrt_1 in X1. destruct n1, n2; rewrite ?X1, ?X2; field; lra.
  - intros i H. cbv beta. ar. rewrite (TS i) by lia. assert (1 <= IZR i)%R by (apply IZR_le; lia). unfold rt1, rt2, uA.
    assert (PPi := Pp' i ltac:(lia)). assert (QQi := Qp' i ltac:(lia)). assert (S3 := sqrt_lt_R0 _ PPi). assert (S4 := sqrt_lt_R0 _ QQi).
    assert (PPj := Pp' (i - 1) ltac:(lia)). assert (QQj := Qp' (i - 1) ltac:(lia)). assert (S5 := sqrt_lt_R0 _ PPj). assert (S6 := sqrt_lt_R0 _ QQj).
    assert (R1 := ult_r la hP i Hl NP ltac:(lia)). assert (R2 := ult_r mu hQ i Hm NQ ltac:(lia)).
    assert (N1 := nl0 la Hl Hl0 (i - 1) ltac:(lia)). assert (N2 := nl20 la Hl Hl0 (i - 1) ltac:(lia)).
    assert (N3 := nl0 mu Hm Hm0 (i - 1) ltac:(lia)). assert (N4 := nl20 mu Hm Hm0 (i - 1) ltac:(lia)). rewrite !minus_IZR in *.
    assert (X1 : sqrt (IZR i / (IZR i - 1 + la) * (IZR i + la) / (IZR i - 1 + 2 * la)) = (1 * (sqrt (hP (i-1)%Z) / sqrt (hP i)))%R) by (apply sqf2; try lra; rewrite R1; field; repeat split; lra).
    assert (X2 : sqrt ((IZR i - 1 + mu) / IZR i * (IZR i - 1 + 2 * mu) / (IZR i + mu)) = (1 * (sqrt (hQ i) / sqrt (hQ (i-1)%Z)))%R) by (apply sqf2; try lra; rewrite R2; field; repeat split; lra).
    destruct n1, n2; rewrite ?X1, ?X2; field; repeat split; lra.
  - apply (dinv_holds T); auto. intros i H. apply (tgt_U n1 n2 (uA la) (uA mu) hP hQ PA QA Pp' Qp' n U P Q); auto; apply ult_graded; auto.
Qed.
End Ult.

Lemma leg_r h i : jacobi_norms 0 0 h -> 1 <= i -> h i = ((2 * IZR i - 1) / (2 * IZR i + 1) * h (i - 1)%Z)%R.
Proof. intros N H. rewrite (ult_r (1/2) h i ltac:(lra) (legendre_ult_norms _ N) H). assert (1 <= IZR i)%R by (apply IZR_le; lia). field. repeat split; lra. Qed.
Lemma uA_half i : 1 <= i -> uA (1/2) (i - 1) = ((2 * IZR i - 1) / IZR i)%R.
Proof. intros H. unfold uA. rewrite minus_IZR. assert (1 <= IZR i)%R by (apply IZR_le; lia). field. repeat split; lra. Qed.
Lemma chA_nz k : 0 <= k -> chA k <> 0%R. Proof. intros. unfold chA. destruct (_ =? _); lra. Qed.
Lemma che_r h i : chebyshev_norms h -> 2 <= i -> h i = h (i - 1)%Z.
Proof. intros N H. assert (E := chn_S _ N i ltac:(lia)). assert (E' := chn_S _ N (i - 1) ltac:(lia)). lra. Qed.

Section LC.
Variables (tgamma : R -> R) (nl nc : bool) (n incd : Z) (P Q : Z -> R -> R) (hP hQ : Z -> R) (U : Z -> Z -> R) (D : list R).
Hypotheses (Hn : 0 <= n) (Hi : 1 <= incd) (HL : (n - 1) * incd < zlen D).
Hypotheses (HP : is_jacobi 0 0 P) (HQ : is_chebyshev Q) (NP : jacobi_norms 0 0 hP) (NQ : chebyshev_norms hQ).
Hypotheses (Gp : (0 < tgamma (1/2))%R) (P0 : hP 0%Z = 2%R) (Q0 : (hQ 0%Z = tgamma (1/2) * tgamma (1/2))%R).
Lemma sq_g : sqrt (hQ 0%Z) = tgamma (1/2)%R.
Proof. rewrite Q0. apply sqrt_square. lra. Qed.
Lemma leg2cheb_diag_ok : connects n U (fam nl P hP) (fam nc Q hQ) -> exists D', leg2cheb_diag tgamma nl nc n incd D = Some D' /\ holds_diag n incd U D D'.
Proof.
  intros HU. set (T := tgt nl nc (uA (1/2)) chA hP hQ).
  assert (Pp' := un_pos (1/2) ltac:(lra) ltac:(lra) hP (legendre_ult_norms _ NP)). assert (Qp' := chn_pos hQ NQ).
  assert (PA : forall k, 0 <= k -> uA (1/2) k <> 0%R) by (intros; apply uA_nz; auto; lra). assert (QA := chA_nz).
  assert (TS := tgt_S nl nc (uA (1/2)) chA hP hQ PA QA Pp' Qp'). fold T in TS.
  assert (T0 := tgt_0 nl nc (uA (1/2)) chA hP hQ Qp'). fold T in T0. assert (SG := sq_g).
  assert (H3 : (0 < sqrt 2)%R) by (apply sqrt_lt_R0; lra).
  assert (SH : sqrt (1/2) = (1 / sqrt 2)%R) by (rewrite sqrt_div by lra; now rewrite sqrt_1).
  unfold leg2cheb_diag. cbv zeta.
  match goal with |- exists D', ?cd = Some D' /\ _ => assert (X : exists D', cd = Some D' /\ dinv T incd D n D') end; [apply (diag3_ok T incd n); [exact Hi|exact Hn|exact HL| | |]|destruct X as [D' [E V]]; exists D'; split; [exact E|]].
  - ar. rewrite T0. unfold sc. rewrite SG, P0, SH. destruct nl, nc; field; lra.
  - intros H1. ar. cbv beta. rewrite (TS 1) by lia. rewrite uA_half by lia. change (1 - 1) with 0. unfold chA, rt1, rt2. cbn [Z.eqb]. change (1 - 1) with 0.
    assert (P1 := leg_r hP 1 NP ltac:(lia)). assert (Q1 := chn_S _ NQ 1 ltac:(lia)). change (1 - 1) with 0 in P1.
    assert (PP1 := Pp' 1 ltac:(lia)). assert (QQ1 := Qp' 1 ltac:(lia)). assert (QQ0 := Qp' 0 ltac:(lia)). assert (PP0 := Pp' 0 ltac:(lia)).
    assert (S0 := sqrt_lt_R0 _ PP0). assert (S3 := sqrt_lt_R0 _ PP1). assert (S4 := sqrt_lt_R0 _ QQ1). assert (S5 := sqrt_lt_R0 _ QQ0).
    destruct nl, nc.
    + rewrite (sqf (3/2) 1 (hP 0%Z) (hQ 1%Z) (hP 1%Z) (hQ 0%Z)); try lra; [field; repeat split; lra|]. rewrite P1. replace (hQ 1%Z) with (hQ 0%Z / 2)%R by lra. field. repeat split; lra.
    + rewrite (sqf2 (3/2) 1 1 (hP 1%Z)); try lra; [|rewrite P1, P0; field; repeat split; lra]. rewrite T0. unfold sc. rewrite sqrt_1. field. lra.
    + replace (hQ 1%Z) with (hQ 0%Z / 2)%R by lra. rewrite sqrt_div by lra. field. lra.
    + rewrite T0. unfold sc. field.
  - intros i H2. cbv beta. ar. rewrite (TS i) by lia. rewrite uA_half by lia. unfold chA, rt1, rt2. replace (i - 1 =? 0) with false by lia. rewrite !minus_IZR, !plus_IZR, !mult_IZR.
    assert (2 <= IZR i)%R by (apply IZR_le; lia). assert (R1 := leg_r hP i NP ltac:(lia)). rewrite (che_r hQ i NQ) by lia.
    assert (PPi := Pp' i ltac:(lia)). assert (PPj := Pp' (i - 1) ltac:(lia)). assert (QQj := Qp' (i - 1) ltac:(lia)).
    assert (S3 := sqrt_lt_R0 _ PPi). assert (S4 := sqrt_lt_R0 _ QQj). assert (S5 := sqrt_lt_R0 _ PPj).
    destruct nl.
    + rewrite (sqf2 _ (2 * IZR i - 1) (hP (i-1)%Z) (hP i)); try lra; [destruct nc; field; repeat split; lra|]. rewrite R1. field. repeat split; lra.
    + destruct nc; field; repeat split; lra.
  - apply (dinv_holds T); auto. intros i H. apply (tgt_U nl nc (uA (1/2)) chA hP hQ PA QA Pp' Qp' n U P Q); auto; [apply ult_graded; try lra; now apply legendre_ult|now apply cheb_graded].
Qed.
Lemma cheb2leg_diag_ok : connects n U (fam nc Q hQ) (fam nl P hP) -> exists D', cheb2leg_diag tgamma nc nl n incd D = Some D' /\ holds_diag n incd U D D'.
Proof.
  intros HU. set (T := tgt nc nl chA (uA (1/2)) hQ hP).
  assert (Pp' := un_pos (1/2) ltac:(lra) ltac:(lra) hP (legendre_ult_norms _ NP)). assert (Qp' := chn_pos hQ NQ).
  assert (PA : forall k, 0 <= k -> uA (1/2) k <> 0%R) by (intros; apply uA_nz; auto; lra). assert (QA := chA_nz).
  assert (TS := tgt_S nc nl chA (uA (1/2)) hQ hP QA PA Qp' Pp'). fold T in TS.
  assert (T0 := tgt_0 nc nl chA (uA (1/2)) hQ hP Pp'). fold T in T0. assert (SG := sq_g).
  assert (H3 : (0 < sqrt 2)%R) by (apply sqrt_lt_R0; lra).
  unfold cheb2leg_diag. cbv zeta.
  match goal with |- exists D', ?cd = Some D' /\ _ => assert (X : exists D', cd = Some D' /\ dinv T incd D n D') end; [apply (diag3_ok T incd n); [exact Hi|exact Hn|exact HL| | |]|destruct X as [D' [E V]]; exists D'; split; [exact E|]].
  - ar. rewrite T0. unfold sc. rewrite SG, P0. destruct nl, nc; field; lra.
  - intros H1. ar. cbv beta. rewrite (TS 1) by lia. rewrite uA_half by lia. change (1 - 1) with 0. unfold chA, rt1, rt2. cbn [Z.eqb]. change (1 - 1) with 0.
    assert (P1 := leg_r hP 1 NP ltac:(lia)). assert (Q1 := chn_S _ NQ 1 ltac:(lia)). change (1 - 1) with 0 in P1.
    assert (PP1 := Pp' 1 ltac:(lia)). assert (QQ1 := Qp' 1 ltac:(lia)). assert (QQ0 := Qp' 0 ltac:(lia)). assert (PP0 := Pp' 0 ltac:(lia)).
    assert (S0 := sqrt_lt_R0 _ PP0). assert (S3 := sqrt_lt_R0 _ PP1). assert (S4 := sqrt_lt_R0 _ QQ1). assert (S5 := sqrt_lt_R0 _ QQ0).
    assert (S32 : (0 < sqrt (3/2))%R) by (apply sqrt_lt_R0; lra).
    destruct nl, nc.
    + rewrite (sqf (3/2) 1 (hP 0%Z) (hQ 1%Z) (hP 1%Z) (hQ 0%Z)); try lra; [field; repeat split; lra|]. rewrite P1. replace (hQ 1%Z) with (hQ 0%Z / 2)%R by lra. field. repeat split; lra.
    + rewrite (sqf2 (3/2) 1 1 (hP 1%Z)); try lra; [|rewrite P1, P0; field; repeat split; lra]. rewrite T0. unfold sc. rewrite sqrt_1. field. lra.
    + replace (hQ 1%Z) with (hQ 0%Z / 2)%R by lra. rewrite sqrt_div by lra. field. lra.
    + rewrite T0. unfold sc. field.
  - intros i H2. cbv beta. ar. rewrite (TS i) by lia. rewrite uA_half by lia. unfold chA, rt1, rt2. replace (i - 1 =? 0) with false by lia. rewrite !minus_IZR, !plus_IZR, !mult_IZR.
    assert (2 <= IZR i)%R by (apply IZR_le; lia). assert (R1 := leg_r hP i NP ltac:(lia)). rewrite (che_r hQ i NQ) by lia.
    assert (PPi := Pp' i ltac:(lia)). assert (PPj := Pp' (i - 1) ltac:(lia)). assert (QQj := Qp' (i - 1) ltac:(lia)).
    assert (S3 := sqrt_lt_R0 _ PPi). assert (S4 := sqrt_lt_R0 _ QQj). assert (S5 := sqrt_lt_R0 _ PPj).
    destruct nl.
    + rewrite (sqf2 _ (2 * IZR i - 1) (hP (i-1)%Z) (hP i)); try lra; [destruct nc; field; repeat split; lra|]. rewrite R1. field. repeat split; lra.
    + destruct nc; field; repeat split; lra.
  - apply (dinv_holds T); auto. intros i H. apply (tgt_U nc nl chA (uA (1/2)) hQ hP QA PA Qp' Pp' n U Q P); auto; [now apply cheb_graded|apply ult_graded; try lra; now apply legendre_ult].
Qed.
End LC.

Lemma one_conn n n1 n2 kP kQ P Q hP hQ : graded n kP P -> graded n kQ Q -> (forall k, 0 <= k -> (0 < hP k)%R) -> (forall k, 0 <= k -> (0 < hQ k)%R) -> one_connection n (fam n1 P hP) (fam n2 Q hQ).
Proof.
  intros GP GQ Pp Qp. assert (GP' := graded_fam n1 n _ P hP GP Pp). assert (GQ' := graded_fam n2 n _ Q hQ GQ Qp). split.
  - eapply connects_exists; eauto.
  - intros. eapply connects_unique; eauto. lia.
Qed.
Lemma jac_one n1 n2 n a b c e P Q hP hQ : (-1 < a)%R -> (-1 < b)%R -> (-1 < c)%R -> (-1 < e)%R ->
  is_jacobi a b P -> is_jacobi c e Q -> jacobi_norms a b hP -> jacobi_norms c e hQ -> one_connection n (fam n1 P hP) (fam n2 Q hQ).
Proof. intros Ha Hb Hc He HP HQ NP NQ. eapply one_conn; [apply (jac_graded a b)|apply (jac_graded c e)|intros; apply (jn_pos a b)|intros; apply (jn_pos c e)]; auto. Qed.
Lemma lag_one n1 n2 n a b P Q hP hQ : (-1 < a)%R -> (-1 < b)%R ->
  is_laguerre a P -> is_laguerre b Q -> laguerre_norms a hP -> laguerre_norms b hQ -> one_connection n (fam n1 P hP) (fam n2 Q hQ).
Proof. intros Ha Hb HP HQ NP NQ. eapply one_conn; [apply (lag_graded a); auto|apply (lag_graded b); auto|apply (ln_pos a); auto|apply (ln_pos b); auto]. Qed.
Lemma ult_one n1 n2 n la mu P Q hP hQ : (- 1 / 2 < la)%R -> la <> 0%R -> (- 1 / 2 < mu)%R -> mu <> 0%R ->
  is_ultraspherical la P -> is_ultraspherical mu Q -> ultraspherical_norms la hP -> ultraspherical_norms mu hQ -> one_connection n (fam n1 P hP) (fam n2 Q hQ).
Proof. intros Hl Hl0 Hm Hm0 HP HQ NP NQ. eapply one_conn; [apply (ult_graded la); auto|apply (ult_graded mu); auto|apply (un_pos la); auto|apply (un_pos mu); auto]. Qed.
Lemma legcheb_one n1 n2 n P Q hP hQ : is_jacobi 0 0 P -> is_chebyshev Q -> jacobi_norms 0 0 hP -> chebyshev_norms hQ ->
  one_connection n (fam n1 P hP) (fam n2 Q hQ) /\ one_connection n (fam n2 Q hQ) (fam n1 P hP).
Proof.
  intros HP HQ NP NQ. assert (G1 : graded n (kz 1 (uA (1/2))) P) by (apply ult_graded; try lra; now apply legendre_ult). assert (G2 := cheb_graded Q n HQ).
  assert (p1 := un_pos (1/2) ltac:(lra) ltac:(lra) hP (legendre_ult_norms _ NP)). assert (p2 := chn_pos hQ NQ).
  split; eapply one_conn; eauto.
Qed.
