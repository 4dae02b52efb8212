(** * Laguerre and Hermite polynomials *)
From Coq Require Import ZArith List Lia Bool Reals Lra ZifyBool.
From Verif Require Import Base BaseFacts Arith SpecSum PSum SpecLin SpecBanded MBanded PBand MClassical SpecClassical PClass1 PClass2 PClass3 PClass4 PClass5 PClass6.
Import ListNotations.
Open Scope Z_scope.

Section L.
Variable a : R.
Hypothesis Ha : (-1 < a)%R.
Section One.
Variables (P : Z -> R -> R) (h : Z -> R).
Hypotheses (HP : is_laguerre a P) (Hh : laguerre_norms a h).
Lemma lag_rec n x : 1 <= n -> P (n+1) x = ((-1 / (IZR n + 1) * x + (2 * IZR n + a + 1) / (IZR n + 1)) * P n x - (IZR n + a) / (IZR n + 1) * P (n-1)%Z x)%R.
Proof.
  intros Hn. assert (H := lag_S _ _ HP n x Hn). cbn zeta in H. apply IZR_le in Hn. apply (Rmult_eq_reg_l (IZR n + 1)); [|lra]. rewrite H. field. repeat split; lra.
Qed.
Lemma ln_rec n : 0 <= n -> h (n+1) = ((IZR n + a + 1) / (IZR n + 1) * h n)%R.
Proof. intros Hn. assert (H := ln_S _ _ Hh n Hn). cbn zeta in H. apply IZR_le in Hn. apply (Rmult_eq_reg_l (IZR n + 1)); [|lra]. rewrite H. field. repeat split; lra. Qed.
Lemma ln_pos n : 0 <= n -> (0 < h n)%R.
Proof.
  intros Hn. pattern n. apply natlike_ind; [apply (ln_0 _ _ Hh)| |exact Hn]. clear n Hn. intros n Hn IH. unfold Z.succ. rewrite ln_rec by auto.
  apply IZR_le in Hn. apply Rmult_lt_0_compat; auto. posr.
Qed.
Lemma ln_prev n : 1 <= n -> h n = ((IZR n + a) / IZR n * h (n-1)%Z)%R.
Proof. intros Hn. assert (H := ln_rec (n-1) ltac:(lia)). replace (n - 1 + 1) with n in H by lia. rewrite minus_IZR in H. rewrite H. apply IZR_le in Hn. field. repeat split; lra. Qed.
Lemma lag_mult n x : 1 <= n -> (x * P n x = - (IZR n + a) * P (n-1)%Z x + (2 * IZR n + a + 1) * P n x - (IZR n + 1) * P (n+1)%Z x)%R.
Proof. intros Hn. rewrite lag_rec by auto. apply IZR_le in Hn. field. repeat split; lra. Qed.
Lemma lag_mult0 x : (x * P 0 x = (a + 1) * P 0 x - P 1 x)%R.
Proof. rewrite (lag_0 _ _ HP), (lag_1 _ _ HP). ring. Qed.
Lemma laguerre_recurrence_proof norm x :
  fam norm P h 1 x = ((rec_A_laguerre norm 0 a * x + rec_B_laguerre norm 0 a) * fam norm P h 0 x)%R /\
  forall n, 1 <= n -> fam norm P h (n + 1) x =
    ((rec_A_laguerre norm n a * x + rec_B_laguerre norm n a) * fam norm P h n x - rec_C_laguerre norm n a * fam norm P h (n - 1) x)%R.
Proof.
  assert (EU : forall n, 0 <= n -> (1 / (IZR n + 1) * sqrt ((IZR n + 1) * (IZR n + a + 1)) * sqrt (h n) = 1 * sqrt (h (n+1)%Z))%R).
  { intros n Hn. assert (E := ln_rec n Hn). pose proof Hn as Hk. apply IZR_le in Hk.
    eapply (nrm _ _ _ _ _ (h n)); [posl|posl|posl|apply ln_pos; lia| | |symmetry; apply Rmult_1_l|exact E|]; [lra|posl|field; repeat split; lra]. }
  assert (EI : forall n c, 0 <= n -> (c / sqrt ((IZR n + 1) * (IZR n + a + 1)) * sqrt (h (n+1)%Z) = c / (IZR n + 1) * sqrt (h n))%R).
  { intros n c Hn. rewrite <- (Rmult_1_l (sqrt (h (n+1)%Z))). rewrite <- EU by auto. pose proof Hn as Hk. apply IZR_le in Hk.
    assert (0 < sqrt ((IZR n + 1) * (IZR n + a + 1)))%R by (apply sqrt_lt_R0; posr). field. repeat split; lra. }
  destruct norm; unfold fam, rec_A_laguerre, rec_B_laguerre, rec_C_laguerre; ar; split.
  - assert (EA := EI 0 (-1)%R ltac:(lia)). assert (EB := EI 0 (2 * 0 + a + 1)%R ltac:(lia)). cbn [Z.add Z.mul] in *.
    rewrite (lag_1 _ _ HP), (lag_0 _ _ HP). set (s := sqrt ((0 + 1) * (0 + a + 1))) in *.
    assert (H0 := ln_pos 0 ltac:(lia)). assert (H1 := ln_pos 1 ltac:(lia)).
    replace (sqrt (1 * (0 + a + 1))) with s by (unfold s; f_equal; lra). replace (0 + a + 1)%R with (2 * 0 + a + 1)%R by lra.
    transitivity (x * (-1 / s * (1 / sqrt (h 0%Z))) + (2 * 0 + a + 1) / s * (1 / sqrt (h 0%Z)))%R; [|ring].
    rewrite (entry _ _ 1 _ _ H1 H0 EA), (entry _ _ 1 _ _ H1 H0 EB). apply sqrt_lt_R0 in H1. field. repeat split; lra.
  - intros n Hn. assert (EA := EI n (-1)%R ltac:(lia)). assert (EB := EI n (2 * IZR n + a + 1)%R ltac:(lia)).
    assert (H0 := ln_pos n ltac:(lia)). assert (H1 := ln_pos (n+1) ltac:(lia)). assert (H2 := ln_pos (n-1) ltac:(lia)).
    assert (E1 := ln_rec n ltac:(lia)). rewrite (ln_prev n Hn) in E1. pose proof Hn as Hk. apply IZR_le in Hk.
    assert (EC : (1 * sqrt (IZR n * (IZR n + a) / ((IZR n + 1) * (IZR n + a + 1))) * sqrt (h (n+1)%Z) = (IZR n + a) / (IZR n + 1) * sqrt (h (n-1)%Z))%R).
    { eapply (nrm _ _ _ _ _ (h (n-1)%Z)); [lra|posl|posl|exact H2| | |rewrite E1; rewrite <- Rmult_assoc; reflexivity|symmetry; apply Rmult_1_l|]; [posl|lra|field; repeat split; lra]. }
    rewrite Rmult_1_l in EC. rewrite !plus_IZR, !mult_IZR. set (s := sqrt ((IZR n + 1) * (IZR n + a + 1))) in *.
    transitivity (x * (-1 / s * (P n x / sqrt (h n))) + (2 * IZR n + a + 1) / s * (P n x / sqrt (h n)) - sqrt (IZR n * (IZR n + a) / ((IZR n + 1) * (IZR n + a + 1))) * (P (n-1)%Z x / sqrt (h (n-1)%Z)))%R; [|ring].
    rewrite (entry _ _ (P (n-1)%Z x) _ _ H1 H2 EC), (entry _ _ (P n x) _ _ H1 H0 EA), (entry _ _ (P n x) _ _ H1 H0 EB), (lag_rec n x Hn).
    apply sqrt_lt_R0 in H1. field. repeat split; lra.
  - rewrite (lag_1 _ _ HP), (lag_0 _ _ HP). cbn [Z.add Z.mul]. field.
  - intros n Hn. rewrite !plus_IZR, !mult_IZR. apply lag_rec; auto.
Qed.
Lemma laguerre_mult_col_val norm m j x : 0 <= j -> j + 1 < m ->
  colsum m (laguerre_mult_col norm a j) (fun i => fam norm P h i x) = (x * fam norm P h j x)%R.
Proof.
  intros Hj Hm.
  assert (EU : (- sqrt ((IZR j + 1) * (IZR j + a + 1)) * sqrt (h j) = - (IZR j + 1) * sqrt (h (j+1)%Z))%R).
  { assert (E := ln_rec j Hj). pose proof Hj as Hk. apply IZR_le in Hk.
    assert (EE : (1 * sqrt ((IZR j + 1) * (IZR j + a + 1)) * sqrt (h j) = (IZR j + 1) * sqrt (h (j+1)%Z))%R).
    { eapply (nrm _ _ _ _ _ (h j)); [lra|posl|posl|apply ln_pos; lia| | |symmetry; apply Rmult_1_l|exact E|]; [lra|posl|field; repeat split; lra]. } lra. }
  assert (H0 := ln_pos j ltac:(lia)). assert (H1 := ln_pos (j+1) ltac:(lia)).
  unfold laguerre_mult_col. destruct (Z.eq_dec j 0) as [->|].
  - assert (M0 := lag_mult0 x). destruct norm; cbn [colsum fst snd]; inr; ar; cbn [Z.add Z.mul Z.opp] in *; unfold fam.
    + replace ((1) * (0 + a + 1))%R with ((0 + 1) * (0 + a + 1))%R by lra. rewrite (entry _ _ (P 1 x) _ _ H0 H1 EU). apply sqrt_lt_R0 in H0.
      transitivity (x * P 0 x / sqrt (h 0%Z))%R; [rewrite M0; field; lra|field; repeat split; lra].
    + rewrite M0. ring.
  - assert (M0 := lag_mult j x ltac:(lia)). assert (H2 := ln_pos (j-1) ltac:(lia)).
    assert (EL : (- sqrt (IZR j * (IZR j + a)) * sqrt (h j) = - (IZR j + a) * sqrt (h (j-1)%Z))%R).
    { assert (E := ln_prev j ltac:(lia)). assert (Hk : 1 <= j) by lia. apply IZR_le in Hk.
      assert (EE : (1 * sqrt (IZR j * (IZR j + a)) * sqrt (h j) = (IZR j + a) * sqrt (h (j-1)%Z))%R).
      { eapply (nrm _ _ _ _ _ (h (j-1)%Z)); [lra|posl|posl|exact H2| | |exact E|symmetry; apply Rmult_1_l|]; [posl|lra|field; repeat split; lra]. } lra. }
    destruct norm; cbn [colsum fst snd]; inr; ar; rewrite ?opp_IZR, ?plus_IZR, ?mult_IZR; unfold fam.
    + rewrite (entry _ _ (P (j+1)%Z x) _ _ H0 H1 EU), (entry _ _ (P (j-1)%Z x) _ _ H0 H2 EL). apply sqrt_lt_R0 in H0.
      transitivity (x * P j x / sqrt (h j))%R; [rewrite M0; field; lra|field; repeat split; lra].
    + rewrite M0. ring.
Qed.
End One.
End L.
Section L2.
Variable a : R.
Hypothesis Ha : (-1 < a)%R.
Variables (P Q : Z -> R -> R) (h hq : Z -> R).
Hypotheses (HP : is_laguerre a P) (Hh : laguerre_norms a h) (HQ : is_laguerre (a+1) Q) (Hhq : laguerre_norms (a+1) hq) (Hm : laguerre_masses a (h 0%Z) (hq 0%Z)).
Lemma Ha1 : (-1 < a + 1)%R. Proof. lra. Qed.
Lemma lhq n : 0 <= n -> hq n = ((IZR n + a + 1) * h n)%R.
Proof.
  intros Hn. pattern n. apply natlike_ind; [| |exact Hn].
  - unfold laguerre_masses in Hm. rewrite Hm. cbn. lra.
  - clear n Hn. intros n Hn IH. unfold Z.succ. rewrite (ln_rec (a+1) hq Hhq) by auto. rewrite IH, (ln_rec a h Hh) by auto. rewrite plus_IZR. apply IZR_le in Hn. field. repeat split; lra.
Qed.
Lemma lhq1 n : 1 <= n -> hq (n-1) = (IZR n * h n)%R.
Proof. intros Hn. rewrite lhq by lia. rewrite (ln_prev a h Hh n Hn). rewrite minus_IZR. apply IZR_le in Hn. field. repeat split; lra. Qed.
Lemma Ql_mult n x : 0 <= n -> (x * ext0 Q n x = - (IZR n + a + 1) * ext0 Q (n-1) x + (2 * IZR n + a + 2) * ext0 Q n x - (IZR n + 1) * ext0 Q (n+1) x)%R.
Proof.
  intros Hn. rewrite (ext0_pos Q n), (ext0_pos Q (n+1)) by lia. destruct (Z.eq_dec n 0) as [->|].
  - rewrite ext0_neg by lia. rewrite (lag_mult0 (a+1) Q HQ). cbn [Z.add]. ring.
  - rewrite ext0_pos by lia. rewrite (lag_mult (a+1) Q HQ) by lia. ring.
Qed.
Lemma lag_raise n x : 0 <= n -> (P n x = ext0 Q n x - ext0 Q (n-1) x)%R.
Proof.
  intros Hn. enough (H : forall k, 0 <= k -> forall i, 0 <= i <= k -> (P i x = ext0 Q i x - ext0 Q (i-1) x)%R) by (apply (H n); lia).
  intros k Hk. pattern k. apply natlike_ind; [| |exact Hk].
  - intros i Hi. replace i with 0 by lia. rewrite ext0_pos, ext0_neg, (lag_0 _ _ HP), (lag_0 _ _ HQ) by lia. lra.
  - clear k Hk. intros k Hk IH i Hi. destruct (Z.eq_dec i (k+1)) as [->|]; [|apply IH; lia]. destruct (Z.eq_dec k 0) as [->|].
    + cbn [Z.add Z.sub Z.opp Z.pos_sub]. rewrite !ext0_pos, (lag_1 _ _ HP), (lag_1 _ _ HQ), (lag_0 _ _ HQ) by lia. lra.
    + rewrite (lag_rec a P HP) by lia. rewrite (IH k), (IH (k-1)) by lia. assert (M0 := Ql_mult k x ltac:(lia)). assert (M1 := Ql_mult (k-1) x ltac:(lia)).
      replace (k - 1 + 1) with k in * by lia. replace (k + 1 - 1) with k by lia. replace (k - 1 - 1) with (k - 2) in * by lia. rewrite minus_IZR in M1. assert (Hk1 : 1 <= k) by lia. apply IZR_le in Hk1.
      apply (Rmult_eq_reg_l (IZR k + 1)); [|lra].
      transitivity (- (x * ext0 Q k x) + x * ext0 Q (k-1) x + (2 * IZR k + a + 1) * (ext0 Q k x - ext0 Q (k-1) x) - (IZR k + a) * (ext0 Q (k-1) x - ext0 Q (k-2) x))%R; [field; lra|].
      rewrite M0, M1. ring.
Qed.
Lemma lag_lower n x : 0 <= n -> (x * Q n x = (IZR n + a + 1) * P n x - (IZR n + 1) * P (n+1)%Z x)%R.
Proof.
  intros Hn. rewrite (lag_raise n), (lag_raise (n+1)) by lia. replace (n + 1 - 1) with n by lia. rewrite <- (ext0_pos Q n) by lia. rewrite Ql_mult by auto. ring.
Qed.
Lemma lag_deriv n : 0 <= n -> forall x, derivable_pt_lim (P n) x (-1 * ext0 Q (n - 1) x)%R.
Proof.
  intros Hn x. enough (H : forall k, 0 <= k -> forall i, 0 <= i <= k -> derivable_pt_lim (P i) x (-1 * ext0 Q (i - 1) x)%R) by (apply (H n); lia).
  intros k Hk. pattern k. apply natlike_ind; [| |exact Hk].
  - intros i Hi. replace i with 0%Z by lia. rewrite ext0_neg by lia. rewrite Rmult_0_r.
    apply (derivable_pt_lim_ext (fun _ => 1%R)); [intros; symmetry; apply (lag_0 _ _ HP)|]. apply derivable_pt_lim_const.
  - clear k Hk. intros k Hk IH i Hi. destruct (Z.eq_dec i (k+1)) as [->|]; [|apply IH; lia]. destruct (Z.eq_dec k 0) as [->|].
    + change (0 + 1 - 1)%Z with 0%Z. change (0 + 1)%Z with 1%Z. rewrite ext0_pos, (lag_0 _ _ HQ) by lia.
      apply (derivable_pt_lim_ext (fun t => -1 * t + (a + 1))%R); [intros; rewrite (lag_1 _ _ HP); ring|].
      rewrite Rmult_1_r. apply deriv_lin.
    + apply (derivable_pt_lim_ext (fun t => (-1 / (IZR k + 1) * t + (2 * IZR k + a + 1) / (IZR k + 1)) * P k t - (IZR k + a) / (IZR k + 1) * P (k-1)%Z t)%R).
      { intros t. symmetry. apply lag_rec; auto. lia. }
      assert (D := deriv_step (-1 / (IZR k + 1)) ((2 * IZR k + a + 1) / (IZR k + 1)) ((IZR k + a) / (IZR k + 1)) _ _ _ _ _ (IH k ltac:(lia)) (IH (k-1) ltac:(lia))).
      rewrite (lag_raise k) in D by lia. assert (M1 := Ql_mult (k-1) x ltac:(lia)).
      replace (k - 1 - 1)%Z with (k - 2)%Z in * by lia. replace (k - 1 + 1)%Z with k in * by lia. replace (k + 1 - 1)%Z with k by lia.
      rewrite minus_IZR in M1. assert (Hk1 : 1 <= k) by lia. apply IZR_le in Hk1.
      match type of D with derivable_pt_lim _ _ ?e => replace (-1 * ext0 Q k x)%R with e; [exact D|] end.
      apply (Rmult_eq_reg_l (IZR k + 1)); [|lra].
      transitivity (- (ext0 Q k x - ext0 Q (k-1) x) + x * ext0 Q (k-1) x - (2 * IZR k + a + 1) * ext0 Q (k-1) x + (IZR k + a) * ext0 Q (k-2) x)%R; [field; lra|].
      rewrite M1. ring.
Qed.
Lemma laguerre_raise_col_val norm m j x : 0 <= j < m ->
  colsum m (laguerre_raise_col norm a j) (fun i => fam norm Q hq i x) = fam norm P h j x.
Proof.
  intros Hj. assert (M0 := lag_raise j x ltac:(lia)). rewrite (ext0_pos Q j) in M0 by lia. unfold laguerre_raise_col.
  assert (H0 := ln_pos a Ha h Hh j ltac:(lia)). assert (K0 := ln_pos (a+1) Ha1 hq Hhq j ltac:(lia)). assert (Hk : 0 <= j) by lia. apply IZR_le in Hk.
  assert (ED : (1 * sqrt (IZR j + a + 1) * sqrt (h j) = 1 * sqrt (hq j))%R).
  { eapply (nrm _ _ _ _ _ (h j)); [lra|lra|posl|exact H0| | |symmetry; apply Rmult_1_l|apply lhq; lia|]; [lra|lra|ring]. }
  rewrite Rmult_1_l in ED.
  destruct (Z.eq_dec j 0) as [->|].
  - rewrite ext0_neg in M0 by lia. destruct norm; cbn [colsum fst snd]; inr; ar; unfold fam.
    + rewrite (entry _ _ (Q 0 x) _ _ H0 K0 ED), M0. apply sqrt_lt_R0 in H0. field. repeat split; lra.
    + rewrite M0. ring.
  - rewrite ext0_pos in M0 by lia. destruct norm; cbn [colsum fst snd]; inr; ar; unfold fam.
    + assert (K1 := ln_pos (a+1) Ha1 hq Hhq (j-1) ltac:(lia)).
      assert (EL : (1 * sqrt (IZR j) * sqrt (h j) = 1 * sqrt (hq (j-1)%Z))%R).
      { eapply (nrm _ _ _ _ _ (h j)); [lra|lra|posl|exact H0| | |symmetry; apply Rmult_1_l|apply lhq1; lia|]; [lra|lra|ring]. }
      assert (EL' : (- sqrt (IZR j) * sqrt (h j) = -1 * sqrt (hq (j-1)%Z))%R) by lra.
      rewrite (entry _ _ (Q j x) _ _ H0 K0 ED), (entry _ _ (Q (j-1)%Z x) _ _ H0 K1 EL'), M0. apply sqrt_lt_R0 in H0. field. repeat split; lra.
    + rewrite M0. ring.
Qed.
Lemma laguerre_lower_col_val norm m j x : 0 <= j -> j + 1 < m ->
  colsum m (laguerre_lower_col norm a j) (fun i => fam norm P h i x) = (x * fam norm Q hq j x)%R.
Proof.
  intros Hj Hjm. assert (M0 := lag_lower j x Hj). unfold laguerre_lower_col. pose proof Hj as Hk. apply IZR_le in Hk.
  destruct norm; cbn [colsum fst snd]; inr; ar; rewrite ?opp_IZR, ?plus_IZR; unfold fam.
  - assert (H0 := ln_pos a Ha h Hh j ltac:(lia)). assert (H1 := ln_pos a Ha h Hh (j+1) ltac:(lia)). assert (K0 := ln_pos (a+1) Ha1 hq Hhq j ltac:(lia)).
    assert (ED : (1 * sqrt (IZR j + a + 1) * sqrt (hq j) = (IZR j + a + 1) * sqrt (h j))%R).
    { eapply (nrm _ _ _ _ _ (h j)); [lra|lra|posl|exact H0| | |apply lhq; lia|symmetry; apply Rmult_1_l|]; [lra|lra|ring]. }
    assert (EU : (1 * sqrt (IZR j + 1) * sqrt (hq j) = (IZR j + 1) * sqrt (h (j+1)%Z))%R).
    { eapply (nrm _ _ _ _ _ (h j)); [lra|lra|posl|exact H0| | |apply lhq; lia|apply (ln_rec a h Hh); lia|]; [lra|posl|field; repeat split; lra]. }
    assert (EU' : (- sqrt (IZR j + 1) * sqrt (hq j) = - (IZR j + 1) * sqrt (h (j+1)%Z))%R) by lra. rewrite Rmult_1_l in ED.
    rewrite (entry _ _ (P j x) _ _ K0 H0 ED), (entry _ _ (P (j+1)%Z x) _ _ K0 H1 EU'). apply sqrt_lt_R0 in K0.
    transitivity (x * Q j x / sqrt (hq j))%R; [rewrite M0; field; lra|field; repeat split; lra].
  - rewrite M0. ring.
Qed.
End L2.

Section H.
Variables (P : Z -> R -> R) (h : Z -> R).
Hypotheses (HP : is_hermite P) (Hh : hermite_norms h).
Lemma hn_pos n : 0 <= n -> (0 < h n)%R.
Proof.
  intros Hn. pattern n. apply natlike_ind; [apply (hn_0 _ Hh)| |exact Hn]. clear n Hn. intros n Hn IH. unfold Z.succ. rewrite (hn_S _ Hh) by auto.
  apply IZR_le in Hn. apply Rmult_lt_0_compat; auto. lra.
Qed.
Lemma hn_prev n : 1 <= n -> h n = (2 * IZR n * h (n-1)%Z)%R.
Proof. intros Hn. assert (H := hn_S _ Hh (n-1) ltac:(lia)). replace (n - 1 + 1) with n in H by lia. rewrite minus_IZR in H. rewrite H. ring. Qed.
Lemma hermite_recurrence_proof norm x :
  fam norm P h 1 x = ((rec_A_hermite norm 0 * x + rec_B_hermite norm 0) * fam norm P h 0 x)%R /\
  forall n, 1 <= n -> fam norm P h (n + 1) x =
    ((rec_A_hermite norm n * x + rec_B_hermite norm n) * fam norm P h n x - rec_C_hermite norm n * fam norm P h (n - 1) x)%R.
Proof.
  assert (EA : forall n, 0 <= n -> (sqrt (2 / (IZR n + 1)) * sqrt (h (n+1)%Z) = 2 * sqrt (h n))%R).
  { intros n Hn. rewrite <- (Rmult_1_l (sqrt (2 / _))). pose proof Hn as Hk. apply IZR_le in Hk.
    eapply (nrm _ _ _ _ _ (h n)); [lra|lra|posl|apply hn_pos; lia| | |apply (hn_S _ Hh); lia|symmetry; apply Rmult_1_l|]; [lra|lra|field; repeat split; lra]. }
  destruct norm; unfold fam, rec_A_hermite, rec_B_hermite, rec_C_hermite; ar; split.
  - assert (E := EA 0 ltac:(lia)). cbn [Z.add] in E. rewrite (her_1 _ HP), (her_0 _ HP). assert (H0 := hn_pos 0 ltac:(lia)). assert (H1 := hn_pos 1 ltac:(lia)).
    transitivity (x * (sqrt (2 / (0 + 1)) * (1 / sqrt (h 0%Z))))%R; [|ring]. rewrite (entry _ _ 1 _ _ H1 H0 E). apply sqrt_lt_R0 in H1. field. repeat split; lra.
  - intros n Hn. assert (E := EA n ltac:(lia)). assert (H0 := hn_pos n ltac:(lia)). assert (H1 := hn_pos (n+1) ltac:(lia)). assert (H2 := hn_pos (n-1) ltac:(lia)).
    assert (E1 := hn_S _ Hh n ltac:(lia)). rewrite (hn_prev n Hn) in E1. pose proof Hn as Hk. apply IZR_le in Hk.
    assert (EC : (1 * sqrt (IZR n / (IZR n + 1)) * sqrt (h (n+1)%Z) = 2 * IZR n * sqrt (h (n-1)%Z))%R).
    { eapply (nrm _ _ _ _ _ (h (n-1)%Z)); [lra|posl|posl|exact H2| | |rewrite E1; rewrite <- Rmult_assoc; reflexivity|symmetry; apply Rmult_1_l|]; [posl|lra|field; repeat split; lra]. }
    rewrite Rmult_1_l in EC.
    transitivity (x * (sqrt (2 / (IZR n + 1)) * (P n x / sqrt (h n))) - sqrt (IZR n / (IZR n + 1)) * (P (n-1)%Z x / sqrt (h (n-1)%Z)))%R; [|ring].
    rewrite (entry _ _ (P n x) _ _ H1 H0 E), (entry _ _ (P (n-1)%Z x) _ _ H1 H2 EC), (her_S _ HP n x Hn). apply sqrt_lt_R0 in H1. field. repeat split; lra.
  - rewrite (her_1 _ HP), (her_0 _ HP). ring.
  - intros n Hn. rewrite (her_S _ HP n x Hn), mult_IZR. ring.
Qed.
Lemma hermite_mult_col_val norm m j x : 0 <= j -> j + 1 < m ->
  colsum m (hermite_mult_col norm j) (fun i => fam norm P h i x) = (x * fam norm P h j x)%R.
Proof.
  intros Hj Hm. unfold hermite_mult_col. assert (H0 := hn_pos j ltac:(lia)). assert (H1 := hn_pos (j+1) ltac:(lia)). pose proof Hj as Hk. apply IZR_le in Hk.
  assert (EU : (1 * sqrt ((IZR j + 1) / 2) * sqrt (h j) = 1 / 2 * sqrt (h (j+1)%Z))%R).
  { eapply (nrm _ _ _ _ _ (h j)); [lra|lra|posl|exact H0| | |symmetry; apply Rmult_1_l|apply (hn_S _ Hh); lia|]; [lra|lra|field]. } rewrite Rmult_1_l in EU.
  destruct (Z.eq_dec j 0) as [->|].
  - destruct norm; cbn [colsum fst snd]; inr; ar; cbn [Z.add] in *; unfold fam.
    + replace (1 / 2)%R with ((0 + 1) / 2)%R by lra. rewrite (entry _ _ (P 1 x) _ _ H0 H1 EU), (her_1 _ HP), (her_0 _ HP). apply sqrt_lt_R0 in H0. field. repeat split; lra.
    + rewrite (her_1 _ HP), (her_0 _ HP). field.
  - assert (H2 := hn_pos (j-1) ltac:(lia)). assert (M0 := her_S _ HP j x ltac:(lia)). assert (Hk1 : 1 <= j) by lia. apply IZR_le in Hk1.
    assert (EL : (1 * sqrt (IZR j / 2) * sqrt (h j) = IZR j * sqrt (h (j-1)%Z))%R).
    { eapply (nrm _ _ _ _ _ (h (j-1)%Z)); [lra|lra|posl|exact H2| | |apply hn_prev; lia|symmetry; apply Rmult_1_l|]; [lra|lra|field]. } rewrite Rmult_1_l in EL.
    destruct norm; cbn [colsum fst snd]; inr; ar; rewrite ?plus_IZR; unfold fam.
    + rewrite (entry _ _ (P (j+1)%Z x) _ _ H0 H1 EU), (entry _ _ (P (j-1)%Z x) _ _ H0 H2 EL), M0. apply sqrt_lt_R0 in H0. field. repeat split; lra.
    + rewrite M0. field.
Qed.
Lemma her_deriv n : 0 <= n -> forall x, derivable_pt_lim (P n) x (2 * IZR n * ext0 P (n - 1) x)%R.
Proof.
  intros Hn x. enough (H : forall k, 0 <= k -> forall i, 0 <= i <= k -> derivable_pt_lim (P i) x (2 * IZR i * ext0 P (i - 1) x)%R) by (apply (H n); lia).
  intros k Hk. pattern k. apply natlike_ind; [| |exact Hk].
  - intros i Hi. replace i with 0%Z by lia. rewrite ext0_neg by lia. rewrite Rmult_0_r.
    apply (derivable_pt_lim_ext (fun _ => 1%R)); [intros; symmetry; apply (her_0 _ HP)|]. apply derivable_pt_lim_const.
  - clear k Hk. intros k Hk IH i Hi. destruct (Z.eq_dec i (k+1)) as [->|]; [|apply IH; lia]. destruct (Z.eq_dec k 0) as [->|].
    + change (0 + 1 - 1)%Z with 0%Z. change (0 + 1)%Z with 1%Z. rewrite ext0_pos, (her_0 _ HP) by lia.
      apply (derivable_pt_lim_ext (fun t => 2 * t + 0)%R); [intros; rewrite (her_1 _ HP); ring|].
      rewrite !Rmult_1_r. apply deriv_lin.
    + apply (derivable_pt_lim_ext (fun t => (2 * t + 0) * P k t - (2 * IZR k) * P (k-1)%Z t)%R).
      { intros t. rewrite (her_S _ HP) by lia. ring. }
      assert (D := deriv_step 2 0 (2 * IZR k) _ _ _ _ _ (IH k ltac:(lia)) (IH (k-1) ltac:(lia))).
      replace (k - 1 - 1)%Z with (k - 2)%Z in * by lia. replace (k + 1 - 1)%Z with k by lia.
      match type of D with derivable_pt_lim _ _ ?e => replace (2 * IZR (k + 1) * ext0 P k x)%R with e; [exact D|] end.
      rewrite (ext0_pos P k), (ext0_pos P (k-1)) by lia. rewrite minus_IZR, plus_IZR.
      assert (E : P k x = (2 * x * P (k-1)%Z x - 2 * (IZR k - 1) * ext0 P (k-2) x)%R).
      { destruct (Z.eq_dec k 1) as [->|].
        - cbn [Z.sub Z.add Z.opp Z.pos_sub]. rewrite (her_1 _ HP), (her_0 _ HP). ring.
        - rewrite ext0_pos by lia. assert (E := her_S _ HP (k-1) x ltac:(lia)). replace (k - 1 + 1) with k in E by lia. replace (k - 1 - 1) with (k - 2) in E by lia. rewrite minus_IZR in E. exact E. }
      set (p := P k x) in *. rewrite !Rmult_plus_distr_l.
      replace (2 * p + (2 * x + 0) * (2 * IZR k * P (k-1)%Z x) - 2 * IZR k * (2 * (IZR k - 1) * ext0 P (k-2) x))%R with (2 * p + 2 * IZR k * (2 * x * P (k-1)%Z x - 2 * (IZR k - 1) * ext0 P (k-2) x))%R by ring.
      rewrite <- E. ring.
Qed.
End H.
