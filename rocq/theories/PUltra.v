(** * Identities between ultraspherical and Chebyshev polynomials *)
From Coq Require Import ZArith List Lia Bool Reals Lra ZifyBool.
From Verif Require Import Base SpecSum SpecClassical SpecConn PClass2 PClass3.
Open Scope R_scope.

Lemma deriv_ext f g x l : (forall y, f y = g y) -> derivable_pt_lim f x l -> derivable_pt_lim g x l.
Proof. intros E D e He. destruct (D e He) as [d Hd]. exists d. intros h A B. rewrite <- !E. now apply Hd. Qed.

Section U.
Variable l : R.
Variable P : Z -> R -> R.
Hypothesis HP : is_ultraspherical l P.
Lemma ut_S n x : (1 <= n)%Z -> P (n + 1)%Z x = (2 * (IZR n + l) * x * P n x - (IZR n + 2 * l - 1) * P (n - 1)%Z x) / (IZR n + 1).
Proof.
  intros Hn. assert (H := ult_S _ _ HP n x Hn). cbn zeta in H. apply IZR_le in Hn. rewrite <- H. field. lra.
Qed.
(** x P_n, also for n = -1 *)
Lemma ut_mult n x : (-1 <= n)%Z -> 2 * (IZR n + l) * (x * ext0 P n x) = (IZR n + 1) * ext0 P (n + 1) x + (IZR n + 2 * l - 1) * ext0 P (n - 1) x.
Proof.
  intros Hn. destruct (Z.eq_dec n (-1)) as [->|].
  { rewrite (ext0_neg P (-1)), (ext0_neg P (-1 - 1)) by lia. lra. }
  destruct (Z.eq_dec n 0) as [->|].
  { rewrite (ext0_pos P 0), (ext0_pos P (0+1)), (ext0_neg P (0-1)) by lia. change (0+1)%Z with 1%Z. rewrite (ult_0 _ _ HP), (ult_1 _ _ HP). lra. }
  rewrite !ext0_pos by lia. assert (H := ult_S _ _ HP n x ltac:(lia)). cbn zeta in H. rewrite H. ring.
Qed.
End U.

Section U2.
Variable l : R.
Hypotheses (Hl : - 1 / 2 < l) (Hl0 : l <> 0).
Variables P T : Z -> R -> R.
Hypotheses (HP : is_ultraspherical l P) (HT : is_ultraspherical (l + 1) T).
Lemma T_mult n x : (-1 <= n)%Z -> x * ext0 T n x = ((IZR n + 1) * ext0 T (n + 1) x + (IZR n + 2 * l + 1) * ext0 T (n - 1) x) / (2 * (IZR n + l + 1)).
Proof.
  intros Hn. assert (H := ut_mult (l+1) T HT n x Hn). apply IZR_le in Hn.
  destruct (Z.eq_dec n (-1)) as [->|].
  { rewrite (ext0_neg T (-1)), (ext0_neg T (-1 - 1)) by lia. replace (-1 + 1) with 0 by lra. unfold Rdiv. ring. }
  assert (0 <= IZR n) by (apply IZR_le; apply le_IZR in Hn; lia).
  apply (Rmult_eq_reg_l (2 * (IZR n + l + 1))); [|lra]. replace (2 * (IZR n + l + 1)) with (2 * (IZR n + (l + 1))) by ring. rewrite H. field. lra.
Qed.
Lemma nl n : (1 <= n)%Z -> IZR n - 1 + l <> 0 /\ 1 <= IZR n.
Proof.
  intros Hn. assert (1 <= IZR n) by (apply IZR_le; lia). split; auto. destruct (Z.eq_dec n 1) as [->|]; [lra|]. assert (2 <= IZR n) by (apply IZR_le; lia). lra.
Qed.
Lemma ut_raise_pos n x : (0 <= n)%Z -> P n x = l / (IZR n + l) * (ext0 T n x - ext0 T (n - 2) x).
Proof.
  intros Hn.
  enough (H : forall m : nat, (P (Z.of_nat m) x = l / (IZR (Z.of_nat m) + l) * (ext0 T (Z.of_nat m) x - ext0 T (Z.of_nat m - 2) x)) /\
     (P (Z.of_nat m + 1)%Z x = l / (IZR (Z.of_nat m + 1) + l) * (ext0 T (Z.of_nat m + 1) x - ext0 T (Z.of_nat m - 1) x))).
  { destruct (H (Z.to_nat n)) as [H1 _]. rewrite Z2Nat.id in H1 by lia. exact H1. }
  induction m as [|m [I1 I2]].
  - cbn [Z.of_nat]. change (0 + 1)%Z with 1%Z. rewrite (ext0_pos T 0), (ext0_pos T 1), (ext0_neg T (0 - 2)), (ext0_neg T (0 - 1)) by lia.
    rewrite (ult_0 _ _ HP), (ult_1 _ _ HP), (ult_0 _ _ HT), (ult_1 _ _ HT). split; field; lra.
  - replace (Z.of_nat (S m)) with (Z.of_nat m + 1)%Z by lia. set (k := Z.of_nat m) in *.
    replace (k + 1 - 2)%Z with (k - 1)%Z by lia. split; [exact I2|].
    rewrite (ut_S l P HP (k + 1) x) by lia. replace (k + 1 - 1)%Z with k by lia. rewrite I1, I2.
    destruct (nl (k + 1)%Z ltac:(lia)) as [N1 N2].
    assert (A := T_mult (k + 1) x ltac:(lia)). assert (B := T_mult (k - 1) x ltac:(lia)).
    replace (k + 1 - 1)%Z with k in A by lia. replace (k - 1 + 1)%Z with k in B by lia. replace (k - 1 - 1)%Z with (k - 2)%Z in B by lia.
    rewrite !plus_IZR, ?minus_IZR in *. assert (0 <= IZR k) by (apply IZR_le; unfold k; lia).
    transitivity ((2 * l * (x * ext0 T (k+1) x - x * ext0 T (k-1) x) - (IZR k + 1 + 2 * l - 1) * (l / (IZR k + l) * (ext0 T k x - ext0 T (k-2) x))) / (IZR k + 1 + 1)).
    { field. repeat split; lra. }
    rewrite A, B. field. repeat split; lra.
Qed.
Lemma ut_deriv n : (0 <= n)%Z -> forall x, derivable_pt_lim (P n) x (2 * l * ext0 T (n - 1) x).
Proof.
  intros Hn.
  enough (H : forall m : nat, (forall x, derivable_pt_lim (P (Z.of_nat m)) x (2 * l * ext0 T (Z.of_nat m - 1) x)) /\
     (forall x, derivable_pt_lim (P (Z.of_nat m + 1)%Z) x (2 * l * ext0 T (Z.of_nat m) x))).
  { intros x. destruct (H (Z.to_nat n)) as [H1 _]. rewrite Z2Nat.id in H1 by lia. apply H1. }
  induction m as [|m [I1 I2]].
  - cbn [Z.of_nat]. change (0 + 1)%Z with 1%Z. split; intros x.
    + rewrite ext0_neg by lia. rewrite Rmult_0_r. apply (deriv_ext (fun _ => 1)); [intros; now rewrite (ult_0 _ _ HP)|apply derivable_pt_lim_const].
    + rewrite ext0_pos, (ult_0 _ _ HT) by lia. apply (deriv_ext (fun t => 2 * l * t + 0)); [intros; rewrite (ult_1 _ _ HP); ring|]. rewrite Rmult_1_r. apply deriv_lin.
  - replace (Z.of_nat (S m)) with (Z.of_nat m + 1)%Z by lia. set (k := Z.of_nat m) in *.
    replace (k + 1 - 1)%Z with k by lia. split; [exact I2|]. intros x.
    destruct (nl (k + 1)%Z ltac:(lia)) as [N1 N2]. rewrite plus_IZR in N1, N2.
    assert (D := deriv_step (2 * (IZR k + 1 + l) / (IZR k + 1 + 1)) 0 ((IZR k + 1 + 2 * l - 1) / (IZR k + 1 + 1)) (P (k+1)%Z) (P k) _ _ x (I2 x) (I1 x)).
    assert (A := T_mult k x ltac:(lia)).
    replace (2 * l * ext0 T (k + 1) x) with (2 * (IZR k + 1 + l) / (IZR k + 1 + 1) * P (k + 1)%Z x + (2 * (IZR k + 1 + l) / (IZR k + 1 + 1) * x + 0) * (2 * l * ext0 T k x) - (IZR k + 1 + 2 * l - 1) / (IZR k + 1 + 1) * (2 * l * ext0 T (k - 1) x)).
    + eapply deriv_ext; [|exact D]. intros y. cbv beta. rewrite (ut_S l P HP (k+1) y) by lia. replace (k + 1 - 1)%Z with k by lia. rewrite plus_IZR. field. lra.
    + rewrite ut_raise_pos by lia. replace (k + 1 - 2)%Z with (k - 1)%Z by lia. rewrite plus_IZR.
      transitivity (2 * (IZR k + 1 + l) / (IZR k + 1 + 1) * (l / (IZR k + 1 + l) * (ext0 T (k + 1) x - ext0 T (k - 1) x)) + 2 * (IZR k + 1 + l) / (IZR k + 1 + 1) * (2 * l) * (x * ext0 T k x) - (IZR k + 1 + 2 * l - 1) / (IZR k + 1 + 1) * (2 * l * ext0 T (k - 1) x)); [ring|].
      rewrite A. field. repeat split; lra.
Qed.
(** lowering *)
Lemma ut_lower n x : (0 <= n)%Z -> 4 * l * (IZR n + 1 + l) * ((1 - x * x) * T n x) = (IZR n + 2 * l) * (IZR n + 2 * l + 1) * P n x - (IZR n + 1) * (IZR n + 2) * P (n + 2)%Z x.
Proof.
  intros Hn.
  assert (P2 : P 2 x = 2 * l * (1 + l) * x * x - l).
  { assert (E := ut_S l P HP 1 x ltac:(lia)). change (1 + 1)%Z with 2%Z in E. rewrite E. change (1 - 1)%Z with 0%Z. rewrite (ult_0 _ _ HP), (ult_1 _ _ HP). field. }
  assert (P3 : P 3 x = (2 * (2 + l) * x * P 2 x - (1 + 2 * l) * (2 * l * x)) / 3).
  { assert (E := ut_S l P HP 2 x ltac:(lia)). change (2 + 1)%Z with 3%Z in E. rewrite E. change (2 - 1)%Z with 1%Z. rewrite (ult_1 _ _ HP). field. }
  enough (H : forall m : nat, let n := Z.of_nat m in
     4 * l * (IZR n + 1 + l) * ((1 - x * x) * T n x) = (IZR n + 2 * l) * (IZR n + 2 * l + 1) * P n x - (IZR n + 1) * (IZR n + 2) * P (n + 2)%Z x /\
     4 * l * (IZR n + 2 + l) * ((1 - x * x) * T (n + 1)%Z x) = (IZR n + 1 + 2 * l) * (IZR n + 2 * l + 2) * P (n + 1)%Z x - (IZR n + 2) * (IZR n + 3) * P (n + 3)%Z x).
  { destruct (H (Z.to_nat n)) as [H1 _]. rewrite Z2Nat.id in H1 by lia. exact H1. }
  induction m as [|m [I1 I2]]; cbn zeta in *.
  - cbn [Z.of_nat]. change (0 + 1)%Z with 1%Z. change (0 + 2)%Z with 2%Z. change (0 + 3)%Z with 3%Z.
    rewrite P3, P2, (ult_0 _ _ HP), (ult_1 _ _ HP), (ult_0 _ _ HT), (ult_1 _ _ HT). split; field.
  - replace (Z.of_nat (S m)) with (Z.of_nat m + 1)%Z by lia. set (k := Z.of_nat m) in *.
    rewrite !plus_IZR. replace (k + 1 + 2)%Z with (k + 3)%Z by lia. replace (k + 1 + 1)%Z with (k + 2)%Z by lia. replace (k + 1 + 3)%Z with (k + 4)%Z by lia.
    assert (K0 : 0 <= IZR k) by (apply IZR_le; unfold k; lia).
    split. { replace (IZR k + 1 + 1 + l) with (IZR k + 2 + l) by ring. rewrite I2. ring. }
    assert (TS := ut_S (l+1) T HT (k+1) x ltac:(lia)). replace (k + 1 + 1)%Z with (k + 2)%Z in TS by lia. replace (k + 1 - 1)%Z with k in TS by lia. rewrite plus_IZR in TS.
    assert (M1 := ut_mult l P HP (k+1) x ltac:(lia)). assert (M3 := ut_mult l P HP (k+3) x ltac:(lia)).
    replace (k + 1 + 1)%Z with (k + 2)%Z in M1 by lia. replace (k + 1 - 1)%Z with k in M1 by lia.
    replace (k + 3 + 1)%Z with (k + 4)%Z in M3 by lia. replace (k + 3 - 1)%Z with (k + 2)%Z in M3 by lia.
    rewrite !ext0_pos in M1, M3 by lia. rewrite !plus_IZR in M1, M3.
    assert (I2' : 4 * l * ((1 - x * x) * T (k + 1)%Z x) = ((IZR k + 1 + 2 * l) * (IZR k + 2 * l + 2) * P (k + 1)%Z x - (IZR k + 2) * (IZR k + 3) * P (k + 3)%Z x) / (IZR k + 2 + l)).
    { apply (Rmult_eq_reg_r (IZR k + 2 + l)); [|lra]. transitivity (4 * l * (IZR k + 2 + l) * ((1 - x * x) * T (k + 1)%Z x)); [ring|]. rewrite I2. field. lra. }
    assert (I1' : 4 * l * ((1 - x * x) * T k x) = ((IZR k + 2 * l) * (IZR k + 2 * l + 1) * P k x - (IZR k + 1) * (IZR k + 2) * P (k + 2)%Z x) / (IZR k + 1 + l)).
    { apply (Rmult_eq_reg_r (IZR k + 1 + l)); [|lra]. transitivity (4 * l * (IZR k + 1 + l) * ((1 - x * x) * T k x)); [ring|]. rewrite I1. field. lra. }
    assert (X1 : x * P (k + 1)%Z x = ((IZR k + 1 + 1) * P (k + 2)%Z x + (IZR k + 1 + 2 * l - 1) * P k x) / (2 * (IZR k + 1 + l))).
    { apply (Rmult_eq_reg_l (2 * (IZR k + 1 + l))); [|lra]. rewrite M1. field. lra. }
    assert (X3 : x * P (k + 3)%Z x = ((IZR k + 3 + 1) * P (k + 4)%Z x + (IZR k + 3 + 2 * l - 1) * P (k + 2)%Z x) / (2 * (IZR k + 3 + l))).
    { apply (Rmult_eq_reg_l (2 * (IZR k + 3 + l))); [|lra]. rewrite M3. field. lra. }
    rewrite TS.
    transitivity ((IZR k + 1 + 2 + l) / (IZR k + 1 + 1) * (2 * (IZR k + 1 + (l + 1)) * x * (4 * l * ((1 - x * x) * T (k + 1)%Z x)) - (IZR k + 1 + 2 * (l + 1) - 1) * (4 * l * ((1 - x * x) * T k x)))).
    { field. lra. }
    rewrite I1', I2'.
    transitivity ((IZR k + 1 + 2 + l) / (IZR k + 1 + 1) * (2 * (IZR k + 1 + (l + 1)) / (IZR k + 2 + l) * ((IZR k + 1 + 2 * l) * (IZR k + 2 * l + 2) * (x * P (k + 1)%Z x) - (IZR k + 2) * (IZR k + 3) * (x * P (k + 3)%Z x)) - (IZR k + 1 + 2 * (l + 1) - 1) * (((IZR k + 2 * l) * (IZR k + 2 * l + 1) * P k x - (IZR k + 1) * (IZR k + 2) * P (k + 2)%Z x) / (IZR k + 1 + l)))).
    { field. lra. }
    rewrite X1, X3. field. lra.
Qed.
End U2.

(** a family with the differential equation -(1-x^2) P'' + (2 l + 1) x P' = n (n + 2 l) P *)
Record gegen (l : R) (P P1 P2 : Z -> R -> R) : Prop := {
  gg1 : forall j x, (0 <= j)%Z -> derivable_pt_lim (P j) x (P1 j x);
  gg2 : forall j x, (0 <= j)%Z -> derivable_pt_lim (P1 j) x (P2 j x);
  gg_ode : forall j x, (0 <= j)%Z -> - (1 - x * x) * P2 j x + (2 * l + 1) * x * P1 j x = IZR j * (IZR j + 2 * l) * P j x }.

Section U3.
Variable l : R.
Hypotheses (Hl : - 1 / 2 < l) (Hl0 : l <> 0).
Variables P T S : Z -> R -> R.
Hypotheses (HP : is_ultraspherical l P) (HT : is_ultraspherical (l + 1) T) (HS : is_ultraspherical (l + 1 + 1) S).
Lemma ut_d2 j x : (0 <= j)%Z -> derivable_pt_lim (fun y => 2 * l * ext0 T (j - 1) y) x (2 * l * (2 * (l + 1) * ext0 S (j - 2) x)).
Proof.
  intros Hj. apply (derivable_pt_lim_scal (ext0 T (j - 1)) (2 * l) x). destruct (Z.eq_dec j 0) as [->|].
  - rewrite ext0_neg by lia. rewrite Rmult_0_r. apply (deriv_ext (fun _ => 0)); [intros; now rewrite ext0_neg by lia|apply derivable_pt_lim_const].
  - apply (deriv_ext (T (j - 1)%Z)); [intros; now rewrite ext0_pos by lia|]. replace (j - 2)%Z with (j - 1 - 1)%Z by lia. apply (ut_deriv (l+1)); auto; try lra; lia.
Qed.
Lemma ut_gegen : gegen l P (fun j x => 2 * l * ext0 T (j - 1) x) (fun j x => 2 * l * (2 * (l + 1) * ext0 S (j - 2) x)).
Proof.
  split.
  - intros. apply ut_deriv; auto.
  - intros. apply ut_d2; auto.
  - intros j x Hj. destruct (Z.eq_dec j 0) as [->|]. { rewrite !ext0_neg by lia. lra. }
    destruct (Z.eq_dec j 1) as [->|]. { rewrite ext0_neg, ext0_pos by lia. change (1-1)%Z with 0%Z. rewrite (ult_0 _ _ HT), (ult_1 _ _ HP). ring. }
    assert (L := ut_lower (l+1) ltac:(lra) ltac:(lra) T S HT HS (j - 2) x ltac:(lia)). replace (j - 2 + 2)%Z with j in L by lia. rewrite minus_IZR in L.
    assert (M := T_mult l Hl Hl0 T HT (j - 1) x ltac:(lia)). replace (j - 1 + 1)%Z with j in M by lia. replace (j - 1 - 1)%Z with (j - 2)%Z in M by lia. rewrite minus_IZR in M.
    rewrite (ut_raise_pos l Hl Hl0 P T HP HT j x Hj). rewrite !ext0_pos in * by lia. assert (2 <= IZR j) by (apply IZR_le; lia).
    assert (L' : 4 * (l + 1) * ((1 - x * x) * S (j - 2)%Z x) = ((IZR j + 2 * l) * (IZR j + 2 * l + 1) * T (j - 2)%Z x - (IZR j - 1) * IZR j * T j x) / (IZR j + l)).
    { apply (Rmult_eq_reg_r (IZR j + l)); [|lra]. transitivity (4 * (l + 1) * (IZR j - 2 + 1 + (l + 1)) * ((1 - x * x) * S (j - 2)%Z x)); [ring|]. rewrite L. field. lra. }
    transitivity (- l * (4 * (l + 1) * ((1 - x * x) * S (j - 2)%Z x)) + (2 * l + 1) * (2 * l) * (x * T (j - 1)%Z x)); [ring|].
    rewrite L', M. field. lra.
Qed.
End U3.

Section C.
Variables P U W : Z -> R -> R.
Hypotheses (HP : is_chebyshev P) (HU : is_ultraspherical 1 U) (HW : is_ultraspherical (1 + 1) W).
Lemma U_rec k x : (0 <= k)%Z -> U (k + 1)%Z x = 2 * x * ext0 U k x - ext0 U (k - 1) x.
Proof.
  intros Hk. assert (M := ut_mult 1 U HU k x ltac:(lia)). rewrite (ext0_pos U (k+1)) in M by lia. assert (0 <= IZR k) by (apply IZR_le; lia).
  apply (Rmult_eq_reg_l (IZR k + 1)); [|lra]. lra.
Qed.
Lemma ch_raise n x : (1 <= n)%Z -> P n x = (ext0 U n x - ext0 U (n - 2) x) / 2.
Proof.
  intros Hn.
  enough (H : forall m : nat, (P (Z.of_nat m + 1)%Z x = (ext0 U (Z.of_nat m + 1) x - ext0 U (Z.of_nat m - 1) x) / 2) /\
     (P (Z.of_nat m + 2)%Z x = (ext0 U (Z.of_nat m + 2) x - ext0 U (Z.of_nat m) x) / 2)).
  { destruct (H (Z.to_nat (n - 1))) as [H1 _]. rewrite Z2Nat.id in H1 by lia. replace (n - 1 + 1)%Z with n in H1 by lia. replace (n - 1 - 1)%Z with (n - 2)%Z in H1 by lia. exact H1. }
  assert (U2 : U 2 x = 4 * x * x - 1).
  { assert (E := U_rec 1 x ltac:(lia)). change (1 + 1)%Z with 2%Z in E. rewrite E. rewrite !ext0_pos by lia. change (1 - 1)%Z with 0%Z. rewrite (ult_0 _ _ HU), (ult_1 _ _ HU). ring. }
  induction m as [|m [I1 I2]].
  - cbn [Z.of_nat]. change (0 + 1)%Z with 1%Z. change (0 + 2)%Z with 2%Z. rewrite (ext0_pos U 0), (ext0_pos U 1), (ext0_pos U 2), (ext0_neg U (0 - 1)) by lia.
    rewrite U2, (ult_0 _ _ HU), (ult_1 _ _ HU), (che_1 _ HP). split; [field|]. assert (E := che_S _ HP 1 x ltac:(lia)). change (1 + 1)%Z with 2%Z in E. rewrite E. change (1 - 1)%Z with 0%Z. rewrite (che_1 _ HP), (che_0 _ HP). field.
  - replace (Z.of_nat (S m)) with (Z.of_nat m + 1)%Z by lia. set (k := Z.of_nat m) in *.
    replace (k + 1 + 1)%Z with (k + 2)%Z by lia. replace (k + 1 - 1)%Z with k by lia. split; [exact I2|].
    replace (k + 1 + 2)%Z with (k + 2 + 1)%Z by lia. rewrite (che_S _ HP (k+2) x) by lia. replace (k + 2 - 1)%Z with (k + 1)%Z by lia. rewrite I1, I2.
    rewrite (ext0_pos U (k + 2 + 1)), (U_rec (k+2) x) by lia. replace (k + 2 - 1)%Z with (k + 1)%Z by lia.
    rewrite (ext0_pos U (k+1)) at 2 by lia. rewrite (ext0_pos U (k+1)) at 2 by lia. rewrite (U_rec k x) at 2 by lia. rewrite (U_rec k x) at 1 by lia. rewrite (ext0_pos U (k+1)), (U_rec k x) by lia. field.
Qed.
Lemma ch_deriv n : (0 <= n)%Z -> forall x, derivable_pt_lim (P n) x (IZR n * ext0 U (n - 1) x).
Proof.
  intros Hn.
  enough (H : forall m : nat, (forall x, derivable_pt_lim (P (Z.of_nat m)) x (IZR (Z.of_nat m) * ext0 U (Z.of_nat m - 1) x)) /\
     (forall x, derivable_pt_lim (P (Z.of_nat m + 1)%Z) x (IZR (Z.of_nat m + 1) * ext0 U (Z.of_nat m) x))).
  { intros x. destruct (H (Z.to_nat n)) as [H1 _]. rewrite Z2Nat.id in H1 by lia. apply H1. }
  induction m as [|m [I1 I2]].
  - cbn [Z.of_nat]. change (0 + 1)%Z with 1%Z. split; intros x.
    + rewrite Rmult_0_l. apply (deriv_ext (fun _ => 1)); [intros; now rewrite (che_0 _ HP)|apply derivable_pt_lim_const].
    + rewrite ext0_pos, (ult_0 _ _ HU) by lia. apply (deriv_ext (fun t => 1 * t + 0)); [intros; rewrite (che_1 _ HP); ring|]. rewrite Rmult_1_r. apply deriv_lin.
  - replace (Z.of_nat (S m)) with (Z.of_nat m + 1)%Z by lia. set (k := Z.of_nat m) in *.
    replace (k + 1 - 1)%Z with k by lia. split; [exact I2|]. intros x.
    assert (D := deriv_step 2 0 1 (P (k+1)%Z) (P k) _ _ x (I2 x) (I1 x)).
    replace (IZR (k + 1 + 1) * ext0 U (k + 1) x) with (2 * P (k + 1)%Z x + (2 * x + 0) * (IZR (k + 1) * ext0 U k x) - 1 * (IZR k * ext0 U (k - 1) x)).
    + eapply deriv_ext; [|exact D]. intros y. cbv beta. rewrite (che_S _ HP (k+1) y) by lia. replace (k + 1 - 1)%Z with k by lia. ring.
    + rewrite ch_raise by lia. replace (k + 1 - 2)%Z with (k - 1)%Z by lia. rewrite !plus_IZR. rewrite (ext0_pos U (k+1)), (U_rec k x) by lia. field.
Qed.
Lemma ch_gegen : gegen 0 P (fun j x => IZR j * ext0 U (j - 1) x) (fun j x => IZR j * (2 * ext0 W (j - 2) x)).
Proof.
  split.
  - intros. apply ch_deriv; auto.
  - intros j x Hj. apply (derivable_pt_lim_scal (ext0 U (j - 1)) (IZR j) x). destruct (Z.eq_dec j 0) as [->|].
    + rewrite ext0_neg by lia. rewrite Rmult_0_r. apply (deriv_ext (fun _ => 0)); [intros; now rewrite ext0_neg by lia|apply derivable_pt_lim_const].
    + apply (deriv_ext (U (j - 1)%Z)); [intros; now rewrite ext0_pos by lia|]. replace (j - 2)%Z with (j - 1 - 1)%Z by lia.
      replace 2 with (2 * 1) by ring. apply (ut_deriv 1); auto; try lra; lia.
  - intros j x Hj. destruct (Z.eq_dec j 0) as [->|]. { lra. }
    destruct (Z.eq_dec j 1) as [->|]. { rewrite ext0_neg, ext0_pos by lia. change (1-1)%Z with 0%Z. rewrite (ult_0 _ _ HU), (che_1 _ HP). ring. }
    assert (L := ut_lower 1 ltac:(lra) ltac:(lra) U W HU HW (j - 2) x ltac:(lia)). replace (j - 2 + 2)%Z with j in L by lia. rewrite minus_IZR in L.
    assert (M := U_rec (j - 1) x ltac:(lia)). replace (j - 1 + 1)%Z with j in M by lia. replace (j - 1 - 1)%Z with (j - 2)%Z in M by lia.
    rewrite ch_raise by lia. rewrite !ext0_pos in * by lia. assert (2 <= IZR j) by (apply IZR_le; lia).
    assert (L' : 4 * ((1 - x * x) * W (j - 2)%Z x) = (IZR j + 1) * U (j - 2)%Z x - (IZR j - 1) * U j x).
    { apply (Rmult_eq_reg_r (IZR j)); [|lra]. transitivity (4 * 1 * (IZR j - 2 + 1 + 1) * ((1 - x * x) * W (j - 2)%Z x)); [ring|]. rewrite L. ring. }
    transitivity (- IZR j / 2 * (4 * ((1 - x * x) * W (j - 2)%Z x)) + IZR j * (x * U (j - 1)%Z x)); [field|].
    replace (x * U (j - 1)%Z x) with ((U j x + U (j - 2)%Z x) / 2) by lra. rewrite L'. field.
Qed.
End C.
