(** * Plans of connection transforms: the planners *)
From Coq Require Import ZArith List Lia Bool Reals Lra ZifyBool ZifyNat.
From Verif Require Import Base BaseFacts Arith SpecSum PSum SpecLin MBanded SpecBanded PTri MHier SpecHier MEig SpecEig MButter SpecButter PButter2 PButter3 PButterThms MEigPlan SpecEigPlan PEigPlan3 PEigPlan5 PEigPlan7
  SpecClassical SpecConn MClassical MConn PClass2 PClass8 PPoly PPenJ PPenU PPenC PPenL PDiag MTransforms SpecTransforms PTransforms.
Import ListNotations.
Open Scope Z_scope.

(** ** Ultraspherical and Chebyshev polynomials are Jacobi polynomials *)
Lemma two_step (p : Z -> Prop) : p 0 -> p 1 -> (forall n, 1 <= n -> p (n - 1) -> p n -> p (n + 1)) -> forall n, 0 <= n -> p n.
Proof.
  intros H0 H1 HS n Hn. assert (H : p n /\ p (n + 1)); [|tauto]. pattern n. apply natlike_ind; auto.
  intros k Hk [A B]. split; [exact B|]. replace (Z.succ k + 1) with (k + 1 + 1) by lia. apply HS; [lia| |exact B]. now replace (k + 1 - 1) with k by lia.
Qed.
Definition rsA (la : R) (n : Z) : R := ((la + (IZR n + 1) - 1 / 2) / (2 * la + (IZR n + 1) - 1))%R.
Definition rs (la : R) : Z -> R := kz 1 (rsA la).
Definition chs : Z -> R := kz 1 (fun n => ((IZR n + 1 / 2) / (IZR n + 1))%R).
Lemma kz_step A i : 1 <= i -> kz 1 A i = (A (i - 1)%Z * kz 1 A (i - 1))%R.
Proof. intros. rewrite <- kz_S by lia. now replace (i - 1 + 1) with i by lia. Qed.

Section Rel.
Variables (la : R).
Hypotheses (Hla : (- 1 / 2 < la)%R) (Hla0 : la <> 0%R).
Lemma rs_den i : 0 <= i -> (2 * la + IZR i <> 0)%R.
Proof. intros Hi. destruct (Z.eq_dec i 0) as [->|]; [lra|]. assert (1 <= IZR i)%R by (apply IZR_le; lia). lra. Qed.
Lemma rsA_nz i : 0 <= i -> rsA la i <> 0%R.
Proof.
  intros Hi. unfold rsA. assert (0 <= IZR i)%R by (now apply IZR_le). apply Rmult_integral_contrapositive_currified; [lra|]. apply Rinv_neq_0_compat.
  replace (2 * la + (IZR i + 1) - 1)%R with (2 * la + IZR i)%R by ring. now apply rs_den.
Qed.
Lemma rs_nz i : 0 <= i -> rs la i <> 0%R.
Proof. intros. apply kz_nz; auto. intros. now apply rsA_nz. Qed.
Variables (P Q : Z -> R -> R).
Hypotheses (HP : is_jacobi (la - 1 / 2) (la - 1 / 2) P) (HQ : is_ultraspherical la Q).
Lemma jac_ult i : 0 <= i -> forall x, P i x = (rs la i * Q i x)%R.
Proof.
  revert i. apply (two_step (fun i => forall x, P i x = (rs la i * Q i x)%R)).
  - intros x. rewrite (jac_0 _ _ _ HP), (ult_0 _ _ HQ). unfold rs. rewrite kz_0. ring.
  - intros x. rewrite (jac_1 _ _ _ HP), (ult_1 _ _ HQ). unfold rs. rewrite (kz_step _ 1) by lia. change (1 - 1) with 0. rewrite kz_0. unfold rsA. field. lra.
  - intros n Hn IH1 IH2 x. assert (K : (1 <= IZR n)%R) by (apply IZR_le; lia).
    pose proof (jac_S _ _ _ HP n x Hn) as J. pose proof (ult_S _ _ HQ n x Hn) as U. cbv zeta in J, U. rewrite IH1, IH2 in J.
    assert (S1 : rs la n = (rsA la (n - 1) * rs la (n - 1))%R) by (apply kz_step; lia). assert (S2 : rs la (n + 1) = (rsA la n * rs la n)%R) by (unfold rs; rewrite kz_S by lia; reflexivity).
    rewrite S2. unfold rsA in S1 |- *. rewrite minus_IZR in S1.
    set (k := IZR n) in *. set (p := rs la (n - 1)) in *. set (q := rs la n) in *. set (u := Q (n - 1)%Z x) in *. set (v := Q n x) in *. set (w := Q (n + 1)%Z x) in *. set (y := P (n + 1)%Z x) in *.
    assert (Ew : w = ((2 * (k + la) * x * v - (k + 2 * la - 1) * u) / (k + 1))%R) by (field_simplify_eq; [lra|lra]).
    assert (D0 : (2 * la + k - 1 <> 0)%R). { pose proof (rs_den (n - 1) ltac:(lia)) as H. rewrite minus_IZR in H. fold k in H. lra. }
    assert (D1 : (2 * la + k <> 0)%R) by (apply (rs_den n); lia).
    apply (Rmult_eq_reg_l (2 * (k + 1) * (k + (la - 1 / 2) + (la - 1 / 2) + 1) * (2 * k + (la - 1 / 2) + (la - 1 / 2)))%R).
    2:{ apply Rgt_not_eq. apply Rmult_lt_0_compat; [apply Rmult_lt_0_compat|]; lra. }
    rewrite J. rewrite S1, Ew. field. repeat split; lra.
Qed.
Variables (hP hQ : Z -> R).
Hypotheses (NP : jacobi_norms (la - 1 / 2) (la - 1 / 2) hP) (NQ : ultraspherical_norms la hQ) (M : hP 0%Z = hQ 0%Z).
Lemma jac_ult_norm i : 0 <= i -> hP i = (rs la i * rs la i * hQ i)%R.
Proof.
  revert i. apply (two_step (fun i => hP i = (rs la i * rs la i * hQ i)%R)).
  - unfold rs. rewrite kz_0. lra.
  - unfold rs. rewrite (kz_step _ 1) by lia. change (1 - 1) with 0. rewrite kz_0. unfold rsA.
    pose proof (jn_1 _ _ _ NP) as J. pose proof (un_S _ _ NQ 0 ltac:(lia)) as U. cbv zeta in U. change (0 + 1) with 1 in *.
    set (w := hQ 1%Z) in *. set (y := hP 1%Z) in *. rewrite M in J.
    assert (Ew : w = ((0 + la) * (0 + 2 * la) * hQ 0%Z / ((0 + 1) * (0 + 1 + la)))%R) by (field_simplify_eq; [lra|lra]).
    assert (Ey : y = ((la - 1 / 2 + 1) * (la - 1 / 2 + 1) * hQ 0%Z / (la - 1 / 2 + (la - 1 / 2) + 3))%R) by (field_simplify_eq; [lra|lra]).
    rewrite Ew, Ey. field. repeat split; lra.
  - intros n Hn _ IH. assert (K : (1 <= IZR n)%R) by (apply IZR_le; lia).
    pose proof (jn_S _ _ _ NP n ltac:(lia)) as J. pose proof (un_S _ _ NQ n ltac:(lia)) as U. cbv zeta in J, U. rewrite IH in J.
    replace (rs la (n + 1)) with (rsA la n * rs la n)%R by (unfold rs; rewrite kz_S by lia; reflexivity). unfold rsA.
    set (k := IZR n) in *. set (q := rs la n) in *. set (v := hQ n) in *. set (w := hQ (n + 1)%Z) in *. set (y := hP (n + 1)%Z) in *.
    assert (Ew : w = ((k + la) * (k + 2 * la) * v / ((k + 1) * (k + 1 + la)))%R) by (field_simplify_eq; [lra|lra]).
    assert (D1 : (2 * la + k <> 0)%R) by (apply (rs_den n); lia).
    apply (Rmult_eq_reg_l ((2 * k + (la - 1 / 2) + (la - 1 / 2) + 3) * (k + 1) * (k + (la - 1 / 2) + (la - 1 / 2) + 1))%R).
    2:{ apply Rgt_not_eq. apply Rmult_lt_0_compat; [apply Rmult_lt_0_compat|]; lra. }
    rewrite J, Ew. field. repeat split; lra.
Qed.
Lemma rs_pos i : (0 < la)%R -> 0 <= i -> (0 < rs la i)%R.
Proof.
  intros L Hi. unfold rs. pattern i. apply natlike_ind; auto; [rewrite kz_0; lra|]. intros k Hk IH. change (Z.succ k) with (k + 1). rewrite kz_S by lia. apply Rmult_lt_0_compat; auto.
  unfold rsA. assert (0 <= IZR k)%R by (now apply IZR_le). apply Rmult_lt_0_compat; [lra|]. apply Rinv_0_lt_compat. lra.
Qed.
Lemma jac_ult_fam i x : (0 < la)%R -> 0 <= i -> fam true P hP i x = fam true Q hQ i x.
Proof.
  intros L Hi. unfold fam. rewrite jac_ult, jac_ult_norm by auto. pose proof (rs_pos i L Hi). pose proof (un_pos la Hla Hla0 hQ NQ i Hi) as U.
  rewrite sqrt_mult by nra. rewrite sqrt_square by lra. pose proof (sqrt_lt_R0 _ U). field. split; lra.
Qed.
End Rel.

Section RelC.
Variables (P Q : Z -> R -> R).
Hypotheses (HP : is_jacobi (- (1 / 2)) (- (1 / 2)) P) (HQ : is_chebyshev Q).
Lemma chs_pos i : 0 <= i -> (0 < chs i)%R.
Proof.
  intros Hi. unfold chs. pattern i. apply natlike_ind; auto; [rewrite kz_0; lra|]. intros k Hk IH. change (Z.succ k) with (k + 1). rewrite kz_S by lia. apply Rmult_lt_0_compat; auto.
  assert (0 <= IZR k)%R by (now apply IZR_le). apply Rmult_lt_0_compat; [lra|]. apply Rinv_0_lt_compat. lra.
Qed.
Lemma jac_che i : 0 <= i -> forall x, P i x = (chs i * Q i x)%R.
Proof.
  revert i. apply (two_step (fun i => forall x, P i x = (chs i * Q i x)%R)).
  - intros x. rewrite (jac_0 _ _ _ HP), (che_0 _ HQ). unfold chs. rewrite kz_0. ring.
  - intros x. rewrite (jac_1 _ _ _ HP), (che_1 _ HQ). unfold chs. rewrite (kz_step _ 1) by lia. change (1 - 1) with 0. rewrite kz_0. field.
  - intros n Hn IH1 IH2 x. assert (K : (1 <= IZR n)%R) by (apply IZR_le; lia).
    pose proof (jac_S _ _ _ HP n x Hn) as J. pose proof (che_S _ HQ n x Hn) as U. cbv zeta in J. rewrite IH1, IH2 in J. rewrite U.
    assert (S1 : chs n = ((IZR n - 1 + 1 / 2) / (IZR n - 1 + 1) * chs (n - 1))%R) by (unfold chs; rewrite kz_step by lia; rewrite minus_IZR; reflexivity).
    replace (chs (n + 1)) with ((IZR n + 1 / 2) / (IZR n + 1) * chs n)%R by (unfold chs; rewrite kz_S by lia; reflexivity).
    set (k := IZR n) in *. set (p := chs (n - 1)) in *. set (q := chs n) in *. set (u := Q (n - 1)%Z x) in *. set (v := Q n x) in *. set (y := P (n + 1)%Z x) in *.
    apply (Rmult_eq_reg_l (2 * (k + 1) * (k + - (1 / 2) + - (1 / 2) + 1) * (2 * k + - (1 / 2) + - (1 / 2)))%R).
    2:{ apply Rgt_not_eq. apply Rmult_lt_0_compat; [apply Rmult_lt_0_compat|]; lra. }
    rewrite J, S1. field. repeat split; lra.
Qed.
Variables (hP hQ : Z -> R).
Hypotheses (NP : jacobi_norms (- (1 / 2)) (- (1 / 2)) hP) (NQ : chebyshev_norms hQ) (M : hP 0%Z = hQ 0%Z).
Lemma jac_che_norm i : 0 <= i -> hP i = (chs i * chs i * hQ i)%R.
Proof.
  revert i. apply (two_step (fun i => hP i = (chs i * chs i * hQ i)%R)).
  - unfold chs. rewrite kz_0. lra.
  - unfold chs. rewrite (kz_step _ 1) by lia. change (1 - 1) with 0. rewrite kz_0. change (0 + 1) with 1. pose proof (jn_1 _ _ _ NP) as J. pose proof (chn_S _ NQ 1 ltac:(lia)) as U. rewrite M in J.
    replace (hQ 0%Z) with (2 * hQ 1%Z)%R in J by lra. lra.
  - intros n Hn _ IH. assert (K : (1 <= IZR n)%R) by (apply IZR_le; lia).
    pose proof (jn_S _ _ _ NP n ltac:(lia)) as J. cbv zeta in J. rewrite IH in J.
    assert (U : hQ (n + 1)%Z = hQ n). { pose proof (chn_S _ NQ n Hn). pose proof (chn_S _ NQ (n + 1) ltac:(lia)). lra. } rewrite U.
    replace (chs (n + 1)) with ((IZR n + 1 / 2) / (IZR n + 1) * chs n)%R by (unfold chs; rewrite kz_S by lia; reflexivity).
    set (k := IZR n) in *. set (q := chs n) in *. set (v := hQ n) in *. set (y := hP (n + 1)%Z) in *.
    apply (Rmult_eq_reg_l ((2 * k + - (1 / 2) + - (1 / 2) + 3) * (k + 1) * (k + - (1 / 2) + - (1 / 2) + 1))%R).
    2:{ apply Rgt_not_eq. apply Rmult_lt_0_compat; [apply Rmult_lt_0_compat|]; lra. }
    rewrite J. field. repeat split; lra.
Qed.
Lemma jac_che_fam i x : 0 <= i -> fam true P hP i x = fam true Q hQ i x.
Proof.
  intros Hi. unfold fam. rewrite jac_che, jac_che_norm by auto. pose proof (chs_pos i Hi). pose proof (chn_pos hQ NQ i Hi) as U.
  rewrite sqrt_mult by nra. rewrite sqrt_square by lra. pose proof (sqrt_lt_R0 _ U). field. split; lra.
Qed.
End RelC.
