(** * The Jacobi operators of the model: raising, lowering, derivatives *)
From Coq Require Import ZArith List Lia Bool Reals Lra ZifyBool.
From Verif Require Import Base BaseFacts Arith SpecSum PSum SpecLin SpecBanded MBanded PBand MClassical SpecClassical PClass1 PClass2 PClass3 PClass4.
Import ListNotations.
Open Scope Z_scope.
Ltac inr := repeat match goal with |- context[if (?u <=? ?v) && (?w <? ?z) then _ else _] =>
    first [replace ((u <=? v) && (w <? z)) with true by lia | replace ((u <=? v) && (w <? z)) with false by lia] end.

Section J.
Variables (a b : R).
Hypotheses (Ha : (-1 < a)%R) (Hb : (-1 < b)%R).
Variables (P Q : Z -> R -> R) (h hq : Z -> R).
Hypotheses (HP : is_jacobi a b P) (Hh : jacobi_norms a b h) (HQ : is_jacobi (a+1) (b+1) Q) (Hhq : jacobi_norms (a+1) (b+1) hq) (Hm : jacobi_masses a b (h 0%Z) (hq 0%Z)).
Lemma hpos n : 0 <= n -> (0 < h n)%R. Proof. apply (jn_pos a b h Ha Hb Hh). Qed.
Lemma hqpos n : 0 <= n -> (0 < hq n)%R. Proof. apply (jn_pos (a+1) (b+1) hq ltac:(lra) ltac:(lra) Hhq). Qed.
Lemma hq_at0 : hq 0%Z = (4 * (a + 1) * (b + 1) / ((a + b + 2) * (a + b + 3)) * h 0%Z)%R.
Proof.
  assert (Hd : ((a + b + 2) * (a + b + 3) <> 0)%R) by (repeat apply Rmult_integral_contrapositive_currified; lra).
  apply (Rmult_eq_reg_l _ _ _) with (2 := Hd). unfold jacobi_masses in Hm. rewrite Hm. field. repeat split; lra.
Qed.
Lemma hq_at j : 1 <= j -> hq j = (4 * (2*IZR j + a + b + 1) * (IZR j + a + 1) * (IZR j + b + 1) / ((IZR j + a + b + 2) * (2*IZR j + a + b + 3) * (IZR j + a + b + 1)) * h j)%R.
Proof.
  intros Hj. rewrite (jn_shift a b h hq Ha Hb Hh Hhq Hm) by lia. rewrite (jn_rec a b h Ha Hb Hh) by lia. apply IZR_le in Hj. field. repeat split; lra.
Qed.
Lemma hq_at1 j : 1 <= j -> hq (j-1) = (4 * IZR j / (IZR j + a + b + 1) * h j)%R.
Proof.
  intros Hj. rewrite (jn_shift a b h hq Ha Hb Hh Hhq Hm) by lia. replace (j - 1 + 1) with j by lia. rewrite minus_IZR. apply IZR_le in Hj. field. repeat split; lra.
Qed.
Lemma h_prev j : 2 <= j -> h j = ((2*IZR j + a + b - 1) * (IZR j + a) * (IZR j + b) / ((2*IZR j + a + b + 1) * (IZR j) * (IZR j + a + b)) * h (j-1))%R.
Proof.
  intros Hj. assert (E := jn_rec a b h Ha Hb Hh (j-1) ltac:(lia)). replace (j - 1 + 1) with j in E by lia. rewrite minus_IZR in E. rewrite E.
  apply IZR_le in Hj. field. repeat split; lra.
Qed.

Lemma raise0 : (2 * sqrt ((a + 1) * (b + 1) / ((a + b + 2) * (a + b + 3))) * sqrt (h 0%Z) = 1 * sqrt (hq 0%Z))%R.
Proof. eapply (nrm _ _ _ _ _ (h 0%Z)); [lra|lra|posl|apply hpos; lia| | |symmetry; apply Rmult_1_l|exact hq_at0|]; [lra|posl|field; repeat split; lra]. Qed.
Lemma raise_d j : 1 <= j -> let k := IZR j in
  (2 * sqrt ((k + a + 1) * (k + b + 1) * (k + a + b + 1) * (k + a + b + 2) / ((2 * k + a + b + 1) * (2 * k + a + b + 2) * (2 * k + a + b + 2) * (2 * k + a + b + 3))) * sqrt (h j)
   = r0 k a b * sqrt (hq j))%R.
Proof.
  intros Hj k. assert (E := hq_at j Hj). pose proof Hj as Hk. apply IZR_le in Hk. fold k in Hk, E.
  eapply (nrm _ _ _ _ _ (h j)); [lra|unfold r0; posl|posl|apply hpos; lia| | |symmetry; apply Rmult_1_l|exact E|]; [lra|posl|fld].
Qed.

Lemma jacobi_raise_col_val norm m j x : 0 <= j < m ->
  colsum m (jacobi_raise_col norm a b j) (fun i => fam norm Q hq i x) = fam norm P h j x.
Proof.
  intros Hj. unfold jacobi_raise_col. destruct (Z.eqb_spec j 0) as [->|Hj0].
  - destruct norm; cbn [colsum fst snd]; inr; ar; cbn [Z.sub Z.opp Z.add Z.mul]; unfold fam.
    + rewrite (entry _ _ (Q 0 x) _ _ (hpos 0 ltac:(lia)) (hqpos 0 ltac:(lia)) raise0). rewrite (jac_0 _ _ _ HP), (jac_0 _ _ _ HQ). lra.
    + rewrite (jac_0 _ _ _ HP), (jac_0 _ _ _ HQ). lra.
  - assert (M0 := jac_raise a b Ha Hb P Q HP HQ j x ltac:(lia)). rewrite (ext0_pos Q j), (ext0_pos Q (j-1)) in M0 by lia.
    assert (Hj1 : 1 <= j) by lia. pose proof Hj1 as Hk. apply IZR_le in Hk.
    destruct norm; unfold fam.
    + assert (ED := raise_d j Hj1). cbn zeta in ED.
      assert (EL : (2 * (a - b) * sqrt (IZR j * (IZR j + a + b + 1)) / ((2 * IZR j + a + b) * (2 * IZR j + a + b + 2)) * sqrt (h j) = r1 (IZR j) a b * sqrt (hq (j - 1)%Z))%R).
      { assert (E := hq_at1 j Hj1). set (k := IZR j) in *.
        assert (EE : (2 / ((2 * k + a + b) * (2 * k + a + b + 2)) * sqrt (k * (k + a + b + 1)) * sqrt (h j) = (k+a+b+1)/((2*k+a+b)*(2*k+a+b+2)) * sqrt (hq (j-1)%Z))%R).
        { eapply (nrm _ _ _ _ _ (h j)); [posl|posl|posl|apply hpos; lia| | |symmetry; apply Rmult_1_l|exact E|]; [lra|posl|field; repeat split; lra]. }
        unfold r1. transitivity ((a - b) * ((k+a+b+1)/((2*k+a+b)*(2*k+a+b+2)) * sqrt (hq (j-1)%Z)))%R; [rewrite <- EE|]; field; repeat split; lra. }
      destruct (Z.eq_dec j 1) as [Ej|Hj2].
      * rewrite ext0_neg in M0 by lia. cbn [colsum fst snd]; inr. ar. izr.
        rewrite (entry _ _ (Q (j-1)%Z x) _ _ (hpos j ltac:(lia)) (hqpos (j-1) ltac:(lia)) EL), (entry _ _ (Q j x) _ _ (hpos j ltac:(lia)) (hqpos j ltac:(lia)) ED).
        rewrite M0. unfold Rdiv. ring.
      * rewrite ext0_pos in M0 by lia. assert (Hk2 : 2 <= j) by lia. apply IZR_le in Hk2.
        assert (E2 : (-2 * sqrt ((IZR j - 1) * IZR j * (IZR j + a) * (IZR j + b) / ((2 * IZR j + a + b - 1) * (2 * IZR j + a + b) * (2 * IZR j + a + b) * (2 * IZR j + a + b + 1))) * sqrt (h j) = r2 (IZR j) a b * sqrt (hq (j - 2)%Z))%R).
        { assert (EA := h_prev j ltac:(lia)). assert (EB := hq_at1 (j-1) ltac:(lia)). replace (j - 1 - 1) with (j - 2) in EB by lia. rewrite minus_IZR in EB. set (k := IZR j) in *.
          assert (EE : (2 * sqrt ((k - 1) * k * (k + a) * (k + b) / ((2 * k + a + b - 1) * (2 * k + a + b) * (2 * k + a + b) * (2 * k + a + b + 1))) * sqrt (h j) = (k+a)*(k+b)/((2*k+a+b)*(2*k+a+b+1)) * sqrt (hq (j-2)%Z))%R).
          { eapply (nrm _ _ _ _ _ (h (j-1)%Z)); [lra|posl|posl|apply hpos; lia| | |exact EA|exact EB|]; [posl|posl|field; repeat split; lra]. }
          unfold r2. transitivity (- ((k+a)*(k+b)/((2*k+a+b)*(2*k+a+b+1)) * sqrt (hq (j-2)%Z)))%R; [rewrite <- EE|]; field; repeat split; lra. }
        cbn [colsum fst snd]; inr. ar. izr.
        rewrite (entry _ _ (Q (j-1)%Z x) _ _ (hpos j ltac:(lia)) (hqpos (j-1) ltac:(lia)) EL), (entry _ _ (Q j x) _ _ (hpos j ltac:(lia)) (hqpos j ltac:(lia)) ED),
          (entry _ _ (Q (j-2)%Z x) _ _ (hpos j ltac:(lia)) (hqpos (j-2) ltac:(lia)) E2).
        rewrite M0. unfold Rdiv. ring.
    + cbn [colsum fst snd]. replace ((0 <=? j - 1) && (j - 1 <? m)) with true by lia. replace ((0 <=? j) && (j <? m)) with true by lia. ar. izr. rewrite M0. unfold ext0.
      destruct (Z.ltb_spec (j - 2) 0).
      * replace ((0 <=? j - 2) && (j - 2 <? m)) with false by lia. unf. ring.
      * replace ((0 <=? j - 2) && (j - 2 <? m)) with true by lia. unf. ring.
Qed.

Lemma jacobi_lower_col_val norm m j x : 0 <= j -> j + 2 < m ->
  colsum m (jacobi_lower_col norm a b j) (fun i => fam norm P h i x) = ((1 - x * x) * fam norm Q hq j x)%R.
Proof.
  intros Hj Hjm. unfold jacobi_lower_col. assert (M0 := jac_lower a b Ha Hb P Q HP HQ j x Hj).
  pose proof Hj as Hk. apply IZR_le in Hk. destruct norm; cbn [colsum fst snd]; inr; ar; izr; unfold fam.
  - match goal with |- (?v * _ + _ = _)%R => assert (E0 : (v * sqrt (hq j) = l0 (IZR j) a b * sqrt (h j))%R) end.
    { destruct (Z.eqb_spec j 0) as [->|].
      - eapply (nrm _ _ _ _ _ (h 0%Z)); [lra|unfold l0; posl|posl|apply hpos; lia| | |exact hq_at0|symmetry; apply Rmult_1_l|]; [posl|lra|fld].
      - assert (E := hq_at j ltac:(lia)). assert (Hk1 : 1 <= j) by lia. apply IZR_le in Hk1. set (k := IZR j) in *.
        eapply (nrm _ _ _ _ _ (h j)); [lra|unfold l0; posl|posl|apply hpos; lia| | |exact E|symmetry; apply Rmult_1_l|]; [posl|lra|fld]. }
    assert (S1 := jn_shift a b h hq Ha Hb Hh Hhq Hm j Hj).
    assert (E1 : (2 * (a - b) * sqrt ((IZR j + 1) * (IZR j + a + b + 2)) / ((2 * IZR j + a + b + 2) * (2 * IZR j + a + b + 4)) * sqrt (hq j) = l1 (IZR j) a b * sqrt (h (j+1)%Z))%R).
    { set (k := IZR j) in *.
      assert (EE : (2 / ((2 * k + a + b + 2) * (2 * k + a + b + 4)) * sqrt ((k + 1) * (k + a + b + 2)) * sqrt (hq j) = 4 * (k+1)/((2*k+a+b+2)*(2*k+a+b+4)) * sqrt (h (j+1)%Z))%R).
      { eapply (nrm _ _ _ _ _ (h (j+1)%Z)); [posl|posl|posl|apply hpos; lia| | |exact S1|symmetry; apply Rmult_1_l|]; [posl|lra|field; repeat split; lra]. }
      unfold l1. transitivity ((a - b) * (4 * (k+1)/((2*k+a+b+2)*(2*k+a+b+4)) * sqrt (h (j+1)%Z)))%R; [rewrite <- EE|]; field; repeat split; lra. }
    assert (E2 : (-2 * sqrt ((IZR j + 1) * (IZR j + 2) * (IZR j + a + 2) * (IZR j + b + 2) / ((2 * IZR j + a + b + 3) * (2 * IZR j + a + b + 4) * (2 * IZR j + a + b + 4) * (2 * IZR j + a + b + 5))) * sqrt (hq j) = l2 (IZR j) a b * sqrt (h (j+2)%Z))%R).
    { assert (S2 := jn_rec a b h Ha Hb Hh (j+1) ltac:(lia)). replace (j + 1 + 1) with (j + 2) in S2 by lia. rewrite plus_IZR in S2. set (k := IZR j) in *.
      assert (EE : (2 * sqrt ((k + 1) * (k + 2) * (k + a + 2) * (k + b + 2) / ((2 * k + a + b + 3) * (2 * k + a + b + 4) * (2 * k + a + b + 4) * (2 * k + a + b + 5))) * sqrt (hq j) = 4*(k+1)*(k+2)/((2*k+a+b+3)*(2*k+a+b+4)) * sqrt (h (j+2)%Z))%R).
      { eapply (nrm _ _ _ _ _ (h (j+1)%Z)); [lra|posl|posl|apply hpos; lia| | |exact S1|exact S2|]; [posl|posl|field; repeat split; lra]. }
      unfold l2. transitivity (- (4*(k+1)*(k+2)/((2*k+a+b+3)*(2*k+a+b+4)) * sqrt (h (j+2)%Z)))%R; [rewrite <- EE|]; field; repeat split; lra. }
    rewrite (entry _ _ (P j x) _ _ (hqpos j ltac:(lia)) (hpos j ltac:(lia)) E0), (entry _ _ (P (j+1)%Z x) _ _ (hqpos j ltac:(lia)) (hpos (j+1) ltac:(lia)) E1),
      (entry _ _ (P (j+2)%Z x) _ _ (hqpos j ltac:(lia)) (hpos (j+2) ltac:(lia)) E2).
    transitivity ((1 - x * x) * Q j x / sqrt (hq j))%R; [|unfold Rdiv; ring]. rewrite M0. unfold Rdiv. ring.
  - rewrite M0. rewrite opp_IZR, !mult_IZR, !plus_IZR. unf. ring.
Qed.
End J.
