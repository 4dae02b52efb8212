(** * Identities between Jacobi polynomials *)
From Coq Require Import ZArith List Lia Bool Reals Lra ZifyBool.
From Verif Require Import Base SpecSum SpecClassical.
Open Scope R_scope.

(** coefficients as functions of a real degree *)
Definition rA (n a b : R) := (2*n+a+b+1)*(2*n+a+b+2)/(2*(n+1)*(n+a+b+1)).
Definition rB (n a b : R) := (a-b)*(a+b)*(2*n+a+b+1)/(2*(n+1)*(n+a+b+1)*(2*n+a+b)).
Definition rC (n a b : R) := (n+a)*(n+b)*(2*n+a+b+2)/((n+1)*(n+a+b+1)*(2*n+a+b)).
Definition mU (n a b : R) := 2*(n+1)*(n+a+b+1)/((2*n+a+b+1)*(2*n+a+b+2)).
Definition mD (n a b : R) := (b-a)*(a+b)/((2*n+a+b)*(2*n+a+b+2)).
Definition mL (n a b : R) := 2*(n+a)*(n+b)/((2*n+a+b)*(2*n+a+b+1)).
Definition r0 (n a b : R) := (n+a+b+1)*(n+a+b+2)/((2*n+a+b+1)*(2*n+a+b+2)).
Definition r1 (n a b : R) := (a-b)*(n+a+b+1)/((2*n+a+b)*(2*n+a+b+2)).
Definition r2 (n a b : R) := -((n+a)*(n+b))/((2*n+a+b)*(2*n+a+b+1)).
Definition l0 (n a b : R) := 4*(n+a+1)*(n+b+1)/((2*n+a+b+2)*(2*n+a+b+3)).
Definition l1 (n a b : R) := 4*(a-b)*(n+1)/((2*n+a+b+2)*(2*n+a+b+4)).
Definition l2 (n a b : R) := -(4*(n+1)*(n+2))/((2*n+a+b+3)*(2*n+a+b+4)).
Ltac unf := unfold rA, rB, rC, mU, mD, mL, r0, r1, r2, l0, l1, l2.
Ltac fld := unf; field; repeat split; lra.

Section J.
Variables (a b : R).
Hypotheses (Ha : -1 < a) (Hb : -1 < b).
Section P.
Variable P : Z -> R -> R.
Hypothesis HP : is_jacobi a b P.
Lemma jac_rec n x : (1 <= n)%Z -> P (n + 1)%Z x = (rA (IZR n) a b * x + rB (IZR n) a b) * P n x - rC (IZR n) a b * P (n - 1)%Z x.
Proof.
  intros Hn. apply IZR_le in Hn. assert (H := jac_S _ _ _ HP n x ltac:(now apply le_IZR)). cbn zeta in H.
  set (k := IZR n) in *. set (p1 := P (n+1)%Z x) in *.
  assert (Hd : 2 * (k + 1) * (k + a + b + 1) * (2 * k + a + b) <> 0) by (repeat apply Rmult_integral_contrapositive_currified; lra).
  apply (Rmult_eq_reg_l (2 * (k + 1) * (k + a + b + 1) * (2 * k + a + b))); [|exact Hd]. rewrite H. unf. field. repeat split; lra.
Qed.
Lemma jac_mult n x : (1 <= n)%Z -> x * P n x = mL (IZR n) a b * P (n - 1)%Z x + mD (IZR n) a b * P n x + mU (IZR n) a b * P (n + 1)%Z x.
Proof.
  intros Hn. rewrite (jac_rec n x Hn). apply IZR_le in Hn. set (k := IZR n) in *. fld.
Qed.
Lemma jac_mult0 x : x * P 0 x = (b - a) / (a + b + 2) * P 0 x + 2 / (a + b + 2) * P 1 x.
Proof. rewrite (jac_0 _ _ _ HP), (jac_1 _ _ _ HP). field. lra. Qed.
Lemma jac_mult0' x : 0 < a + b -> x * P 0 x = mD 0 a b * P 0 x + mU 0 a b * P 1 x.
Proof. intros. rewrite jac_mult0. fld. Qed.
Lemma jac_2 x : P 2 x = (rA 1 a b * x + rB 1 a b) * P 1 x - rC 1 a b.
Proof. change 2%Z with (1 + 1)%Z. rewrite (jac_rec 1 x) by lia. change (1 - 1)%Z with 0%Z. rewrite (jac_0 _ _ _ HP). lra. Qed.
End P.

End J.
Section J2.
Variables (a b : R).
Hypotheses (Ha : -1 < a) (Hb : -1 < b).
Variables (P Q : Z -> R -> R).
Hypotheses (HP : is_jacobi a b P) (HQ : is_jacobi (a + 1) (b + 1) Q).
Definition ext0 (Q : Z -> R -> R) (i : Z) (x : R) : R := if (i <? 0)%Z then 0 else Q i x.
Lemma ext0_pos Q' i x : (0 <= i)%Z -> ext0 Q' i x = Q' i x. Proof. intros. unfold ext0. now replace (i <? 0)%Z with false by lia. Qed.
Lemma ext0_neg Q' i x : (i < 0)%Z -> ext0 Q' i x = 0. Proof. intros. unfold ext0. now replace (i <? 0)%Z with true by lia. Qed.
Lemma Q_mult n x : (0 <= n)%Z -> x * ext0 Q n x =
  mL (IZR n) (a+1) (b+1) * ext0 Q (n - 1) x + mD (IZR n) (a+1) (b+1) * ext0 Q n x + mU (IZR n) (a+1) (b+1) * ext0 Q (n + 1) x.
Proof.
  intros Hn. rewrite (ext0_pos Q n), (ext0_pos Q (n+1)) by lia. destruct (Z.eq_dec n 0) as [->|].
  - rewrite ext0_neg by lia. rewrite (jac_mult0' (a+1) (b+1) ltac:(lra) ltac:(lra) Q HQ) by lra. cbn [Z.add]. lra.
  - rewrite ext0_pos by lia. apply (jac_mult (a+1) (b+1)); auto; try lra; try lia.
Qed.
Lemma jac_raise_1 x : P 1 x = r0 1 a b * Q 1 x + r1 1 a b * Q 0 x.
Proof. rewrite (jac_1 _ _ _ HP), (jac_1 _ _ _ HQ), (jac_0 _ _ _ HQ). fld. Qed.
Lemma jac_raise_2 x : P 2 x = r0 2 a b * Q 2 x + r1 2 a b * Q 1 x + r2 2 a b * Q 0 x.
Proof.
  rewrite (jac_2 a b Ha Hb P HP), (jac_2 (a+1) (b+1) ltac:(lra) ltac:(lra) Q HQ), (jac_1 _ _ _ HP), (jac_1 _ _ _ HQ), (jac_0 _ _ _ HQ). fld.
Qed.
Lemma jac_raise_step n x : (2 <= n)%Z ->
  (forall k, (k = n \/ k = n - 1)%Z -> P k x = r0 (IZR k) a b * ext0 Q k x + r1 (IZR k) a b * ext0 Q (k-1) x + r2 (IZR k) a b * ext0 Q (k-2) x) ->
  P (n + 1)%Z x = r0 (IZR (n+1)) a b * ext0 Q (n+1) x + r1 (IZR (n+1)) a b * ext0 Q n x + r2 (IZR (n+1)) a b * ext0 Q (n-1) x.
Proof.
  intros Hn H. rewrite (jac_rec a b Ha Hb P HP) by lia. rewrite (H n), (H (n-1)%Z) by lia.
  assert (M0 := Q_mult n x ltac:(lia)). assert (M1 := Q_mult (n-1) x ltac:(lia)). assert (M2 := Q_mult (n-2) x ltac:(lia)).
  replace (n - 1 - 1)%Z with (n - 2)%Z in * by lia. replace (n - 1 - 2)%Z with (n - 3)%Z in * by lia. replace (n - 2 - 1)%Z with (n - 3)%Z in * by lia.
  replace (n - 1 + 1)%Z with n in * by lia. replace (n - 2 + 1)%Z with (n - 1)%Z in * by lia.
  rewrite !minus_IZR in *. rewrite !plus_IZR in *. apply IZR_le in Hn. set (k := IZR n) in *.
  set (q := ext0 Q n x) in *. set (q1 := ext0 Q (n-1) x) in *. set (q2 := ext0 Q (n-2) x) in *. set (q3 := ext0 Q (n-3) x) in *. set (qu := ext0 Q (n+1) x) in *.
  clearbody k q q1 q2 q3 qu. clear H.
  assert (I1 : rA k a b * r0 k a b * mU k (a+1) (b+1) = r0 (k+1) a b) by fld.
  assert (I2 : rA k a b * (r0 k a b * mD k (a+1) (b+1) + r1 k a b * mU (k-1) (a+1) (b+1)) + rB k a b * r0 k a b = r1 (k+1) a b) by fld.
  assert (I3 : rA k a b * (r0 k a b * mL k (a+1) (b+1) + r1 k a b * mD (k-1) (a+1) (b+1) + r2 k a b * mU (k-2) (a+1) (b+1)) + rB k a b * r1 k a b - rC k a b * r0 (k-1) a b = r2 (k+1) a b) by fld.
  assert (I4 : rA k a b * (r1 k a b * mL (k-1) (a+1) (b+1) + r2 k a b * mD (k-2) (a+1) (b+1)) + rB k a b * r2 k a b - rC k a b * r1 (k-1) a b = 0) by fld.
  assert (I5 : rA k a b * (r2 k a b * mL (k-2) (a+1) (b+1)) - rC k a b * r2 (k-1) a b = 0) by fld.
  rewrite <- I1, <- I2, <- I3.
  transitivity (rA k a b * (r0 k a b * (x * q) + r1 k a b * (x * q1) + r2 k a b * (x * q2)) + rB k a b * (r0 k a b * q + r1 k a b * q1 + r2 k a b * q2)
    - rC k a b * (r0 (k-1) a b * q1 + r1 (k-1) a b * q2 + r2 (k-1) a b * q3)); [ring|].
  rewrite M0, M1, M2.
  transitivity ((rA k a b * r0 k a b * mU k (a+1) (b+1)) * qu + (rA k a b * (r0 k a b * mD k (a+1) (b+1) + r1 k a b * mU (k-1) (a+1) (b+1)) + rB k a b * r0 k a b) * q
    + (rA k a b * (r0 k a b * mL k (a+1) (b+1) + r1 k a b * mD (k-1) (a+1) (b+1) + r2 k a b * mU (k-2) (a+1) (b+1)) + rB k a b * r1 k a b - rC k a b * r0 (k-1) a b) * q1
    + (rA k a b * (r1 k a b * mL (k-1) (a+1) (b+1) + r2 k a b * mD (k-2) (a+1) (b+1)) + rB k a b * r2 k a b - rC k a b * r1 (k-1) a b) * q2
    + (rA k a b * (r2 k a b * mL (k-2) (a+1) (b+1)) - rC k a b * r2 (k-1) a b) * q3); [ring|].
  rewrite I4, I5. ring.
Qed.
Lemma jac_raise n x : (1 <= n)%Z -> P n x = r0 (IZR n) a b * ext0 Q n x + r1 (IZR n) a b * ext0 Q (n-1) x + r2 (IZR n) a b * ext0 Q (n-2) x.
Proof.
  intros Hn. enough (H : forall k, (1 <= k)%Z -> forall i, (1 <= i <= k)%Z -> P i x = r0 (IZR i) a b * ext0 Q i x + r1 (IZR i) a b * ext0 Q (i-1) x + r2 (IZR i) a b * ext0 Q (i-2) x) by (apply (H n); lia).
  intros k Hk. pattern k. apply (Zlt_lower_bound_ind _ 1); [|exact Hk]. clear k Hk. intros k IH Hk i Hi.
  destruct (Z.eq_dec i 1) as [->|]. { rewrite (ext0_pos Q 1), (ext0_pos Q (1-1)), (ext0_neg Q (1-2)) by lia. cbn [Z.sub Z.add Z.opp Z.pos_sub]. rewrite jac_raise_1. lra. }
  destruct (Z.eq_dec i 2) as [->|]. { rewrite !ext0_pos by lia. cbn. apply jac_raise_2. }
  replace i with (i - 1 + 1)%Z at 1 by lia. rewrite (jac_raise_step (i-1)) by (try lia; intros q Hq; apply (IH (k-1)%Z); lia).
  replace (i - 1 + 1)%Z with i by lia. replace (i - 1 - 1)%Z with (i - 2)%Z by lia. reflexivity.
Qed.
End J2.
