(** * Derivatives and products of associated Legendre functions *)
From Coq Require Import ZArith List Lia Bool Reals Lra Factorial.
From Verif Require Import Base BaseFacts Arith SpecSum PSum MIso SpecIso SpecGeo SpecGrad.
Open Scope R_scope.

Definition L (m : nat) (i : nat) (t : R) : R := fst (legendre2 m t i).
(** the function of index i-1, zero for i = 0 *)
Definition Lp (m i : nat) (t : R) : R := match i with O => 0 | S j => L m j t end.
Lemma L_0 m t : L m 0 t = oddfact m * sin t ^ m. Proof. reflexivity. Qed.
Lemma L_pair m i t : legendre2 m t i = (L m i t, Lp m i t).
Proof. destruct i; [reflexivity|]. unfold L. cbn [legendre2 Lp]. unfold L. destruct (legendre2 m t i). reflexivity. Qed.
Lemma L_S m i t : (INR i + 1) * L m (S i) t = (2 * INR (m + i) + 1) * cos t * L m i t - INR (2 * m + i) * Lp m i t.
Proof. unfold L at 1. cbn [legendre2]. rewrite L_pair. cbn [fst]. pose proof (pos_INR i). field. lra. Qed.

(** P_{k}^m - P_{k-2}^m = (2(m-1+k)+1) sin P_k^{m-1}: indices of P^m are shifted by one degree *)
Lemma sine_step m t k : L (S m) k t - match k with S (S j) => L (S m) j t | _ => 0 end = (2 * INR (m + k) + 1) * sin t * L m k t.
Proof.
  set (Q := fun k => L (S m) k t - match k with S (S j) => L (S m) j t | _ => 0 end = (2 * INR (m + k) + 1) * sin t * L m k t).
  enough (forall n, Q n /\ Q (S n) /\ Q (S (S n))) by apply H. clear k.
  assert (Q0 : Q 0%nat).
  { unfold Q. rewrite !L_0. rewrite Nat.add_0_r. cbn [oddfact pow]. ring. }
  assert (Q1 : Q 1%nat).
  { unfold Q in *. pose proof (L_S (S m) 0 t) as C. pose proof (L_S m 0 t) as D. cbn [Lp] in *.
    rewrite !plus_INR, !mult_INR, !S_INR in *. cbn [INR] in *.
    set (b := L (S m) 1 t) in *. set (c := L (S m) 0 t) in *. set (e := L m 1 t) in *. set (f := L m 0 t) in *. set (u := INR m) in *.
    assert (HC : c = (2 * u + 1) * (sin t * f)) by lra.
    assert (HB : b = (2 * u + 3) * cos t * c) by lra. assert (HE : e = (2 * u + 1) * cos t * f) by lra.
    rewrite HB, HE, HC. ring. }
  assert (Q2 : Q 2%nat).
  { unfold Q in *. pose proof (L_S (S m) 1 t) as A. pose proof (L_S m 1 t) as B. pose proof (L_S (S m) 0 t) as C. pose proof (L_S m 0 t) as D. cbn [Lp] in *.
    rewrite !plus_INR, !mult_INR, !S_INR in *. cbn [INR] in *.
    set (a := L (S m) 2 t) in *. set (b := L (S m) 1 t) in *. set (c := L (S m) 0 t) in *. set (d := L m 2 t) in *. set (e := L m 1 t) in *. set (f := L m 0 t) in *. set (u := INR m) in *.
    assert (HD : d = ((2 * (u + 1) + 1) * cos t * e - (2 * u + 1) * f) / 2) by lra.
    assert (HA : a = ((2 * (u + 2) + 1) * cos t * b - (2 * (u + 1) + 1) * c) / 2) by lra.
    assert (HB : b = (2 * u + 3) * (sin t * e)) by lra. assert (HC : c = (2 * u + 1) * (sin t * f)) by lra.
    rewrite HD, HA, HB, HC. field. }
  induction n as [|n (Ha & Hb & Hc)]; [auto|]. split; [exact Hb|]. split; [exact Hc|].
  unfold Q in *. clear Q0 Q1 Q2.
  pose proof (L_S (S m) (S (S n)) t) as A3. pose proof (L_S m (S (S n)) t) as B3. pose proof (L_S (S m) n t) as A1. unfold Lp in *.
  rewrite !plus_INR, !mult_INR, !S_INR in *. cbn [INR] in *. set (u := INR m) in *. set (k := INR n) in *.
  set (p3 := L (S m) (S (S (S n))) t) in *. set (p2 := L (S m) (S (S n)) t) in *. set (p1 := L (S m) (S n) t) in *. set (p0 := L (S m) n t) in *.
  set (q3 := L m (S (S (S n))) t) in *. set (q2 := L m (S (S n)) t) in *. set (q1 := L m (S n) t) in *.
  set (p_ := match n with O => 0 | S j => L (S m) j t end) in *.
  assert (Hk : 0 <= k) by (unfold k; apply pos_INR). assert (Hu : 0 <= u) by (unfold u; apply pos_INR).
  assert (E : (k + 3) * (p3 - p1) = (k + 3) * ((2 * (u + k + 3) + 1) * sin t * q3)).
  { assert (Hq3 : (k + 3) * (sin t * q3) = (2 * (u + k + 2) + 1) * cos t * (sin t * q2) - (2 * u + k + 2) * (sin t * q1)).
    { replace ((k + 3) * (sin t * q3)) with (sin t * ((k + 1 + 1 + 1) * q3)) by ring. rewrite B3. ring. }
    assert (H2 : sin t * q2 = (p2 - p0) / (2 * (u + k + 2) + 1)) by (field_simplify_eq; [lra|lra]).
    assert (H1 : sin t * q1 = (p1 - p_) / (2 * (u + k + 1) + 1)) by (field_simplify_eq; [lra|lra]).
    replace ((k + 3) * ((2 * (u + k + 3) + 1) * sin t * q3)) with ((2 * (u + k + 3) + 1) * ((k + 3) * (sin t * q3))) by ring. rewrite Hq3, H1, H2.
    assert (H3 : p3 = ((2 * (u + 1 + k + 2) + 1) * cos t * p2 - (2 * (u + 1) + k + 2) * p1) / (k + 3)) by (field_simplify_eq; [lra|lra]).
    rewrite H3.
    assert (H4 : p1 = ((2 * (u + 1 + k) + 1) * cos t * p0 - (2 * (u + 1) + k) * p_) / (k + 1)) by (field_simplify_eq; [lra|lra]).
    rewrite H4. field. lra. }
  apply Rmult_eq_reg_l in E; [|lra]. rewrite E. ring.
Qed.
