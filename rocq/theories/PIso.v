(** Proofs about the ZYZR factorisation *)
From Coq Require Import ZArith List Lia Bool Reals Lra ZifyBool ZifyNat.
From Verif Require Import Base Arith MIso SpecSum SpecIso.
Import ListNotations.
Open Scope R_scope.

Lemma R_lt_b x y : ltb x y = true <-> x < y.
Proof. cbn. unfold R_ltb. destruct (Rlt_dec x y); split; intros; auto; discriminate. Qed.
Lemma R_lt_bf x y : ltb x y = false <-> y <= x.
Proof. cbn. unfold R_ltb. destruct (Rlt_dec x y); split; intros; auto; try discriminate; lra. Qed.
Lemma R_le_b x y : leb x y = true <-> x <= y.
Proof. cbn. unfold R_leb. destruct (Rle_dec x y); split; intros; auto; discriminate. Qed.
Lemma R_le_bf x y : leb x y = false <-> y < x.
Proof. cbn. unfold R_leb. destruct (Rle_dec x y); split; intros; auto; try discriminate; lra. Qed.

Lemma sq0 x : x * x = 0 -> x = 0.
Proof. intros H. apply Rmult_integral in H. tauto. Qed.
Lemma ssq0 x y : x * x + y * y = 0 -> x = 0 /\ y = 0.
Proof. intros H. split; apply sq0; nra. Qed.
Lemma ssq3 x y z : x * x + y * y + z * z = 0 -> x = 0 /\ y = 0 /\ z = 0.
Proof. intros H. repeat split; apply sq0; nra. Qed.

(** what compute_givens returns, when the hypotenuse is zero or above the threshold *)
Lemma givens_ok tiny x y : 0 <= tiny -> ((x = 0 /\ y = 0) \/ tiny < hyp x y) ->
  exists c s r, compute_givens hyp tiny x y = (c, s, r) /\ c * c + s * s = 1 /\ r = c * x + s * y /\ c * y - s * x = 0 /\ r * r = x * x + y * y
    /\ ((x = 0 /\ y = 0 /\ c = 1 /\ s = 0) \/ (hyp x y > 0 /\ c = x / hyp x y /\ s = y / hyp x y)).
Proof.
  intros Ht D. unfold compute_givens. destruct (leb (hyp x y) tiny) eqn:E.
  - apply R_le_b in E. destruct D as [[-> ->]|D]; [|lra]. unfold hyp. cbn. rewrite !Rmult_0_l, Rplus_0_l, sqrt_0. exists 1, 0, 0. split; [reflexivity|]. repeat split; try ring. left. repeat split.
  - apply R_le_bf in E. assert (P : 0 < hyp x y) by lra. cbn. exists (x / hyp x y), (y / hyp x y), (hyp x y). split; [reflexivity|].
    assert (S : hyp x y * hyp x y = x * x + y * y) by (unfold hyp; apply sqrt_sqrt; nra).
    repeat split.
    + replace (x / hyp x y * (x / hyp x y) + y / hyp x y * (y / hyp x y)) with ((x * x + y * y) / (hyp x y * hyp x y)) by (field; lra). rewrite S. field. rewrite <- S. nra.
    + replace (x / hyp x y * x + y / hyp x y * y) with ((x * x + y * y) / hyp x y) by (field; lra). rewrite <- S. field. lra.
    + field. lra.
    + exact S.
    + right. repeat split. exact P.
Qed.

(** orthonormal columns *)
Definition cols (Q : o3 R) : Prop :=
  q0 Q * q0 Q + q1 Q * q1 Q + q2 Q * q2 Q = 1 /\ q3 Q * q3 Q + q4 Q * q4 Q + q5 Q * q5 Q = 1 /\ q6 Q * q6 Q + q7 Q * q7 Q + q8 Q * q8 Q = 1 /\
  q0 Q * q3 Q + q1 Q * q4 Q + q2 Q * q5 Q = 0 /\ q0 Q * q6 Q + q1 Q * q7 Q + q2 Q * q8 Q = 0 /\ q3 Q * q6 Q + q4 Q * q7 Q + q5 Q * q8 Q = 0.
Lemma orth_cols Q : orthogonal3 Q -> cols Q.
Proof. unfold orthogonal3, mul3, tr3, id3, cols. cbn. intros H. injection H. intros. repeat split; lra. Qed.
Lemma cols_orth Q : cols Q -> orthogonal3 Q.
Proof. unfold orthogonal3, mul3, tr3, id3, cols. cbn. intros (A & B & C & D & E & G). f_equal; lra. Qed.

Lemma det_sq Q : cols Q -> det3 Q * det3 Q = 1.
Proof.
  intros (A & B & C & D & E & G).
  assert (I : det3 Q * det3 Q = (q0 Q * q0 Q + q1 Q * q1 Q + q2 Q * q2 Q) * ((q3 Q * q3 Q + q4 Q * q4 Q + q5 Q * q5 Q) * (q6 Q * q6 Q + q7 Q * q7 Q + q8 Q * q8 Q)
     - (q3 Q * q6 Q + q4 Q * q7 Q + q5 Q * q8 Q) * (q3 Q * q6 Q + q4 Q * q7 Q + q5 Q * q8 Q))
     - (q0 Q * q3 Q + q1 Q * q4 Q + q2 Q * q5 Q) * ((q0 Q * q3 Q + q1 Q * q4 Q + q2 Q * q5 Q) * (q6 Q * q6 Q + q7 Q * q7 Q + q8 Q * q8 Q) - (q3 Q * q6 Q + q4 Q * q7 Q + q5 Q * q8 Q) * (q0 Q * q6 Q + q1 Q * q7 Q + q2 Q * q8 Q))
     + (q0 Q * q6 Q + q1 Q * q7 Q + q2 Q * q8 Q) * ((q0 Q * q3 Q + q1 Q * q4 Q + q2 Q * q5 Q) * (q3 Q * q6 Q + q4 Q * q7 Q + q5 Q * q8 Q) - (q3 Q * q3 Q + q4 Q * q4 Q + q5 Q * q5 Q) * (q0 Q * q6 Q + q1 Q * q7 Q + q2 Q * q8 Q)))
    by (unfold det3; ring).
  rewrite I, A, B, C, D, E, G. ring.
Qed.
Lemma det_pm Q : cols Q -> det3 Q = 1 \/ det3 Q = -1.
Proof. intros H. pose proof (det_sq Q H) as D. assert (Z : (det3 Q - 1) * (det3 Q + 1) = 0) by lra. apply Rmult_integral in Z. lra. Qed.
(** col1 = det * (col2 x col3) *)
Lemma cross1 Q : cols Q -> q0 Q = det3 Q * (q4 Q * q8 Q - q5 Q * q7 Q) /\ q1 Q = det3 Q * (q5 Q * q6 Q - q3 Q * q8 Q) /\ q2 Q = det3 Q * (q3 Q * q7 Q - q4 Q * q6 Q).
Proof.
  intros H. pose proof (det_sq Q H) as S. destruct H as (A & B & C & D & E & G). set (e := det3 Q) in *.
  assert (Z : (q0 Q - e * (q4 Q * q8 Q - q5 Q * q7 Q)) * (q0 Q - e * (q4 Q * q8 Q - q5 Q * q7 Q)) + (q1 Q - e * (q5 Q * q6 Q - q3 Q * q8 Q)) * (q1 Q - e * (q5 Q * q6 Q - q3 Q * q8 Q))
     + (q2 Q - e * (q3 Q * q7 Q - q4 Q * q6 Q)) * (q2 Q - e * (q3 Q * q7 Q - q4 Q * q6 Q)) = 0).
  { transitivity ((q0 Q * q0 Q + q1 Q * q1 Q + q2 Q * q2 Q) - 2 * e * det3 Q + e * e * ((q3 Q * q3 Q + q4 Q * q4 Q + q5 Q * q5 Q) * (q6 Q * q6 Q + q7 Q * q7 Q + q8 Q * q8 Q)
     - (q3 Q * q6 Q + q4 Q * q7 Q + q5 Q * q8 Q) * (q3 Q * q6 Q + q4 Q * q7 Q + q5 Q * q8 Q))); [unfold det3; ring|].
    rewrite A, B, C, G. fold e. replace (2 * e * e) with (2 * (e * e)) by ring. rewrite S. ring. }
  apply ssq3 in Z. lra.
Qed.
Lemma rows Q : cols Q -> cols (tr3 Q).
Proof.
  intros H. pose proof (det_sq Q H) as S. assert (K := H). destruct H as (A & B & C & D & E & G).
  (* Q Q^T = I from Q^T Q = I: det * Q^T is the adjugate *)
  assert (H1 := cross1 Q K).
  set (Q2 := O3 (q3 Q) (q4 Q) (q5 Q) (q6 Q) (q7 Q) (q8 Q) (q0 Q) (q1 Q) (q2 Q)).
  set (Q3 := O3 (q6 Q) (q7 Q) (q8 Q) (q0 Q) (q1 Q) (q2 Q) (q3 Q) (q4 Q) (q5 Q)).
  assert (K2 : cols Q2) by (unfold cols, Q2; cbn; repeat split; lra).
  assert (K3 : cols Q3) by (unfold cols, Q3; cbn; repeat split; lra).
  assert (D2 : det3 Q2 = det3 Q) by (unfold det3, Q2; cbn; ring).
  assert (D3 : det3 Q3 = det3 Q) by (unfold det3, Q3; cbn; ring).
  assert (H2 := cross1 Q2 K2). assert (H3 := cross1 Q3 K3). rewrite D2 in H2. rewrite D3 in H3. unfold Q2, Q3 in H2, H3; cbn in H2, H3.
  destruct H1 as (a0 & a1 & a2), H2 as (b0 & b1 & b2), H3 as (c0 & c1 & c2). set (e := det3 Q) in *.
  unfold cols, tr3. cbn.
  assert (X0 : q0 Q * q0 Q + q3 Q * q3 Q + q6 Q * q6 Q = e * det3 Q) by (transitivity (q0 Q * (e * (q4 Q * q8 Q - q5 Q * q7 Q)) + q3 Q * (e * (q7 Q * q2 Q - q8 Q * q1 Q)) + q6 Q * (e * (q1 Q * q5 Q - q2 Q * q4 Q))); [rewrite <- a0, <- b0, <- c0; ring|unfold det3; ring]).
  assert (X1 : q1 Q * q1 Q + q4 Q * q4 Q + q7 Q * q7 Q = e * det3 Q) by (transitivity (q1 Q * (e * (q5 Q * q6 Q - q3 Q * q8 Q)) + q4 Q * (e * (q8 Q * q0 Q - q6 Q * q2 Q)) + q7 Q * (e * (q2 Q * q3 Q - q0 Q * q5 Q))); [rewrite <- a1, <- b1, <- c1; ring|unfold det3; ring]).
  assert (X2 : q2 Q * q2 Q + q5 Q * q5 Q + q8 Q * q8 Q = e * det3 Q) by (transitivity (q2 Q * (e * (q3 Q * q7 Q - q4 Q * q6 Q)) + q5 Q * (e * (q6 Q * q1 Q - q7 Q * q0 Q)) + q8 Q * (e * (q0 Q * q4 Q - q1 Q * q3 Q))); [rewrite <- a2, <- b2, <- c2; ring|unfold det3; ring]).
  assert (Y0 : q0 Q * q1 Q + q3 Q * q4 Q + q6 Q * q7 Q = 0) by (transitivity (q0 Q * (e * (q5 Q * q6 Q - q3 Q * q8 Q)) + q3 Q * (e * (q8 Q * q0 Q - q6 Q * q2 Q)) + q6 Q * (e * (q2 Q * q3 Q - q0 Q * q5 Q))); [rewrite <- a1, <- b1, <- c1; ring|ring]).
  assert (Y1 : q0 Q * q2 Q + q3 Q * q5 Q + q6 Q * q8 Q = 0) by (transitivity (q0 Q * (e * (q3 Q * q7 Q - q4 Q * q6 Q)) + q3 Q * (e * (q6 Q * q1 Q - q7 Q * q0 Q)) + q6 Q * (e * (q0 Q * q4 Q - q1 Q * q3 Q))); [rewrite <- a2, <- b2, <- c2; ring|ring]).
  assert (Y2 : q1 Q * q2 Q + q4 Q * q5 Q + q7 Q * q8 Q = 0) by (transitivity (q1 Q * (e * (q3 Q * q7 Q - q4 Q * q6 Q)) + q4 Q * (e * (q6 Q * q1 Q - q7 Q * q0 Q)) + q7 Q * (e * (q0 Q * q4 Q - q1 Q * q3 Q))); [rewrite <- a2, <- b2, <- c2; ring|ring]).
  fold e in X0, X1, X2. rewrite S in X0, X1, X2. tauto.
Qed.

Lemma step tiny x y u v : 0 <= tiny -> ((x = 0 /\ y = 0) \/ tiny < hyp x y) ->
  exists c s r, flip (ltb (let '(c, s, _) := compute_givens hyp tiny x y in sub (mul c u) (mul s v)) zero) (compute_givens hyp tiny x y) = (c, s, r) /\
    c * c + s * s = 1 /\ r = c * x + s * y /\ c * y - s * x = 0 /\ r * r = x * x + y * y /\ 0 <= c * u - s * v /\ (c * u - s * v = 0 -> 0 <= r) /\ (x = 0 -> y = 0 -> s = 0).
Proof.
  intros Ht D. destruct (givens_ok tiny x y Ht D) as (c & s & r & E & N & Hr & Z & S & K). rewrite E.
  assert (R0 : 0 <= r). { unfold compute_givens in E. assert (0 <= hyp x y) by apply sqrt_pos. destruct (leb (hyp x y) tiny); injection E; intros; subst; cbn; try lra; auto. }
  assert (K' : x = 0 -> y = 0 -> s = 0). { intros -> ->. destruct K as [(_ & _ & _ & ->)|(P & _ & ->)]; auto. unfold Rdiv. ring. }
  destruct (ltb (sub (mul c u) (mul s v)) zero) eqn:B.
  - apply R_lt_b in B. cbn in B. exists (- c), (- s), (- r). split; [reflexivity|]. repeat split; try lra. 
  - apply R_lt_bf in B. cbn in B. exists c, s, r. split; [reflexivity|]. repeat split; auto; lra.
Qed.

Lemma hyp_1 x y : x * x + y * y = 1 -> hyp x y = 1.
Proof. intros H. unfold hyp. rewrite H. apply sqrt_1. Qed.

(** the shape of the result *)
Lemma create_shape tiny Q : 0 <= tiny < 1 -> cols Q -> ((q6 Q = 0 /\ q7 Q = 0) \/ tiny < hyp (q6 Q) (q7 Q)) ->
  exists c0 s0 c1 s1 a b c d r, create_ZYZR hyp tiny Q = ZYZR s0 (- s1) (- c) c0 c1 d (if ltb 0 r then 1%Z else (-1)%Z) /\
    c0 * c0 + s0 * s0 = 1 /\ c1 * c1 + s1 * s1 = 1 /\ r * r = 1 /\ 0 <= a /\ 0 <= d /\ a * a + b * b = 1 /\ c * c + d * d = 1 /\ a * c + b * d = 0 /\
    (a = 0 -> 0 <= r) /\ (q6 Q = 0 -> q7 Q = 0 -> s0 = 0 /\ d = c0 * q4 Q) /\ (s1 = 0 -> q6 Q = 0 /\ q7 Q = 0) /\
    Q = O3 (c0 * (c1 * a) - s0 * b) (c0 * b + s0 * (c1 * a)) (- s1 * a)
           (c0 * (c1 * c) - s0 * d) (c0 * d + s0 * (c1 * c)) (- s1 * c)
           (c0 * (s1 * r)) (s0 * (s1 * r)) (c1 * r).
Proof.
  intros Ht K D. assert (K0 := K). destruct K as (A & B & C & H01 & H02 & H12).
  destruct (step tiny (q6 Q) (q7 Q) (q4 Q) (q3 Q)) as (c0 & s0 & r0 & E0 & N0 & R0 & Z0 & S0 & P0 & _ & W0); [lra|exact D|].
  assert (D1 : tiny < hyp (q8 Q) r0). { rewrite hyp_1; [lra|]. rewrite S0. lra. }
  destruct (step tiny (q8 Q) r0 (c0 * q0 Q + s0 * q1 Q) (q2 Q)) as (c1 & s1 & r & E1 & N1 & R1 & Z1 & S1 & P1 & V1 & _); [lra|right; exact D1|].
  set (U0 := c0 * q0 Q + s0 * q1 Q) in *. set (U1 := c0 * q1 Q - s0 * q0 Q) in *. set (U3 := c0 * q3 Q + s0 * q4 Q) in *. set (U4 := c0 * q4 Q - s0 * q3 Q) in *.
  set (a := c1 * U0 - s1 * q2 Q) in *. set (c := c1 * U3 - s1 * q5 Q) in *. set (V2 := c1 * q2 Q + s1 * U0) in *. set (V5 := c1 * q5 Q + s1 * U3) in *.
  assert (Hr : r * r = 1) by (rewrite S1, S0; lra).
  (* V is orthogonal with third column (0, 0, r) *)
  assert (Q60 : q6 Q = c0 * r0) by (rewrite R0; replace (c0 * (c0 * q6 Q + s0 * q7 Q)) with (c0 * c0 * q6 Q + s0 * (c0 * q7 Q)) by ring; replace (c0 * q7 Q) with (s0 * q6 Q) by lra; replace (c0 * c0 * q6 Q + s0 * (s0 * q6 Q)) with ((c0 * c0 + s0 * s0) * q6 Q) by ring; rewrite N0; ring).
  assert (Q70 : q7 Q = s0 * r0) by (rewrite R0; replace (s0 * (c0 * q6 Q + s0 * q7 Q)) with (s0 * s0 * q7 Q + c0 * (s0 * q6 Q)) by ring; replace (s0 * q6 Q) with (c0 * q7 Q) by lra; replace (s0 * s0 * q7 Q + c0 * (c0 * q7 Q)) with ((c0 * c0 + s0 * s0) * q7 Q) by ring; rewrite N0; ring).
  assert (Q80 : q8 Q = c1 * r) by (rewrite R1; replace (c1 * (c1 * q8 Q + s1 * r0)) with (c1 * c1 * q8 Q + s1 * (c1 * r0)) by ring; replace (c1 * r0) with (s1 * q8 Q) by lra; replace (c1 * c1 * q8 Q + s1 * (s1 * q8 Q)) with ((c1 * c1 + s1 * s1) * q8 Q) by ring; rewrite N1; ring).
  assert (R00 : r0 = s1 * r) by (rewrite R1; replace (s1 * (c1 * q8 Q + s1 * r0)) with (s1 * s1 * r0 + c1 * (s1 * q8 Q)) by ring; replace (s1 * q8 Q) with (c1 * r0) by lra; replace (s1 * s1 * r0 + c1 * (c1 * r0)) with ((c1 * c1 + s1 * s1) * r0) by ring; rewrite N1; ring).
  assert (V2r : V2 * r = 0).
  { transitivity (U0 * r0 + q2 Q * q8 Q); [unfold V2; rewrite R00, Q80; ring|]. transitivity (q0 Q * q6 Q + q1 Q * q7 Q + q2 Q * q8 Q); [unfold U0; rewrite Q60, Q70; ring|exact H02]. }
  assert (V5r : V5 * r = 0).
  { transitivity (U3 * r0 + q5 Q * q8 Q); [unfold V5; rewrite R00, Q80; ring|]. transitivity (q3 Q * q6 Q + q4 Q * q7 Q + q5 Q * q8 Q); [unfold U3; rewrite Q60, Q70; ring|exact H12]. }
  assert (Z2 : V2 = 0) by (replace V2 with (V2 * r * r) by (replace (V2 * r * r) with (V2 * (r * r)) by ring; rewrite Hr; ring); rewrite V2r; ring).
  assert (Z5 : V5 = 0) by (replace V5 with (V5 * r * r) by (replace (V5 * r * r) with (V5 * (r * r)) by ring; rewrite Hr; ring); rewrite V5r; ring).
  assert (NU0 : U0 * U0 + U1 * U1 + q2 Q * q2 Q = 1). { transitivity ((c0 * c0 + s0 * s0) * (q0 Q * q0 Q + q1 Q * q1 Q) + q2 Q * q2 Q); [unfold U0, U1; ring|rewrite N0; lra]. }
  assert (NU3 : U3 * U3 + U4 * U4 + q5 Q * q5 Q = 1). { transitivity ((c0 * c0 + s0 * s0) * (q3 Q * q3 Q + q4 Q * q4 Q) + q5 Q * q5 Q); [unfold U3, U4; ring|rewrite N0; lra]. }
  assert (NU : U0 * U3 + U1 * U4 + q2 Q * q5 Q = 0). { transitivity ((c0 * c0 + s0 * s0) * (q0 Q * q3 Q + q1 Q * q4 Q) + q2 Q * q5 Q); [unfold U0, U1, U3, U4; ring|rewrite N0; lra]. }
  assert (a1 : a * a + U1 * U1 = 1). { transitivity ((c1 * c1 + s1 * s1) * (U0 * U0 + q2 Q * q2 Q) + U1 * U1 - V2 * V2); [unfold a, V2; ring|rewrite N1, Z2; lra]. }
  assert (a2 : c * c + U4 * U4 = 1). { transitivity ((c1 * c1 + s1 * s1) * (U3 * U3 + q5 Q * q5 Q) + U4 * U4 - V5 * V5); [unfold c, V5; ring|rewrite N1, Z5; lra]. }
  assert (a3 : a * c + U1 * U4 = 0). { transitivity ((c1 * c1 + s1 * s1) * (U0 * U3 + q2 Q * q5 Q) + U1 * U4 - V2 * V5); [unfold a, c, V2, V5; ring|rewrite N1, Z2; lra]. }
  assert (U0e : U0 = c1 * a) by (transitivity ((c1 * c1 + s1 * s1) * U0 - s1 * V2); [rewrite N1, Z2; ring|unfold a, V2; ring]).
  assert (q2e : q2 Q = - s1 * a) by (transitivity ((c1 * c1 + s1 * s1) * q2 Q - c1 * V2); [rewrite N1, Z2; ring|unfold a, V2; ring]).
  assert (U3e : U3 = c1 * c) by (transitivity ((c1 * c1 + s1 * s1) * U3 - s1 * V5); [rewrite N1, Z5; ring|unfold c, V5; ring]).
  assert (q5e : q5 Q = - s1 * c) by (transitivity ((c1 * c1 + s1 * s1) * q5 Q - c1 * V5); [rewrite N1, Z5; ring|unfold c, V5; ring]).
  exists c0, s0, c1, s1, a, U1, c, U4, r. split.
  - unfold create_ZYZR. rewrite E0. cbn [q0 q1 q2 q3 q4 q5 q6 q7 q8]. cbn [add sub mul zero R_arith]. fold U0 U1 U3 U4. change (flip (ltb (let '(c, s, _) := compute_givens hyp tiny (q8 Q) r0 in sub (mul c U0) (mul s (q2 Q))) zero) (compute_givens hyp tiny (q8 Q) r0) = (c1, s1, r)) in E1.
    cbn [sub mul zero R_arith] in E1. rewrite E1. fold c.
    unfold compute_givens at 1. rewrite hyp_1 by lra. cbn [leb R_arith]. unfold R_leb. destruct (Rle_dec 1 tiny); [lra|]. cbn [opp div R_arith]. unfold Rdiv. rewrite Rinv_1, !Rmult_1_r. reflexivity.
  - repeat split; auto.
    + unfold U4. rewrite W0 by auto. ring.
    + assert (Y : r0 = 0) by (rewrite R00, H; ring). rewrite Q60, Y. ring.
    + assert (Y : r0 = 0) by (rewrite R00, H; ring). rewrite Q70, Y. ring.
    + destruct Q as [x0 x1 x2 x3 x4 x5 x6 x7 x8]. cbn in *. rewrite <- U0e, <- U3e, <- R00. f_equal; auto.
      * transitivity ((c0 * c0 + s0 * s0) * x0); [rewrite N0; ring|unfold U0, U1; ring].
      * transitivity ((c0 * c0 + s0 * s0) * x1); [rewrite N0; ring|unfold U0, U1; ring].
      * transitivity ((c0 * c0 + s0 * s0) * x3); [rewrite N0; ring|unfold U3, U4; ring].
      * transitivity ((c0 * c0 + s0 * s0) * x4); [rewrite N0; ring|unfold U3, U4; ring].
Qed.

Lemma zyzr_proof tiny Q U : 0 <= tiny < 1 -> orthogonal3 Q -> ((q6 Q = 0 /\ q7 Q = 0) \/ tiny < hyp (q6 Q) (q7 Q)) ->
  (det3 Q = 1 \/ q2 Q <> 0 \/ (q6 Q = 0 /\ q7 Q = 0 /\ q4 Q <> 0)) ->
  apply_ZYZR (create_ZYZR hyp tiny Q) U = mul3 Q U.
Proof.
  intros Ht HO D G. apply orth_cols in HO.
  destruct (create_shape tiny Q Ht HO D) as (c0 & s0 & c1 & s1 & a & b & c & d & r & E & N0 & N1 & Nr & Pa & Pd & Nab & Ncd & Z & Sr & W & _ & EQ).
  assert (R1 : r = 1 \/ r = -1) by (assert (X : (r - 1) * (r + 1) = 0) by lra; apply Rmult_integral in X; lra).
  assert (DQ : det3 Q = r * (a * d - b * c)).
  { rewrite EQ at 1. unfold det3. cbn [q0 q1 q2 q3 q4 q5 q6 q7 q8]. transitivity ((c0 * c0 + s0 * s0) * (c1 * c1 + s1 * s1) * (r * (a * d - b * c))); [ring|rewrite N0, N1; ring]. }
  assert (BD : (a * d - b * c) * (a * d - b * c) = 1).
  { transitivity ((a * a + b * b) * (c * c + d * d) - (a * c + b * d) * (a * c + b * d)); [ring|rewrite Nab, Ncd, Z; ring]. }
  assert (Cd : c = - (a * d - b * c) * b /\ d = (a * d - b * c) * a).
  { split.
    - transitivity ((a * a + b * b) * c - a * (a * c + b * d)); [rewrite Nab, Z; ring|ring].
    - transitivity ((a * a + b * b) * d - b * (a * c + b * d)); [rewrite Nab, Z; ring|ring]. }
  assert (OK : c = - b /\ d = a).
  { assert (X : (a * d - b * c - 1) * (a * d - b * c + 1) = 0) by lra. apply Rmult_integral in X. destruct X as [X|X].
    - replace (a * d - b * c) with 1 in Cd by lra. lra.
    - exfalso. replace (a * d - b * c) with (-1) in Cd by lra. assert (a = 0 /\ d = 0) as [Ha Hd] by lra. specialize (Sr Ha).
      replace (a * d - b * c) with (-1) in DQ by lra. destruct G as [G|[G|(G6 & G7 & G4)]].
      + lra.
      + apply G. rewrite EQ. cbn. rewrite Ha. ring.
      + destruct (W G6 G7) as [Hs Hd']. apply G4. rewrite Hs in N0. assert (c0 * q4 Q = 0) by lra. apply Rmult_integral in H. destruct H; [|auto]. rewrite H in N0. lra. }
  destruct OK as [-> ->]. rewrite E. rewrite EQ. clear - R1. unfold apply_ZYZR, mul3. cbn [zsign zs0 zs1 zs2 zc0 zc1 zc2]. destruct R1 as [-> | ->].
  - replace (ltb 0 1) with true by (symmetry; apply R_lt_b; lra). cbn [Z.ltb Z.compare]. cbn. f_equal; ring.
  - replace (ltb 0 (-1)) with false by (symmetry; apply R_lt_bf; lra). cbn [Z.ltb Z.compare]. cbn. f_equal; ring.
Qed.

Lemma zyzr_bad tiny Q : 0 <= tiny < 1 -> orthogonal3 Q -> ((q6 Q = 0 /\ q7 Q = 0) \/ tiny < hyp (q6 Q) (q7 Q)) ->
  det3 Q = -1 -> q2 Q = 0 -> (~ (q6 Q = 0 /\ q7 Q = 0) \/ q4 Q = 0) ->
  apply_ZYZR (create_ZYZR hyp tiny Q) id3 <> Q.
Proof.
  intros Ht HO D G1 G2 G3 X. apply orth_cols in HO.
  destruct (create_shape tiny Q Ht HO D) as (c0 & s0 & c1 & s1 & a & b & c & d & r & E & N0 & N1 & Nr & Pa & Pd & Nab & Ncd & Z & Sr & W & V & EQ).
  assert (A0 : a = 0).
  { assert (Y : - s1 * a = 0) by (rewrite EQ in G2; exact G2). apply Rmult_integral in Y. destruct Y as [Y|Y]; [|exact Y]. assert (Hs : s1 = 0) by lra.
    destruct (V Hs) as [V6 V7]. destruct G3 as [G3|G3]; [tauto|]. destruct (W V6 V7) as [_ Hd]. rewrite G3 in Hd. assert (d = 0) by lra.
    assert (c * c = 1) by (rewrite H in Ncd; lra). rewrite H in Z. assert (a * c = 0) by lra. apply Rmult_integral in H1. destruct H1 as [|Hc]; auto. rewrite Hc in H0. lra. }
  specialize (Sr A0). assert (R1 : r = 1) by (assert (Y : (r - 1) * (r + 1) = 0) by lra; apply Rmult_integral in Y; lra).
  rewrite E in X. subst r. replace (ltb 0 1) with true in X by (symmetry; apply R_lt_b; lra).
  assert (DX : det3 (apply_ZYZR (ZYZR s0 (- s1) (- c) c0 c1 d 1) id3) = (c0 * c0 + s0 * s0) * (c1 * c1 + s1 * s1) * (c * c + d * d)) by (unfold det3; cbn; ring).
  rewrite X, G1, N0, N1, Ncd in DX. lra.
Qed.

Lemma reflection_proof w0 w1 w2 U : w0 * w0 + w1 * w1 + w2 * w2 <> 0 -> apply_reflection w0 w1 w2 U = mul3 (reflection w0 w1 w2) U.
Proof. intros H. unfold apply_reflection, mul3, reflection. cbn. f_equal; field; exact H. Qed.
Lemma reflection_orth w0 w1 w2 : w0 * w0 + w1 * w1 + w2 * w2 <> 0 -> orthogonal3 (reflection w0 w1 w2) /\ det3 (reflection w0 w1 w2) = -1 /\ mul3 (reflection w0 w1 w2) (reflection w0 w1 w2) = id3.
Proof.
  intros H. unfold orthogonal3, mul3, tr3, id3, reflection, det3. cbn. split; [|split].
  - f_equal; field; exact H.
  - field; exact H.
  - f_equal; field; exact H.
Qed.
Lemma mul3_id Q : mul3 Q id3 = Q.
Proof. destruct Q. unfold mul3, id3. cbn. f_equal; ring. Qed.

Lemma zyzr_reflection_good tiny w0 w1 w2 : 0 <= tiny < 1 -> w0 * w0 + w1 * w1 + w2 * w2 <> 0 -> w0 * w2 <> 0 -> tiny < hyp (q6 (reflection w0 w1 w2)) (q7 (reflection w0 w1 w2)) ->
  apply_ZYZR (create_ZYZR hyp tiny (reflection w0 w1 w2)) id3 = reflection w0 w1 w2.
Proof.
  intros Ht H H0 D. destruct (reflection_orth w0 w1 w2 H) as (HO & _). rewrite zyzr_proof; auto; [apply mul3_id|].
  right; left. cbn. intros X. apply H0. assert (Y : -2 * w2 * w0 = 0) by (apply (Rmult_eq_reg_r (/ (w0 * w0 + w1 * w1 + w2 * w2))); [rewrite Rmult_0_l; exact X|apply Rinv_neq_0_compat; exact H]). lra.
Qed.
(** every mirror plane that contains the x axis, other than the two coordinate planes *)
Lemma zyzr_reflection_bad tiny w1 w2 : 0 <= tiny < 1 -> w1 <> 0 -> w2 <> 0 -> tiny < hyp 0 (-2 * w1 * w2 / (w1 * w1 + w2 * w2)) ->
  apply_ZYZR (create_ZYZR hyp tiny (reflection 0 w1 w2)) id3 <> reflection 0 w1 w2.
Proof.
  intros Ht H1 H2 D. assert (H : 0 * 0 + w1 * w1 + w2 * w2 <> 0) by nra. destruct (reflection_orth 0 w1 w2 H) as (HO & DD & _).
  assert (E6 : q6 (reflection 0 w1 w2) = 0) by (cbn; field; lra). assert (E7 : q7 (reflection 0 w1 w2) = -2 * w1 * w2 / (w1 * w1 + w2 * w2)) by (cbn; f_equal; ring).
  apply zyzr_bad; auto.
  - right. rewrite E6, E7. exact D.
  - cbn. field. lra.
  - left. intros [_ Y]. rewrite E7 in Y. assert (Z : w1 * w2 = 0).
    { assert (K : w1 * w1 + w2 * w2 <> 0) by lra. assert (Y' : -2 * w1 * w2 = 0) by (apply (Rmult_eq_reg_r (/ (w1 * w1 + w2 * w2))); [rewrite Rmult_0_l; exact Y|apply Rinv_neq_0_compat; exact K]). lra. }
    apply Rmult_integral in Z. tauto.
Qed.
