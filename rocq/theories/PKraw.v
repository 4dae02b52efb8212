(** * Krawtchouk polynomials: symmetry, recurrence and parity, and the folded symmetric matrix
    that diagonalises the blocks of the exchange of the y and z axes *)
From Coq Require Import ZArith List Lia Bool Reals Lra ZifyBool ZifyNat.
From Verif Require Import Base SpecSum PSum.
Open Scope R_scope.

(** terms and partial sums of sum_i (-2)^i C(x,i) C(y,i) / C(n,i) *)
Fixpoint kt (n x y : R) (i : nat) : R :=
  match i with
  | O => 1
  | S i' => -2 * kt n x y i' * ((x - INR i') * (y - INR i')) / ((n - INR i') * (INR i' + 1))
  end.
Fixpoint ks (n x y : R) (m : nat) : R := match m with O => 0 | S m' => ks n x y m' + kt n x y m' end.

Lemma kt_sym n x y i : kt n x y i = kt n y x i.
Proof. induction i; cbn [kt]; auto. rewrite IHi. f_equal. ring. Qed.
Lemma ks_sym n x y m : ks n x y m = ks n y x m.
Proof. induction m; cbn [ks]; auto. now rewrite IHm, kt_sym. Qed.
Lemma INR1 i : INR i + 1 <> 0.
Proof. pose proof (pos_INR i). lra. Qed.
Lemma kt_up n x y i : (forall q, (q < i)%nat -> n - INR q <> 0) -> (y + 1 - INR i) * kt n x (y + 1) i = (y + 1) * kt n x y i.
Proof.
  induction i as [|i IH]; intros H.
  - cbn [kt INR]. ring.
  - cbn [kt]. assert (E := IH ltac:(intros; apply H; lia)). assert (Ni := H i ltac:(lia)). assert (I1 := INR1 i). rewrite S_INR.
    replace ((y + 1 - (INR i + 1)) * (-2 * kt n x (y + 1) i * ((x - INR i) * (y + 1 - INR i)) / ((n - INR i) * (INR i + 1))))
      with ((y - INR i) * (-2) * (x - INR i) * ((y + 1 - INR i) * kt n x (y + 1) i) / ((n - INR i) * (INR i + 1))) by (field; auto).
    rewrite E. field. auto.
Qed.
Lemma kt_diff n x y i : (forall q, (q < S i)%nat -> n - INR q <> 0) ->
  kt n x (y + 1) (S i) - kt n x y (S i) = -2 * (x - INR i) / (n - INR i) * kt n x y i.
Proof.
  intros H. cbn [kt]. assert (E := kt_up n x y i ltac:(intros; apply H; lia)). assert (Ni := H i ltac:(lia)). assert (I1 := INR1 i).
  replace (-2 * kt n x (y + 1) i * ((x - INR i) * (y + 1 - INR i)) / ((n - INR i) * (INR i + 1)))
    with (-2 * (x - INR i) * ((y + 1 - INR i) * kt n x (y + 1) i) / ((n - INR i) * (INR i + 1))) by (field; auto).
  rewrite E. field. auto.
Qed.
Lemma kt_zero n k y i : (k < i)%nat -> kt n (INR k) y i = 0.
Proof.
  induction i as [|i IH]; intros H; [lia|]. cbn [kt]. destruct (Nat.eq_dec k i) as [->|].
  - unfold Rdiv. rewrite Rminus_eq_0. ring.
  - rewrite IH by lia. unfold Rdiv. ring.
Qed.

(** the defect of the difference equation of a partial sum *)
Lemma ks_defect n x y m : (forall q, (q < m)%nat -> n - INR q <> 0) ->
  (n - y) * (ks n x (y + 1) (S m) - ks n x y (S m)) - y * (ks n x y (S m) - ks n x (y - 1) (S m)) + 2 * x * ks n x y (S m) = 2 * (x - INR m) * kt n x y m.
Proof.
  induction m as [|m IH]; intros H.
  - cbn [ks kt INR]. ring.
  - assert (E := IH ltac:(intros; apply H; lia)). assert (Nm := H m ltac:(lia)). assert (I1 := INR1 m).
    remember (S m) as m1 eqn:Em. cbn [ks]. subst m1.
    assert (D1 := kt_diff n x y m ltac:(intros; apply H; lia)).
    assert (D2 := kt_up n x (y - 1) (S m) ltac:(intros; apply H; lia)). replace (y - 1 + 1) with y in D2 by ring.
    assert (K : kt n x y (S m) = -2 * kt n x y m * ((x - INR m) * (y - INR m)) / ((n - INR m) * (INR m + 1))) by reflexivity.
    rewrite S_INR in *.
    replace ((n - y) * (ks n x (y + 1) (S m) + kt n x (y + 1) (S m) - (ks n x y (S m) + kt n x y (S m))) -
             y * (ks n x y (S m) + kt n x y (S m) - (ks n x (y - 1) (S m) + kt n x (y - 1) (S m))) + 2 * x * (ks n x y (S m) + kt n x y (S m)))
      with (((n - y) * (ks n x (y + 1) (S m) - ks n x y (S m)) - y * (ks n x y (S m) - ks n x (y - 1) (S m)) + 2 * x * ks n x y (S m))
            + (n - y) * (kt n x (y + 1) (S m) - kt n x y (S m)) - y * kt n x y (S m) + y * kt n x (y - 1) (S m) + 2 * x * kt n x y (S m)) by ring.
    rewrite E, D1, <- D2, K. field. auto.
Qed.

Open Scope Z_scope.
(** K_k(j)/C(n,j) *)
Definition kp (n k j : Z) : R := ks (IZR n) (IZR k) (IZR j) (S (Z.to_nat n)).
Lemma kp_sym n k j : kp n k j = kp n j k.
Proof. apply ks_sym. Qed.
Lemma nz_n n q : (q < Z.to_nat n)%nat -> (IZR n - INR q <> 0)%R.
Proof. intros H. rewrite INR_IZR_INZ, <- minus_IZR. apply not_0_IZR. lia. Qed.
Lemma kp_rec n k j : 0 <= k <= n ->
  (IZR (n - j) * kp n k (j + 1) + IZR j * kp n k (j - 1) = IZR (n - 2 * k) * kp n k j)%R.
Proof.
  intros Hk. assert (E := ks_defect (IZR n) (IZR k) (IZR j) (Z.to_nat n) (fun q H => nz_n n q H)).
  unfold kp. rewrite !minus_IZR, !plus_IZR, mult_IZR.
  assert (Z0 : ((IZR k - INR (Z.to_nat n)) * kt (IZR n) (IZR k) (IZR j) (Z.to_nat n) = 0)%R).
  { destruct (Z.eq_dec k n) as [->|].
    - rewrite INR_IZR_INZ, Z2Nat.id by lia. ring.
    - replace (IZR k) with (INR (Z.to_nat k)) by (rewrite INR_IZR_INZ, Z2Nat.id by lia; reflexivity). rewrite kt_zero by lia. ring. }
  rewrite (Rmult_assoc 2 (IZR k - INR (Z.to_nat n))), Z0 in E. lra.
Qed.
Lemma kp_0 n k : 0 <= n -> kp n k 0 = 1%R.
Proof.
  intros Hn. unfold kp. assert (G : forall m, ks (IZR n) (IZR k) 0 (S m) = 1%R).
  { induction m. - cbn. ring. - remember (S m) as p. cbn [ks]. subst p. rewrite IHm, kt_sym. change 0%R with (INR 0). rewrite kt_zero by lia. ring. }
  apply G.
Qed.
Lemma kp_1 n k : 0 <= k <= n -> (IZR n * kp n k 1 = IZR (n - 2 * k))%R.
Proof.
  intros Hk. assert (E := kp_rec n k 0 Hk). rewrite kp_0 in E by lia. change (0 + 1) with 1 in E. rewrite Z.sub_0_r in E. lra.
Qed.
Definition sgn (k : Z) : R := if Z.even k then 1%R else (-1)%R.
Lemma sgn_S k : sgn (k + 1) = (- sgn k)%R.
Proof. unfold sgn. replace (k + 1) with (Z.succ k) by lia. rewrite Z.even_succ, <- Z.negb_even. destruct (Z.even k); cbn; lra. Qed.
Lemma kp_parity n k j : 0 <= k <= n -> 0 <= j <= n -> kp n k (n - j) = (sgn k * kp n k j)%R.
Proof.
  intros Hk Hj.
  assert (G : forall m, (Z.of_nat m <= n) -> kp n (Z.of_nat m) (n - j) = (sgn (Z.of_nat m) * kp n (Z.of_nat m) j)%R /\
     (Z.of_nat m < n -> kp n (Z.of_nat m + 1) (n - j) = (sgn (Z.of_nat m + 1) * kp n (Z.of_nat m + 1) j)%R)).
  { induction m as [|m IH]; intros Hm.
    - change (Z.of_nat 0) with 0. rewrite !(kp_sym n 0), !kp_0 by lia. split; [change (sgn 0) with 1%R; ring|]. intros Hn. rewrite !(kp_sym n (0 + 1)). change (0 + 1) with 1.
      assert (E1 := kp_1 n (n - j) ltac:(lia)). assert (E2 := kp_1 n j ltac:(lia)). assert (N0 : (IZR n <> 0)%R) by (apply not_0_IZR; lia).
      apply (Rmult_eq_reg_l (IZR n)); auto. change (sgn 1) with (-1)%R. rewrite E1. transitivity (- (IZR n * kp n j 1))%R; [|ring]. rewrite E2, <- opp_IZR. f_equal. lia.
    - destruct (IH ltac:(lia)) as (I0 & I1). specialize (I1 ltac:(lia)). replace (Z.of_nat (S m)) with (Z.of_nat m + 1) by lia. split; [exact I1|]. intros Hn.
      set (q := Z.of_nat m) in *.
      assert (E1 := kp_rec n (n - j) (q + 1) ltac:(lia)). assert (E2 := kp_rec n j (q + 1) ltac:(lia)).
      rewrite !(kp_sym n (n - j)), !(kp_sym n j) in *. replace (q + 1 - 1) with q in * by lia.
      rewrite I0, I1 in E1. rewrite !sgn_S in *. assert (N0 : (IZR (n - (q + 1)) <> 0)%R) by (apply not_0_IZR; lia).
      apply (Rmult_eq_reg_l (IZR (n - (q + 1)))); auto. replace (n - 2 * (n - j)) with (- (n - 2 * j)) in E1 by lia. rewrite opp_IZR in E1.
      apply (f_equal (fun t => (sgn q * t)%R)) in E2. lra. }
  destruct (G (Z.to_nat k) ltac:(lia)) as (G0 & _). rewrite Z2Nat.id in G0 by lia. exact G0.
Qed.

(** ** weights and the twisted, normalised rows *)
Fixpoint hb (n : R) (i : nat) : R := match i with O => 1%R | S i' => (hb n i' * (n - INR i') / (INR i' + 1))%R end.
Definition gw (n j : Z) : R := sqrt (hb (IZR n) (Z.to_nat j)).
Lemma hb_pos n j : 0 <= j <= n -> (0 < hb (IZR n) (Z.to_nat j))%R.
Proof.
  intros Hj. assert (G : forall m, Z.of_nat m <= n -> (0 < hb (IZR n) m)%R).
  { induction m as [|m IH]; intros H; [cbn; lra|]. cbn [hb]. pose proof (pos_INR m). apply Rdiv_lt_0_compat; [|lra]. apply Rmult_lt_0_compat; [apply IH; lia|].
    rewrite INR_IZR_INZ, <- minus_IZR. apply IZR_lt. lia. }
  apply G. lia.
Qed.
Lemma gw_pos n j : 0 <= j <= n -> (0 < gw n j)%R.
Proof. intros. apply sqrt_lt_R0. now apply hb_pos. Qed.
Lemma gw_sq n j : 0 <= j <= n -> (gw n j * gw n j = hb (IZR n) (Z.to_nat j))%R.
Proof. intros. apply sqrt_sqrt. left. now apply hb_pos. Qed.
Lemma hb_S n j : 0 <= j -> (IZR (j + 1) * hb (IZR n) (Z.to_nat (j + 1)) = IZR (n - j) * hb (IZR n) (Z.to_nat j))%R.
Proof.
  intros Hj. replace (Z.to_nat (j + 1)) with (S (Z.to_nat j)) by lia. cbn [hb]. rewrite INR_IZR_INZ, Z2Nat.id, <- minus_IZR, plus_IZR by lia.
  field. rewrite <- plus_IZR. apply not_0_IZR. lia.
Qed.
Lemma sq_eq x y : (0 <= x -> 0 <= y -> x * x = y * y -> x = y)%R.
Proof. intros. nra. Qed.

(** coupling of j and j+2 *)
Definition kB (n j : Z) : R := sqrt (IZR ((j + 1) * (j + 2) * ((n - j) * (n - j - 1)))).
Lemma kB_nonneg n j : 0 <= j <= n - 2 -> 0 <= (j + 1) * (j + 2) * ((n - j) * (n - j - 1)).
Proof. intros. apply Z.mul_nonneg_nonneg; apply Z.mul_nonneg_nonneg; lia. Qed.
Lemma kB_g n j : 0 <= j <= n - 2 -> (gw n j * IZR ((n - j) * (n - j - 1)) = kB n j * gw n (j + 2))%R /\ (gw n (j + 2) * IZR ((j + 1) * (j + 2)) = kB n j * gw n j)%R.
Proof.
  intros Hj. assert (P0 := gw_pos n j ltac:(lia)). assert (P2 := gw_pos n (j + 2) ltac:(lia)). assert (S0 := gw_sq n j ltac:(lia)). assert (S2 := gw_sq n (j + 2) ltac:(lia)).
  assert (H1 := hb_S n j ltac:(lia)). assert (H2 := hb_S n (j + 1) ltac:(lia)). replace (j + 1 + 1) with (j + 2) in H2 by lia.
  assert (BP : (0 <= kB n j)%R) by apply sqrt_pos. assert (BB : (kB n j * kB n j = IZR ((j + 1) * (j + 2) * ((n - j) * (n - j - 1))))%R) by (apply sqrt_sqrt, IZR_le, kB_nonneg; lia).
  assert (E : (IZR ((j + 1) * (j + 2)) * hb (IZR n) (Z.to_nat (j + 2)) = IZR ((n - j) * (n - j - 1)) * hb (IZR n) (Z.to_nat j))%R).
  { rewrite !mult_IZR. rewrite Rmult_assoc, H2. replace (n - (j + 1)) with (n - j - 1) by lia. transitivity (IZR (n - j - 1) * (IZR (j + 1) * hb (IZR n) (Z.to_nat (j + 1))))%R; [ring|]. rewrite H1. ring. }
  assert (U : (0 <= IZR ((j + 1) * (j + 2)))%R) by (apply IZR_le; nia). assert (V : (0 <= IZR ((n - j) * (n - j - 1)))%R) by (apply IZR_le; nia).
  rewrite mult_IZR in BB.
  split; apply sq_eq; try (apply Rmult_le_pos; lra).
  - transitivity ((gw n j * gw n j) * IZR ((n - j) * (n - j - 1)) * IZR ((n - j) * (n - j - 1)))%R; [ring|]. transitivity ((kB n j * kB n j) * (gw n (j + 2) * gw n (j + 2)))%R; [|ring]. rewrite S0, S2, BB.
    transitivity (IZR ((n - j) * (n - j - 1)) * (IZR ((n - j) * (n - j - 1)) * hb (IZR n) (Z.to_nat j)))%R; [ring|]. rewrite <- E. ring.
  - transitivity ((gw n (j + 2) * gw n (j + 2)) * IZR ((j + 1) * (j + 2)) * IZR ((j + 1) * (j + 2)))%R; [ring|]. transitivity ((kB n j * kB n j) * (gw n j * gw n j))%R; [|ring]. rewrite S0, S2, BB.
    transitivity (IZR ((j + 1) * (j + 2)) * (IZR ((j + 1) * (j + 2)) * hb (IZR n) (Z.to_nat (j + 2))))%R; [ring|]. rewrite E. ring.
Qed.
Lemma kB_zero n j : (j + 1) * (j + 2) * ((n - j) * (n - j - 1)) = 0 -> kB n j = 0%R.
Proof. intros H. unfold kB. rewrite H. apply sqrt_0. Qed.
Definition tau (j : Z) : R := if Z.even (j / 2) then 1%R else (-1)%R.
Lemma tau_2 j : tau (j + 2) = (- tau j)%R.
Proof. unfold tau. replace ((j + 2) / 2) with (Z.succ (j / 2)) by (replace (j + 2) with (j + 1 * 2) by lia; rewrite Z.div_add by lia; lia). rewrite Z.even_succ, <- Z.negb_even. destruct (Z.even (j / 2)); cbn; lra. Qed.
Lemma tau_m2 j : tau (j - 2) = (- tau j)%R.
Proof. assert (E := tau_2 (j - 2)). replace (j - 2 + 2) with j in E by lia. lra. Qed.
Lemma tau_pm j : tau j = 1%R \/ tau j = (-1)%R.
Proof. unfold tau. destruct (Z.even (j / 2)); auto. Qed.
Definition kw (n k j : Z) : R := (tau j * gw n j * kp n k j)%R.

Lemma kp_rec2 n k j : 0 <= k <= n ->
  (IZR (n - 2 * k) * IZR (n - 2 * k) * kp n k j =
   IZR ((n - j) * (n - j - 1)) * kp n k (j + 2) + IZR ((n - j) * (j + 1) + j * (n - j + 1)) * kp n k j + IZR (j * (j - 1)) * kp n k (j - 2))%R.
Proof.
  intros Hk. assert (E0 := kp_rec n k j Hk). assert (E1 := kp_rec n k (j + 1) Hk). assert (E2 := kp_rec n k (j - 1) Hk).
  replace (j + 1 + 1) with (j + 2) in E1 by lia. replace (j + 1 - 1) with j in E1 by lia. replace (j - 1 + 1) with j in E2 by lia. replace (j - 1 - 1) with (j - 2) in E2 by lia.
  rewrite Rmult_assoc, <- E0. rewrite Rmult_plus_distr_l.
  transitivity (IZR (n - j) * (IZR (n - 2 * k) * kp n k (j + 1)) + IZR j * (IZR (n - 2 * k) * kp n k (j - 1)))%R; [ring|]. rewrite <- E1, <- E2.
  rewrite !plus_IZR, !mult_IZR, !minus_IZR, !plus_IZR, ?minus_IZR. ring.
Qed.
(** eigenvectors of the pentadiagonal matrix *)
Lemma kw_rec n k j : 0 <= k <= n -> 0 <= j <= n ->
  (IZR ((n + 2) * (n + 2) - (n - 2 * k) * (n - 2 * k)) * kw n k j =
   IZR ((j + 1) * (j + 2) + (n + 1 - j) * (n + 2 - j)) * kw n k j + kB n j * kw n k (j + 2) + kB n (j - 2) * kw n k (j - 2))%R.
Proof.
  intros Hk Hj. assert (E := kp_rec2 n k j Hk).
  assert (U : (kB n j * kw n k (j + 2) = - (tau j * gw n j * (IZR ((n - j) * (n - j - 1)) * kp n k (j + 2))))%R).
  { destruct (Z_le_dec j (n - 2)).
    - unfold kw. rewrite tau_2. destruct (kB_g n j ltac:(lia)) as (H & _). transitivity (- tau j * (kB n j * gw n (j + 2)) * kp n k (j + 2))%R; [ring|]. rewrite <- H. ring.
    - assert (Q : (n - j) * (n - j - 1) = 0) by (destruct (Z.eq_dec j n); [replace (n - j) with 0 by lia|replace (n - j - 1) with 0 by lia]; ring).
      rewrite kB_zero by (rewrite Q; ring). rewrite Q. ring. }
  assert (V : (kB n (j - 2) * kw n k (j - 2) = - (tau j * gw n j * (IZR (j * (j - 1)) * kp n k (j - 2))))%R).
  { destruct (Z_le_dec 2 j).
    - unfold kw. rewrite tau_m2. destruct (kB_g n (j - 2) ltac:(lia)) as (_ & H). replace (j - 2 + 2) with j in H by lia. replace ((j - 2 + 1) * j) with (j * (j - 1)) in H by lia.
      transitivity (- tau j * (kB n (j - 2) * gw n (j - 2)) * kp n k (j - 2))%R; [ring|]. rewrite <- H. ring.
    - assert (Q : j * (j - 1) = 0) by (destruct (Z.eq_dec j 0); [subst j|replace (j - 1) with 0 by lia]; ring).
      rewrite kB_zero by (replace ((j - 2 + 1) * (j - 2 + 2)) with (j * (j - 1)) by ring; rewrite Q; ring). rewrite Q. ring. }
  rewrite U, V. unfold kw.
  replace ((j + 1) * (j + 2) + (n + 1 - j) * (n + 2 - j)) with ((n + 2) * (n + 2) - ((n - j) * (j + 1) + j * (n - j + 1))) by ring.
  rewrite (minus_IZR ((n + 2) * (n + 2)) ((n - 2 * k) * (n - 2 * k))), (minus_IZR ((n + 2) * (n + 2))). rewrite (mult_IZR (n - 2 * k) (n - 2 * k)).
  apply (f_equal (fun t => (tau j * gw n j * t)%R)) in E.
  remember (IZR ((n + 2) * (n + 2))) as X. remember (IZR ((n - j) * (j + 1) + j * (n - j + 1))) as Y. lra.
Qed.
