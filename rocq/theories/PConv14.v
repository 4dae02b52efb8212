(** * The disk: from Zernike coefficients to a Chebyshev--Fourier series and to values on the grid *)
From Coq Require Import ZArith List Lia Bool Reals Lra ZifyBool ZifyNat.
From Verif Require Import Base BaseFacts Arith SpecSum PSum SpecLin MRotations SpecRot PRotPlans PRotThms MDrivers MHarmonic SpecHarm PHarm4
  SpecClassical SpecConn PClass8 PPoly PPenU PPenC PDiag PTransforms2 SpecTransforms MFftw SpecFftw PFftwThms SpecConvert SpecConvert2 PConv3 PConv4 MTransforms MDense MDense2 PDense PDense2 PConv5 PConv6 PConv11 PConv12 PConv13.
Import ListNotations.
Open Scope Z_scope.

(** ** P^{(-1/2,1/2)} and cosines of half-integer multiples *)
Section Half.
Variables (P : Z -> R -> R) (h : Z -> R).
Hypotheses (HP : is_jacobi (- (1 / 2)) (1 / 2) P) (HN : jacobi_norms (- (1 / 2)) (1 / 2) h) (H0 : h 0 = PI).
Definition hfac (n : nat) : R := (fix g (k : nat) : R := match k with O => 1%R | S k => ((INR k + 1 / 2) / (INR k + 1) * g k)%R end) n.
Definition hz (i : Z) : R := hfac (Z.to_nat i).
Lemma hz_S i : 0 <= i -> hz (i + 1) = ((IZR i + 1 / 2) / (IZR i + 1) * hz i)%R.
Proof. intros Hi. unfold hz. replace (Z.to_nat (i + 1)) with (S (Z.to_nat i)) by lia. cbn [hfac]. fold (hfac (Z.to_nat i)). rewrite INR_IZR_INZ, Z2Nat.id by lia. reflexivity. Qed.
Lemma hz_0 : hz 0 = 1%R. Proof. reflexivity. Qed.
Lemma hz_1 : hz 1 = (1 / 2)%R. Proof. change 1 with (0 + 1) at 1. rewrite hz_S, hz_0 by lia. field. Qed.
Lemma hz_pos i : 0 <= i -> (0 < hz i)%R.
Proof.
  intros Hi. pattern i. apply natlike_ind; auto; [rewrite hz_0; lra|]. intros k Hk IH. unfold Z.succ. rewrite hz_S by lia. assert (0 <= IZR k)%R by (now apply IZR_le).
  apply Rmult_lt_0_compat; auto. apply Rdiv_lt_0_compat; lra.
Qed.
Lemma half_norm i : 0 <= i -> h i = (hz i * hz i * PI)%R.
Proof.
  revert i. apply (two_step (fun i => h i = (hz i * hz i * PI)%R)).
  - rewrite H0, hz_0. ring.
  - pose proof (jn_1 _ _ _ HN) as J. rewrite H0 in J. rewrite hz_1. lra.
  - intros n Hn _ IH. assert (K : (1 <= IZR n)%R) by (apply IZR_le; lia). pose proof (jn_S _ _ _ HN n ltac:(lia)) as J. cbv zeta in J. rewrite IH in J. rewrite hz_S by lia.
    apply (Rmult_eq_reg_l ((2 * IZR n + - (1 / 2) + 1 / 2 + 3) * (IZR n + 1) * (IZR n + - (1 / 2) + 1 / 2 + 1))%R).
    2:{ apply Rgt_not_eq. apply Rmult_lt_0_compat; [apply Rmult_lt_0_compat|]; lra. }
    rewrite J. field. lra.
Qed.
Lemma cos_three x t : (cos (x + t) = 2 * cos t * cos x - cos (x - t))%R.
Proof. rewrite cos_plus, cos_minus. ring. Qed.
Lemma half_cos i t : 0 <= i -> (P i (cos t) * cos (t / 2) = hz i * cos ((IZR i + / 2) * t))%R.
Proof.
  revert i. apply (two_step (fun i => (P i (cos t) * cos (t / 2) = hz i * cos ((IZR i + / 2) * t))%R)).
  - rewrite (jac_0 _ _ _ HP). rewrite hz_0. replace ((0 + / 2) * t)%R with (t / 2)%R by field. ring.
  - rewrite (jac_1 _ _ _ HP). rewrite hz_1. replace ((1 + / 2) * t)%R with (t / 2 + t)%R by field. rewrite cos_three. replace (t / 2 - t)%R with (- (t / 2))%R by field. rewrite cos_neg. field.
  - intros n Hn I1 I2. assert (K : (1 <= IZR n)%R) by (apply IZR_le; lia). pose proof (jac_S _ _ _ HP n (cos t) Hn) as J. cbv zeta in J.
    assert (S1 : hz n = ((IZR n - 1 + 1 / 2) / (IZR n) * hz (n - 1))%R). { replace n with (n - 1 + 1) at 1 by lia. rewrite hz_S by lia. rewrite minus_IZR. f_equal. f_equal. ring. }
    rewrite hz_S by lia. rewrite plus_IZR. replace ((IZR n + 1 + / 2) * t)%R with ((IZR n + / 2) * t + t)%R by ring. rewrite cos_three. rewrite minus_IZR in I1. replace ((IZR n + / 2) * t - t)%R with ((IZR n - 1 + / 2) * t)%R by ring.
    set (c0 := cos ((IZR n - 1 + / 2) * t)) in *. set (c1 := cos ((IZR n + / 2) * t)) in *. set (c := cos (t / 2)) in *. set (k := IZR n) in *. set (z0 := hz (n - 1)) in *.
    apply (Rmult_eq_reg_l (2 * (k + 1) * (k + - (1 / 2) + 1 / 2 + 1) * (2 * k + - (1 / 2) + 1 / 2))%R).
    2:{ apply Rgt_not_eq. apply Rmult_lt_0_compat; [apply Rmult_lt_0_compat|]; lra. }
    rewrite <- Rmult_assoc, J. rewrite S1 in *.
    transitivity ((2 * k + - (1 / 2) + 1 / 2 + 1) * ((2 * k + - (1 / 2) + 1 / 2 + 2) * (2 * k + - (1 / 2) + 1 / 2) * cos t + (- (1 / 2) * - (1 / 2) - 1 / 2 * (1 / 2))) * (P n (cos t) * c) - 2 * (k + - (1 / 2)) * (k + 1 / 2) * (2 * k + - (1 / 2) + 1 / 2 + 2) * (P (n - 1)%Z (cos t) * c))%R; [ring|].
    rewrite I1, I2. field. lra.
Qed.
Lemma half_fam i t : 0 <= i -> (cos (t / 2) * fam true P h i (cos t) = cos ((IZR i + / 2) * t) / sqrt PI)%R.
Proof.
  intros Hi. unfold fam. rewrite half_norm by auto. pose proof (hz_pos i Hi) as Hz. pose proof PI_RGT_0 as PP. assert (0 < sqrt PI)%R by now apply sqrt_lt_R0.
  rewrite sqrt_mult by nra. rewrite sqrt_square by lra. replace (cos (t / 2) * (P i (cos t) / (hz i * sqrt PI)))%R with (P i (cos t) * cos (t / 2) / (hz i * sqrt PI))%R by (field; lra). rewrite half_cos by auto. field. lra.
Qed.
End Half.

(** ** The scaling of the tables *)
Definition all_scaled (n : Z) (c : R) (V X : list R) (d : Z -> Z -> bool) : Prop := part n by_row (fun _ => c) V X d.
Lemma scale_at_ok n c V X d i0 j0 : 0 <= n -> all_scaled n c V X d -> 0 <= i0 < n -> 0 <= j0 < n -> d i0 j0 = false ->
  exists X', scale_at (i0 + j0 * n) c X = Some X' /\ all_scaled n c V X' (fun i j => d i j || ((i =? i0) && (j =? j0))).
Proof.
  intros Hn H Hi Hj D. destruct (part_step n by_row (zmake n c) (fun _ => c)) with (V := V) (X := X) (done := d) (i0 := i0) (j0 := j0) as (X' & E & PX); auto.
  - rewrite zlen_zmake; lia.
  - intros i Hi'. unfold nthZ. now rewrite zget_zmake by lia.
  - exists X'. split; [|exact PX]. unfold scale_at, by_row in *. rewrite zget_zmake in E by lia. exact E.
Qed.
Lemma disk_scaling_ok n c0 c1 i0 i1 P0 P1 Q0 Q1 : 0 <= n -> zlen P0 = n * n -> zlen P1 = n * n -> zlen Q0 = n * n -> zlen Q1 = n * n ->
  exists P0' P1' Q0' Q1', disk_scaling n c0 c1 i0 i1 ((P0, P1), (Q0, Q1)) = Some ((P0', P1'), (Q0', Q1')) /\
    all_scaled n c0 P0 P0' (fun i j => i <=? j) /\ all_scaled n c1 P1 P1' (fun i j => i <=? j) /\
    all_scaled n i0 Q0 Q0' (fun i j => i <=? j) /\ all_scaled n i1 Q1 Q1' (fun i j => i <=? j).
Proof.
  intros Hn LP0 LP1 LQ0 LQ1. unfold disk_scaling.
  set (ALL := fun d (T : list R * list R * (list R * list R)) => let '((A, B), (C, D)) := T in all_scaled n c0 P0 A d /\ all_scaled n c1 P1 B d /\ all_scaled n i0 Q0 C d /\ all_scaled n i1 Q1 D d).
  assert (EXT : forall d d' T, (forall i j, 0 <= i < n -> 0 <= j < n -> d i j = d' i j) -> ALL d T -> ALL d' T).
  { intros d d' [[A B] [C D]] Hd (X1 & X2 & X3 & X4). repeat split; unfold all_scaled in *; try (eapply part_ext in X1; [apply X1|exact Hd]); try (eapply part_ext in X2; [apply X2|exact Hd]); try (eapply part_ext in X3; [apply X3|exact Hd]); try (eapply part_ext in X4; [apply X4|exact Hd]). }
  match goal with |- context [for_up 0 n ?b ?s] => destruct (for_up_inv (fun J => ALL (fun i j => (i <=? j) && (j <? J))) 0 n b s) as (T & E & H); [lia| | |] end.
  - apply (EXT (fun _ _ => false)); [intros; lia|]. repeat split; auto.
  - intros J T HJ HT.
    match goal with |- context [for_up 0 (J + 1) ?b ?s] => destruct (for_up_inv (fun I => ALL (fun i j => ((i <=? j) && (j <? J)) || ((j =? J) && (i <? I)))) 0 (J + 1) b s) as (T' & E' & H'); [lia| | |] end.
    + eapply EXT; [|exact HT]. intros. cbv beta. lia.
    + intros I [[A B] [C D]] HI (X1 & X2 & X3 & X4).
      destruct (scale_at_ok n _ _ _ _ I J Hn X1) as (A' & -> & Y1); [lia|lia|cbv beta; lia|]. cbn [obind].
      destruct (scale_at_ok n _ _ _ _ I J Hn X2) as (B' & -> & Y2); [lia|lia|cbv beta; lia|]. cbn [obind].
      destruct (scale_at_ok n _ _ _ _ I J Hn X3) as (C' & -> & Y3); [lia|lia|cbv beta; lia|]. cbn [obind].
      destruct (scale_at_ok n _ _ _ _ I J Hn X4) as (D' & -> & Y4); [lia|lia|cbv beta; lia|]. cbn [obind].
      eexists. split; [reflexivity|]. eapply EXT; [|exact (conj Y1 (conj Y2 (conj Y3 Y4)))]. intros. cbv beta. lia.
    + exists T'. split; [exact E'|]. eapply EXT; [|exact H']. intros. cbv beta. lia.
  - destruct T as [[A B] [C D]]. exists A, B, C, D. split; [exact E|].
    assert (X : ALL (fun i j => i <=? j) ((A, B), (C, D))) by (eapply EXT; [|exact H]; intros; cbv beta; lia). exact X.
Qed.
Lemma utri_scaled n c V X i j : all_scaled n c V X (fun i j => i <=? j) -> 0 <= i < n -> 0 <= j < n -> utri n X i j = (c * utri n V i j)%R.
Proof. intros [_ H] Hi Hj. unfold utri. destruct (Z.leb_spec i j); [|ring]. specialize (H i j Hi Hj). replace (i <=? j) with true in H by lia. rewrite !mat_at. rewrite H. ring. Qed.
Lemma inverse_scaled n c c' V V' W W' : (c * c' = 1)%R -> all_scaled n c V V' (fun i j => i <=? j) -> all_scaled n c' W W' (fun i j => i <=? j) -> inverse_tables n V W -> inverse_tables n V' W'.
Proof.
  intros CC HV HW (L1 & L2 & I). split; [apply HV|]. split; [apply HW|]. intros i j Hi Hj. destruct (I i j Hi Hj) as [I1 I2]. unfold matmul in *. split; [rewrite <- I1|rewrite <- I2]; apply sumZ_ext; intros k Hk;
  rewrite !(utri_scaled n c V V') by auto; rewrite !(utri_scaled n c' W W') by auto.
  - replace (c * utri n V i k * (c' * utri n W k j))%R with (c * c' * (utri n V i k * utri n W k j))%R by ring. rewrite CC. ring.
  - replace (c' * utri n W i k * (c * utri n V k j))%R with (c * c' * (utri n W i k * utri n V k j))%R by ring. rewrite CC. ring.
Qed.
