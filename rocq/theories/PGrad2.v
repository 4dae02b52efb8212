(** * Derivatives of the polar factors *)
From Coq Require Import ZArith List Lia Bool Reals Lra Factorial.
From Verif Require Import Base BaseFacts Arith SpecSum PSum MIso SpecIso SpecGeo SpecGrad PGrad1.
Open Scope R_scope.

(** ** continuously differentiable functions *)
Definition C1 (f f' : R -> R) : Prop := forall t, derivable_pt_lim f t (f' t) /\ continuity_pt f' t.
Lemma C1_cont f f' t : C1 f f' -> continuity_pt f t.
Proof. intros H. apply derivable_continuous_pt. exists (f' t). apply H. Qed.
Lemma C1_const a : C1 (fun _ => a) (fun _ => 0).
Proof. intros t. split; [apply derivable_pt_lim_const|apply continuity_pt_const; intros x y; reflexivity]. Qed.
Lemma C1_plus f f' g g' : C1 f f' -> C1 g g' -> C1 (fun t => f t + g t) (fun t => f' t + g' t).
Proof. intros Hf Hg t. destruct (Hf t), (Hg t). split; [now apply (derivable_pt_lim_plus f g)|now apply (continuity_pt_plus f' g')]. Qed.
Lemma C1_mult f f' g g' : C1 f f' -> C1 g g' -> C1 (fun t => f t * g t) (fun t => f' t * g t + f t * g' t).
Proof.
  intros Hf Hg t. destruct (Hf t), (Hg t). split; [now apply (derivable_pt_lim_mult f g)|].
  apply (continuity_pt_plus (fun t => f' t * g t) (fun t => f t * g' t)); [apply (continuity_pt_mult f' g)|apply (continuity_pt_mult f g')]; auto; eapply C1_cont; eauto.
Qed.
Lemma C1_scal a f f' : C1 f f' -> C1 (fun t => a * f t) (fun t => a * f' t).
Proof. intros Hf t. destruct (Hf t). split; [now apply (derivable_pt_lim_scal f)|now apply (continuity_pt_scal f')]. Qed.
Lemma C1_ext f f' g g' : (forall t, f t = g t) -> (forall t, f' t = g' t) -> C1 f f' -> C1 g g'.
Proof.
  intros E E' H t. destruct (H t) as (D & C). split.
  - rewrite <- E'. intros eps He. destruct (D eps He) as (d & Hd). exists d. intros h Hh Hl. rewrite <- !E. now apply Hd.
  - intros eps He. destruct (C eps He) as (d & Hd & Hc). exists d. split; [exact Hd|]. intros x Hx. rewrite <- !E'. now apply Hc.
Qed.
Lemma C1_cos : C1 cos (fun t => - sin t).
Proof. intros t. split; [apply derivable_pt_lim_cos|]. apply (continuity_pt_opp sin). apply continuity_sin. Qed.
Lemma C1_sin : C1 sin cos.
Proof. intros t. split; [apply derivable_pt_lim_sin|apply continuity_cos]. Qed.
Lemma C1_pow n : C1 (fun t => sin t ^ n) (fun t => INR n * sin t ^ pred n * cos t).
Proof.
  induction n.
  - apply (C1_ext (fun _ => 1) (fun _ => 0)); [intros; reflexivity|intros; cbn; ring|apply C1_const].
  - apply (C1_ext (fun t => sin t * sin t ^ n) (fun t => cos t * sin t ^ n + sin t * (INR n * sin t ^ pred n * cos t))); [intros; reflexivity| |apply C1_mult; [apply C1_sin|exact IHn]].
    intros t. cbn [pred]. rewrite S_INR. destruct n; [cbn; ring|]. cbn [pred pow]. ring.
Qed.
Lemma C1_sum n f f' : (forall i, (0 <= i < n)%Z -> C1 (f i) (f' i)) -> C1 (fun t => sumZ n (fun i => f i t)) (fun t => sumZ n (fun i => f' i t)).
Proof.
  intros H. destruct (Z_le_dec n 0) as [Hn|Hn].
  { apply (C1_ext (fun _ => 0) (fun _ => 0)); [intros; now rewrite sumZ_0|intros; now rewrite sumZ_0|apply C1_const]. }
  assert (Hn0 : (0 <= n)%Z) by lia. clear Hn. revert H. pattern n. apply natlike_ind; [| |exact Hn0].
  - intros _. apply (C1_ext (fun _ => 0) (fun _ => 0)); [intros; now rewrite sumZ_0|intros; now rewrite sumZ_0|apply C1_const].
  - intros k Hk IH H. apply (C1_ext (fun t => sumZ k (fun i => f i t) + f k t) (fun t => sumZ k (fun i => f' i t) + f' k t)).
    + intros t. rewrite <- Z.add_1_r, sumZ_S by lia. reflexivity.
    + intros t. rewrite <- Z.add_1_r, sumZ_S by lia. reflexivity.
    + apply C1_plus; [apply IH; intros; apply H; lia|apply H; lia].
Qed.
(** a continuous function that vanishes where sin does not vanishes everywhere *)
Lemma dense_sin f : (forall t, continuity_pt f t) -> (forall t, sin t * f t = 0) -> forall t, f t = 0.
Proof.
  intros C H t. destruct (Req_dec (sin t) 0) as [Hs|Hs].
  2:{ specialize (H t). apply Rmult_integral in H. tauto. }
  destruct (Req_dec (f t) 0) as [|Hf]; [assumption|exfalso].
  destruct (C t (Rabs (f t)) (Rabs_pos_lt _ Hf)) as (d & Hd & Hc). cbn in Hc. unfold R_dist in Hc.
  set (e := Rmin (d / 2) 1). assert (He : 0 < e) by (apply Rmin_pos; lra). assert (He1 : e <= 1) by apply Rmin_r. assert (He2 : e <= d / 2) by apply Rmin_l.
  assert (Hsin : sin (t + e) <> 0).
  { rewrite sin_plus, Hs. pose proof (sin2_cos2 t) as E. rewrite Hs in E. unfold Rsqr in E. pose proof PI2_3_2. assert (0 < sin e) by (apply sin_gt_0; lra).
    intros Hz. assert (cos t * sin e = 0) by lra. apply Rmult_integral in H2. destruct H2 as [Hz2|Hz2]; [rewrite Hz2 in E; lra|lra]. }
  specialize (H (t + e)). apply Rmult_integral in H. destruct H as [H|H]; [contradiction|].
  specialize (Hc (t + e)). assert (HD : D_x no_cond t (t + e) /\ Rabs (t + e - t) < d).
  { split; [split; [exact I|lra]|]. replace (t + e - t) with e by ring. rewrite Rabs_right; lra. }
  specialize (Hc HD). rewrite H in Hc. replace (0 - f t) with (- f t) in Hc by ring. rewrite Rabs_Ropp in Hc. lra.
Qed.

(** ** derivative of the Legendre functions *)
Fixpoint dL2 (m i : nat) (t : R) : R * R :=
  match i with
  | O => (oddfact m * (INR m * sin t ^ pred m * cos t), 0)
  | S i' => let '(p, q) := dL2 m i' t in (((2 * INR (m + i') + 1) * (- sin t * L m i' t + cos t * p) - INR (2 * m + i') * q) / (INR i' + 1), p)
  end.
Definition dL m i t := fst (dL2 m i t).
Definition dLp m i t := match i with O => 0 | S j => dL m j t end.
Lemma dL_pair m i t : dL2 m i t = (dL m i t, dLp m i t).
Proof. destruct i; [reflexivity|]. unfold dL. cbn [dL2 dLp]. unfold dL. destruct (dL2 m i t). reflexivity. Qed.
Lemma dL_S m i t : dL m (S i) t = ((2 * INR (m + i) + 1) * (- sin t * L m i t + cos t * dL m i t) - INR (2 * m + i) * dLp m i t) / (INR i + 1).
Proof. unfold dL at 1. cbn [dL2]. rewrite dL_pair. reflexivity. Qed.
Lemma L_C1_both m i : C1 (L m i) (dL m i) /\ C1 (Lp m i) (dLp m i).
Proof.
  induction i as [|i (H1 & H2)].
  - split; [|apply (C1_ext (fun _ => 0) (fun _ => 0)); [reflexivity|reflexivity|apply C1_const]].
    apply (C1_ext (fun t => oddfact m * sin t ^ m) (fun t => oddfact m * (INR m * sin t ^ pred m * cos t))); [reflexivity|reflexivity|]. apply C1_scal, C1_pow.
  - split; [|exact H1].
    apply (C1_ext (fun t => / (INR i + 1) * ((2 * INR (m + i) + 1) * (cos t * L m i t) + - INR (2 * m + i) * Lp m i t))
                  (fun t => / (INR i + 1) * ((2 * INR (m + i) + 1) * (- sin t * L m i t + cos t * dL m i t) + - INR (2 * m + i) * dLp m i t))).
    + intros t. pose proof (L_S m i t) as E. pose proof (pos_INR i). apply Rmult_eq_reg_l with (INR i + 1); [|lra]. rewrite E. field. lra.
    + intros t. rewrite dL_S. pose proof (pos_INR i). field. lra.
    + apply C1_scal, C1_plus; [apply C1_scal, C1_mult; [apply C1_cos|exact H1]|apply C1_scal; exact H2].
Qed.
Lemma L_C1 m i : C1 (L m i) (dL m i). Proof. apply L_C1_both. Qed.

(** sin t dP_l^m/dt = l cos t P_l^m - (l+m) P_{l-1}^m *)
Lemma dL_sin m t i : sin t * dL m i t = INR (m + i) * cos t * L m i t - INR (2 * m + i) * Lp m i t.
Proof.
  enough (H : sin t * dL m i t = INR (m + i) * cos t * L m i t - INR (2 * m + i) * Lp m i t /\
              sin t * dLp m i t = INR i * L m i t - INR (m + i) * cos t * Lp m i t \/ i = 0%nat /\ sin t * dL m i t = INR (m + i) * cos t * L m i t - INR (2 * m + i) * Lp m i t) by tauto.
  induction i as [|i IH].
  - right. split; [reflexivity|]. cbn [Lp]. rewrite Rmult_0_r, Rminus_0_r, Nat.add_0_r. unfold dL. cbn [dL2 fst]. rewrite L_0. destruct m; [cbn; ring|]. cbn [pred pow]. ring.
  - left. assert (I1 : sin t * dL m i t = INR (m + i) * cos t * L m i t - INR (2 * m + i) * Lp m i t) by tauto.
    assert (I2 : INR i = 0 /\ Lp m i t = 0 /\ dLp m i t = 0 \/ sin t * dLp m i t = INR i * L m i t - INR (m + i) * cos t * Lp m i t).
    { destruct IH as [(_ & H)|(-> & _)]; [right; exact H|left; cbn; auto]. }
    pose proof (L_S m i t) as E. rewrite !plus_INR, !mult_INR, !S_INR in *. cbn [INR] in *. cbn [Lp dLp].
    set (u := INR m) in *. set (k := INR i) in *. assert (Hk : 0 <= k) by (apply pos_INR).
    set (p := L m i t) in *. set (q := Lp m i t) in *. set (p1 := L m (S i) t) in *. pose proof (sin2_cos2 t) as SC. unfold Rsqr in SC.
    split.
    + rewrite dL_S. fold u k p. rewrite !plus_INR, !mult_INR in *. cbn [INR]. fold u k.
      apply Rmult_eq_reg_l with (k + 1); [|lra].
      replace ((k + 1) * (sin t * (((2 * (u + k) + 1) * (- sin t * p + cos t * dL m i t) - ((1 + 1) * u + k) * dLp m i t) / (k + 1))))
        with ((2 * (u + k) + 1) * (- (sin t * sin t) * p + cos t * (sin t * dL m i t)) - ((1 + 1) * u + k) * (sin t * dLp m i t)) by (field; lra).
      match goal with |- _ = (k + 1) * (_ * p1 - ?x * p) => replace ((k + 1) * ((u + (k + 1)) * cos t * p1 - x * p)) with ((u + (k + 1)) * cos t * ((k + 1) * p1) - (k + 1) * x * p) by ring end.
      rewrite E, I1. replace (sin t * sin t) with (1 - cos t * cos t) by lra.
      destruct I2 as [(K0 & Q0 & D0)|I2]; [rewrite Q0, D0, K0; ring|]. rewrite I2. ring.
    + rewrite I1. lra.
Qed.
(** dP_l/dt = - P_l^1 *)
Lemma dL_zonal i t : dL 0 i t = - Lp 1 i t.
Proof.
  enough (H : dL 0 i t = - Lp 1 i t /\ dL 0 (S i) t = - Lp 1 (S i) t) by apply H.
  induction i as [|i (H1 & H2)].
  - split; [unfold dL; cbn; ring|]. rewrite dL_S. cbn [dLp]. unfold dL. cbn [Lp]. rewrite !L_0. cbn. field.
  - split; [exact H2|]. rewrite dL_S, H2. cbn [dLp Lp] in *. rewrite H1.
    pose proof (sine_step 0 t (S i)) as E. pose proof (L_S 1 i t) as F. cbn [Nat.add] in *. rewrite !plus_INR, !S_INR, !mult_INR in *. cbn [INR] in *.
    set (k := INR i) in *. assert (Hk : 0 <= k) by (apply pos_INR).
    replace (match i with O => 0 | S j => L 1 j t end) with (Lp 1 i t) in E by (destruct i; reflexivity).
    assert (H3 : sin t * L 0 (S i) t = (L 1 (S i) t - Lp 1 i t) / (2 * (k + 1) + 1)) by (field_simplify_eq; lra).
    assert (H4 : L 1 (S i) t = ((2 * (1 + k) + 1) * cos t * L 1 i t - ((1 + 1) * 1 + k) * Lp 1 i t) / (k + 1)) by (field_simplify_eq; lra).
    replace ((2 * (k + 1) + 1) * (- sin t * L 0 (S i) t + cos t * - L 1 i t)) with ((2 * (k + 1) + 1) * (- (sin t * L 0 (S i) t) - cos t * L 1 i t)) by ring.
    rewrite H3, H4. field. lra.
Qed.
