(** * Jacobi polynomials: lowering, derivatives and norms *)
From Coq Require Import ZArith List Lia Bool Reals Lra ZifyBool.
From Verif Require Import Base SpecSum SpecClassical PClass2.
Open Scope R_scope.

Lemma deriv_lin u v x : derivable_pt_lim (fun t => u * t + v) x u.
Proof.
  assert (E : u = u * 1 + 0) by lra. rewrite E at 1. clear E. apply (derivable_pt_lim_plus (fun t => u * t) (fun _ => v)); [|apply derivable_pt_lim_const].
  apply (derivable_pt_lim_scal (fun t => t)). apply derivable_pt_lim_id.
Qed.
Lemma deriv_step u v w (f g : R -> R) f' g' x : derivable_pt_lim f x f' -> derivable_pt_lim g x g' ->
  derivable_pt_lim (fun t => (u * t + v) * f t - w * g t) x (u * f x + (u * x + v) * f' - w * g').
Proof.
  intros Hf Hg. apply (derivable_pt_lim_minus (fun t => (u * t + v) * f t) (fun t => w * g t)).
  - apply (derivable_pt_lim_mult (fun t => u * t + v) f); [apply deriv_lin|exact Hf].
  - now apply (derivable_pt_lim_scal g).
Qed.
Section J.
Variables (a b : R).
Hypotheses (Ha : -1 < a) (Hb : -1 < b).
Variables (P Q : Z -> R -> R).
Hypotheses (HP : is_jacobi a b P) (HQ : is_jacobi (a + 1) (b + 1) Q).
Lemma jac_lower_0 x : (1 - x * x) * Q 0 x = l0 0 a b * P 0 x + l1 0 a b * P 1 x + l2 0 a b * P 2 x.
Proof. rewrite (jac_2 a b Ha Hb P HP), (jac_0 _ _ _ HP), (jac_1 _ _ _ HP), (jac_0 _ _ _ HQ). fld. Qed.
Lemma jac_lower_1 x : (1 - x * x) * Q 1 x = l0 1 a b * P 1 x + l1 1 a b * P 2 x + l2 1 a b * P 3 x.
Proof.
  change 3%Z with (2 + 1)%Z. rewrite (jac_rec a b Ha Hb P HP 2 x ltac:(lia)). change (2 - 1)%Z with 1%Z.
  rewrite (jac_2 a b Ha Hb P HP), (jac_1 _ _ _ HP), (jac_1 _ _ _ HQ). fld.
Qed.
Lemma jac_lower_step n x : (1 <= n)%Z ->
  (forall k, (k = n \/ k = n - 1)%Z -> (1 - x * x) * Q k x = l0 (IZR k) a b * P k x + l1 (IZR k) a b * P (k+1)%Z x + l2 (IZR k) a b * P (k+2)%Z x) ->
  (1 - x * x) * Q (n + 1)%Z x = l0 (IZR (n+1)) a b * P (n+1)%Z x + l1 (IZR (n+1)) a b * P (n+2)%Z x + l2 (IZR (n+1)) a b * P (n+3)%Z x.
Proof.
  intros Hn H. rewrite (jac_rec (a+1) (b+1) ltac:(lra) ltac:(lra) Q HQ) by lia.
  assert (E0 := H n ltac:(lia)). assert (E1 := H (n-1)%Z ltac:(lia)). clear H.
  assert (M0 := jac_mult a b Ha Hb P HP n x ltac:(lia)). assert (M1 := jac_mult a b Ha Hb P HP (n+1) x ltac:(lia)). assert (M2 := jac_mult a b Ha Hb P HP (n+2) x ltac:(lia)).
  replace (n - 1 + 1)%Z with n in * by lia. replace (n - 1 + 2)%Z with (n + 1)%Z in * by lia. replace (n + 1 - 1)%Z with n in * by lia.
  replace (n + 1 + 1)%Z with (n + 2)%Z in * by lia. replace (n + 2 - 1)%Z with (n + 1)%Z in * by lia. replace (n + 2 + 1)%Z with (n + 3)%Z in * by lia.
  rewrite !minus_IZR in *. rewrite !plus_IZR in *. apply IZR_le in Hn. set (k := IZR n) in *.
  set (q := Q n x) in *. set (q1 := Q (n-1)%Z x) in *.
  set (p := P n x) in *. set (p1 := P (n+1)%Z x) in *. set (p2 := P (n+2)%Z x) in *. set (p3 := P (n+3)%Z x) in *. set (pm := P (n-1)%Z x) in *.
  clearbody k q q1 p p1 p2 p3 pm.
  transitivity (rA k (a+1) (b+1) * (x * ((1 - x * x) * q)) + rB k (a+1) (b+1) * ((1 - x * x) * q) - rC k (a+1) (b+1) * ((1 - x * x) * q1)); [ring|].
  rewrite E0, E1.
  transitivity (rA k (a+1) (b+1) * (l0 k a b * (x * p) + l1 k a b * (x * p1) + l2 k a b * (x * p2)) + rB k (a+1) (b+1) * (l0 k a b * p + l1 k a b * p1 + l2 k a b * p2)
    - rC k (a+1) (b+1) * (l0 (k-1) a b * pm + l1 (k-1) a b * p + l2 (k-1) a b * p1)); [ring|].
  rewrite M0, M1, M2. clear M0 M1 M2 E0 E1.
  assert (I1 : rA k (a+1) (b+1) * l2 k a b * mU (k+2) a b = l2 (k+1) a b) by fld.
  assert (I2 : rA k (a+1) (b+1) * (l2 k a b * mD (k+2) a b + l1 k a b * mU (k+1) a b) + rB k (a+1) (b+1) * l2 k a b = l1 (k+1) a b) by fld.
  assert (I3 : rA k (a+1) (b+1) * (l2 k a b * mL (k+2) a b + l1 k a b * mD (k+1) a b + l0 k a b * mU k a b) + rB k (a+1) (b+1) * l1 k a b - rC k (a+1) (b+1) * l2 (k-1) a b = l0 (k+1) a b) by fld.
  assert (I4 : rA k (a+1) (b+1) * (l1 k a b * mL (k+1) a b + l0 k a b * mD k a b) + rB k (a+1) (b+1) * l0 k a b - rC k (a+1) (b+1) * l1 (k-1) a b = 0) by fld.
  assert (I5 : rA k (a+1) (b+1) * (l0 k a b * mL k a b) - rC k (a+1) (b+1) * l0 (k-1) a b = 0) by fld.
  rewrite <- I1, <- I2, <- I3.
  transitivity ((rA k (a+1) (b+1) * (l2 k a b * mL (k+2) a b + l1 k a b * mD (k+1) a b + l0 k a b * mU k a b) + rB k (a+1) (b+1) * l1 k a b - rC k (a+1) (b+1) * l2 (k-1) a b) * p1
   + (rA k (a+1) (b+1) * (l2 k a b * mD (k+2) a b + l1 k a b * mU (k+1) a b) + rB k (a+1) (b+1) * l2 k a b) * p2 + (rA k (a+1) (b+1) * l2 k a b * mU (k+2) a b) * p3
   + (rA k (a+1) (b+1) * (l1 k a b * mL (k+1) a b + l0 k a b * mD k a b) + rB k (a+1) (b+1) * l0 k a b - rC k (a+1) (b+1) * l1 (k-1) a b) * p
   + (rA k (a+1) (b+1) * (l0 k a b * mL k a b) - rC k (a+1) (b+1) * l0 (k-1) a b) * pm); [ring|].
  rewrite I4, I5. ring.
Qed.
Lemma jac_lower n x : (0 <= n)%Z -> (1 - x * x) * Q n x = l0 (IZR n) a b * P n x + l1 (IZR n) a b * P (n+1)%Z x + l2 (IZR n) a b * P (n+2)%Z x.
Proof.
  intros Hn. enough (H : forall k, (0 <= k)%Z -> forall i, (0 <= i <= k)%Z -> (1 - x * x) * Q i x = l0 (IZR i) a b * P i x + l1 (IZR i) a b * P (i+1)%Z x + l2 (IZR i) a b * P (i+2)%Z x) by (apply (H n); lia).
  intros k Hk. pattern k. apply natlike_ind; [| |exact Hk].
  - intros i Hi. replace i with 0%Z by lia. apply jac_lower_0.
  - clear k Hk. intros k Hk IH i Hi. destruct (Z.eq_dec i (k+1)) as [->|]; [|apply IH; lia]. destruct (Z.eq_dec k 0) as [->|].
    + apply jac_lower_1.
    + rewrite jac_lower_step by (try lia; intros q Hq; apply IH; lia). replace (k + 1 + 1)%Z with (k + 2)%Z by lia. replace (k + 1 + 2)%Z with (k + 3)%Z by lia. reflexivity.
Qed.

(** P_n' = (n+a+b+1)/2 Q_{n-1} *)
Lemma jac_deriv n : (0 <= n)%Z -> forall x, derivable_pt_lim (P n) x ((IZR n + a + b + 1) / 2 * ext0 Q (n - 1) x).
Proof.
  intros Hn x. enough (H : forall k, (0 <= k)%Z -> forall i, (0 <= i <= k)%Z -> derivable_pt_lim (P i) x ((IZR i + a + b + 1) / 2 * ext0 Q (i - 1) x)) by (apply (H n); lia).
  intros k Hk. pattern k. apply natlike_ind; [| |exact Hk].
  - intros i Hi. replace i with 0%Z by lia. rewrite ext0_neg by lia. rewrite Rmult_0_r.
    apply (derivable_pt_lim_ext (fun _ => 1)); [intros; symmetry; apply (jac_0 _ _ _ HP)|]. apply derivable_pt_lim_const.
  - clear k Hk. intros k Hk IH i Hi. destruct (Z.eq_dec i (k+1)) as [->|]; [|apply IH; lia]. destruct (Z.eq_dec k 0) as [->|].
    + change (0 + 1 - 1)%Z with 0%Z. change (0 + 1)%Z with 1%Z. rewrite ext0_pos, (jac_0 _ _ _ HQ) by lia.
      apply (derivable_pt_lim_ext (fun t => (a + 1) + (a + b + 2) * (t - 1) / 2)); [intros; symmetry; apply (jac_1 _ _ _ HP)|].
      apply (derivable_pt_lim_ext (fun t => (a + b + 2) / 2 * t + ((a + 1) - (a + b + 2) / 2))); [intros; field|].
      replace ((1 + a + b + 1) / 2 * 1) with ((a + b + 2) / 2) by field. apply deriv_lin.
    + apply (derivable_pt_lim_ext (fun t => (rA (IZR k) a b * t + rB (IZR k) a b) * P k t - rC (IZR k) a b * P (k - 1)%Z t)).
      { intros t. symmetry. apply jac_rec; auto. lia. }
      assert (D0 := IH k ltac:(lia)). assert (D1 := IH (k-1)%Z ltac:(lia)). assert (D := deriv_step (rA (IZR k) a b) (rB (IZR k) a b) (rC (IZR k) a b) _ _ _ _ _ D0 D1).
      rewrite (jac_raise a b Ha Hb P Q HP HQ k x) in D by lia.
      assert (M1 := Q_mult a b Ha Hb Q HQ (k-1) x ltac:(lia)).
      replace (k - 1 - 1)%Z with (k - 2)%Z in * by lia. replace (k - 1 + 1)%Z with k in * by lia. replace (k + 1 - 1)%Z with k by lia.
      rewrite minus_IZR in *. rewrite plus_IZR. assert (Hk1 : (1 <= k)%Z) by lia. apply IZR_le in Hk1.
      set (q := ext0 Q k x) in *. set (q1 := ext0 Q (k-1) x) in *. set (q2 := ext0 Q (k-2) x) in *. 
      set (f := fun t => (rA (IZR k) a b * t + rB (IZR k) a b) * P k t - rC (IZR k) a b * P (k - 1)%Z t) in *. clearbody f q q1 q2.
      set (c := IZR k) in *. clearbody c.
      match type of D with derivable_pt_lim _ _ ?e => replace ((c + 1 + a + b + 1) / 2 * q) with e; [exact D|] end.
      transitivity (rA c a b * (r0 c a b * q + r1 c a b * q1 + r2 c a b * q2) + (c + a + b + 1) / 2 * (rA c a b * (x * q1) + rB c a b * q1) - rC c a b * ((c - 1 + a + b + 1) / 2 * q2)); [ring|].
      rewrite M1.
      assert (I1 : rA c a b * r0 c a b + (c + a + b + 1) / 2 * rA c a b * mU (c-1) (a+1) (b+1) = (c + 1 + a + b + 1) / 2) by fld.
      assert (I2 : rA c a b * r1 c a b + (c + a + b + 1) / 2 * (rA c a b * mD (c-1) (a+1) (b+1) + rB c a b) = 0) by fld.
      assert (I3 : rA c a b * r2 c a b + (c + a + b + 1) / 2 * rA c a b * mL (c-1) (a+1) (b+1) - rC c a b * ((c - 1 + a + b + 1) / 2) = 0) by fld.
      rewrite <- I1.
      transitivity ((rA c a b * r0 c a b + (c + a + b + 1) / 2 * rA c a b * mU (c - 1) (a + 1) (b + 1)) * q +
        (rA c a b * r1 c a b + (c + a + b + 1) / 2 * (rA c a b * mD (c-1) (a+1) (b+1) + rB c a b)) * q1 +
        (rA c a b * r2 c a b + (c + a + b + 1) / 2 * rA c a b * mL (c-1) (a+1) (b+1) - rC c a b * ((c - 1 + a + b + 1) / 2)) * q2); [ring|].
      rewrite I2, I3. ring.
Qed.
End J.

(** ** Norms *)
Section N.
Variables (a b : R) (h : Z -> R).
Hypotheses (Ha : -1 < a) (Hb : -1 < b) (Hh : jacobi_norms a b h).
Lemma jn_rec n : (1 <= n)%Z -> h (n + 1)%Z =
  ((2*IZR n + a + b + 1) * (IZR n + a + 1) * (IZR n + b + 1) / ((2*IZR n + a + b + 3) * (IZR n + 1) * (IZR n + a + b + 1))) * h n.
Proof.
  intros Hn. assert (H := jn_S _ _ _ Hh n Hn). cbn zeta in H. apply IZR_le in Hn. set (k := IZR n) in *. 
  assert (Hd : (2 * k + a + b + 3) * (k + 1) * (k + a + b + 1) <> 0) by (repeat apply Rmult_integral_contrapositive_currified; lra).
  apply (Rmult_eq_reg_l _ _ _ ) with (2 := Hd). rewrite H. field. repeat split; lra.
Qed.
Lemma jn_rec0 : h 1%Z = ((a + 1) * (b + 1) / (a + b + 3)) * h 0%Z.
Proof. assert (H := jn_1 _ _ _ Hh). apply (Rmult_eq_reg_l (a + b + 3)); [|lra]. rewrite H. field. lra. Qed.
Lemma jn_pos n : (0 <= n)%Z -> 0 < h n.
Proof.
  intros Hn. pattern n. apply natlike_ind; [apply (jn_0 _ _ _ Hh)| |exact Hn]. clear n Hn. intros n Hn IH. unfold Z.succ. destruct (Z.eq_dec n 0) as [->|].
  - cbn [Z.add]. rewrite jn_rec0. apply Rmult_lt_0_compat; auto. apply Rdiv_lt_0_compat; [apply Rmult_lt_0_compat|]; lra.
  - rewrite jn_rec by lia. apply Rmult_lt_0_compat; auto. assert (Hk : (1 <= n)%Z) by lia. apply IZR_le in Hk.
    apply Rdiv_lt_0_compat; repeat apply Rmult_lt_0_compat; lra.
Qed.
End N.
Section N2.
Variables (a b : R) (h hq : Z -> R).
Hypotheses (Ha : -1 < a) (Hb : -1 < b) (Hh : jacobi_norms a b h) (Hq : jacobi_norms (a+1) (b+1) hq) (Hm : jacobi_masses a b (h 0%Z) (hq 0%Z)).
Lemma jn_shift n : (0 <= n)%Z -> hq n = 4 * (IZR n + 1) / (IZR n + a + b + 2) * h (n + 1)%Z.
Proof.
  intros Hn. pattern n. apply natlike_ind; [| |exact Hn].
  - cbn [Z.add]. rewrite (jn_rec0 a b h Ha Hb Hh). unfold jacobi_masses in Hm.
    assert (Hd : (a + b + 2) * (a + b + 3) <> 0) by (repeat apply Rmult_integral_contrapositive_currified; lra).
    apply (Rmult_eq_reg_l _ _ _) with (2 := Hd). rewrite Hm. field. repeat split; lra.
  - clear n Hn. intros n Hn IH. unfold Z.succ. rewrite (jn_rec a b h Ha Hb Hh (n+1)) by lia. destruct (Z.eq_dec n 0) as [->|].
    + cbn [Z.add] in *. rewrite (jn_rec0 (a+1) (b+1) hq ltac:(lra) ltac:(lra) Hq), IH. field. repeat split; lra.
    + rewrite (jn_rec (a+1) (b+1) hq ltac:(lra) ltac:(lra) Hq) by lia. rewrite IH, !plus_IZR. apply IZR_le in Hn. field. repeat split; lra.
Qed.
End N2.
