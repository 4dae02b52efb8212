(** * The planned rotations between Jacobi polynomials with first parameters a and a+2 *)
From Coq Require Import ZArith List Lia Bool Reals Lra ZifyBool.
From Verif Require Import Base SpecSum SpecClassical PClass8 PConv9.
Open Scope Z_scope.
Open Scope R_scope.

Definition js (a b : R) (k : Z) : R := sqrt ((IZR k + 1) * (IZR k + b + 1) / ((IZR k + a + 2) * (IZR k + a + b + 2))).
Definition jc (a b : R) (k : Z) : R := sqrt ((a + 1) * (2 * IZR k + a + b + 3) / ((IZR k + a + 2) * (IZR k + a + b + 2))).
Lemma sq_eq x y : 0 <= x -> 0 <= y -> x * x = y * y -> x = y.
Proof. intros. apply Rsqr_inj; auto. Qed.
Section Rot.
Variables (a b : R) (P Q : Z -> R -> R) (h g : Z -> R) (x : R).
Hypotheses (Ha : -1 < a) (Hb : -1 < b) (HP : is_jacobi a b P) (HQ : is_jacobi (a + 2) b Q) (Hh : jacobi_norms a b h) (Hg : jacobi_norms (a + 2) b g).
Hypothesis H0 : (a + b + 2) * (a + b + 3) * g 0%Z = 4 * (a + 1) * (a + 2) * h 0%Z.
Let U := std_jacobi (a + 1) b.
Definition jmix (k : Z) : R := 2 * (a + 1) / ((IZR k + a + b + 2) * (jc a b k * sqrt (g k))) * U k x.
Lemma UU : is_jacobi (a + 1) b U. Proof. apply std_jacobi_ok; lra. Qed.
Lemma jc_pos k : (0 <= k)%Z -> 0 < jc a b k.
Proof. intros Hk. apply IZR_le in Hk. apply sqrt_lt_R0, Rdiv_lt_0_compat; apply Rmult_lt_0_compat; lra. Qed.
Lemma js_pos k : (0 <= k)%Z -> 0 < js a b k.
Proof. intros Hk. apply IZR_le in Hk. apply sqrt_lt_R0, Rdiv_lt_0_compat; apply Rmult_lt_0_compat; lra. Qed.
Lemma jc_sq k : (0 <= k)%Z -> jc a b k * jc a b k = (a + 1) * (2 * IZR k + a + b + 3) / ((IZR k + a + 2) * (IZR k + a + b + 2)).
Proof. intros Hk. apply IZR_le in Hk. apply sqrt_sqrt. apply Rlt_le, Rdiv_lt_0_compat; apply Rmult_lt_0_compat; lra. Qed.
Lemma js_sq k : (0 <= k)%Z -> js a b k * js a b k = (IZR k + 1) * (IZR k + b + 1) / ((IZR k + a + 2) * (IZR k + a + b + 2)).
Proof. intros Hk. apply IZR_le in Hk. apply sqrt_sqrt. apply Rlt_le, Rdiv_lt_0_compat; apply Rmult_lt_0_compat; lra. Qed.

Lemma rel1 k : (0 <= k)%Z -> 2 * (IZR k + 1) * sqrt (h (k + 1)%Z) = js a b k * ((IZR k + a + b + 2) * sqrt (g k)).
Proof.
  intros Hk. destruct (norms2 a b h g Ha Hb Hh Hg H0 k Hk) as (P1 & P2 & E). pose proof (js_pos k Hk) as p. pose proof (js_sq k Hk) as q. apply IZR_le in Hk. set (r := IZR k) in *.
  apply sq_eq.
  - apply Rmult_le_pos; [lra|apply sqrt_pos].
  - apply Rmult_le_pos; [lra|apply Rmult_le_pos; [lra|apply sqrt_pos]].
  - replace (2 * (r + 1) * sqrt (h (k + 1)%Z) * (2 * (r + 1) * sqrt (h (k + 1)%Z))) with (4 * (r + 1) * (r + 1) * (sqrt (h (k + 1)%Z) * sqrt (h (k + 1)%Z))) by ring. rewrite sqrt_sqrt by lra.
    replace (js a b k * ((r + a + b + 2) * sqrt (g k)) * (js a b k * ((r + a + b + 2) * sqrt (g k)))) with ((js a b k * js a b k) * (r + a + b + 2) * (r + a + b + 2) * (sqrt (g k) * sqrt (g k))) by ring. rewrite sqrt_sqrt, q by lra.
    apply (Rmult_eq_reg_r (r + a + 2)); [|lra]. replace (4 * (r + 1) * (r + 1) * h (k + 1)%Z * (r + a + 2)) with ((r + 1) * (4 * (r + 1) * (r + a + 2) * h (k + 1)%Z)) by ring. rewrite E. field. lra.
Qed.
Lemma rel2 k : (0 <= k)%Z -> 2 * (a + 1) * (2 * IZR k + a + b + 3) * sqrt (h (k + 1)%Z) = jc a b k * (IZR k + a + b + 2) * ((IZR k + a + b + 3) * (jc a b (k + 1) * sqrt (g (k + 1)%Z))).
Proof.
  intros Hk. destruct (norms2 a b h g Ha Hb Hh Hg H0 k Hk) as (P1 & _ & _). destruct (norms2 a b h g Ha Hb Hh Hg H0 (k + 1) ltac:(lia)) as (_ & P2 & _).
  pose proof (norms3 a b h g Ha Hb Hh Hg H0 k Hk) as E. pose proof (jc_pos k Hk) as p. pose proof (jc_sq k Hk) as q. pose proof (jc_pos (k + 1) ltac:(lia)) as p'. pose proof (jc_sq (k + 1) ltac:(lia)) as q'.
  rewrite plus_IZR in q'. apply IZR_le in Hk. set (r := IZR k) in *.
  apply sq_eq.
  - apply Rmult_le_pos; [|apply sqrt_pos]. repeat apply Rmult_le_pos; lra.
  - apply Rmult_le_pos; [apply Rmult_le_pos; lra|]. apply Rmult_le_pos; [lra|]. apply Rmult_le_pos; [lra|apply sqrt_pos].
  - replace (2 * (a + 1) * (2 * r + a + b + 3) * sqrt (h (k + 1)%Z) * (2 * (a + 1) * (2 * r + a + b + 3) * sqrt (h (k + 1)%Z))) with (4 * ((a + 1) * (a + 1)) * ((2 * r + a + b + 3) * (2 * r + a + b + 3)) * (sqrt (h (k + 1)%Z) * sqrt (h (k + 1)%Z))) by ring. rewrite sqrt_sqrt by lra.
    match goal with |- _ = ?R => replace R with ((jc a b k * jc a b k) * (jc a b (k + 1) * jc a b (k + 1)) * ((r + a + b + 2) * (r + a + b + 2)) * ((r + a + b + 3) * (r + a + b + 3)) * (sqrt (g (k + 1)%Z) * sqrt (g (k + 1)%Z))) by ring end.
    rewrite sqrt_sqrt by lra. rewrite q, q'. set (h1 := h (k + 1)%Z) in *. set (g1 := g (k + 1)%Z) in *.
    assert (Eg : g1 = 4 * (r + a + 2) * (r + a + 3) * (2 * r + a + b + 3) * h1 / ((r + a + b + 2) * (r + a + b + 3) * (2 * r + a + b + 5))).
    { apply (Rmult_eq_reg_l ((r + a + b + 2) * (r + a + b + 3) * (2 * r + a + b + 5))); [|apply Rgt_not_eq; repeat apply Rmult_gt_0_compat; lra]. rewrite E. field. repeat split; lra. }
    rewrite Eg. field. repeat split; lra.
Qed.
Lemma sg k : (0 <= k)%Z -> 0 < sqrt (g k). Proof. intros Hk. apply sqrt_lt_R0. destruct (norms2 a b h g Ha Hb Hh Hg H0 k Hk) as (_ & P2 & _). exact P2. Qed.
Lemma sh k : (0 <= k)%Z -> 0 < sqrt (h (k + 1)%Z). Proof. intros Hk. apply sqrt_lt_R0. destruct (norms2 a b h g Ha Hb Hh Hg H0 k Hk) as (P1 & _). exact P1. Qed.

Lemma jrot1 k : (0 <= k)%Z -> (1 - x) * fam true Q g k x = jc a b k * jmix k - js a b k * fam true P h (k + 1) x.
Proof.
  intros Hk. pose proof (rel1 k Hk) as E. pose proof (sg k Hk) as p1. pose proof (sh k Hk) as p2. pose proof (jc_pos k Hk) as p3.
  pose proof (proj2 (shift_both a b P U Ha Hb HP UU x k Hk)) as J2.
  assert (HQ' : is_jacobi (a + 1 + 1) b Q) by (replace (a + 1 + 1) with (a + 2) by ring; exact HQ).
  pose proof (proj1 (shift_both (a + 1) b U Q ltac:(lra) Hb UU HQ' x k Hk)) as J1.
  apply IZR_le in Hk. unfold jmix, fam. set (r := IZR k) in *. set (u := U k x) in *. set (u1 := U (k + 1)%Z x) in *. set (sh' := sqrt (h (k + 1)%Z)) in *. set (sg' := sqrt (g k)) in *.
  set (q := Q k x) in *. set (p := P (k + 1)%Z x) in *.
  assert (Es : js a b k = 2 * (r + 1) * sh' / ((r + a + b + 2) * sg')) by (rewrite E; field; split; lra).
  assert (Ep : p = ((r + a + b + 2) * u1 - (r + b + 1) * u) / (2 * r + a + b + 3)) by (rewrite <- J2; field; lra).
  assert (Eq : (1 - x) * q = 2 * ((r + a + 2) * u - (r + 1) * u1) / (2 * r + a + b + 3)).
  { apply (Rmult_eq_reg_l (2 * r + a + b + 3)); [|lra]. field_simplify; [|lra]. field_simplify in J1. lra. }
  replace ((1 - x) * (q / sg')) with (((1 - x) * q) / sg') by (field; lra). rewrite Eq, Es, Ep. field. repeat split; lra.
Qed.
Lemma jrot2 k : (0 <= k)%Z -> jmix (k + 1) = js a b k * jmix k + jc a b k * fam true P h (k + 1) x.
Proof.
  intros Hk. pose proof (rel1 k Hk) as E. pose proof (rel2 k Hk) as E2. pose proof (sg k Hk) as p1. pose proof (sg (k + 1) ltac:(lia)) as p1'. pose proof (sh k Hk) as p2. pose proof (jc_pos k Hk) as p3. pose proof (jc_pos (k + 1) ltac:(lia)) as p3'.
  pose proof (proj2 (shift_both a b P U Ha Hb HP UU x k Hk)) as J2. pose proof (jc_sq k Hk) as cq.
  apply IZR_le in Hk. unfold jmix, fam. rewrite plus_IZR. set (r := IZR k) in *. set (u := U k x) in *. set (u1 := U (k + 1)%Z x) in *. set (sh' := sqrt (h (k + 1)%Z)) in *. set (sg' := sqrt (g k)) in *.
  set (p := P (k + 1)%Z x) in *. set (c := jc a b k) in *. set (c1 := jc a b (k + 1)) in *. set (sg1 := sqrt (g (k + 1)%Z)) in *.
  assert (Es : js a b k = 2 * (r + 1) * sh' / ((r + a + b + 2) * sg')) by (rewrite E; field; split; lra).
  assert (Ep : p = ((r + a + b + 2) * u1 - (r + b + 1) * u) / (2 * r + a + b + 3)) by (rewrite <- J2; field; lra).
  assert (Em : 2 * (a + 1) / ((r + 1 + a + b + 2) * (c1 * sg1)) = c * (r + a + b + 2) / ((2 * r + a + b + 3) * sh')).
  { apply (Rmult_eq_reg_r ((2 * r + a + b + 3) * sh' * ((r + a + b + 3) * (c1 * sg1)))).
    2:{ apply Rgt_not_eq. repeat apply Rmult_gt_0_compat; lra. }
    transitivity (2 * (a + 1) * (2 * r + a + b + 3) * sh'); [field; repeat split; lra|]. rewrite E2. field. repeat split; lra. }
  rewrite Em, Ep.
  assert (Eu : js a b k * (2 * (a + 1) / ((r + a + b + 2) * (c * sg'))) = c * (r + b + 1) / ((2 * r + a + b + 3) * sh')).
  { pose proof (js_pos k ltac:(apply le_IZR; exact Hk)) as ps. pose proof (js_sq k ltac:(apply le_IZR; exact Hk)) as sq. fold r in sq.
    assert (Eg : sg' = 2 * (r + 1) * sh' / ((r + a + b + 2) * js a b k)) by (rewrite E; field; split; lra).
    rewrite Eg. set (s := js a b k) in *.
    apply (Rmult_eq_reg_r (c * sh')); [|apply Rgt_not_eq; apply Rmult_gt_0_compat; lra].
    transitivity ((s * s) * (a + 1) / (r + 1)); [field; repeat split; lra|]. transitivity ((c * c) * (r + b + 1) / (2 * r + a + b + 3)); [|field; repeat split; lra].
    rewrite sq, cq. field. repeat split; lra. }
  rewrite <- Rmult_assoc, Eu. field. repeat split; lra.
Qed.
Lemma jrot0 : jmix 0 = fam true P h 0 x.
Proof.
  pose proof (jn_0 _ _ _ Hh) as ph. pose proof (jn_0 _ _ _ Hg) as pg. unfold jmix, fam. rewrite (jac_0 _ _ _ HP). unfold U. rewrite (jac_0 _ _ _ UU). 
  pose proof (jc_pos 0 ltac:(lia)) as p. pose proof (jc_sq 0 ltac:(lia)) as q. pose proof (sg 0 ltac:(lia)) as sg0. assert (sh0 : 0 < sqrt (h 0%Z)) by (apply sqrt_lt_R0; auto).
  assert (E : 2 * (a + 1) * sqrt (h 0%Z) = (a + b + 2) * (jc a b 0 * sqrt (g 0%Z))).
  { apply sq_eq; [apply Rmult_le_pos; lra|apply Rmult_le_pos; [lra|apply Rmult_le_pos; lra]|].
    replace (2 * (a + 1) * sqrt (h 0%Z) * (2 * (a + 1) * sqrt (h 0%Z))) with (4 * (a + 1) * (a + 1) * (sqrt (h 0%Z) * sqrt (h 0%Z))) by ring. rewrite sqrt_sqrt by lra.
    replace ((a + b + 2) * (jc a b 0 * sqrt (g 0%Z)) * ((a + b + 2) * (jc a b 0 * sqrt (g 0%Z)))) with ((jc a b 0 * jc a b 0) * (a + b + 2) * (a + b + 2) * (sqrt (g 0%Z) * sqrt (g 0%Z))) by ring. rewrite sqrt_sqrt, q by lra.
    assert (Eg : g 0%Z = 4 * (a + 1) * (a + 2) * h 0%Z / ((a + b + 2) * (a + b + 3))) by (rewrite <- H0; field; split; lra). rewrite Eg. field. repeat split; lra. }
  replace (0 + a + b + 2) with (a + b + 2) by ring. rewrite <- E. field. split; lra.
Qed.
End Rot.
