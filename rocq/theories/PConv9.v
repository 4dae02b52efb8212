(** * Jacobi polynomials whose first parameter differs by one or two *)
From Coq Require Import ZArith List Lia Bool Reals Lra ZifyBool.
From Verif Require Import Base SpecSum SpecClassical PClass8.
Open Scope Z_scope.
Open Scope R_scope.

Section Shift.
Variables (a b : R) (P U : Z -> R -> R).
Hypotheses (Ha : -1 < a) (Hb : -1 < b) (HP : is_jacobi a b P) (HU : is_jacobi (a + 1) b U).
Lemma shift_both x k : (0 <= k)%Z ->
  (2 * IZR k + a + b + 2) * (1 - x) * U k x = 2 * ((IZR k + a + 1) * P k x - (IZR k + 1) * P (k + 1)%Z x) /\
  (2 * IZR k + a + b + 3) * P (k + 1)%Z x = (IZR k + a + b + 2) * U (k + 1)%Z x - (IZR k + b + 1) * U k x.
Proof.
  intros Hk. pattern k. apply natlike_ind; auto; clear k Hk.
  - rewrite (jac_0 _ _ _ HU), (jac_0 _ _ _ HP). change (0 + 1)%Z with 1%Z. rewrite (jac_1 _ _ _ HP), (jac_1 _ _ _ HU). split; field.
  - intros k Hk [I1 I2]. unfold Z.succ. assert (Rk : 0 <= IZR k) by (apply IZR_le; auto).
    pose proof (jac_S _ _ _ HP (k + 1)%Z x ltac:(lia)) as rP. pose proof (jac_S _ _ _ HU (k + 1)%Z x ltac:(lia)) as rU. cbv zeta in rP, rU.
    replace (k + 1 - 1)%Z with k in * by lia. rewrite plus_IZR in *. set (r := IZR k) in *.
    set (p2 := P (k + 1 + 1)%Z x) in *. set (p1 := P (k + 1)%Z x) in *. set (p0 := P k x) in *.
    set (u2 := U (k + 1 + 1)%Z x) in *. set (u1 := U (k + 1)%Z x) in *. set (u0 := U k x) in *.
    assert (E0 : p0 = ((2 * r + a + b + 2) * (1 - x) * u0 / 2 + (r + 1) * p1) / (r + a + 1)) by (field_simplify_eq; [|lra]; lra).
    assert (E1 : p1 = ((r + a + b + 2) * u1 - (r + b + 1) * u0) / (2 * r + a + b + 3)) by (field_simplify_eq; [|lra]; lra).
    assert (J1 : (2 * (r + 1) + a + b + 2) * (1 - x) * u1 = 2 * ((r + 1 + a + 1) * p1 - (r + 1 + 1) * p2)).
    { assert (E2 : p2 = ((2 * (r + 1) + a + b + 1) * ((2 * (r + 1) + a + b + 2) * (2 * (r + 1) + a + b) * x + (a * a - b * b)) * p1 - 2 * (r + 1 + a) * (r + 1 + b) * (2 * (r + 1) + a + b + 2) * p0) / (2 * (r + 1 + 1) * (r + 1 + a + b + 1) * (2 * (r + 1) + a + b))).
      { apply (Rmult_eq_reg_l (2 * (r + 1 + 1) * (r + 1 + a + b + 1) * (2 * (r + 1) + a + b))); [|apply Rgt_not_eq; repeat apply Rmult_gt_0_compat; lra]. rewrite rP. field. repeat split; lra. }
      rewrite E2, E0, E1. field. repeat split; lra. }
    split; [exact J1|].
    assert (E2 : p2 = ((r + a + 2) * p1 - (2 * r + a + b + 4) * (1 - x) * u1 / 2) / (r + 2)) by (field_simplify_eq; [|lra]; lra).
    assert (E3 : u2 = ((2 * (r + 1) + (a + 1) + b + 1) * ((2 * (r + 1) + (a + 1) + b + 2) * (2 * (r + 1) + (a + 1) + b) * x + ((a + 1) * (a + 1) - b * b)) * u1 - 2 * (r + 1 + (a + 1)) * (r + 1 + b) * (2 * (r + 1) + (a + 1) + b + 2) * u0) / (2 * (r + 1 + 1) * (r + 1 + (a + 1) + b + 1) * (2 * (r + 1) + (a + 1) + b))).
    { apply (Rmult_eq_reg_l (2 * (r + 1 + 1) * (r + 1 + (a + 1) + b + 1) * (2 * (r + 1) + (a + 1) + b))); [|apply Rgt_not_eq; repeat apply Rmult_gt_0_compat; lra]. rewrite rU. field. repeat split; lra. }
    rewrite E2, E3, E1. field. repeat split; lra.
Qed.
End Shift.

(** norms of the parameters a and a+2 *)
Section Norms.
Variables (a b : R) (h g : Z -> R).
Hypotheses (Ha : -1 < a) (Hb : -1 < b) (Hh : jacobi_norms a b h) (Hg : jacobi_norms (a + 2) b g).
Hypothesis H0 : (a + b + 2) * (a + b + 3) * g 0%Z = 4 * (a + 1) * (a + 2) * h 0%Z.
Lemma norms2 k : (0 <= k)%Z -> 0 < h (k + 1)%Z /\ 0 < g k /\ 4 * (IZR k + 1) * (IZR k + a + 2) * h (k + 1)%Z = (IZR k + b + 1) * (IZR k + a + b + 2) * g k.
Proof.
  intros Hk. pattern k. apply natlike_ind; auto; clear k Hk.
  - change (0 + 1)%Z with 1%Z. pose proof (jn_0 _ _ _ Hh). pose proof (jn_1 _ _ _ Hh). pose proof (jn_0 _ _ _ Hg).
    assert (E1 : h 1%Z = (a + 1) * (b + 1) * h 0%Z / (a + b + 3)) by (field_simplify_eq; [|lra]; lra).
    assert (E2 : g 0%Z = 4 * (a + 1) * (a + 2) * h 0%Z / ((a + b + 2) * (a + b + 3))) by (field_simplify_eq; [|split; lra]; lra).
    split; [rewrite E1; apply Rdiv_lt_0_compat; [repeat apply Rmult_lt_0_compat; lra|lra]|]. split; [auto|]. rewrite E1, E2. field. split; lra.
  - intros k Hk (P1 & P2 & E). unfold Z.succ. assert (Rk : 0 <= IZR k) by (apply IZR_le; auto).
    pose proof (jn_S _ _ _ Hh (k + 1)%Z ltac:(lia)) as rh. cbv zeta in rh. rewrite plus_IZR in *. set (r := IZR k) in *.
    assert (rg : (2 * r + a + b + 5) * (r + 1) * (r + a + b + 3) * g (k + 1)%Z = (2 * r + a + b + 3) * (r + a + 3) * (r + b + 1) * g k).
    { destruct (Z.eq_dec k 0) as [->|Nk]; [unfold r; pose proof (jn_1 _ _ _ Hg) as q; change (0 + 1)%Z with 1%Z; nra|]. pose proof (jn_S _ _ _ Hg k ltac:(lia)) as q. cbv zeta in q. fold r in q. nra. }
    set (h2 := h (k + 1 + 1)%Z) in *. set (h1 := h (k + 1)%Z) in *. set (g1 := g (k + 1)%Z) in *. set (g0 := g k) in *.
    assert (E1 : h2 = (2 * (r + 1) + a + b + 1) * (r + 1 + a + 1) * (r + 1 + b + 1) * h1 / ((2 * (r + 1) + a + b + 3) * (r + 1 + 1) * (r + 1 + a + b + 1))).
    { apply (Rmult_eq_reg_l ((2 * (r + 1) + a + b + 3) * (r + 1 + 1) * (r + 1 + a + b + 1))); [|apply Rgt_not_eq; repeat apply Rmult_gt_0_compat; lra]. rewrite rh. field. repeat split; lra. }
    assert (E2 : g1 = (2 * r + a + b + 3) * (r + a + 3) * (r + b + 1) * g0 / ((2 * r + a + b + 5) * (r + 1) * (r + a + b + 3))).
    { apply (Rmult_eq_reg_l ((2 * r + a + b + 5) * (r + 1) * (r + a + b + 3))); [|apply Rgt_not_eq; repeat apply Rmult_gt_0_compat; lra]. rewrite rg. field. repeat split; lra. }
    assert (E0 : h1 = (r + b + 1) * (r + a + b + 2) * g0 / (4 * (r + 1) * (r + a + 2))).
    { apply (Rmult_eq_reg_l (4 * (r + 1) * (r + a + 2))); [|apply Rgt_not_eq; repeat apply Rmult_gt_0_compat; lra]. rewrite E. field. repeat split; lra. }
    split; [rewrite E1; apply Rdiv_lt_0_compat; repeat apply Rmult_lt_0_compat; lra|]. split; [rewrite E2; apply Rdiv_lt_0_compat; repeat apply Rmult_lt_0_compat; lra|].
    rewrite E1, E2, E0. field. repeat split; lra.
Qed.
(** a second relation *)
Lemma norms3 k : (0 <= k)%Z -> (IZR k + a + b + 2) * (IZR k + a + b + 3) * (2 * IZR k + a + b + 5) * g (k + 1)%Z = 4 * (IZR k + a + 2) * (IZR k + a + 3) * (2 * IZR k + a + b + 3) * h (k + 1)%Z.
Proof.
  intros Hk. destruct (norms2 k Hk) as (P1 & P2 & E). assert (Rk : 0 <= IZR k) by (apply IZR_le; auto). set (r := IZR k) in *.
  assert (rg : (2 * r + a + b + 5) * (r + 1) * (r + a + b + 3) * g (k + 1)%Z = (2 * r + a + b + 3) * (r + a + 3) * (r + b + 1) * g k).
  { destruct (Z.eq_dec k 0) as [->|Nk]; [unfold r; pose proof (jn_1 _ _ _ Hg) as q; change (0 + 1)%Z with 1%Z; nra|]. pose proof (jn_S _ _ _ Hg k ltac:(lia)) as q. cbv zeta in q. fold r in q. nra. }
  set (h1 := h (k + 1)%Z) in *. set (g1 := g (k + 1)%Z) in *. set (g0 := g k) in *.
  assert (E2 : g1 = (2 * r + a + b + 3) * (r + a + 3) * (r + b + 1) * g0 / ((2 * r + a + b + 5) * (r + 1) * (r + a + b + 3))).
  { apply (Rmult_eq_reg_l ((2 * r + a + b + 5) * (r + 1) * (r + a + b + 3))); [|apply Rgt_not_eq; repeat apply Rmult_gt_0_compat; lra]. rewrite rg. field. repeat split; lra. }
  assert (E0 : h1 = (r + b + 1) * (r + a + b + 2) * g0 / (4 * (r + 1) * (r + a + 2))).
  { apply (Rmult_eq_reg_l (4 * (r + 1) * (r + a + 2))); [|apply Rgt_not_eq; repeat apply Rmult_gt_0_compat; lra]. rewrite E. field. repeat split; lra. }
  rewrite E0, E2. field. repeat split; lra.
Qed.
End Norms.
