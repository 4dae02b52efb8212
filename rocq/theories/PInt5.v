(** * Index ranges of the gradient, the curl, the Helmholtz--Hodge decomposition and the polar isometries *)
From Coq Require Import ZArith List Lia Bool String ZifyBool ZifyNat.
From Verif Require Import Base MInt MInt2 PInt PInt2 PInt3 PInt4.
Import ListNotations.
Open Scope Z_scope.

Ltac use1 := (apply uses_safe; let a := fresh "a" in let HI := fresh "HI" in intros a HI; repeat (destruct HI as [<-|HI]; [eexists; unfold scol, ccol; evgo; reflexivity|]); contradiction) || (eapply use_safe; unfold scol, ccol; evgo; reflexivity).
Ltac each := apply seq_safe; let c := fresh "c" in let HI := fresh "HI" in intros c HI; repeat (destruct HI as [<-|HI]; [|]); [..|contradiction].
Ltac upl v0 w := apply (for_up _ _ _ _ _ _ _ v0 w w); try rng; [evgo; reflexivity|intros; evgo; reflexivity|apply holds_lt|].

Section Plans.
Variable n : Z.
Let e0 := upd env0 "n"%string n.
Let e m := upd e0 "m"%string m.
Lemma sine_safe m : 1 <= m <= n -> n <= 23170 -> exec c_sine_multiplication (e m) <> Overflow.
Proof.
  intros Hm Hn. unfold c_sine_multiplication, e, e0, c_calloc_tb, c_set_tb. each.
  - use1.
  - upl 0 (n + 1 - m). intros l Hl.
    assert (P1 := mulb (l + 2 * m - 1) (l + 2 * m) 46339 46340 ltac:(lia) ltac:(lia)). assert (P2 := mulb (2 * l + 2 * m - 1) (2 * l + 2 * m + 1) 46339 46341 ltac:(lia) ltac:(lia)). each; use1.
  - upl 0 (n - 1 - m). intros l Hl.
    assert (P1 := mulb (l + 1) (l + 2) 46339 46340 ltac:(lia) ltac:(lia)). assert (P2 := mulb (2 * l + 2 * m + 1) (2 * l + 2 * m + 3) 46339 46341 ltac:(lia) ltac:(lia)). each; use1.
Qed.
Lemma theta_safe m : 1 <= m <= n -> n <= 23170 -> exec c_theta_derivative (e m) <> Overflow.
Proof.
  intros Hm Hn. unfold c_theta_derivative, e, e0, c_calloc_bd, c_set_bd. each.
  - use1.
  - upl 1 (n + 1 - m). intros l Hl.
    assert (P1 := mulb l (l + 2 * m) 23170 46340 ltac:(lia) ltac:(lia)). assert (P2 := mulb (2 * l + 2 * m - 1) (2 * l + 2 * m + 1) 46339 46341 ltac:(lia) ltac:(lia)). each; use1.
  - upl 0 (n - m). intros l Hl.
    assert (P1 := mulb (l + 1) (l + 2 * m + 1) 23170 46341 ltac:(lia) ltac:(lia)). assert (P2 := mulb (2 * l + 2 * m + 1) (2 * l + 2 * m + 3) 46339 46341 ltac:(lia) ltac:(lia)). each; use1.
Qed.
Lemma conversion_safe m : 1 <= m <= n -> n <= 23169 -> exec c_hh_conversion (e m) <> Overflow.
Proof.
  intros Hm Hn. unfold c_hh_conversion, e, e0, c_calloc_bd, c_set_bd. each.
  - use1.
  - use1.
  - upl 0 (n + 1 - m). intros l Hl.
    assert (P1 := mulb (l + 1) (l + 2 * m + 1) 23170 46341 ltac:(lia) ltac:(lia)). assert (P2 := mulb (2 * l + 2 * m + 1) (2 * l + 2 * m + 3) 46339 46341 ltac:(lia) ltac:(lia)). each; use1.
  - upl 0 (n - m). intros l Hl.
    assert (P1 := mulb (l + 1) (l + 2 * m + 1) 23170 46341 ltac:(lia) ltac:(lia)). assert (P2 := mulb (2 * l + 2 * m + 1) (2 * l + 2 * m + 3) 46339 46341 ltac:(lia) ltac:(lia)). each; use1.
Qed.
Lemma gradient_T : 0 <= n <= int_max -> exec c_plan_sph_gradient e0 = if n <=? 23170 then Done else Overflow.
Proof.
  intros H. destruct (n <=? 23170) eqn:E.
  - apply exec_done. { cbn; repeat split; lia. } unfold c_plan_sph_gradient, e0.
    apply (for_up _ _ _ _ _ _ _ 1 n (n + 1)); try rng; [evgo; reflexivity|intros; evgo; reflexivity|apply holds_le|].
    intros m Hm. each; [use1|apply theta_safe; lia|use1|apply sine_safe; lia].
  - apply exec_overflow. { cbn; repeat split; lia. } unfold c_plan_sph_gradient, e0.
    apply (for_hits' _ _ _ _ _ _ _ 1 n 0); [lia|evgo; reflexivity|intros; evgo; reflexivity|intros; cbn [holds]; lia|].
    eapply seq_hits; [right; left; reflexivity|]. unfold c_theta_derivative. destruct (Z.eq_dec n int_max) as [->|NE].
    { eapply seq_hits; [left; reflexivity|]. apply use_hits. reflexivity. }
    eapply seq_hits; [right; left; reflexivity|].
    apply (for_hits' _ _ _ _ _ _ _ 1 n 23169); [lia|evgo; reflexivity|intros; evgo; f_equal; lia|intros; cbn [holds]; lia|].
    eapply seq_hits; [right; left; reflexivity|]. apply use_hits. apply ev_none. reflexivity.
Qed.
Lemma helmholtzhodge_T : 0 <= n <= int_max -> exec c_plan_sph_helmholtzhodge e0 = if n <=? 23169 then Done else Overflow.
Proof.
  intros H. destruct (n <=? 23169) eqn:E.
  - apply exec_done. { cbn; repeat split; lia. } unfold c_plan_sph_helmholtzhodge, e0. each; [|use1].
    apply (for_up _ _ _ _ _ _ _ 1 n (n + 1)); try rng; [evgo; reflexivity|intros; evgo; reflexivity|apply holds_le|].
    intros m Hm. each; [use1|apply sine_safe; lia|apply conversion_safe; lia|use1].
  - apply exec_overflow. { cbn; repeat split; lia. } unfold c_plan_sph_helmholtzhodge, e0. eapply seq_hits; [left; reflexivity|].
    apply (for_hits' _ _ _ _ _ _ _ 1 n 0); [lia|evgo; reflexivity|intros; evgo; reflexivity|intros; cbn [holds]; lia|].
    destruct (Z.eq_dec n int_max) as [->|NE].
    { eapply seq_hits; [right; left; reflexivity|]. unfold c_sine_multiplication. eapply seq_hits; [left; reflexivity|]. apply use_hits. reflexivity. }
    eapply seq_hits; [right; right; left; reflexivity|]. unfold c_hh_conversion. eapply seq_hits; [right; right; left; reflexivity|].
    apply (for_hits' _ _ _ _ _ _ _ 0 n 23169); [lia|evgo; reflexivity|intros; evgo; f_equal; lia|intros; cbn [holds]; lia|].
    eapply seq_hits; [right; right; right; left; reflexivity|]. apply use_hits. apply ev_none. reflexivity.
Qed.
End Plans.

(** ** execution: M is odd *)
Section Execute.
Variables N k : Z.
Hypotheses (HN : 1 <= N <= int_max) (Hk : 0 <= k) (HNM : N * (2 * k + 1) <= int_max).
Let M := 2 * k + 1.
Let e := upd (upd env0 "M"%string M) "N"%string N.
Lemma half_M : Z.quot (2 * k + 1) 2 = k. Proof. rewrite quot2 by lia. lia. Qed.
Lemma M_in : 2 * k + 1 <= int_max. Proof using HN Hk HNM. nia. Qed.
Lemma cols m : 1 <= m <= k -> 0 <= N * (2 * m - 1) /\ N * (2 * m - 1) + 2 * N <= int_max /\ N * (2 * m) = N * (2 * m - 1) + N.
Proof using HN Hk HNM. intros. assert (N * (2 * m - 1) <= N * (2 * k - 1)) by (apply Z.mul_le_mono_nonneg_l; lia). split; [nia|]. split; [lia|ring]. Qed.
Ltac upm := apply (for_up _ _ _ _ _ _ _ 1 k (k + 1)); try rng; [evgo; reflexivity|intros; evgo; rewrite ?half_M; evgo; reflexivity|apply holds_le|].
Ltac upn := apply (for_up _ _ _ _ _ _ _ 0 (N - 1) (N - 1)); try rng; [evgo; reflexivity|intros; evgo; reflexivity|apply holds_lt|].
Lemma grad_safe : exec c_execute_sph_gradient e <> Overflow.
Proof using HN Hk HNM.
  assert (B := M_in). unfold c_execute_sph_gradient, e, M. each.
  - upn. intros l Hl. use1.
  - use1.
  - upm. intros m Hm. destruct (cols m ltac:(lia)) as (C1 & C2 & C3). use1.
  - upm. intros m Hm. destruct (cols m ltac:(lia)) as (C1 & C2 & C3). each; [|use1].
    apply (for_up _ _ _ _ _ _ _ 0 (N + 1 - m) (N + 1 - m)); try rng; [evgo; reflexivity|intros; evgo; reflexivity|apply holds_lt|]. intros l Hl. use1.
Qed.
Lemma gradient_D : exec c_execute_sph_gradient e = Done.
Proof using HN Hk HNM. apply exec_done; [cbn; repeat split; lia|exact grad_safe]. Qed.
Lemma curl_D : exec c_execute_sph_curl e = Done.
Proof using HN Hk HNM.
  apply exec_done; [cbn; repeat split; lia|]. assert (B := M_in). unfold c_execute_sph_curl. each; [exact grad_safe|]. unfold e, M.
  apply (for_up _ _ _ _ _ _ _ 0 (N * (2 * k + 1)) (N * (2 * k + 1))); try rng; [evgo; reflexivity|intros; evgo; reflexivity|apply holds_lt|]. intros i Hi. use1.
Qed.
Lemma three_N m : 1 <= m <= k -> 3 * N <= int_max. Proof using HN Hk HNM. intros H. assert (N * 3 <= N * (2 * k + 1)) by (apply Z.mul_le_mono_nonneg_l; lia). lia. Qed.
Lemma readin_safe m a b : 1 <= m <= k -> (a = scol /\ b = ccol \/ a = ccol /\ b = scol) -> m <= N -> exec (c_hh_readin a b) (upd e "m"%string m) <> Overflow.
Proof using HN Hk HNM.
  intros Hm AB Hmn. destruct (cols m Hm) as (C1 & C2 & C3). assert (T := three_N m Hm). assert (B := M_in). unfold c_hh_readin, e, M, scol, ccol in *.
  assert (N * (2 * m - 1) + 2 * N <= 2 * N * k + N) by nia.
  destruct AB as [[-> ->]|[-> ->]]; (each; [use1| |use1]);
  (apply (for_up _ _ _ _ _ _ _ 0 (N - m) (N - m)); try rng; [evgo; reflexivity|intros; evgo; reflexivity|apply holds_lt|]; intros l Hl; use1).
Qed.
Lemma writeout_safe m a b : 1 <= m <= k -> (a = scol /\ b = ccol \/ a = ccol /\ b = scol) -> m <= N -> exec (c_hh_writeout a b) (upd e "m"%string m) <> Overflow.
Proof using HN Hk HNM.
  intros Hm AB Hmn. destruct (cols m Hm) as (C1 & C2 & C3). assert (T := three_N m Hm). assert (B := M_in). unfold c_hh_writeout, e, M, scol, ccol in *.
  destruct AB as [[-> ->]|[-> ->]]; (each; [use1| |use1]);
  (apply (for_up _ _ _ _ _ _ _ 0 (N - 1 - m) (N - 1 - m)); try rng; [evgo; reflexivity|intros; evgo; reflexivity|apply holds_lt|]; intros l Hl; use1).
Qed.
Lemma hh_D : k <= N -> exec c_execute_sph_helmholtzhodge e = Done.
Proof using HN Hk HNM.
  intros HkN. apply exec_done; [cbn; repeat split; lia|]. assert (B := M_in). unfold c_execute_sph_helmholtzhodge. each.
  - unfold e, M. upn. intros l Hl. use1.
  - unfold e, M. upm. intros m Hm. destruct (cols m ltac:(lia)) as (C1 & C2 & C3).
    each; [use1|apply readin_safe; auto; lia|apply writeout_safe; auto; lia|apply readin_safe; auto; lia|apply writeout_safe; auto; lia].
Qed.
Lemma polar_rotation_D : exec c_polar_rotation e = Done.
Proof using HN Hk HNM.
  apply exec_done; [cbn; repeat split; lia|]. assert (B := M_in). unfold c_polar_rotation, e, M. upm. intros m Hm. destruct (cols m ltac:(lia)) as (C1 & C2 & C3).
  apply (for_up _ _ _ _ _ _ _ 0 (N - m) (N - m)); try rng; [evgo; reflexivity|intros; evgo; reflexivity|apply holds_lt|]. intros i Hi. use1.
Qed.
Lemma polar_reflection_D : N < int_max -> exec c_polar_reflection e = Done.
Proof using HN Hk HNM.
  intros HN1. apply exec_done; [cbn; repeat split; lia|]. assert (B := M_in). unfold c_polar_reflection, e, M. each.
  - apply (for_up _ _ _ _ _ _ _ 1 N N); try rng; [evgo; reflexivity|intros; evgo; reflexivity|apply holds_lt|]. intros i Hi. use1.
  - upm. intros m Hm. destruct (cols m ltac:(lia)) as (C1 & C2 & C3).
    apply (for_up _ _ _ _ _ _ _ 1 (N - m) (N - m)); try rng; [evgo; reflexivity|intros; evgo; reflexivity|apply holds_lt|]. intros i Hi. use1.
Qed.
End Execute.
