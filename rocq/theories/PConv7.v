(** * A function with the properties of the gamma function that the planners use *)
From Coq Require Import ZArith List Lia Bool Reals Lra.
From Verif Require Import Base SpecConvert.
Open Scope R_scope.
(** on (0,1] it is 1, and it is continued by its functional equation *)
Fixpoint gam (k : nat) (x : R) : R := match k with O => 1 | S k => (x - 1) * gam k (x - 1) end.
Definition steps (x : R) : nat := Z.to_nat (- up (- x)).
Definition ex_gamma (x : R) : R := gam (steps x) x.
Lemma steps_S x : 0 < x -> steps (x + 1) = S (steps x).
Proof.
  intros Hx. unfold steps. destruct (archimed (- x)) as [a b]. destruct (archimed (- (x + 1))) as [c d].
  assert (E : up (- (x + 1)) = (up (- x) - 1)%Z).
  { symmetry. apply tech_up; rewrite minus_IZR; lra. }
  rewrite E. assert (up (- x) < 1)%Z by (apply lt_IZR; lra). lia.
Qed.
Lemma steps_bound x : 0 < x -> INR (steps x) < x.
Proof.
  intros Hx. unfold steps. destruct (archimed (- x)) as [a b]. assert (up (- x) < 1)%Z by (apply lt_IZR; lra).
  rewrite INR_IZR_INZ, Z2Nat.id by lia. rewrite opp_IZR. lra.
Qed.
Lemma gam_pos' k : forall x, INR k < x -> 0 < gam k x.
Proof.
  induction k as [|k IH]; intros x Hx; [simpl; lra|]. rewrite S_INR in Hx. cbn [gam]. assert (0 <= INR k) by apply pos_INR. apply Rmult_lt_0_compat; [lra|apply IH; lra].
Qed.
Lemma ex_gamma_ok : gamma_function ex_gamma.
Proof.
  split.
  - intros x Hx. apply gam_pos'. now apply steps_bound.
  - unfold ex_gamma, steps. replace (up (- (1))) with 0%Z; [reflexivity|]. apply tech_up; lra.
  - intros x Hx. unfold ex_gamma. rewrite steps_S by auto. cbn [gam]. replace (x + 1 - 1) with x by ring. reflexivity.
Qed.
