(** * Isometries of the sphere: the exchange of the y and z axes, degree by degree, for any arithmetic *)
From Coq Require Import ZArith List Lia Bool ZifyBool ZifyNat.
From Verif Require Import Base BaseFacts Arith MRecur MIso PIso2.
Import ListNotations.
Open Scope Z_scope.

Section Exchange.
Context {F : Type} {AF : Arith F}.
Implicit Types A B : list F.

Lemma zget_skipn (a : list F) k i : 0 <= k -> 0 <= i -> zget (skipn (Z.to_nat k) a) i = zget a (k + i).
Proof.
  intros. unfold zget. destruct (i <? 0) eqn:E; [lia|]. destruct (k + i <? 0) eqn:E'; [lia|].
  rewrite Z2Nat.inj_add by lia. generalize (Z.to_nat i) as m. generalize (Z.to_nat k) as n. clear. intros n. revert a. induction n as [|n IH]; intros [|x a] m; cbn; auto. destruct m; auto.
Qed.

Definition wf (E : seig F) : Prop :=
  0 <= se_n E /\ zlen (se_A E) = se_n E /\ zlen (se_B E) = se_n E /\ zlen (se_C E) = se_n E /\ zlen (se_lam E) = se_n E.
Definition gather n x inc (A : list F) : list F := ztab n (fun k => nthZ zero A (x + k * inc)).
Definition ev huge (E : seig F) (x : list F) (j : Z) : F :=
  match eig_point huge (se_n E) x 1 (se_A E) (se_B E) (se_C E) (se_sign E) (se_lam E) j with Some v => v | None => zero end.

Lemma eig_point_ext huge n c inc c' inc' A B C sg x j : 1 <= n ->
  (forall k, 0 <= k < n -> zget c (k * inc) = zget c' (k * inc')) ->
  eig_point huge n c inc A B C sg x j = eig_point huge n c' inc' A B C sg x j.
Proof.
  intros Hn H. unfold eig_point. destruct (zget x j); auto. cbn [obind]. rewrite (H (n - 1)) by lia. destruct (zget c' ((n - 1) * inc')); auto. cbn [obind].
  erewrite for_dn_ext; [reflexivity|]. intros k [[[[? ?] ?] ?] ?] Hk. rewrite (H (k - 1)) by lia. reflexivity.
Qed.
Lemma eig_point_some huge n c A B C sg x j : 1 <= n -> 0 <= j < zlen x -> zlen c = n -> zlen A = n -> zlen B = n -> zlen C = n ->
  exists v, eig_point huge n c 1 A B C sg x j = Some v.
Proof.
  intros Hn Hj Lc LA LB LC. unfold eig_point. rewrite (zget_nthZ zero) by lia. cbn [obind]. rewrite Z.mul_1_r. rewrite (zget_nthZ zero c) by lia. cbn [obind].
  match goal with |- context [for_dn ?a ?b ?f ?s] => destruct (for_dn_inv (fun _ _ => True) a b f s) as ([[[[? ?] ?] ?] ?] & E & _) end.
  - lia.
  - exact I.
  - intros k [[[[? ?] ?] ?] ?] Hk _. rewrite (zget_nthZ zero A), (zget_nthZ zero B), (zget_nthZ zero C), (zget_nthZ zero c) by lia. cbn [obind].
    match goal with |- context [if ?b then _ else _] => destruct b end; eexists; split; eauto.
  - rewrite E. cbn [obind]. eexists. reflexivity.
Qed.

Lemma semv_spec huge E A x inc y : wf E -> 0 <= x -> 0 <= y -> y + se_n E <= zlen A -> 0 <= inc ->
  (forall k, 0 <= k < se_n E -> x + k * inc < zlen A /\ (x + k * inc < y \/ y + se_n E <= x + k * inc)) ->
  exists A', semv huge E A x inc y = Some A' /\ zlen A' = zlen A /\
    forall p, nthZ zero A' p = if (y <=? p) && (p <? y + se_n E) then ev huge E (gather (se_n E) x inc A) (p - y) else nthZ zero A p.
Proof.
  intros (Hn & LA & LB & LC & LL) Hx Hy Hl Hi D. unfold semv. destruct (se_n E <? 1) eqn:E1.
  { exists A. split; auto. split; auto. intros. replace ((y <=? p) && (p <? y + se_n E)) with false by lia. reflexivity. }
  match goal with |- context [for_up ?a ?b ?f ?s] => destruct (for_up_inv (fun j A' => zlen A' = zlen A /\
    forall p, nthZ zero A' p = if (y <=? p) && (p <? y + j) then ev huge E (gather (se_n E) x inc A) (p - y) else nthZ zero A p) a b f s) as (A' & Ea & HA) end.
  - lia.
  - split; auto. intros. replace ((y <=? p) && (p <? y + 0)) with false by lia. reflexivity.
  - intros j B Hj [LBB HB].
    rewrite (eig_point_ext huge (se_n E) _ inc (gather (se_n E) x inc A) 1) by
     (try lia; intros k Hk; destruct (D k Hk); assert (0 <= k * inc) by (apply Z.mul_nonneg_nonneg; lia); rewrite zget_skipn by lia; rewrite (zget_nthZ zero B) by lia; rewrite HB; replace ((y <=? x + k * inc) && (x + k * inc <? y + j)) with false by lia; unfold gather; rewrite zget_ztab by lia; repeat f_equal; lia).
    assert (LG : zlen (gather (se_n E) x inc A) = se_n E) by (unfold gather; rewrite zlen_ztab; lia).
    destruct (eig_point_some huge (se_n E) (gather (se_n E) x inc A) (se_A E) (se_B E) (se_C E) (se_sign E) (se_lam E) j) as (v & Ev); try lia.
    rewrite Ev. cbn [obind]. rewrite zset_some by lia. eexists. split; [reflexivity|]. rewrite zlen_zupd. split; auto. intros p. rewrite nthZ_zupd by lia. destruct (y + j =? p) eqn:Ep.
    + replace ((y <=? p) && (p <? y + (j + 1))) with true by lia. unfold ev. replace (p - y) with j by lia. now rewrite Ev.
    + rewrite HB. replace ((y <=? p) && (p <? y + (j + 1))) with ((y <=? p) && (p <? y + j)) by lia. reflexivity.
  - exists A'. auto.
Qed.

Section Copy.
Context (n L : Z) (P O : Z -> Z).
Hypothesis Hn : 0 <= n.
Hypothesis RP : forall i, 0 <= i < n -> 0 <= P i < L.
Hypothesis RO : forall i, 0 <= i < n -> 0 <= O i < L.
Hypothesis IP : forall i j, 0 <= i < n -> 0 <= j < n -> i <> j -> P i <> P j.
Hypothesis IO : forall i j, 0 <= i < n -> 0 <= j < n -> i <> j -> O i <> O j.
Hypothesis DPO : forall i j, 0 <= i < n -> 0 <= j < n -> P i <> O j.
Ltac side0 := first [assumption | apply IP; assumption | apply IO; assumption | apply DPO; assumption].
Ltac sideb := first [side0 | apply not_eq_sym; side0].
Lemma copy_back_spec A : zlen A = L ->
  exists A', for_up 0 n (fun i A => do x <- zget A (O i); do A <- zset A (P i) x; zset A (O i) zero) A = Some A' /\ zlen A' = zlen A /\
    (forall i, 0 <= i < n -> nthZ zero A' (P i) = nthZ zero A (O i)) /\
    (forall i, 0 <= i < n -> nthZ zero A' (O i) = zero) /\
    (forall r, (forall i, 0 <= i < n -> r <> P i /\ r <> O i) -> nthZ zero A' r = nthZ zero A r).
Proof.
  intros LA.
  match goal with |- context [for_up ?a ?b ?f ?s] => destruct (for_up_inv (fun j A' => zlen A' = zlen A /\
    (forall i, 0 <= i < j -> nthZ zero A' (P i) = nthZ zero A (O i)) /\
    (forall i, 0 <= i < j -> nthZ zero A' (O i) = zero) /\
    (forall r, (forall i, 0 <= i < j -> r <> P i /\ r <> O i) -> nthZ zero A' r = nthZ zero A r)) a b f s) as (A' & Ea & HA) end.
  - lia.
  - repeat split; auto; intros; lia.
  - intros j B Hj (LB & H1 & H2 & H3). pose proof (RP j Hj). pose proof (RO j Hj).
    assert (EB : nthZ zero B (O j) = nthZ zero A (O j)).
    { apply H3. intros i Hi. assert (Hi' : 0 <= i < n) by (clear - Hi Hj; lia). assert (j <> i) by (clear - Hi; lia). split; sideb. }
    rewrite (zget_nthZ zero) by lia. cbn [obind]. rewrite zset_some by lia. cbn [obind]. rewrite zset_some by (rewrite zlen_zupd; lia).
    eexists. split; [reflexivity|]. rewrite !zlen_zupd. split; [exact LB|]. rewrite EB.
    assert (W : forall r, nthZ zero (zupd (zupd B (P j) (nthZ zero A (O j))) (O j) zero) r =
      if O j =? r then zero else if P j =? r then nthZ zero A (O j) else nthZ zero B r).
    { intros r. rewrite !nthZ_zupd by (rewrite ?zlen_zupd; lia). reflexivity. }
    assert (NN : forall a b, a <> b -> (a =? b) = false) by (intros; now apply Z.eqb_neq).
    split; [|split].
    + intros i Hi. rewrite W. assert (Hi' : 0 <= i < n) by (clear - Hi Hj; lia). destruct (Z.eq_dec i j) as [->|Ne].
      * rewrite (NN (O j)), Z.eqb_refl by sideb. reflexivity.
      * assert (j <> i) by auto. rewrite (NN (O j)), (NN (P j)) by sideb. apply H1. lia.
    + intros i Hi. rewrite W. assert (Hi' : 0 <= i < n) by (clear - Hi Hj; lia). destruct (Z.eq_dec i j) as [->|Ne].
      * rewrite Z.eqb_refl. reflexivity.
      * assert (j <> i) by auto. rewrite (NN (O j)), (NN (P j)) by sideb. apply H2. lia.
    + intros r Hr. rewrite W. destruct (Hr j ltac:(lia)). rewrite (NN (O j)), (NN (P j)) by sideb. apply H3. intros i Hi. apply Hr. lia.
  - exists A'. tauto.
Qed.
End Copy.

Section Cross.
Context (n L : Z) (P1 P2 O1 O2 : Z -> Z).
Hypothesis Hn : 0 <= n.
Hypothesis RP1 : forall i, 0 <= i < n -> 0 <= P1 i < L.
Hypothesis RP2 : forall i, 0 <= i < n -> 0 <= P2 i < L.
Hypothesis RO1 : forall i, 0 <= i < n -> 0 <= O1 i < L.
Hypothesis RO2 : forall i, 0 <= i < n -> 0 <= O2 i < L.
Hypothesis IP1 : forall i j, 0 <= i < n -> 0 <= j < n -> i <> j -> P1 i <> P1 j.
Hypothesis IP2 : forall i j, 0 <= i < n -> 0 <= j < n -> i <> j -> P2 i <> P2 j.
Hypothesis IO1 : forall i j, 0 <= i < n -> 0 <= j < n -> i <> j -> O1 i <> O1 j.
Hypothesis IO2 : forall i j, 0 <= i < n -> 0 <= j < n -> i <> j -> O2 i <> O2 j.
Hypothesis D12 : forall i j, 0 <= i < n -> 0 <= j < n -> P1 i <> P2 j.
Hypothesis D1o1 : forall i j, 0 <= i < n -> 0 <= j < n -> P1 i <> O1 j.
Hypothesis D1o2 : forall i j, 0 <= i < n -> 0 <= j < n -> P1 i <> O2 j.
Hypothesis D2o1 : forall i j, 0 <= i < n -> 0 <= j < n -> P2 i <> O1 j.
Hypothesis D2o2 : forall i j, 0 <= i < n -> 0 <= j < n -> P2 i <> O2 j.
Hypothesis Do12 : forall i j, 0 <= i < n -> 0 <= j < n -> O1 i <> O2 j.
Ltac side0 := first [assumption | apply IP1; assumption | apply IP2; assumption | apply IO1; assumption | apply IO2; assumption | apply D12; assumption | apply D1o1; assumption | apply D1o2; assumption | apply D2o1; assumption | apply D2o2; assumption | apply Do12; assumption].
Ltac sideb := first [side0 | apply not_eq_sym; side0].
Lemma cross_back_spec A : zlen A = L ->
  exists A', for_up 0 n (fun i A =>
    do x <- zget A (O2 i); do A <- zset A (P1 i) x; do A <- zset A (O2 i) zero;
    do y <- zget A (O1 i); do A <- zset A (P2 i) y; zset A (O1 i) zero) A = Some A' /\ zlen A' = zlen A /\
    (forall i, 0 <= i < n -> nthZ zero A' (P1 i) = nthZ zero A (O2 i)) /\
    (forall i, 0 <= i < n -> nthZ zero A' (P2 i) = nthZ zero A (O1 i)) /\
    (forall i, 0 <= i < n -> nthZ zero A' (O1 i) = zero) /\ (forall i, 0 <= i < n -> nthZ zero A' (O2 i) = zero) /\
    (forall r, (forall i, 0 <= i < n -> r <> P1 i /\ r <> P2 i /\ r <> O1 i /\ r <> O2 i) -> nthZ zero A' r = nthZ zero A r).
Proof.
  intros LA.
  match goal with |- context [for_up ?a ?b ?f ?s] => destruct (for_up_inv (fun j A' => zlen A' = zlen A /\
    (forall i, 0 <= i < j -> nthZ zero A' (P1 i) = nthZ zero A (O2 i)) /\
    (forall i, 0 <= i < j -> nthZ zero A' (P2 i) = nthZ zero A (O1 i)) /\
    (forall i, 0 <= i < j -> nthZ zero A' (O1 i) = zero) /\ (forall i, 0 <= i < j -> nthZ zero A' (O2 i) = zero) /\
    (forall r, (forall i, 0 <= i < j -> r <> P1 i /\ r <> P2 i /\ r <> O1 i /\ r <> O2 i) -> nthZ zero A' r = nthZ zero A r)) a b f s) as (A' & Ea & HA) end.
  - lia.
  - repeat split; auto; intros; lia.
  - intros j B Hj (LB & H1 & H2 & H3 & H4 & H5).
    pose proof (RP1 j Hj). pose proof (RP2 j Hj). pose proof (RO1 j Hj). pose proof (RO2 j Hj).
    assert (E1 : nthZ zero B (O1 j) = nthZ zero A (O1 j)).
    { apply H5. intros i Hi. assert (Hi' : 0 <= i < n) by (clear - Hi Hj; lia). assert (j <> i) by (clear - Hi; lia). split; [sideb|split; [sideb|split; sideb]]. }
    assert (E2 : nthZ zero B (O2 j) = nthZ zero A (O2 j)).
    { apply H5. intros i Hi. assert (Hi' : 0 <= i < n) by (clear - Hi Hj; lia). assert (j <> i) by (clear - Hi; lia). split; [sideb|split; [sideb|split; sideb]]. }
    rewrite (zget_nthZ zero) by lia. cbn [obind]. rewrite zset_some by lia. cbn [obind]. rewrite zset_some by (rewrite zlen_zupd; lia). cbn [obind].
    rewrite (zget_nthZ zero) by (rewrite !zlen_zupd; lia). cbn [obind]. rewrite zset_some by (rewrite !zlen_zupd; lia). cbn [obind]. rewrite zset_some by (rewrite !zlen_zupd; lia).
    eexists. split; [reflexivity|]. rewrite !zlen_zupd. split; [exact LB|].
    set (V := nthZ zero (zupd (zupd B (P1 j) (nthZ zero B (O2 j))) (O2 j) zero) (O1 j)).
    assert (EV : V = nthZ zero A (O1 j)).
    { unfold V. rewrite nthZ_zupd_other by sideb. rewrite nthZ_zupd_other by sideb. exact E1. }
    rewrite EV, E2. clear V EV.
    assert (W : forall r, nthZ zero (zupd (zupd (zupd (zupd B (P1 j) (nthZ zero A (O2 j))) (O2 j) zero) (P2 j) (nthZ zero A (O1 j))) (O1 j) zero) r =
      if O1 j =? r then zero else if P2 j =? r then nthZ zero A (O1 j) else if O2 j =? r then zero else if P1 j =? r then nthZ zero A (O2 j) else nthZ zero B r).
    { intros r. rewrite LA in LB. rewrite nthZ_zupd by (rewrite !zlen_zupd, LB; assumption). rewrite nthZ_zupd by (rewrite !zlen_zupd, LB; assumption). rewrite nthZ_zupd by (rewrite !zlen_zupd, LB; assumption). rewrite nthZ_zupd by (rewrite LB; assumption). reflexivity. }
    assert (NN : forall a b, a <> b -> (a =? b) = false) by (intros; now apply Z.eqb_neq).
    split; [|split; [|split; [|split]]].
    + intros i Hi. rewrite W. assert (Hi' : 0 <= i < n) by (clear - Hi Hj; lia). destruct (Z.eq_dec i j) as [->|Ne].
      * rewrite (NN (O1 j)), (NN (P2 j)), (NN (O2 j)), Z.eqb_refl by sideb. reflexivity.
      * assert (j <> i) by auto. rewrite (NN (O1 j)), (NN (P2 j)), (NN (O2 j)), (NN (P1 j)) by sideb. apply H1. clear - Hi Ne; lia.
    + intros i Hi. rewrite W. assert (Hi' : 0 <= i < n) by (clear - Hi Hj; lia). destruct (Z.eq_dec i j) as [->|Ne].
      * rewrite (NN (O1 j)), Z.eqb_refl by sideb. reflexivity.
      * assert (j <> i) by auto. rewrite (NN (O1 j)), (NN (P2 j)), (NN (O2 j)), (NN (P1 j)) by sideb. apply H2. clear - Hi Ne; lia.
    + intros i Hi. rewrite W. assert (Hi' : 0 <= i < n) by (clear - Hi Hj; lia). destruct (Z.eq_dec i j) as [->|Ne].
      * rewrite Z.eqb_refl. reflexivity.
      * assert (j <> i) by auto. rewrite (NN (O1 j)), (NN (P2 j)), (NN (O2 j)), (NN (P1 j)) by sideb. apply H3. clear - Hi Ne; lia.
    + intros i Hi. rewrite W. assert (Hi' : 0 <= i < n) by (clear - Hi Hj; lia). destruct (Z.eq_dec i j) as [->|Ne].
      * rewrite (NN (O1 j)), (NN (P2 j)), Z.eqb_refl by sideb. reflexivity.
      * assert (j <> i) by auto. rewrite (NN (O1 j)), (NN (P2 j)), (NN (O2 j)), (NN (P1 j)) by sideb. apply H4. clear - Hi Ne; lia.
    + intros r Hr. rewrite W. destruct (Hr j ltac:(clear - Hj; lia)) as (? & ? & ? & ?). rewrite (NN (O1 j)), (NN (P2 j)), (NN (O2 j)), (NN (P1 j)) by sideb.
      apply H5. intros i Hi. apply Hr. clear - Hi; lia.
  - exists A'. tauto.
Qed.
End Cross.
End Exchange.
