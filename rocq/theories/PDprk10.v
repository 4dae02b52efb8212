(** * Proofs: the wrong offset in symmetric_dpr1_eig *)
From Coq Require Import ZArith List Lia Bool ZifyBool ZifyNat Reals Lra.
From Verif Require Import Arith Base BaseFacts SpecSum PSum SpecLin PTri MHier SpecHier SpecSort MSort PSort PSortThms MDprk MDprk2 SpecDprk PDprk PDprk2 PDprk3 PDprk4 PDprk6.
Import ListNotations.
Open Scope Z_scope.

Lemma sort2 (by_ : R -> R -> bool) a b bs p q : strict_weak by_ -> by_ a b = true -> Forall (fun l => zlen l = 2) bs ->
  sort by_ [a; b] bs [p; q] 0 1 = Some (SortSt [a; b] bs [p; q]).
Proof.
  intros SW H Hb. destruct (sort_spec by_ [a; b] bs [p; q] 0 1 SW) as (a' & bs' & p' & sg & tau & -> & P & RA & RB & RP & Srt); try (cbn; lia).
  { eapply Forall_impl; [|exact Hb]. cbv beta. intros l Hl. lia. }
  assert (Hsg : forall k, sg k = k).
  { destruct P as (P1 & P2 & P3 & P4). intros k. destruct (Z_le_dec 0 k); [|apply P4; lia]. destruct (Z_le_dec k 1); [|apply P4; lia].
    pose proof (P3 0 ltac:(lia)) as I0. pose proof (P3 1 ltac:(lia)) as I1. assert (N01 : sg 0 <> sg 1) by (intros E; apply (f_equal tau) in E; rewrite !P2 in E; lia).
    destruct (Z.eq_dec (sg 0) 0) as [E0|E0]; [assert (sg 1 = 1) by lia; assert (k = 0 \/ k = 1) as [-> | ->] by lia; auto|].
    exfalso. assert (E0' : sg 0 = 1) by lia. assert (E1' : sg 1 = 0) by lia. destruct RA as (_ & RA). specialize (Srt 0 1 b a ltac:(lia) ltac:(lia) ltac:(lia)). rewrite !RA, E0', E1' in Srt. specialize (Srt eq_refl eq_refl). congruence. }
  assert (RE : forall (X : Type) (l l' : list X), rearranged sg l l' -> l' = l) by (intros X l l' (L & V); apply zget_ext; intros i; rewrite V, Hsg; reflexivity).
  f_equal. rewrite (RE _ _ _ RA), (RE _ _ _ RP). f_equal. clear - RB RE. induction RB as [|x y l l0 HR RB IH]; [reflexivity|]. rewrite (RE _ _ _ HR), IH. reflexivity.
Qed.
Lemma ltb_t (x y : R) : (x < y)%R -> R_ltb x y = true. Proof. intros H. unfold R_ltb. destruct (Rlt_dec x y); tauto. Qed.
Lemma ltb_f (x y : R) : (y <= x)%R -> R_ltb x y = false. Proof. intros H. unfold R_ltb. destruct (Rlt_dec x y); auto. lra. Qed.

Section Refute.
Variable fm : R.
Hypothesis Hfm : (0 < fm)%R.
Let e := sqrt fm.
Lemma e_pos : (0 < e)%R. Proof. now apply sqrt_lt_R0. Qed.
Let s := sqrt (7 * e / 4).
Let t := sqrt (9 * e / 4).
Lemma s_sq : (s * s = 7 * e / 4)%R. Proof. pose proof e_pos. apply sqrt_sqrt. lra. Qed.
Lemma t_sq : (t * t = 9 * e / 4)%R. Proof. pose proof e_pos. apply sqrt_sqrt. lra. Qed.
Lemma s_pos : (0 < s)%R. Proof. pose proof e_pos. apply sqrt_lt_R0. lra. Qed.
Lemma st_lt : (s < t)%R. Proof. pose proof e_pos. apply sqrt_lt_1; lra. Qed.
Definition bad_dpr1 : dpr1 R := Dpr1 [0; 4 * sqrt fm]%R [sqrt (7 * sqrt fm / 4); sqrt (9 * sqrt fm / 4)]%R 1%R 2.
Definition bad_roots (A : dpr1 R) (B : idpr1 R) (lo hi : list R) : option (list R * list R) := Some ([sqrt fm; 3 * sqrt fm]%R, [0; 4 * sqrt fm]%R).
Lemma bad_is_root lam : lam = e \/ lam = (7 * e)%R -> pencil_root bad_dpr1 0 lam.
Proof.
  intros Hl. pose proof e_pos as He. split; [|split].
  - intros i Hi. change (dp_n bad_dpr1) with 2 in Hi. assert (i = 0 \/ i = 1) as [-> | ->] by lia; change (nthZ 0%R (dp_d bad_dpr1) 0) with 0%R; change (nthZ 0%R (dp_d bad_dpr1) 1) with (4 * e)%R; destruct Hl; subst lam; lra.
  - cbn. lra.
  - unfold pencil_secular_function, pole_sum. change (dp_n bad_dpr1) with 2. change 2 with (0 + 1 + 1). rewrite !sumZ_S, sumZ_0 by lia.
    change (nthZ 0%R (dp_d bad_dpr1) 0) with 0%R. change (nthZ 0%R (dp_d bad_dpr1) (0 + 1)) with (4 * e)%R. change (nthZ 0%R (dp_z bad_dpr1) 0) with s. change (nthZ 0%R (dp_z bad_dpr1) (0 + 1)) with t.
    rewrite s_sq, t_sq. change (dp_rho bad_dpr1) with 1%R. destruct Hl; subst lam; field; lra.
Qed.
Lemma copy2 (a b : R) : copy 2 [a; b] = Some [a; b]. Proof. reflexivity. Qed.
Lemma bad_run B : exists Q, dpr1_eigvecs bad_dpr1 [e; 3 * e]%R [0; 4 * e]%R 1 = Some Q /\
  dpr1_eig 0%R fm bad_roots bad_dpr1 B = Some (DpEig [1%R] Q [e; 7 * e]%R [e; 3 * e]%R [0; 4 * e]%R [0; 1] [0; 1] 2 0 1).
Proof.
  pose proof e_pos as He. pose proof s_pos as Hs. pose proof st_lt as Hst.
  destruct (eigvecs_vals bad_dpr1 [e; 3 * e]%R [0; 4 * e]%R 1) as (Q & EQ & _); try (cbn; lia).
  { split; cbn; lia. }
  exists Q. split; auto. unfold dpr1_eig, eig. change (dp_n bad_dpr1) with 2. change (copy 2 (dp_d bad_dpr1)) with (Some [0; 4 * e]%R). cbn [obind].
  assert (ED : deflate false 0%R bad_dpr1 B (ztab 2 (fun i => i)) = Some (bad_dpr1, B, [0; 1])).
  { unfold deflate. change (dp_n bad_dpr1) with 2. destruct (sum_sq 2 (dp_z bad_dpr1)) as [w|] eqn:Ew; [|discriminate Ew]. cbn [obind].
    change (ztab 2 (fun i => i)) with [0; 1]. change (2 - 1) with 1. change (dp_z bad_dpr1) with [s; t]. change (dp_d bad_dpr1) with [0; 4 * e]%R.
    rewrite sort2; [|exact ltabs_sw| |repeat constructor]. 2:{ apply ltb_t. cbn. rewrite !Rabs_right; lra. }
    cbn [obind]. assert (Z0 : (sqrt (Rabs (dp_rho bad_dpr1)) * sqrt w * 0 = 0)%R) by ring. change (@mul R R_arith) with Rmult. change (@sqrtA R R_arith) with sqrt. change (@absA R R_arith) with Rabs. rewrite Z0.
    change (Z.to_nat 2) with 2%nat. cbn [first_above]. change (0 <? 2) with true. change (zget [s; t] 0) with (Some s). cbn [obind]. change (@ltb R R_arith) with R_ltb. change (@absA R R_arith) with Rabs. rewrite (ltb_t 0%R (Rabs s)) by (rewrite Rabs_right; lra). cbn [obind].
    rewrite sort2; [|exact lt_sw| |repeat constructor]. 2:{ apply ltb_t. lra. }
    cbn [obind]. destruct B as [bz bs bn]. reflexivity. }
  rewrite ED. cbn [obind]. change (dp_n bad_dpr1) with 2. change (2 - 2) with 0.
  change (perm false (zmake 2 zero) [0; 1] 2) with (Some ([zero; zero], [0; 1])). cbn [obind].
  change (perm false [0%R; (4 * e)%R] [0; 1] 2) with (Some ([0%R; (4 * e)%R], [0; 1])). cbn [obind].
  unfold bad_roots. cbn [obind]. fold e.
  assert (ED2 : deflate2 false fm bad_dpr1 B [e; 3 * e]%R [0; 4 * e]%R (ztab (2 - 0) (fun i => i)) = Some (bad_dpr1, B, [e; 3 * e]%R, [0; 4 * e]%R, [0; 1], 1)).
  { unfold deflate2. change (dp_n bad_dpr1) with 2. change (2 - 1) with 1. change (ztab (2 - 0) (fun i => i)) with [0; 1]. change (dp_z bad_dpr1) with [s; t]. change (dp_d bad_dpr1) with [0; 4 * e]%R.
    rewrite sort2; [|exact ltabs_sw| |repeat constructor]. 2:{ apply ltb_t. cbn. rewrite !Rabs_right; lra. }
    cbn [obind]. change (@sqrtA R R_arith fm) with e. change (Z.to_nat 2) with 2%nat. cbn [first_above]. change (0 <? 2) with true. change (0 + 1 <? 2) with true. change (zget [e; (3 * e)%R] 0) with (Some e). change (zget [e; (3 * e)%R] (0 + 1)) with (Some (3 * e)%R). cbn [obind].
    change (@ltb R R_arith) with R_ltb. change (@absA R R_arith) with Rabs. rewrite (ltb_f e (Rabs e)) by (rewrite Rabs_right; lra). rewrite (ltb_t e (Rabs (3 * e))) by (rewrite Rabs_right; lra). cbn [obind].
    change (sort lt_ [0%R; (4 * e)%R] [[s; t]; [e; (3 * e)%R]; [0%R; (4 * e)%R]] [0; 1] (0 + 1) 1) with (Some (SortSt [0%R; (4 * e)%R] [[s; t]; [e; (3 * e)%R]; [0%R; (4 * e)%R]] [0; 1])). cbn [obind]. destruct B as [bz bs bn]. reflexivity. }
  rewrite ED2. cbn [obind].
  match goal with |- obind ?x ?f = _ => change x with (Some [1%R]) end. cbn [obind].
  match goal with |- obind ?x ?f = _ => change x with (Some [0; 0]) end. cbn [obind].
  match goal with |- obind ?x ?f = _ => change x with (Some [0; 1]) end. cbn [obind].
  match goal with |- obind ?x ?f = _ => change x with (Some [(0 + e)%R; (4 * e + 3 * e)%R]) end. cbn [obind].
  change (headz 0 [zero; zero] ++ [e; (3 * e)%R]) with [e; (3 * e)%R]. change (headz 0 [0%R; (4 * e)%R] ++ [0%R; (4 * e)%R]) with [0%R; (4 * e)%R].
  change (tailz 0 [e; (3 * e)%R]) with [e; (3 * e)%R]. change (tailz 0 [0%R; (4 * e)%R]) with [0%R; (4 * e)%R]. change (2 - 0 - 1) with 1. rewrite EQ. cbn [obind].
  change (ztab 2 (fun i => i)) with [0; 1]. change (2 - 1) with 1.
  rewrite sort2; [|exact lt_sw| |repeat constructor]. 2:{ apply ltb_t. lra. }
  cbn [obind]. assert (E1 : (0 + e = e)%R) by ring. assert (E2 : (4 * e + 3 * e = 7 * e)%R) by ring. now rewrite E1, E2.
Qed.
Lemma bad_column Q : dpr1_eigvecs bad_dpr1 [e; 3 * e]%R [0; 4 * e]%R 1 = Some Q ->
  let E := DpEig [1%R] Q [e; 7 * e]%R [e; 3 * e]%R [0; 4 * e]%R [0; 1] [0; 1] 2 0 1 in
  dpe_dense_ok E /\ eigenpair 2 (dp_mat bad_dpr1) delta e (fun i => dpe_dense E i 1) /\ ~ eigenpair 2 (dp_mat bad_dpr1) delta (7 * e)%R (fun i => dpe_dense E i 1).
Proof.
  intros EQ E. pose proof e_pos as He.
  destruct (eigvecs_proof bad_dpr1 [e; 3 * e]%R [0; 4 * e]%R 1) as (Q' & E' & L & (S1 & S2) & _); try (cbn; lia); try (split; cbn; lia).
  { intros j Hj. assert (j = 0) by lia. subst j. apply bad_is_root. left. cbn. lra. }
  rewrite EQ in E'. injection E' as <-. change (dp_n bad_dpr1) with 2 in *.
  assert (HD : forall i, 0 <= i < 2 -> dpe_dense E i 1 = mat 0 2 Q i 0).
  { intros i Hi. unfold dpe_dense, dpe_mat. change (de_num E) with 2. change (de_iz E) with 0. change (2 - 0) with 2. change (de_V E) with Q. change (nthZ 0 (de_q E) 1) with 1.
    change (sumZ 2) with (sumZ (0 + 1 + 1)). rewrite !sumZ_S, sumZ_0 by lia. change (nthZ 0 (de_p E) 0) with 0. change (nthZ 0 (de_p E) (0 + 1)) with 1.
    unfold dpe_core. change (de_iz E) with 0. change (de_id E) with 1. cbn [Z.ltb Z.compare Z.add Z.sub Z.opp]. unfold delta. assert (i = 0 \/ i = 1) as [-> | ->] by lia; cbn -[mat Rplus Rmult]; lra. }
  assert (EP : eigenpair 2 (dp_mat bad_dpr1) delta e (fun i => dpe_dense E i 1)).
  { intros i Hi. specialize (S1 0 ltac:(lia) i Hi). cbv beta in S1. change (nthZ 0%R [0%R; (4 * e)%R] 0) with 0%R in S1. change (nthZ 0%R [e; (3 * e)%R] 0) with e in S1. rewrite Rplus_0_l in S1.
    transitivity (matvec 2 (dp_mat bad_dpr1) (fun i => mat 0 2 Q i 0) i); [apply sumZ_ext; intros k Hk; cbv beta; now rewrite HD|]. rewrite S1. f_equal. apply sumZ_ext. intros k Hk. cbv beta. now rewrite HD. }
  split; [|split; [exact EP|]].
  - split; [|unfold E; cbn [de_num de_iz de_id de_V]; rewrite L; lia]. unfold dpe_ok, E. cbn [de_num de_iz de_id de_v de_p de_q]. repeat (split; [first [lia|cbn; lia]|]).
    split; split; [cbn; lia| |cbn; lia|].
    + split; [intros i Hi|intros i j Hi Hj]; assert (i = 0 \/ i = 1) as [-> | ->] by lia; try (assert (j = 0 \/ j = 1) as [-> | ->] by lia); vm_compute; intuition congruence.
    + split; [intros i Hi|intros i j Hi Hj]; assert (i = 0 \/ i = 1) as [-> | ->] by lia; try (assert (j = 0 \/ j = 1) as [-> | ->] by lia); vm_compute; intuition congruence.
  - intros EP2. specialize (S2 0 0 ltac:(lia) ltac:(lia)).
    assert (Z0 : forall i, 0 <= i < 2 -> matvec 2 delta (fun i => dpe_dense E i 1) i = 0%R).
    { intros i Hi. specialize (EP i Hi). specialize (EP2 i Hi). rewrite EP in EP2. nra. }
    assert (S2' : sumZ 2 (fun i => (mat 0 2 Q i 0 * matvec 2 delta (fun r => mat 0 2 Q r 0) i)%R) = 0%R).
    { rewrite (sumZ_ext 2 _ (fun _ => 0%R)); [apply sumZ_zero; auto|]. intros i Hi. assert (X : matvec 2 delta (fun r => mat 0 2 Q r 0) i = 0%R) by (refine (eq_trans _ (Z0 i Hi)); apply sumZ_ext; intros k Hk; cbv beta; now rewrite HD). rewrite X. ring. }
    change (delta 0 0) with 1%R in S2. lra.
Qed.
End Refute.
