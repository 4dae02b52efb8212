(** * Proofs: statements of Properties_Dprk.v *)
From Coq Require Import ZArith List Lia Bool ZifyBool ZifyNat Reals Lra.
From Verif Require Import Arith Base BaseFacts SpecSum PSum SpecLin PTri MHier SpecHier PHier4 SpecSort MDprk MDprk2 SpecDprk PDprk PDprk2 PDprk3 PDprk4 PDprk5 PDprk8 PDprk9 PDprk10.
Import ListNotations.
Open Scope Z_scope.

Lemma synthesize_interlaced_proof A lo hi : dp_ok A -> dp_n A <= zlen lo -> dp_n A <= zlen hi ->
  let lam := fun j => (nR hi j + nR lo j)%R in
  increasing (dp_d A) 0 (dp_n A - 1) -> (0 < dp_rho A)%R ->
  (forall i, 0 <= i < dp_n A -> (nR (dp_d A) i < lam i)%R) -> (forall i, 0 <= i -> i + 1 < dp_n A -> (lam i < nR (dp_d A) (i + 1))%R) ->
  exists A', dpr1_synthesize A lo hi = Some A' /\ dp_ok A' /\ dp_d A' = dp_d A /\ dp_rho A' = dp_rho A /\ dp_n A' = dp_n A /\
    (forall k, 0 <= k < dp_n A -> (0 <= nR (dp_z A') k * nR (dp_z A) k)%R) /\
    forall j, 0 <= j < dp_n A -> pencil_root A' 0 (lam j).
Proof.
  intros ok Ll Lh lam Hinc Hr H1 H2. apply synthesize_proof; auto.
  - intros i j Hi Hj Hne. destruct (Z_lt_dec i j); [specialize (Hinc i j ltac:(lia) ltac:(lia) ltac:(lia)); lra|]. specialize (Hinc j i ltac:(lia) ltac:(lia) ltac:(lia)). lra.
  - intros j Hj i Hi. destruct (Z_le_dec i j).
    + specialize (H1 j Hj). unfold lam in H1. destruct (Z.eq_dec i j); [subst; lra|]. specialize (Hinc i j ltac:(lia) ltac:(lia) ltac:(lia)). lra.
    + specialize (H2 j ltac:(lia) ltac:(lia)). unfold lam in H2. destruct (Z.eq_dec i (j + 1)); [subst; lra|]. specialize (Hinc (j + 1) i ltac:(lia) ltac:(lia) ltac:(lia)). lra.
  - lra.
  - intros k Hk. apply Rlt_le. apply Rmult_lt_0_compat; [|now apply Rinv_0_lt_compat]. apply loewner_pos; auto. intros i j Hi Hij Hj. apply Hinc; lia.
Qed.

Lemma wrong_offset_proof fm (B : idpr1 R) : (0 < fm)%R -> exists A eigvals lo hi E,
  dp_ok A /\ (forall l h, eigvals A B l h = Some (lo, hi)) /\ zlen lo = dp_n A /\ zlen hi = dp_n A /\
  (forall j, 0 <= j < dp_n A -> pencil_root A 0 (nthZ 0 hi j + nthZ 0 lo j)%R) /\
  dpr1_eig 0%R fm eigvals A B = Some E /\ dpe_dense_ok E /\ de_num E = dp_n A /\ 1 < dp_n A /\
  (nthZ 0 (de_lambda E) 0 < nthZ 0 (de_lambda E) 1)%R /\
  eigenpair (dp_n A) (dp_mat A) delta (nthZ 0%R (de_lambda E) 0) (fun i => dpe_dense E i 1) /\
  ~ eigenpair (dp_n A) (dp_mat A) delta (nthZ 0%R (de_lambda E) 1) (fun i => dpe_dense E i 1).
Proof.
  intros Hfm. destruct (bad_run fm Hfm B) as (Q & EQ & ER). destruct (bad_column fm Hfm Q EQ) as (O & C1 & C2). pose proof (e_pos fm Hfm) as He.
  exists (bad_dpr1 fm), (bad_roots fm), [sqrt fm; 3 * sqrt fm]%R, [0; 4 * sqrt fm]%R. eexists. split; [repeat split; cbn; lia|]. split; [reflexivity|]. split; [reflexivity|]. split; [reflexivity|]. split.
  { intros j Hj. change (dp_n (bad_dpr1 fm)) with 2 in Hj. apply bad_is_root; auto. assert (j = 0 \/ j = 1) as [-> | ->] by lia; [left; change (0 + sqrt fm = sqrt fm)%R|right; change (4 * sqrt fm + 3 * sqrt fm = 7 * sqrt fm)%R]; lra. }
  split; [exact ER|]. split; [exact O|]. split; [reflexivity|]. split; [reflexivity|]. split; [change (sqrt fm < 7 * sqrt fm)%R; lra|]. split; [exact C1|exact C2].
Qed.

Lemma hdense_ok (f : Z -> Z -> R) n m : 0 <= n -> 0 <= m -> let H := HDense (Dense (ztab (n * m) (fun k => f (k mod n) (k / n))) n m) in
  h_ok H /\ hrows H = n /\ hcols H = m /\ forall i j, 0 <= i < n -> 0 <= j < m -> h_mat H i j = f i j.
Proof.
  intros Hn Hm H. split; [constructor; repeat split; cbn; auto; rewrite zlen_ztab; nia|]. split; auto. split; auto.
  intros i j Hi Hj. cbn. unfold de_mat. cbn [de_m de_A]. rewrite mat0. apply nthZ_zget. rewrite zget_ztab by nia. do 2 f_equal.
  - rewrite Z_mod_plus_full. apply Z.mod_small. lia.
  - rewrite Z_div_plus_full by lia. rewrite Z.div_small by lia. lia.
Qed.
Lemma kernels_exist_proof : exists sample, exact_kernels sample.
Proof.
  exists (fun d lambda lo hi n m => let D f := HDense (Dense (ztab (n * m) (fun k => f (k mod n) (k / n))) n m) in
    Some (D (fun i j => / (nthZ 0 d i - nthZ 0 lambda j))%R, D (fun i j => / ((nthZ 0 d i - nthZ 0 lambda j) * (nthZ 0 d i - nthZ 0 lambda j)))%R)).
  intros d lambda lo hi n m Hn Hm Hl Hlo Hhi _ _. eexists _, _. split; [reflexivity|].
  destruct (hdense_ok (fun i j => / (nthZ 0 d i - nthZ 0 lambda j))%R n m) as (Q1 & Q2 & Q3 & Q4); [lia|lia|].
  destruct (hdense_ok (fun i j => / ((nthZ 0 d i - nthZ 0 lambda j) * (nthZ 0 d i - nthZ 0 lambda j)))%R n m) as (N1 & N2 & N3 & N4); [lia|lia|].
  repeat (split; [assumption|]). intros i j Hi Hj. split; [now apply Q4|now apply N4].
Qed.
Definition ex_A : dpr1 R := Dpr1 [0; 1]%R [1; 1]%R 2%R 2.
Lemma simple_example_proof : dp_ok ex_A /\ dp_simple (defl_tol false 0 ex_A (IDpr1 [1; 1]%R 1%R 2)) 0 ex_A /\ dp_simple (defl_tol true 0 ex_A (IDpr1 [1; 1]%R 1%R 2)) 1 ex_A /\
  increasing (dp_d ex_A) 0 (dp_n ex_A - 1) /\ (1 + 1 * sumZ 2 (fun i => nthZ 0 [1; 1] i * nthZ 0 [1; 1] i) <> 0)%R.
Proof.
  assert (C : forall i, 0 <= i < 2 -> i = 0 \/ i = 1) by (intros; lia).
  assert (Z1 : forall i, 0 <= i < 2 -> nthZ 0%R (dp_z ex_A) i = 1%R) by (intros i Hi; destruct (C i Hi) as [-> | ->]; reflexivity).
  assert (D1 : forall i, 0 <= i < 2 -> nthZ 0%R (dp_d ex_A) i = IZR i) by (intros i Hi; destruct (C i Hi) as [-> | ->]; reflexivity).
  assert (S : forall tol s, tol = 0%R -> (s = 0 \/ s = 1)%R -> dp_simple tol s ex_A).
  { intros tol s -> Hs. change (dp_n ex_A) with 2. split; [|split]; change (dp_n ex_A) with 2.
    - intros i Hi H. rewrite Z1 in * by auto. rewrite Rabs_R1 in H. lra.
    - intros i j Hi Hj Hne _ _. rewrite !D1 by auto. intros E. apply eq_IZR in E. contradiction.
    - intros i Hi _. rewrite D1 by auto. change (dp_rho ex_A) with 2%R. destruct (C i Hi) as [-> | ->]; destruct Hs; subst s; lra. }
  split; [repeat split; cbn; lia|]. split; [apply S; [unfold defl_tol; ring|auto]|]. split; [apply S; [unfold defl_tol; ring|auto]|]. split.
  - intros i j Hi Hij Hj. change (dp_n ex_A - 1) with 1 in Hj. rewrite !D1 by lia. apply IZR_lt. lia.
  - change (sumZ 2) with (sumZ (0 + 1 + 1)). rewrite !sumZ_S, sumZ_0 by lia. change (1 + 1 * (0 + 1 * 1 + 1 * 1) <> 0)%R. lra.
Qed.
Lemma finder_example_proof : exists f g : dpr1 R -> idpr1 R -> list R -> list R -> option (list R * list R),
  (forall B1, exact_roots 1 2 0 (fun A lo hi => f A B1 lo hi)) /\ (forall B1, exact_roots 1 2 1 (fun A lo hi => g A B1 lo hi)).
Proof.
  destruct (roots_exist_proof 1 2 0) as (f & Hf); [left; split; lra|]. destruct (roots_exist_proof 1 2 1) as (g & Hg); [right; lra|].
  exists (fun A _ => f A), (fun A _ => g A). split; intros; assumption.
Qed.
Lemma dprk_computed_proof :
  @drmv Z Z_arith (Dpr1 [1; 2; 3] [1; 0; 2] 5 3) [1; 1; 1; 9] = Some [16; 2; 33; 9] /\
  @irmv Z Z_arith (IDpr1 [1; 0; 2] 5 3) [1; 1; 1; 9] = Some [16; 1; 31; 9] /\
  @dvmv Z Z_arith false 1 (DpEig [7] [1; 2; 3; 4; 5; 6] [0; 0; 0; 0] [] [] [2; 0; 3; 1] [1; 0; 3; 2] 4 1 1) [1; 10; 100; 1000] 2 [1; 1; 1; 1] =
    Some ([1; 10; 100; 1000], [1409; 3602; 12; 2502], [2; 0; 3; 1], [1; 0; 3; 2]).
Proof. vm_compute. repeat split. Qed.
