(** * Divide and conquer: theorems as stated in Properties_Tdc.v *)
From Coq Require Import ZArith List Lia Bool Reals Lra ZifyBool ZifyNat.
From Verif Require Import Arith Base BaseFacts SpecSum SpecLin SpecSort PSum PTri MHier SpecHier PHier PHier2 MDprk MDprk2 SpecDprk PDprk PDprk2 PDprk3 PDprk7 PDprk8 PDprk9 MTridiag SpecTri MTdc SpecTdc PTdc PTdc2.
Import ListNotations.
Open Scope Z_scope.

Lemma halves_total T : st_ok T -> 2 <= st_n T -> let s := st_n T / 2 in
  exists T1 T2, halves T = Some (T1, T2, Rabs (nthZ 0%R (st_b T) (s - 1)%Z)) /\ st_ok T1 /\ st_n T1 = s /\ st_ok T2 /\ st_n T2 = st_n T - s /\
   (nonpositive_off T -> nonpositive_off T1 /\ nonpositive_off T2).
Proof.
  intros HT Hn s. destruct (halves_proof T HT Hn) as (T1 & T2 & rho & E & _ & _ & _ & O1 & N1 & O2 & N2 & -> & NP & _).
  exists T1, T2. repeat (split; [assumption|]). exact NP.
Qed.
Lemma tearing_proof T T1 T2 rho : st_ok T -> 2 <= st_n T -> halves T = Some (T1, T2, rho) -> let s := st_n T / 2 in (nthZ 0 (st_b T) (s - 1)%Z <= 0)%R ->
  forall i j, 0 <= i < st_n T -> 0 <= j < st_n T -> st_mat T i j = (blockdiag s (st_mat T1) (st_mat T2) i j + rho * tear_dir s i * tear_dir s j)%R.
Proof. intros HT Hn E s Hb. now apply tearing. Qed.
Lemma tearing_refuted_proof T T1 T2 rho : st_ok T -> 2 <= st_n T -> halves T = Some (T1, T2, rho) -> let s := st_n T / 2 in (0 < nthZ 0 (st_b T) (s - 1)%Z)%R ->
  exists i j, 0 <= i < st_n T /\ 0 <= j < st_n T /\ st_mat T i j <> (blockdiag s (st_mat T1) (st_mat T2) i j + rho * tear_dir s i * tear_dir s j)%R.
Proof.
  intros HT Hn E s Hb. pose proof (half_range _ Hn) as Hs. fold s in Hs. exists (s - 1), s. split; [lia|]. split; [lia|].
  destruct (halves_proof T HT Hn) as (T1' & T2' & rho' & E' & _ & _ & _ & _ & _ & _ & _ & _ & _ & H).
  rewrite E in E'. injection E' as <- <- <-. fold s in H. rewrite H by lia. rewrite !Z.eqb_refl. cbn [andb orb].
  unfold st_mat. replace (s - 1 =? s) with false by lia. replace (s =? s - 1 + 1) with true by lia. pose proof (Rabs_pos_lt (nthZ 0%R (st_b T) (s - 1)%Z) ltac:(lra)). lra.
Qed.
Definition bad_S : symtri R := SymTri [1/2; 1]%R [-3/5]%R 2.
Lemma definiteness_proof : exists S S1 S2 sigma, st_ok S /\ nonpositive_off S /\ posdef (st_n S) (st_mat S) /\ halves S = Some (S1, S2, sigma) /\ ~ posdef (st_n S1) (st_mat S1).
Proof.
  assert (OK : st_ok bad_S) by (unfold st_ok; cbn; lia).
  destruct (halves_total bad_S OK ltac:(cbn; lia)) as (S1 & S2 & E & O1 & N1 & _).
  exists bad_S, S1, S2, (Rabs (nR (st_b bad_S) (st_n bad_S / 2 - 1))). split; [exact OK|].
  assert (NP : nonpositive_off bad_S).
  { intros i Hi. cbn in Hi. replace i with 0 by lia. change (-3/5 <= 0)%R. lra. }
  split; [exact NP|]. split; [|split; [exact E|]].
  - intros v (i & Hi & Ei). change (st_n bad_S) with 2 in *. change (sumZ 2) with (sumZ (0 + 1 + 1)). rewrite !sumZ_S, sumZ_0 by lia.
    unfold matvec. change (sumZ 2) with (sumZ (0 + 1 + 1)). rewrite !sumZ_S, !sumZ_0 by lia.
    change (0 < 0 + v 0%Z * (0 + 1/2 * v 0%Z + (-3/5) * v 1%Z) + v 1%Z * (0 + (-3/5) * v 0%Z + 1 * v 1%Z))%R.
    replace (0 + v 0%Z * (0 + 1/2 * v 0%Z + (-3/5) * v 1%Z) + v 1%Z * (0 + (-3/5) * v 0%Z + 1 * v 1%Z))%R with ((v 1%Z - 3/5 * v 0%Z) * (v 1%Z - 3/5 * v 0%Z) + 7/50 * (v 0%Z * v 0%Z))%R by field.
    assert (C : i = 0 \/ i = 1) by lia. pose proof (Rle_0_sqr (v 1%Z - 3/5 * v 0%Z)) as Q. unfold Rsqr in Q.
    destruct (Req_EM_T (v 0%Z) 0) as [Z0|Z0].
    + destruct C as [-> | ->]; [contradiction|]. rewrite Z0. pose proof (Rsqr_pos_lt _ Ei) as Q'. unfold Rsqr in Q'. nra.
    + pose proof (Rsqr_pos_lt _ Z0) as Q'. unfold Rsqr in Q'. nra.
  - intros P. specialize (P (fun _ => 1%R)). rewrite N1 in P. change (st_n bad_S / 2) with 1 in *.
    assert (X : exists i, 0 <= i < 1 /\ (fun _ : Z => 1%R) i <> 0%R) by (exists 0; split; [lia|lra]). specialize (P X).
    change (sumZ 1) with (sumZ (0 + 1)) in P. rewrite sumZ_S, sumZ_0 in P by lia. unfold matvec in P. change (sumZ 1) with (sumZ (0 + 1)) in P. rewrite sumZ_S, sumZ_0 in P by lia.
    destruct (halves_proof bad_S OK ltac:(cbn; lia)) as (S1' & S2' & r & E' & _ & _ & _ & _ & _ & _ & _ & Vr & _ & H). rewrite E in E'. injection E' as <- <- <-.
    change (st_n bad_S) with 2 in H. change (2 / 2) with 1 in H. specialize (H 0 0 ltac:(lia) ltac:(lia)).
    change (st_mat S1 0 0 + Rabs (-3/5) * -1 * -1 = 1/2)%R in H. rewrite Rabs_left in H by lra. lra.
Qed.

Section Mono.
Context {V : Type}.
Variable M0 : dpeig R V -> Z -> Z -> R.
Variable ok0 : dpeig R V -> Prop.
Lemma problems_mono bs (P : symtri R -> symtri R -> Prop) (Q Q' : dpr1 R -> idpr1 R -> Prop) dmv0 leig deig fuel : (forall A B, Q A B -> Q' A B) ->
  forall T S, @problems V bs P Q dmv0 leig deig fuel T S -> problems bs P Q' dmv0 leig deig fuel T S.
Proof.
  intros HQ. induction fuel as [|fuel IH]; intros T S; cbn [problems]; auto. destruct (st_n T <? bs); auto.
  intros H T1 T2 rho S1 S2 sigma E1 E2. destruct (H _ _ _ _ _ _ E1 E2) as (H1 & H2 & H3). split; [|split]; auto.
  intros F1 F2 y A B G1 G2 X1 X2 X3 X4. apply HQ. eapply H3; eauto.
Qed.
End Mono.
Theorem sdtdc_dense_proof eps fm eigvals leig bs fuel T S : (0 <= eps)%R -> 2 <= bs -> st_ok T -> st_ok S -> st_n S = st_n T -> nonpositive_off T -> nonpositive_off S -> (Z.to_nat (st_n T) <= fuel)%nat ->
  problems bs (leaf_solved leig) (simple_merge eps fm eigvals) dvmv leig (definite_dpr1_eig eps fm eigvals) fuel T S ->
  exists F, sdtdc_eig dvmv bs leig (definite_dpr1_eig eps fm eigvals) fuel T S = Some F /\ tdc_ok dpe_dense_ok F /\ tdc_n F = st_n T /\
    eigensystem (st_n T) (st_n T) (st_mat T) (st_mat S) (nthZ 0%R (tdc_lambda F)) (tdc_mat dpe_dense F).
Proof.
  intros He Hb HT HS HN NT NS Hf HP. apply sdtdc_proof; auto.
  - intros. now apply dvmv_proof.
  - eapply problems_mono; [|exact HP]. intros A B (H1 & H2) (H3 & H4 & H5 & H6 & H7).
    destruct (definite_dpr1_eig_proof eps fm A B eigvals H3 He (conj H4 H5) H6 H7 H1 H2) as (E & E1 & E2 & E3 & E4 & _ & E5). exists E. auto.
Qed.
Theorem sdtdc_hier_proof sample eps fm eigvals leig bs fuel T S : (0 <= eps)%R -> 2 <= bs -> exact_kernels sample -> st_ok T -> st_ok S -> st_n S = st_n T -> nonpositive_off T -> nonpositive_off S -> (Z.to_nat (st_n T) <= fuel)%nat ->
  problems bs (leaf_solved leig) (simple_merge eps fm eigvals) dfmv leig (definite_dpr1_eig_FMM sample eps fm eigvals) fuel T S ->
  exists F, sdtdc_eig dfmv bs leig (definite_dpr1_eig_FMM sample eps fm eigvals) fuel T S = Some F /\ tdc_ok dpe_hier_ok F /\ tdc_n F = st_n T /\
    eigensystem (st_n T) (st_n T) (st_mat T) (st_mat S) (nthZ 0%R (tdc_lambda F)) (tdc_mat dpe_hier F).
Proof.
  intros He Hb HK HT HS HN NT NS Hf HP. apply sdtdc_proof; auto.
  - intros. now apply dfmv_proof.
  - eapply problems_mono; [|exact HP]. intros A B (H1 & H2) (H3 & H4 & H5 & H6 & H7).
    destruct (definite_dpr1_eig_FMM_proof eps fm A B eigvals sample H3 He HK (conj H4 H5) H6 H7 H1 H2) as (E & E1 & E2 & E3 & E4 & _ & E5). exists E. auto.
Qed.
Theorem tdmv_proof : forall t alpha F x beta y, tdc_ok dpe_dense_ok F -> tdc_n F <= zlen x -> tdc_n F <= zlen y ->
  exists F' y', tdmv t alpha F x beta y = Some (F', y') /\ same_tree F F' /\
    writes 0 (tdc_n F) y y' (fun i => (alpha * matvec (tdc_n F) (op t (tdc_mat dpe_dense F)) (vec 0 x) i + beta * vec 0 y i)%R).
Proof. intros. apply tmv_proof with (ok0 := dpe_dense_ok); auto. intros. now apply dvmv_proof. Qed.
Theorem tfmv_proof : forall t alpha F x beta y, tdc_ok dpe_hier_ok F -> tdc_n F <= zlen x -> tdc_n F <= zlen y ->
  exists F' y', tfmv t alpha F x beta y = Some (F', y') /\ same_tree F F' /\
    writes 0 (tdc_n F) y y' (fun i => (alpha * matvec (tdc_n F) (op t (tdc_mat dpe_hier F)) (vec 0 x) i + beta * vec 0 y i)%R).
Proof. intros. apply tmv_proof with (ok0 := dpe_hier_ok); auto. intros. now apply dfmv_proof. Qed.
Theorem same_tree_proof {V} (M0 : dpeig R V -> Z -> Z -> R) ok0 F F' : same_tree F F' -> tdc_ok ok0 F ->
  tdc_ok ok0 F' /\ tdc_n F' = tdc_n F /\ tdc_lambda F' = tdc_lambda F /\ tdc_mat M0 F' = tdc_mat M0 F.
Proof. intros H K. destruct (same_n _ _ H). split; [now apply (same_ok ok0 F)|]. split; [auto|]. split; [auto|]. symmetry. now apply same_mat. Qed.

(** ** an example *)
Definition ex_T : symtri R := SymTri [2; 3]%R [-1]%R 2.
Definition ex_S : symtri R := SymTri [1; 1]%R [-1/4]%R 2.
Definition ex_leig (T S : symtri R) (I L : list R) : option (list R * list R) := Some ([(/ sqrt (nthZ 0 (st_a S) 0%Z))%R], [(nthZ 0 (st_a T) 0%Z / nthZ 0 (st_a S) 0%Z)%R]).
Lemma ex_leaf T S : st_n T = 1 -> (0 < nthZ 0 (st_a S) 0%Z)%R -> leaf_solved ex_leig T S.
Proof.
  intros N P I L _ _ _. rewrite N. exists [(/ sqrt (nR (st_a S) 0%Z))%R], [(nR (st_a T) 0%Z / nR (st_a S) 0%Z)%R]. split; [reflexivity|]. split; [reflexivity|]. split; [reflexivity|].
  assert (Q : (sqrt (nR (st_a S) 0) * sqrt (nR (st_a S) 0) = nR (st_a S) 0)%R) by (apply sqrt_def; lra).
  assert (Q' : (0 < sqrt (nR (st_a S) 0))%R) by now apply sqrt_lt_R0.
  split.
  - intros j Hj i Hi. replace j with 0 by lia. replace i with 0 by lia. unfold matvec. change (sumZ 1) with (sumZ (0 + 1)). rewrite !sumZ_S, !sumZ_0 by lia.
    unfold st_mat. rewrite Z.eqb_refl. change (nR [(nR (st_a T) 0%Z / nR (st_a S) 0%Z)%R] 0) with (nR (st_a T) 0%Z / nR (st_a S) 0%Z)%R. field. lra.
  - intros j k Hj Hk. replace j with 0 by lia. replace k with 0 by lia. unfold matvec. change (sumZ 1) with (sumZ (0 + 1)). rewrite !sumZ_S, !sumZ_0 by lia.
    unfold st_mat. rewrite Z.eqb_refl. unfold mat. change (nR [(/ sqrt (nR (st_a S) 0%Z))%R] (0 + (0 + 0 * 1))) with (/ sqrt (nR (st_a S) 0%Z))%R.
    change (0 + / sqrt (nR (st_a S) 0) * (0 + nR (st_a S) 0 * / sqrt (nR (st_a S) 0)) = 1)%R. rewrite <- Q at 2. field. lra.
Qed.
Lemma ex_simple_proof : exists eigvals, st_ok ex_T /\ st_ok ex_S /\ st_n ex_S = st_n ex_T /\ nonpositive_off ex_T /\ nonpositive_off ex_S /\
  problems 2 (leaf_solved ex_leig) (simple_merge 0 1 eigvals) dvmv ex_leig (definite_dpr1_eig 0%R 1%R eigvals) 2 ex_T ex_S.
Proof.
  destruct (roots_exist_proof 1 1 (1/4)) as (f & Hf); [right; lra|]. exists (fun A _ => f A).
  assert (OT : st_ok ex_T) by (unfold st_ok; cbn; lia). assert (OS : st_ok ex_S) by (unfold st_ok; cbn; lia).
  assert (NT : nonpositive_off ex_T). { intros i Hi. cbn in Hi. replace i with 0 by lia. change (-1 <= 0)%R. lra. }
  assert (NS : nonpositive_off ex_S). { intros i Hi. cbn in Hi. replace i with 0 by lia. change (-1/4 <= 0)%R. lra. }
  repeat (split; [assumption || reflexivity|]).
  cbn [problems]. change (st_n ex_T <? 2) with false. intros T1 T2 rho S1 S2 sigma ET ES.
  change (halves ex_T) with (Some (SymTri [(2 + -1 * Rabs (1 * Rabs (-1)))%R] [] 1, SymTri [(3 + -1 * Rabs (1 * Rabs (-1)))%R] [] 1, (1 * Rabs (-1))%R)) in ET.
  change (halves ex_S) with (Some (SymTri [(1 + -1 * Rabs (1 * Rabs (-1/4)))%R] [] 1, SymTri [(1 + -1 * Rabs (1 * Rabs (-1/4)))%R] [] 1, (1 * Rabs (-1/4))%R)) in ES.
  assert (R1 : (1 * Rabs (-1) = 1)%R) by (rewrite Rabs_left by lra; lra). assert (R4 : (1 * Rabs (-1/4) = 1/4)%R) by (rewrite Rabs_left by lra; lra).
  rewrite R1 in ET. rewrite R4 in ES. rewrite Rabs_pos_eq in ET, ES by lra.
  injection ET as <- <- <-. injection ES as <- <- <-. cbn [st_n]. change (1 <? 2) with true.
  set (t1 := (2 + -1 * 1)%R) in *. set (t2 := (3 + -1 * 1)%R) in *. set (s1 := (1 + -1 * (1/4))%R) in *.
  split; [|split].
  - apply ex_leaf; [reflexivity|]. change (0 < s1)%R. unfold s1. lra.
  - apply ex_leaf; [reflexivity|]. change (0 < s1)%R. unfold s1. lra.
  - intros F1 F2 y A B G1 G2 E1 E2 Ey EM. cbn [sdtdc_eig st_n] in E1, E2. change (1 <? 2) with true in E1, E2.
    change (@identity R R_arith 1) with (Some [1%R]) in E1, E2. cbn [obind] in E1, E2. unfold ex_leig in E1, E2. cbn [obind] in E1, E2. cbn [st_a] in E1, E2.
    change (nR [s1] 0) with s1 in E1, E2. change (nR [t1] 0) with t1 in E1. change (nR [t2] 0) with t2 in E2.
    injection E1 as <-. injection E2 as <-.
    change (st_n ex_T / 2) with 1 in *. change (st_n ex_T) with 2 in *.
    destruct (tear_vector_val 2 1 ltac:(lia) ltac:(lia)) as (y' & Ey' & Ly & Vy). rewrite Ey in Ey'. injection Ey' as <-.
    destruct (merge_problem_val dpe_dense dpe_dense_ok dvmv (fun t al E x be y H1 H2 H3 => dvmv_proof t al E x be y H1 H2 H3) 2 1 1%R (1/4)%R y
      (TLeaf 1 [(/ sqrt s1)%R] [(t1 / s1)%R]) (TLeaf 1 [(/ sqrt s1)%R] [(t2 / s1)%R])) as (A' & B' & H1 & H2 & EM' & _ & _ & OA & NA & RA & OB & NB & SB & VD & VZ & VB);
      try (cbn; lia); try reflexivity; auto.
    rewrite EM in EM'. injection EM' as <- <- _ _. unfold simple_merge. rewrite SB, RA. split.
    + assert (Ht : defl_tol true 0 A B = 0%R) by (unfold defl_tol; ring). rewrite Ht.
      assert (D0 : nR (dp_d A) 0 = (t1 / s1)%R) by (rewrite VD by lia; reflexivity).
      assert (D1 : nR (dp_d A) 1 = (t2 / s1)%R) by (rewrite VD by lia; reflexivity).
      assert (C : forall i, 0 <= i < 2 -> i = 0 \/ i = 1) by (intros; lia).
      unfold t1, t2, s1 in D0, D1. repeat split.
      * intros i Hi Hz. pose proof (Rabs_pos (nR (dp_z A) i)). destruct (Req_EM_T (nR (dp_z A) i) 0) as [|N]; auto. apply Rabs_pos_lt in N. lra.
      * intros i j Hi Hj Hne _ _. rewrite NA in Hi, Hj. destruct (C i Hi) as [-> | ->], (C j Hj) as [-> | ->]; try lia; rewrite D0, D1; lra.
      * intros i Hi _. rewrite NA in Hi. rewrite RA. destruct (C i Hi) as [-> | ->]; rewrite ?D0, ?D1; lra.
    + intros B1 _. exact Hf.
Qed.
