(** * Proofs about the divide-and-conquer eigenvector planners: the plan of tb_eig_FMM *)
From Coq Require Import ZArith List Lia Bool Reals Lra ZifyBool ZifyNat.
From Verif Require Import Arith Base BaseFacts SpecSum PSum SpecLin SpecBanded PTri PTri2 MBanded MHier SpecHier PHier5 MSort SpecSort PPerm PSort PSortThms MEig SpecEig PInter PEig PEigThms MButter SpecButter PButter2 PHier2 MEigPlan SpecEigPlan PEigPlan PEigPlan2 PEigPlan3 PEigPlan4.
Import ListNotations.
Open Scope Z_scope.

Lemma node_coupling tol s m b F0 X Y p1 p2 Sp sort1 sort2 p3 p4 idx (l1 l2 : Z -> R) :
  is_perm s p1 -> is_perm m p2 ->
  (forall i, 0 <= i < s -> nthZ 0%R sort1 i = l1 (nthZ 0 p1 i)) -> (forall i, 0 <= i < m -> nthZ 0%R sort2 i = l2 (nthZ 0 p2 i)) ->
  (forall i i', 0 <= i < s -> 0 <= i' < m -> h_mat F0 i i' = thresholded_cauchykernel tol (nthZ 0%R sort1 i) (nthZ 0%R sort2 i')) ->
  (forall a c, 0 <= a < s -> 0 <= c < m -> l1 a <> l2 c) ->
  (forall k k', 0 <= k < k' -> k' < idx -> comes_before (nthZ 0 p3 k) (nthZ 0 p4 k) (nthZ 0 p3 k') (nthZ 0 p4 k')) ->
  (forall k, 0 <= k < idx -> 0 <= nthZ 0 p3 k < s /\ 0 <= nthZ 0 p4 k < m) ->
  (forall i j, 0 <= i < s -> 0 <= j < m -> (exists k, 0 <= k < idx /\ nthZ 0 p3 k = i /\ nthZ 0 p4 k = j) <-> close tol (nthZ 0%R sort1 i) (nthZ 0%R sort2 j)) ->
  sp_nnz Sp = idx ->
  (forall l, 0 <= l < idx -> nthZ 0 (sp_p Sp) l = nthZ 0 p1 (nthZ 0 p3 l) /\ nthZ 0 (sp_q Sp) l = nthZ 0 p2 (nthZ 0 p4 l) /\
     let a := nthZ 0 p1 (nthZ 0 p3 l) in let c := nthZ 0 p2 (nthZ 0 p4 l) in
     ((l2 c - l1 a) * nthZ 0%R (sp_v Sp) l)%R = sumZ b (fun k => mat 0 s X a k * mat 0 m Y c k)%R) ->
  forall a c, 0 <= a < s -> 0 <= c < m ->
    ((l2 c - l1 a) * coupling s m b F0 X Y p1 p2 Sp a c)%R = sumZ b (fun k => mat 0 s X a k * mat 0 m Y c k)%R.
Proof.
  intros HP1 HP2 S1 S2 HF Hne Hord Hrg Hex Hnn HSp a c Ha Hc. unfold coupling.
  destruct (perm_surj s p1 a HP1 Ha) as (i & Hi & Ei). destruct (perm_surj m p2 c HP2 Hc) as (i' & Hi' & Ei').
  rewrite (reindexed_perm s m p1 p2 _ a c i i') by auto. rewrite HF by auto.
  assert (INJ : forall l, 0 <= l < idx -> nthZ 0 p1 (nthZ 0 p3 l) = a -> nthZ 0 p2 (nthZ 0 p4 l) = c -> nthZ 0 p3 l = i /\ nthZ 0 p4 l = i').
  { intros l Hl E1 E2. destruct (Hrg l Hl) as [R3 R4]. destruct HP1 as (_ & _ & I1), HP2 as (_ & _ & I2). split; [apply I1|apply I2]; auto; congruence. }
  unfold thresholded_cauchykernel. cbn [zero one sub div R_arith]. destruct (near tol (nthZ 0%R sort1 i) (nthZ 0%R sort2 i')) eqn:En.
  - apply near_close in En. apply (Hex i i' Hi Hi') in En. destruct En as (l & Hl & E3 & E4).
    destruct (HSp l Hl) as (Q1 & Q2 & Q3). cbn zeta in Q3. rewrite E3, E4, Ei, Ei' in *.
    rewrite (sp_mat_one Sp l a c); auto.
    + rewrite <- Q3. ring.
    + lia.
    + intros l' Hl' G1 G2. rewrite Hnn in Hl'. destruct (HSp l' Hl') as (Q1' & Q2' & _). rewrite Q1' in G1. rewrite Q2' in G2.
      destruct (INJ l' Hl' G1 G2) as [J1 J2].
      destruct (Z.lt_trichotomy l l') as [Hlt|[He|Hlt]]; auto; exfalso.
      * specialize (Hord l l' ltac:(lia) ltac:(lia)). unfold comes_before in Hord. lia.
      * specialize (Hord l' l ltac:(lia) ltac:(lia)). unfold comes_before in Hord. lia.
  - rewrite (sp_mat_none Sp a c).
    + rewrite S1, S2 by auto. rewrite Ei, Ei'. specialize (Hne a c Ha Hc). field. lra.
    + intros l Hl G1 G2. rewrite Hnn in Hl. destruct (HSp l Hl) as (Q1' & Q2' & _). rewrite Q1' in G1. rewrite Q2' in G2.
      destruct (INJ l Hl G1 G2) as [J1 J2].
      assert (En' : close tol (nthZ 0%R sort1 i) (nthZ 0%R sort2 i')) by (apply (Hex i i' Hi Hi'); eauto).
      apply near_close in En'. congruence.
Qed.

Lemma nthZ_app_l {F} (d : F) a b i : 0 <= i < zlen a -> nthZ d (a ++ b) i = nthZ d a i.
Proof. intros H. unfold nthZ, zget, zlen in *. destruct (i <? 0) eqn:E; [reflexivity|]. now rewrite nth_error_app1 by lia. Qed.
Lemma nthZ_app_r {F} (d : F) a b i : 0 <= i -> nthZ d (a ++ b) (zlen a + i) = nthZ d b i.
Proof.
  intros H. unfold nthZ, zget, zlen in *. destruct (Z.of_nat (length a) + i <? 0) eqn:E; [lia|]. destruct (i <? 0) eqn:E'; [lia|].
  rewrite nth_error_app2 by lia. replace (Z.to_nat (Z.of_nat (length a) + i) - length a)%nat with (Z.to_nat i) by lia. reflexivity.
Qed.
Lemma zlen_app {F} (a b : list F) : zlen (a ++ b) = zlen a + zlen b.
Proof. unfold zlen. rewrite app_length. lia. Qed.

(** the eigenvector matrix depends only on the entries of the pencil *)
Lemma eigenvectors_ext n A A' B B' D D' V : (forall i j, 0 <= i < n -> 0 <= j < n -> A i j = A' i j) -> (forall i j, 0 <= i < n -> 0 <= j < n -> B i j = B' i j) ->
  (forall j, 0 <= j < n -> D j = D' j) -> eigenvectors_of n A B D V -> eigenvectors_of n A' B' D' V.
Proof.
  intros EA EB ED (U & Dg & P). split; [exact U|]. split; [intros j Hj; rewrite Dg by auto; apply ED; auto|].
  intros i j Hi Hj. specialize (P i j Hi Hj). unfold matmul in *.
  rewrite (sumZ_ext n (fun k => A' i k * V k j)%R (fun k => A i k * V k j)%R) by (intros; now rewrite EA).
  rewrite (sumZ_ext n (fun k => B' i k * V k j)%R (fun k => B i k * V k j)%R) by (intros; now rewrite EB).
  rewrite P. rewrite EA, EB by auto. reflexivity.
Qed.
Lemma eigenvectors_diag n A B D V : eigenvectors_of n A B D V -> (forall j, 0 <= j < n -> D j <> 0%R) -> nonzero_diag n V.
Proof. intros (_ & Dg & _) H i Hi. rewrite Dg by auto. auto. Qed.
Lemma distinct_ne A B n : (forall i j, 0 <= i < j -> j < n -> pencil_eig A B i <> pencil_eig A B j) -> forall i j, 0 <= i < n -> 0 <= j < n -> i <> j -> pencil_eig A B i <> pencil_eig A B j.
Proof. intros H i j Hi Hj Hne. destruct (Z_lt_dec i j); [apply H; lia|]. intros E. symmetry in E. revert E. apply H; lia. Qed.

Section FMM.
Variables (BS T tn BLK : Z) (tol : R) (low : list R -> Z * Z -> Z * Z -> option (lowrank R)).
Hypothesis HBS : 2 <= BS. Hypothesis Htn : 0 <= tn < T. Hypothesis HBLK : 1 <= BLK. Hypothesis Htol : (tol <= 1)%R.
Hypothesis Hlow : exact_lowrank (thresholded_cauchykernel tol) low.

Theorem tb_eig_FMM_proof fuel : forall A B D o,
  tb_ok A -> tb_ok B -> tb_n B = tb_n A -> tb_b B <= tb_b A -> tb_b A <= BS / 2 -> nonzero_diag (tb_n A) (tb_mat B) ->
  (forall i j, 0 <= i < j -> j < tb_n A -> pencil_eig A B i <> pencil_eig A B j) ->
  fits o (tb_n A) D -> (forall j, 0 <= j < tb_n A -> vec o D j <> 0%R) -> tb_n A < Z.of_nat fuel ->
  exists E L, tb_eig_FMM BS T tn BLK 0%R tol low fuel A B D o = Some (E, L) /\ tbeig_n E = tb_n A /\
    (forall t, 0 <= t < T -> tb_wf BS t E) /\ zlen (lroot L) = tb_n A /\ (forall j, 0 <= j < tb_n A -> nthZ 0%R (lroot L) j = pencil_eig A B j) /\
    eigenvectors_of (tb_n A) (tb_mat A) (tb_mat B) (vec o D) (tb_V E) /\
    sampled tol E L /\ (none_close tol (tb_n A) (pencil_eig A B) -> no_sparse E).
Proof.
  induction fuel as [|fuel IH]; intros A B D o HA HB Hn Hbb HbB HD Hd Ho HDn Hf.
  { pose proof (proj1 HA). lia. }
  assert (H0 : 0 <= tb_n A) by apply HA. assert (Hb0 : 0 <= tb_b A) by apply HA.
  cbn [tb_eig_FMM]. destruct (Z.ltb_spec (tb_n A) BS).
  - destruct (eig_leaf_spec A B (fun i => zget D (o + i)) (vec o D) HA HB Hn HD Hd) as (V & la & E & LV & Ll & Pl & PV).
    { intros i Hi. destruct Ho. apply zget_nthZ. lia. }
    rewrite E. cbn [obind fst snd]. exists (TBLeaf (tb_n A) V), (LLeaf la). split; [reflexivity|]. cbn [tbeig_n tb_wf tb_V lroot sampled no_sparse]. split; auto. split; [intros; lia|]. auto 10.
  - set (n := tb_n A) in *. set (s := n / 2). set (m := n - s).
    assert (Hs : 1 <= s /\ s <= m /\ BS / 2 <= s /\ m < n /\ s < n).
    { unfold m, s. pose proof (Z.div_le_mono BS n 2). pose proof (Z.div_mod n 2). pose proof (Z.mod_pos_bound n 2). pose proof (Z.div_le_mono 2 n 2). change (2 / 2) with 1 in *. lia. }
    replace (Z.max (tb_b A) (tb_b B)) with (tb_b A) by lia. set (b := tb_b A) in *.
    assert (EA1 : tb_n (view_tbanded A 0 s) = s) by (unfold view_tbanded; cbn [tb_n]; lia).
    assert (EA2 : tb_n (view_tbanded A s n) = m) by (unfold view_tbanded; cbn [tb_n]; lia).
    assert (HA1 : tb_ok (view_tbanded A 0 s)) by (apply view_ok; auto; fold n; lia).
    assert (HB1 : tb_ok (view_tbanded B 0 s)) by (apply view_ok; auto; lia).
    assert (HA2 : tb_ok (view_tbanded A s n)) by (apply view_ok; auto; fold n; lia).
    assert (HB2 : tb_ok (view_tbanded B s n)) by (apply view_ok; auto; lia).
    assert (MA1 : forall i j, 0 <= i -> 0 <= j -> tb_mat (view_tbanded A 0 s) i j = tb_mat A i j) by (intros; rewrite view_mat by (auto; fold n; lia); reflexivity).
    assert (MB1 : forall i j, 0 <= i -> 0 <= j -> tb_mat (view_tbanded B 0 s) i j = tb_mat B i j) by (intros; rewrite view_mat by (auto; lia); reflexivity).
    assert (MA2 : forall i j, 0 <= i -> 0 <= j -> tb_mat (view_tbanded A s n) i j = tb_mat A (s + i) (s + j)) by (intros; rewrite view_mat by (auto; fold n; lia); reflexivity).
    assert (MB2 : forall i j, 0 <= i -> 0 <= j -> tb_mat (view_tbanded B s n) i j = tb_mat B (s + i) (s + j)) by (intros; rewrite view_mat by (auto; lia); reflexivity).
    assert (P1 : forall j, 0 <= j -> pencil_eig (view_tbanded A 0 s) (view_tbanded B 0 s) j = pencil_eig A B j) by (intros; unfold pencil_eig; now rewrite MA1, MB1 by lia).
    assert (P2 : forall j, 0 <= j -> pencil_eig (view_tbanded A s n) (view_tbanded B s n) j = pencil_eig A B (s + j)) by (intros; unfold pencil_eig; now rewrite MA2, MB2 by lia).
    destruct Ho as [Ho1 Ho2].
    destruct (IH (view_tbanded A 0 s) (view_tbanded B 0 s) D o) as (E1 & LT1 & R1 & N1 & W1 & L1 & G1 & V1 & SM1 & NS1); auto; rewrite ?EA1.
    { intros i Hi. rewrite MB1 by lia. apply HD. lia. }
    { intros i j Hi Hj. rewrite !P1 by lia. apply Hd; lia. }
    { split; lia. }
    { intros j Hj. apply HDn. lia. }
    { lia. }
    destruct (IH (view_tbanded A s n) (view_tbanded B s n) D (o + s)) as (E2 & LT2 & R2 & N2 & W2 & L2 & G2 & V2 & SM2 & NS2); auto; rewrite ?EA2.
    { intros i Hi. rewrite MB2 by lia. apply HD. lia. }
    { intros i j Hi Hj. rewrite !P2 by lia. apply Hd; lia. }
    { split; lia. }
    { intros j Hj. specialize (HDn (s + j) ltac:(lia)). unfold vec in *. now replace (o + s + j) with (o + (s + j)) by lia. }
    { lia. }
    rewrite EA1 in *. rewrite EA2 in *. rewrite R1. cbn [obind]. rewrite R2. cbn [obind]. set (la1 := lroot LT1) in *. set (la2 := lroot LT2) in *.
    assert (V1' : eigenvectors_of s (tb_mat A) (tb_mat B) (vec o D) (tb_V E1)).
    { revert V1. apply eigenvectors_ext; [intros; apply MA1; lia|intros; apply MB1; lia|reflexivity]. }
    assert (V2' : eigenvectors_of m (fun i j => tb_mat A (s + i) (s + j)) (fun i j => tb_mat B (s + i) (s + j)) (fun j => vec o D (s + j)) (tb_V E2)).
    { revert V2. apply eigenvectors_ext; [intros; apply MA2; lia|intros; apply MB2; lia|]. intros. unfold vec. f_equal. lia. }
    assert (ND1 : nonzero_diag s (tb_V E1)) by (apply (eigenvectors_diag _ _ _ _ _ V1'); intros; apply HDn; lia).
    destruct (eig_X_spec 1%R (bfsv BS tn false E1) (view_tbanded B 0 s) s b (tb_V E1)) as (X & EX & LX & PX); auto.
    { intros i Hi. rewrite MB1 by lia. apply HD. lia. }
    { lia. }
    { intros x o' Hx. destruct (bfsv_proof BS tn E1 ltac:(lia) (W1 tn Htn) ltac:(rewrite N1; exact ND1) false x o') as (x' & Ex & Ax); [now rewrite N1|]. rewrite N1 in Ax. exists x'. split; [exact Ex|exact Ax]. }
    cbn [one R_arith]. rewrite EX. cbn [obind].
    destruct (eig_Y_spec (bfmv BS tn true E2) A B n s la2 (tb_V E2) (fun c => pencil_eig A B (s + c))) as (Y & EY & LY & PY); auto; fold m; try (fold b; lia).
    { intros c Hc. rewrite G2 by lia. apply P2. lia. }
    { intros x o' Hx. destruct (bfmv_proof BS tn E2 ltac:(lia) (W2 tn Htn) true x o') as (x' & Ex & Ax); [now rewrite N2|]. rewrite N2 in Ax. exists x'. split; [exact Ex|exact Ax]. }
    fold b m in PY, LY. rewrite EY. cbn [obind].
    destruct (eig_sort_spec la1 s L1) as (sort1 & p1 & Q1 & LS1 & HP1 & HS1 & ND & U1).
    destruct (eig_sort_spec la2 m L2) as (sort2 & p2 & Q2 & LS2 & HP2 & HS2 & ND' & U2).
    rewrite Q1. cbn [obind]. rewrite Q2. cbn [obind].
    destruct (C31_count_proof R _ tol s sort1 m sort2 ltac:(lia) ltac:(lia)) as (idx & Ec & Hidx & Hcnt).
    cbn [zero R_arith]. rewrite Ec. cbn [obind].
    destruct (Hcnt (zmake idx 0) (zmake idx 0)) as [Hc1 _]. rewrite !zlen_zmake in Hc1 by lia.
    destruct (Hc1 ltac:(lia) ltac:(lia)) as (p3 & p4 & Ep & Lp3 & Lp4 & _ & Hrg & Hord). rewrite Ep. cbn [obind fst snd].
    destruct (C31_exactly_proof tol s sort1 m sort2 (zmake idx 0) (zmake idx 0) Htol ltac:(lia) ltac:(lia) ND ND') as (idx' & Ec' & Hex). rewrite Ec in Ec'. injection Ec' as <-.
    rewrite !zlen_zmake in Hex by lia. destruct (Hex ltac:(lia) ltac:(lia)) as (p3' & p4' & Ep' & Hex'). rewrite Ep in Ep'. injection Ep' as <- <-.
    destruct (sparse_spec BS tn E1 A B D o p1 p2 p3 p4 n s idx) as (Sp & ESp & Nsp & Lsp & Lsq & Lsv & HSp); auto; try lia.
    { split; lia. }
    replace (Z.max (tb_b A) (tb_b B)) with b in ESp by (unfold b; lia). rewrite ESp. cbn [obind].
    set (x := sort1 ++ sort2) in *.
    assert (Lx : zlen x = n) by (unfold x; rewrite zlen_app; lia).
    assert (X1 : forall i, 0 <= i < s -> nthZ 0%R x i = nthZ 0%R sort1 i) by (intros; apply nthZ_app_l; lia).
    assert (X2 : forall i, 0 <= i -> nthZ 0%R x (s + i) = nthZ 0%R sort2 i) by (intros; unfold x; rewrite <- LS1; apply nthZ_app_r; lia).
    assert (NX1 : nondecreasing x 0 (s - 1)) by (intros i j Hi Hij Hj; rewrite !X1 by lia; apply ND; lia).
    assert (NX2 : nondecreasing x s (n - 1)).
    { intros i j Hi Hij Hj. replace i with (s + (i - s)) by lia. replace j with (s + (j - s)) by lia. rewrite !X2 by lia. apply ND'; lia. }
    destruct (sample_proof BLK true x x (thresholded_cauchykernel tol) 0%R (0, s) (s, n) (low x)) with (fuel := S (Z.to_nat n)) (i := (0, s)) (j := (s, n)) as (F0 & EF & Hg); cbn [fst snd]; auto; try lia; try lra.
    { intros i j Hi Hj Hsep. apply (Hlow x s n); auto; lia. }
    { unfold subrange. cbn. lia. }
    { unfold subrange. cbn. lia. }
    { unfold len. cbn. lia. }
    rewrite EF. cbn [obind]. rewrite U1. cbn [obind]. rewrite U2. cbn [obind fst snd].
    eexists _, _. split; [reflexivity|]. cbn [tbeig_n]. split; [reflexivity|].
    unfold good in Hg. destruct Hg as (Hok & Hr & Hc & Hsm).
    assert (HF : forall i i', 0 <= i < s -> 0 <= i' < m -> h_mat F0 i i' = thresholded_cauchykernel tol (nthZ 0%R sort1 i) (nthZ 0%R sort2 i')).
    { intros i i' Hi Hi'. specialize (Hsm i (s + i')). cbn [fst snd] in Hsm. specialize (Hsm ltac:(lia) ltac:(lia)).
      rewrite X1, X2 in Hsm by lia. replace (i - 0) with i in Hsm by lia. replace (s + i' - s) with i' in Hsm by lia.
      match type of Hsm with (Rabs ?z <= 0)%R => pose proof (Rabs_pos z); destruct (Req_dec z 0) as [Ez|Nz]; [|apply Rabs_no_R0 in Nz; lra] end. lra. }
    split.
    { intros t Ht. cbn [tb_wf]. fold s m. unfold len in Hr, Hc. cbn [fst snd] in Hr, Hc.
      assert (I1 : indices s p1) by (destruct HP1 as (Z1 & Z2 & _); split; [lia|exact Z2]).
      assert (I2 : indices m p2) by (destruct HP2 as (Z1 & Z2 & _); split; [lia|exact Z2]).
      assert (Z1 : sp_ok s m Sp).
      { unfold sp_ok. rewrite Nsp, Lsp, Lsq, Lsv. do 4 (split; [lia|]). intros l Hl. destruct (HSp l Hl) as (Q3 & Q4 & _). rewrite Q3, Q4. destruct (Hrg l Hl) as [Ra Rc]. split; [apply HP1|apply HP2]; auto. }
      rewrite !zlen_zmake by nia. rewrite N1, N2.
      split; [lia|]. split; [lia|]. split; [lia|]. split; [exact Hok|]. split; [lia|]. split; [lia|]. split; [nia|]. split; [nia|].
      split; [exact I1|]. split; [exact I2|]. split; [exact Z1|]. split; [nia|]. split; [nia|]. auto. }
    cbn [lroot].
    assert (GL : forall j, 0 <= j < n -> nthZ 0%R (la1 ++ la2) j = pencil_eig A B j).
    { intros j Hj. destruct (Z_lt_dec j s).
      - rewrite nthZ_app_l by lia. rewrite G1 by lia. apply P1. lia.
      - replace j with (zlen la1 + (j - s)) at 1 by lia. rewrite nthZ_app_r by lia. rewrite G2 by lia. rewrite P2 by lia. f_equal. lia. }
    assert (T1 : forall i, 0 <= i < s -> 0 <= nthZ 0 p1 i < s) by apply HP1. assert (T2 : forall i, 0 <= i < m -> 0 <= nthZ 0 p2 i < m) by apply HP2.
    assert (X1' : forall i, 0 <= i < s -> nthZ 0%R sort1 i = nthZ 0%R (la1 ++ la2) (nthZ 0 p1 i)).
    { intros i Hi. rewrite HS1 by auto. specialize (T1 i Hi). now rewrite nthZ_app_l by lia. }
    assert (X2' : forall i, 0 <= i < m -> nthZ 0%R sort2 i = nthZ 0%R (la1 ++ la2) (s + nthZ 0 p2 i)).
    { intros i Hi. rewrite HS2 by auto. specialize (T2 i Hi). rewrite <- L1 at 1. now rewrite nthZ_app_r by lia. }
    split; [rewrite zlen_app; lia|]. split; [exact GL|].
    enough (EVV : eigenvectors_of n (tb_mat A) (tb_mat B) (vec o D) (tb_V (TBNode n b F0 X Y p1 p2 Sp (zmake (s * T) 0%R) (zmake (m * T) 0%R) E1 E2))).
    { split; [exact EVV|]. split.
      - cbn [sampled]. fold s m. split; [rewrite zlen_app; lia|]. split; [exact HP1|]. split; [exact HP2|]. split; [|split; [|split; [|split; [exact SM1|exact SM2]]]].
        + intros i j Hi Hj. rewrite <- !X1' by lia. apply ND; lia.
        + intros i j Hi Hj. rewrite <- !X2' by lia. apply ND'; lia.
        + intros i j Hi Hj. rewrite <- X1', <- X2' by lia. apply HF; lia.
      - intros NC. cbn [no_sparse]. split; [|split].
        + rewrite Nsp. destruct (Z.eq_dec idx 0) as [|Hx]; auto. exfalso.
          destruct (Hrg 0 ltac:(lia)) as [Ra Rc].
          assert (CL : close tol (nthZ 0%R sort1 (nthZ 0 p3 0)) (nthZ 0%R sort2 (nthZ 0 p4 0))).
          { apply (Hex' (nthZ 0 p3 0) (nthZ 0 p4 0)); auto. exists 0. split; [lia|auto]. }
          rewrite X1', X2' in CL by auto. specialize (T1 _ Ra). specialize (T2 _ Rc). rewrite !GL in CL by lia. revert CL. apply NC; lia.
        + apply NS1. intros i j Hi Hj. rewrite !P1 by lia. apply NC; lia.
        + apply NS2. intros i j Hi Hj. rewrite !P2 by lia. apply NC; lia. }
    cbn [tb_V]. fold s m. fold n. replace n with (s + m) at 1 by lia.
    assert (UA : upper_tri (s + m) (tb_mat A)) by apply tb_upper.
    assert (UB : upper_tri (s + m) (tb_mat B)) by apply tb_upper.
    assert (HZ : forall i r, 0 <= i < s - b -> 0 <= r < m -> tb_mat A i (s + r) = 0%R /\ tb_mat B i (s + r) = 0%R).
    { intros i r Hi Hr'. split; apply outB; lia. }
    assert (HX : forall k i, 0 <= k < b -> 0 <= i < s -> matvec s (tb_mat B) (fun a => matvec s (tb_V E1) (fun a => mat 0 s X a k) a) i = eqR i (s - b + k)).
    { intros k i Hk Hi. rewrite <- (Rmult_1_l (eqR _ _)), <- PX by auto. unfold matvec at 1 3. apply sumZ_ext. intros q Hq. now rewrite MB1 by lia. }
    apply (node_eigenvectors s m b (tb_mat A) (tb_mat B) (tb_V E1) (tb_V E2) (mat 0 s X) (mat 0 m Y)); auto; try lia.
    apply (node_coupling tol s m b F0 X Y p1 p2 Sp sort1 sort2 p3 p4 idx (fun a => pencil_eig A B a) (fun c => pencil_eig A B (s + c))); auto.
    + intros i Hi. rewrite HS1 by auto. destruct HP1 as (_ & Z2 & _). rewrite G1 by (apply Z2; auto). apply P1. apply Z2. auto.
    + intros i Hi. rewrite HS2 by auto. destruct HP2 as (_ & Z2 & _). rewrite G2 by (apply Z2; auto). apply P2. apply Z2. auto.
    + intros a c Ha Hc'. apply Hd; lia.
    + intros l Hl. destruct (HSp l Hl) as (Q3 & Q4 & u & w & Q5 & Q6 & Q7 & Q8 & Q9). split; [exact Q3|]. split; [exact Q4|]. rewrite Q9.
      destruct (Hrg l Hl) as [Ra Rc]. assert (Rc' : 0 <= nthZ 0 p2 (nthZ 0 p4 l) < m) by (apply HP2; auto). assert (Ra' : 0 <= nthZ 0 p1 (nthZ 0 p3 l) < s) by (apply HP1; auto).
      set (c := nthZ 0 p2 (nthZ 0 p4 l)) in *. set (a := nthZ 0 p1 (nthZ 0 p3 l)) in *. rewrite (Z.add_comm c s) in *.
      apply (node_row s m b (tb_mat A) (tb_mat B) (tb_V E1) (tb_V E2) (mat 0 s X) (mat 0 m Y) (fun _ _ => 0%R) (vec o D)) with (u := u); auto; try lia.
      * replace (s + m) with n by lia. exact HD.
      * intros q Hq Hqc E. apply (distinct_ne A B n Hd (s + q) (s + c)); try lia. unfold pencil_eig at 1. rewrite E. unfold pencil_eig. field. split; apply HD; lia.
      * intros i Hi. apply Q6. lia.
      * intros i Hi. replace (s + m) with n by lia. apply Q7. lia.
Qed.
End FMM.
