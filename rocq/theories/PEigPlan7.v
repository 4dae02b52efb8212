(** * Proofs about the divide-and-conquer eigenvector planners: dropping the precision of a plan *)
From Coq Require Import ZArith List Lia Bool Reals Lra ZifyBool ZifyNat.
From Verif Require Import Arith Base BaseFacts SpecSum PSum SpecLin SpecBanded PTri PTri2 MBanded MHier SpecHier PHier5 MSort SpecSort PPerm MEig SpecEig MButter SpecButter PButter2 MEigPlan SpecEigPlan PEigPlan5.
Import ListNotations.
Open Scope Z_scope.

Lemma copy_spec {G} (d : G) src o n : 0 <= o -> 0 <= n -> o + n <= zlen src ->
  exists a, copy_entries d (fun k => k) src o n = Some a /\ zlen a = n /\ forall i, 0 <= i < n -> nthZ d a i = nthZ d src (o + i).
Proof.
  intros Ho Hn Hl. unfold copy_entries.
  match goal with |- context [for_up 0 n ?f ?z] => destruct (for_up_inv (fun q a => zlen a = n /\ forall i, 0 <= i < q -> nthZ d a i = nthZ d src (o + i)) 0 n f z) as (a & E & L & P) end.
  - lia.
  - rewrite zlen_zmake by lia. split; auto. intros; lia.
  - intros i a Hi (L & P). rewrite (zget_nthZ d src) by lia. cbn [obind]. rewrite zset_some by lia. eexists; split; [reflexivity|]. split; [now rewrite zlen_zupd|].
    intros j Hj. rewrite nthZ_zupd by lia. destruct (Z.eqb_spec i j) as [<-|]; auto. apply P. lia.
  - exists a. auto.
Qed.
Lemma perm_back t p (y y' : list R) n : is_perm n p -> n <= zlen y -> perm t y p n = Some (y', p) -> perm (negb t) y' p n = Some (y, p).
Proof. intros HP Hx E. pose proof (perm_inverse_proof t y p n HP Hx) as H. rewrite E in H. cbn [obind] in H. exact H. Qed.

Lemma reindexed_ext s m p1 p2 p1' p2' C C' a c : (forall i, 0 <= i < s -> nthZ 0 p1' i = nthZ 0 p1 i) -> (forall i, 0 <= i < m -> nthZ 0 p2' i = nthZ 0 p2 i) ->
  (forall i j, 0 <= i < s -> 0 <= j < m -> C' i j = C i j) -> reindexed s m p1' p2' C' a c = reindexed s m p1 p2 C a c.
Proof. intros H1 H2 H3. unfold reindexed. apply sumZ_ext. intros i Hi. apply sumZ_ext. intros j Hj. now rewrite H1, H2, H3. Qed.
Lemma block_mat_ext s m V1 W V2 V1' W' V2' : (forall i j, 0 <= i < s -> 0 <= j < s -> V1' i j = V1 i j) -> (forall i j, 0 <= i < s -> 0 <= j < m -> W' i j = W i j) ->
  (forall i j, 0 <= i < m -> 0 <= j < m -> V2' i j = V2 i j) -> forall i j, 0 <= i < s + m -> 0 <= j < s + m -> block_mat s V1' W' V2' i j = block_mat s V1 W V2 i j.
Proof.
  intros H1 H2 H3 i j Hi Hj. unfold block_mat. destruct (Z.ltb_spec i s), (Z.ltb_spec j s); auto.
  - apply H1; lia.
  - unfold matmul. apply sumZ_ext. intros k Hk. rewrite H1, H2 by lia. reflexivity.
  - apply H3; lia.
Qed.

Section Drop.
Variables (BS T BLK : Z) (tol : R) (low : list R -> Z * Z -> Z * Z -> option (lowrank R)).
Hypothesis HBS : 2 <= BS. Hypothesis HT : 0 < T. Hypothesis HBLK : 1 <= BLK.
Hypothesis Hlow : exact_lowrank (thresholded_cauchykernel tol) low.

Theorem drop_tb_proof E : forall L, (forall t, 0 <= t < T -> tb_wf BS t E) -> sampled tol E L -> zlen (lroot L) = tbeig_n E ->
  exists E' L', drop_tb BS T BLK tol low (fun x => x) E L = Some (E', L') /\ tbeig_n E' = tbeig_n E /\ (forall t, 0 <= t < T -> tb_wf BS t E') /\
    zlen (lroot L') = tbeig_n E /\ (forall j, 0 <= j < tbeig_n E -> nthZ 0%R (lroot L') j = nthZ 0%R (lroot L) j) /\ sampled tol E' L' /\
    (forall i j, 0 <= i < tbeig_n E -> 0 <= j < tbeig_n E -> tb_V E' i j = tb_V E i j) /\ (no_sparse E -> no_sparse E').
Proof.
  induction E as [n V|n b F0 X Y p1 p2 Sp t1 t2 F1 IH1 F2 IH2]; intros L Hwf Hs HL.
  - destruct L as [la|]; [|destruct Hs]. cbn [sampled lroot tbeig_n] in *. destruct (Hwf 0 ltac:(lia)) as [Hn HV]. cbn [drop_tb].
    rewrite (proj2 (Z.ltb_lt n BS)) by lia. cbn [zero R_arith].
    destruct (copy_spec 0%R V 0 (n * n)) as (V' & E1 & L1 & P1); try nia. rewrite E1. cbn [obind].
    destruct (copy_spec 0%R la 0 n) as (la' & E2 & L2 & P2); try lia. rewrite E2. cbn [obind].
    eexists _, _. split; [reflexivity|]. cbn [tbeig_n tb_wf lroot sampled tb_V no_sparse]. split; auto. split; [intros; lia|]. split; [lia|]. split; [intros j Hj; rewrite P2 by auto; reflexivity|]. split; [exact L2|]. split; auto.
    intros i j Hi Hj. unfold upper, mat. destruct (i <=? j); auto. rewrite P1; [f_equal; lia|]. nia.
  - destruct L as [|la L1 L2]; [destruct Hs|]. cbn [sampled lroot tbeig_n] in *. set (s := n / 2) in *. set (m := n - s) in *.
    assert (W1 : forall t, 0 <= t < T -> tb_wf BS t F1) by (intros t Ht; apply (Hwf t Ht)). assert (W2 : forall t, 0 <= t < T -> tb_wf BS t F2) by (intros t Ht; apply (Hwf t Ht)).
    pose proof (Hwf 0 ltac:(lia)) as Hw. cbn [tb_wf] in Hw. fold s m in Hw.
    destruct Hw as (Hn & HBn & Hb & _ & _ & _ & LX & LY & _ & _ & (S0 & S1 & S2 & S3 & S4) & _ & _ & N1 & N2 & _ & _).
    destruct Hs as (_ & HP1 & HP2 & HN1 & HN2 & HF & HS1 & HS2).
    assert (Hsm : 1 <= s /\ 1 <= m /\ s + m = n) by (unfold m, s; lia). cbn [drop_tb]. fold s m. assert (Es : n / 2 = s) by reflexivity. assert (Em : m = n - s) by reflexivity. clearbody s m.
    destruct Hsm as (Hs1 & Hm1 & Hsm).
    assert (RL1 : zlen (lroot L1) = tbeig_n F1).
    { clear - HS1. destruct F1, L1; cbn [sampled lroot tbeig_n] in *; try tauto. }
    assert (RL2 : zlen (lroot L2) = tbeig_n F2).
    { clear - HS2. destruct F2, L2; cbn [sampled lroot tbeig_n] in *; try tauto. }
    destruct (IH1 L1 W1 HS1 RL1) as (E1' & L1' & D1 & M1 & W1' & _ & _ & SM1 & VV1 & NS1).
    destruct (IH2 L2 W2 HS2 RL2) as (E2' & L2' & D2 & M2 & W2' & _ & _ & SM2 & VV2 & NS2). clear IH1 IH2.
    rewrite N1 in *. rewrite N2 in *.
    rewrite (proj2 (Z.ltb_ge n BS)) by lia. cbn [zero R_arith].
    destruct (copy_spec 0 p1 0 s) as (q1 & C1 & LC1 & PC1); try (destruct HP1; lia). rewrite C1. cbn [obind].
    destruct (copy_spec 0 p2 0 m) as (q2 & C2 & LC2 & PC2); try (destruct HP2; lia). rewrite C2. cbn [obind].
    destruct (copy_spec 0%R la 0 s) as (la1 & C3 & LC3 & PC3); try lia. rewrite C3. cbn [obind].
    destruct (copy_spec 0%R la s m) as (la2 & C4 & LC4 & PC4); try lia. rewrite C4. cbn [obind].
    assert (HQ1 : is_perm s q1).
    { destruct HP1 as (Z1 & Z2 & Z3). split; [lia|]. split; [intros i Hi; rewrite PC1 by auto; apply Z2; auto|]. intros i j Hi Hj. rewrite !PC1 by auto. apply Z3; auto. }
    assert (HQ2 : is_perm m q2).
    { destruct HP2 as (Z1 & Z2 & Z3). split; [lia|]. split; [intros i Hi; rewrite PC2 by auto; apply Z2; auto|]. intros i j Hi Hj. rewrite !PC2 by auto. apply Z3; auto. }
    assert (T1 : forall i, 0 <= i < s -> 0 <= nthZ 0 p1 i < s) by apply HP1. assert (T2 : forall i, 0 <= i < m -> 0 <= nthZ 0 p2 i < m) by apply HP2.
    destruct (perm_proof false la1 q1 s HQ1 ltac:(lia)) as (s1 & U1 & LS1 & G1 & _). rewrite U1. cbn [obind].
    destruct (perm_proof false la2 q2 m HQ2 ltac:(lia)) as (s2 & U2 & LS2 & G2 & _). rewrite U2. cbn [obind fst snd].
    assert (G1' : forall i, 0 <= i < s -> nthZ 0%R s1 i = nthZ 0%R la (nthZ 0 p1 i)).
    { intros i Hi. unfold nthZ at 1. rewrite G1 by auto. rewrite PC1 by auto. fold (nthZ 0%R la1 (nthZ 0 p1 (0 + i))). rewrite Z.add_0_l. rewrite PC3 by auto. reflexivity. }
    assert (G2' : forall i, 0 <= i < m -> nthZ 0%R s2 i = nthZ 0%R la (s + nthZ 0 p2 i)).
    { intros i Hi. unfold nthZ at 1. rewrite G2 by auto. rewrite PC2 by auto. fold (nthZ 0%R la2 (nthZ 0 p2 (0 + i))). rewrite Z.add_0_l. rewrite PC4 by auto. reflexivity. }
    set (x := s1 ++ s2) in *.
    assert (Lx : zlen x = n) by (unfold x; rewrite zlen_app; lia).
    assert (X1 : forall i, 0 <= i < s -> nthZ 0%R x i = nthZ 0%R s1 i) by (intros; apply nthZ_app_l; lia).
    assert (X2 : forall i, 0 <= i -> nthZ 0%R x (s + i) = nthZ 0%R s2 i) by (intros i Hi; unfold x; replace (s + i) with (zlen s1 + i) by lia; apply nthZ_app_r; lia).
    assert (NX1 : nondecreasing x 0 (s - 1)) by (intros i j Hi Hij Hj; rewrite !X1, !G1' by lia; apply HN1; lia).
    assert (NX2 : nondecreasing x s (n - 1)).
    { intros i j Hi Hij Hj. replace i with (s + (i - s)) by lia. replace j with (s + (j - s)) by lia. rewrite !X2, !G2' by lia. apply HN2; lia. }
    destruct (sample_proof BLK true x x (thresholded_cauchykernel tol) 0%R (0, s) (s, n) (low x)) with (fuel := S (Z.to_nat n)) (i := (0, s)) (j := (s, n)) as (F0' & EF & Hg); cbn [fst snd]; auto; try lia; try lra.
    { intros i j Hi Hj Hsep. apply (Hlow x s n); auto; lia. }
    { unfold subrange. cbn. lia. }
    { unfold subrange. cbn. lia. }
    { unfold len. cbn. lia. }
    rewrite EF. cbn [obind].
    assert (B1 : perm true s1 q1 s = Some (la1, q1)) by (apply (perm_back false q1 la1 s1 s HQ1); [lia|exact U1]).
    assert (B2 : perm true s2 q2 m = Some (la2, q2)) by (apply (perm_back false q2 la2 s2 m HQ2); [lia|exact U2]).
    rewrite B1. cbn [obind]. rewrite B2. cbn [obind]. rewrite D1. cbn [obind]. rewrite D2. cbn [obind fst snd].
    unfold drop_sparse. cbn [zero R_arith].
    destruct (copy_spec 0 (sp_p Sp) 0 (sp_nnz Sp)) as (sp & C5 & LC5 & PC5); try lia. rewrite C5. cbn [obind].
    destruct (copy_spec 0 (sp_q Sp) 0 (sp_nnz Sp)) as (sq & C6 & LC6 & PC6); try lia. rewrite C6. cbn [obind].
    destruct (copy_spec 0%R (sp_v Sp) 0 (sp_nnz Sp)) as (sv & C7 & LC7 & PC7); try lia. rewrite C7. cbn [obind].
    assert (Hsb : 0 <= s * b) by nia. assert (Hmb : 0 <= m * b) by nia.
    destruct (copy_spec 0%R X 0 (s * b)) as (X' & C8 & LC8 & PC8); try lia. rewrite C8. cbn [obind].
    destruct (copy_spec 0%R Y 0 (m * b)) as (Y' & C9 & LC9 & PC9); try lia. rewrite C9. cbn [obind].
    eexists _, _. split; [reflexivity|]. cbn [tbeig_n lroot]. split; [reflexivity|].
    unfold good in Hg. destruct Hg as (Hok & Hr & Hc & Hsmp). unfold len in Hr, Hc. cbn [fst snd] in Hr, Hc.
    assert (HF' : forall i i', 0 <= i < s -> 0 <= i' < m -> h_mat F0' i i' = h_mat F0 i i').
    { intros i i' Hi Hi'. rewrite HF by auto. specialize (Hsmp i (s + i')). cbn [fst snd] in Hsmp. specialize (Hsmp ltac:(lia) ltac:(lia)).
      rewrite X1, X2, G1', G2' in Hsmp by lia. replace (i - 0) with i in Hsmp by lia. replace (s + i' - s) with i' in Hsmp by lia.
      match type of Hsmp with (Rabs ?z <= 0)%R => pose proof (Rabs_pos z); destruct (Req_dec z 0) as [Ez|Nz]; [|apply Rabs_no_R0 in Nz; lra] end. lra. }
    assert (GL : forall j, 0 <= j < n -> nthZ 0%R (la1 ++ la2) j = nthZ 0%R la j).
    { intros j Hj. destruct (Z_lt_dec j s).
      - rewrite nthZ_app_l by lia. rewrite PC3 by lia. reflexivity.
      - replace j with (zlen la1 + (j - s)) at 1 by lia. rewrite nthZ_app_r by lia. rewrite PC4 by lia. f_equal. lia. }
    split.
    { intros t Ht. cbn [tb_wf]. rewrite Es, <- Em.
      assert (I1 : indices s q1) by (destruct HQ1 as (Z1 & Z2 & _); split; [lia|exact Z2]).
      assert (I2 : indices m q2) by (destruct HQ2 as (Z1 & Z2 & _); split; [lia|exact Z2]).
      rewrite !zlen_zmake by nia. rewrite M1, M2.
      split; [lia|]. split; [lia|]. split; [lia|]. split; [exact Hok|]. split; [lia|]. split; [lia|]. split; [lia|]. split; [lia|].
      split; [exact I1|]. split; [exact I2|]. split; [|split; [nia|split; [nia|auto]]].
      unfold sp_ok. cbn [sp_nnz sp_p sp_q sp_v]. do 4 (split; [lia|]). intros l Hl. rewrite PC5, PC6 by auto. apply S4. auto. }
    split; [rewrite zlen_app; lia|]. split; [exact GL|]. split; [|split].
    + cbn [sampled]. rewrite Es, <- Em. split; [rewrite zlen_app; lia|]. split; [exact HQ1|]. split; [exact HQ2|]. split; [|split; [|split; [|split; [exact SM1|exact SM2]]]].
      * intros i j Hi Hj. rewrite !PC1, !Z.add_0_l by lia. pose proof (T1 i ltac:(lia)). pose proof (T1 j ltac:(lia)). rewrite !GL by lia. apply HN1; lia.
      * intros i j Hi Hj. rewrite !PC2, !Z.add_0_l by lia. pose proof (T2 i ltac:(lia)). pose proof (T2 j ltac:(lia)). rewrite !GL by lia. apply HN2; lia.
      * intros i j Hi Hj. rewrite HF', HF by lia. rewrite PC1, PC2, !Z.add_0_l by lia. pose proof (T1 i ltac:(lia)). pose proof (T2 j ltac:(lia)). rewrite !GL by lia. reflexivity.
    + cbn [tb_V]. rewrite Es, <- Em. replace n with (s + m) by lia. apply block_mat_ext; auto. intros a c Ha Hc'. unfold coupling.
      rewrite (reindexed_ext s m p1 p2 q1 q2 (h_mat F0) (h_mat F0')) by (auto; intros; rewrite ?PC1, ?PC2 by auto; f_equal; lia).
      f_equal; [f_equal; f_equal|].
      * apply sumZ_ext. intros k Hk. unfold mat. rewrite PC8, PC9; [reflexivity| |]; pose proof (idx2 a k s b); pose proof (idx2 c k m b); lia.
      * unfold sp_mat. cbn [sp_nnz sp_p sp_q sp_v]. apply sumZ_ext. intros l Hl. rewrite PC5, PC6, PC7 by auto. reflexivity.
    + cbn [no_sparse sp_nnz]. intros (Z0 & Z1 & Z2). auto.
Qed.
End Drop.
