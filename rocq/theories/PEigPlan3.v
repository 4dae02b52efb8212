(** * Proofs about the divide-and-conquer eigenvector planners: leaves, sorting, sparse corrections, coupling *)
From Coq Require Import ZArith List Lia Bool Reals Lra ZifyBool ZifyNat.
From Verif Require Import Arith Base BaseFacts SpecSum PSum SpecLin SpecBanded PTri PTri2 MBanded MHier SpecHier MSort SpecSort PPerm PSort PSortThms MEig SpecEig PInter PEig PEigThms MButter SpecButter PButter2 PHier2 MEigPlan SpecEigPlan PEigPlan PEigPlan2.
Import ListNotations.
Open Scope Z_scope.

(** ** Leaves *)
Lemma eig_leaf_spec A B diag d : tb_ok A -> tb_ok B -> tb_n B = tb_n A -> nonzero_diag (tb_n A) (tb_mat B) ->
  (forall i j, 0 <= i < j -> j < tb_n A -> pencil_eig A B i <> pencil_eig A B j) -> (forall i, 0 <= i < tb_n A -> diag i = Some (d i)) ->
  exists V la, eig_leaf 0%R A B diag = Some (V, la) /\ zlen V = tb_n A * tb_n A /\ zlen la = tb_n A /\
    (forall j, 0 <= j < tb_n A -> nthZ 0%R la j = pencil_eig A B j) /\ eigenvectors_of (tb_n A) (tb_mat A) (tb_mat B) d (upper (mat 0 (tb_n A) V)).
Proof.
  intros HA HB Hn HD Hd Hg. set (n := tb_n A) in *. assert (H0 : 0 <= n) by apply HA. unfold eig_leaf. fold n.
  match goal with |- context [for_up 0 n ?f ?z] => destruct (for_up_inv (fun q V => zlen V = n * n /\ forall i j, 0 <= i < n -> 0 <= j < n -> mat 0 n V i j = if (i =? j) && (i <? q) then d i else 0%R) 0 n f z) as (V0 & E0 & L0 & P0) end.
  - lia.
  - cbn [zero R_arith]. split; [rewrite zlen_zmake by nia; lia|]. intros i j Hi Hj. replace ((i =? j) && (i <? 0)) with false by lia. unfold mat. apply nthZ_zmake. pose proof (idx2 i j n n). nia.
  - intros i V Hi (L & P). rewrite Hg by lia. cbn [obind]. pose proof (idx2 i i n n). rewrite zset_some by nia. eexists; split; [reflexivity|]. split; [now rewrite zlen_zupd|].
    intros i' j' Hi' Hj'. unfold mat. rewrite nthZ_zupd by nia. rewrite Z.add_0_l. destruct (Z.eqb_spec (i + i * n) (i' + j' * n)) as [He|Hne].
    + apply idx2_inj in He; [|lia|lia]. destruct He as [<- <-]. now replace ((i =? i) && (i <? i + 1)) with true by lia.
    + specialize (P i' j' Hi' Hj'). unfold mat in P. rewrite Z.add_0_l in P. rewrite P.
      assert (Hx : ~ (i' = i /\ j' = i)) by (intros [-> ->]; apply Hne; reflexivity).
      replace ((i' =? j') && (i' <? i + 1)) with ((i' =? j') && (i' <? i)) by lia. reflexivity.
  - rewrite E0. cbn [obind].
    destruct (C43_eigenvalues_proof A B (zmake n 0%R)) as (la & El & Ll & Pl & _); auto; [fold n; rewrite zlen_zmake by lia; lia|].
    cbn [zero R_arith]. rewrite El. cbn [obind].
    destruct (C43_exact_proof A B V0) as (V & EV & (LV & KV & _) & TV); auto.
    { fold n. lia. }
    { fold n. intros i j Hj Hi. rewrite P0 by lia. now replace ((i =? j) && (i <? n)) with false by lia. }
    fold n in LV, KV, TV. rewrite EV. cbn [obind]. exists V, la. split; auto. split; [lia|]. split; [rewrite Ll, zlen_zmake by lia; auto|]. split.
    { intros j Hj. apply nthZ_zget. specialize (Pl j Hj). now rewrite Z.add_0_l in Pl. }
    assert (UV : forall i j, 0 <= i < n -> 0 <= j < n -> upper (mat 0 n V) i j = mat 0 n V i j).
    { intros i j Hi Hj. unfold upper. destruct (Z.leb_spec i j); auto. rewrite KV by lia. rewrite P0 by lia. now replace ((i =? j) && (i <? n)) with false by lia. }
    split; [|split].
    + intros i j Hj Hi. unfold upper. now replace (i <=? j) with false by lia.
    + intros j Hj. rewrite UV, KV, P0 by lia. now replace ((j =? j) && (j <? n)) with true by lia.
    + intros i j Hi Hj. specialize (TV i j Hi Hj). unfold pencil_eig in TV. unfold matmul in *.
      rewrite (sumZ_ext n (fun k => tb_mat A i k * upper (mat 0 n V) k j)%R (fun k => tb_mat A i k * mat 0 n V k j)%R), (sumZ_ext n (fun k => tb_mat B i k * upper (mat 0 n V) k j)%R (fun k => tb_mat B i k * mat 0 n V k j)%R); auto; intros k Hk; now rewrite UV.
Qed.

(** ** Sorting *)
Lemma eig_sort_spec la m : zlen la = m -> exists srt p, eig_sort la m = Some (srt, p) /\ zlen srt = m /\ is_perm m p /\
  (forall i, 0 <= i < m -> nthZ 0%R srt i = nthZ 0%R la (nthZ 0 p i)) /\ nondecreasing srt 0 (m - 1) /\ perm true srt p m = Some (la, p).
Proof.
  intros L. pose proof (zlen_nonneg la). unfold eig_sort.
  destruct (proj1 lt_strict_weak_proof) as [Has Hwk].
  destruct (quicksort_perm_proof R R_ltb (S (S (Z.to_nat m))) la [] m) as (a' & bs' & p' & E & HP & PF & PT & _); auto; try lia.
  destruct (quicksort_sorts_proof R R_ltb (S (S (Z.to_nat m))) la [] (ztab m (fun k => k)) 0 (m - 1)) as (a2 & bs2 & p2 & E2 & HS); auto; try lia.
  { split; auto. }
  { rewrite zlen_ztab by lia. lia. }
  rewrite E in E2. injection E2 as <- <- <-.
  change (fun x y : R => ltb x y) with R_ltb. rewrite E. cbn [obind so_a so_p]. exists a', p'. split; auto.
  destruct (perm_proof false la p' m HP ltac:(lia)) as (x' & E3 & L3 & G3 & _). rewrite PF in E3. injection E3 as <-.
  split; [lia|]. split; auto. split.
  - intros i Hi. unfold nthZ at 1. rewrite G3 by auto. reflexivity.
  - split; auto. intros i j H1 H2 H3.
    specialize (HS i j (nthZ 0%R a' i) (nthZ 0%R a' j) H1 H2 H3). rewrite !(zget_nthZ 0%R) in HS by lia. specialize (HS eq_refl eq_refl).
    unfold R_ltb in HS. destruct (Rlt_dec _ _) in HS; [discriminate|]. lra.
Qed.

(** a list of m distinct indices of 0 .. m-1 contains each of them *)
Lemma perm_surj m p a : is_perm m p -> 0 <= a < m -> exists i, 0 <= i < m /\ nthZ 0 p i = a.
Proof.
  intros HP Ha. destruct HP as (Hm & Hr & Hi).
  destruct (perm_proof true (ztab m (fun i => i)) p m ltac:(split; auto) ltac:(rewrite zlen_ztab by lia; lia)) as (x & E & L & G & _).
  rewrite zlen_ztab in L by lia.
  (* pigeonhole on the list of the first m entries *)
  pose (l := map (nthZ 0 p) (map Z.of_nat (seq 0 (Z.to_nat m)))).
  assert (ND : NoDup l).
  { unfold l. apply (NoDup_nth _ 0). intros i j H1 H2. rewrite !map_length, seq_length in *.
    rewrite (nth_indep _ 0 (nthZ 0 p (Z.of_nat 0))), map_nth, map_nth, seq_nth by (rewrite ?map_length, ?seq_length; lia).
    rewrite (nth_indep _ 0 (nthZ 0 p (Z.of_nat 0))), map_nth, map_nth, seq_nth by (rewrite ?map_length, ?seq_length; lia).
    intros He. apply Hi in He; lia. }
  assert (IN : incl l (map Z.of_nat (seq 0 (Z.to_nat m)))).
  { intros v Hv. unfold l in Hv. rewrite in_map_iff in Hv. destruct Hv as (k & <- & Hk). rewrite in_map_iff in Hk. destruct Hk as (q & <- & Hq). rewrite in_seq in Hq.
    rewrite in_map_iff. specialize (Hr (Z.of_nat q) ltac:(lia)). exists (Z.to_nat (nthZ 0 p (Z.of_nat q))). rewrite in_seq. lia. }
  assert (REV : incl (map Z.of_nat (seq 0 (Z.to_nat m))) l).
  { apply NoDup_length_incl; auto. unfold l. rewrite !map_length. lia. }
  assert (Hin : In a (map Z.of_nat (seq 0 (Z.to_nat m)))) by (rewrite in_map_iff; exists (Z.to_nat a); rewrite in_seq; lia).
  apply REV in Hin. unfold l in Hin. rewrite in_map_iff in Hin. destruct Hin as (k & E1 & Hk). rewrite in_map_iff in Hk. destruct Hk as (q & <- & Hq). rewrite in_seq in Hq.
  exists (Z.of_nat q). split; [lia|auto].
Qed.
Lemma reindexed_perm s m p1 p2 C a c i i' : is_perm s p1 -> is_perm m p2 -> 0 <= i < s -> 0 <= i' < m -> nthZ 0 p1 i = a -> nthZ 0 p2 i' = c ->
  reindexed s m p1 p2 C a c = C i i'.
Proof.
  intros (_ & _ & I1) (_ & _ & I2) Hi Hi' E1 E2. unfold reindexed.
  rewrite (sumZ_single s i); auto.
  - rewrite (sumZ_single m i'); auto.
    + unfold eqR. rewrite E1, E2, !Z.eqb_refl. lra.
    + intros k Hk Hne. unfold eqR. destruct (Z.eqb_spec (nthZ 0 p2 k) c) as [He|]; [exfalso; apply Hne, I2; auto; congruence|lra].
  - intros k Hk Hne. apply sumZ_zero. intros q Hq. unfold eqR. destruct (Z.eqb_spec (nthZ 0 p1 k) a) as [He|]; [exfalso; apply Hne, I1; auto; congruence|lra].
Qed.

(** ** One eigenvector *)
Section Column.
Variables (A B : tbanded R).
Let n := tb_n A.
Hypothesis HA : tb_ok A. Hypothesis HB : tb_ok B. Hypothesis Hn : tb_n B = n. Hypothesis HD : nonzero_diag n (tb_mat B).
Hypothesis Hd : forall i j, 0 <= i < j -> j < n -> pencil_eig A B i <> pencil_eig A B j.
Lemma eig_column_spec D o j : 0 <= j < n -> fits o n D ->
  exists V, eig_column 0%R A B D o n (Z.max (tb_b A) (tb_b B)) j = Some V /\ zlen V = n /\ vec 0 V j = vec o D j /\
    (forall i, j < i < n -> vec 0 V i = 0%R) /\ (forall i, 0 <= i < n -> sumZ n (fun k => pencil A B j i k * vec 0 V k)%R = 0%R).
Proof.
  intros Hj [Ho HoD]. unfold eig_column. rewrite (zget_nthZ 0%R) by lia. cbn [obind]. assert (0 <= n) by apply HA.
  rewrite zset_some by (rewrite zlen_zmake by lia; lia). cbn [obind]. set (V0 := zupd _ _ _).
  assert (L0 : zlen V0 = n) by (unfold V0; rewrite zlen_zupd, zlen_zmake by lia; lia).
  rewrite !(qget n) by (auto; lia). cbn [obind]. cbn [div R_arith].
  assert (Hsep : forall i j, 0 <= i < j -> j < n -> (tb_mat A i i <> eigval A B j * tb_mat B i i)%R /\
     (4 * (Rabs (eigval A B j * tb_mat B i i) + Rabs (tb_mat A i i)) * 0 <= Rabs (eigval A B j * tb_mat B i i - tb_mat A i i))%R).
  { intros i j' Hi Hj'. split.
    - intros Eq. apply (Hd i j' Hi Hj'). unfold pencil_eig at 1. rewrite Eq. unfold eigval, pencil_eig. field. split; apply HD; lia.
    - rewrite Rmult_0_r. apply Rabs_pos. }
  destruct (column_spec n j 0 (pencil A B j) (magnitude A B j) (4 * 0)%R (fun i V => eigentry 0%R A B n (Z.max (tb_b A) (tb_b B)) (eigval A B j) V 0 i)) with (V := V0) as (V & E & L & O & T); try lia.
  { intros V i Hi Ho' HV. apply (eigentry_spec A B 0%R HA HB Hn ltac:(lra) Hsep 0 j V i); auto; fold n; lia. }
  exists V. split; auto. split; [lia|].
  assert (Vhi : forall i, j <= i < n -> vec 0 V i = vec 0 V0 i) by (intros i Hi; unfold vec, nthZ; rewrite O by lia; reflexivity).
  assert (Vj : vec 0 V j = vec o D j).
  { rewrite Vhi by lia. unfold vec, V0. rewrite nthZ_zupd by (rewrite zlen_zmake by lia; lia). now replace (j =? 0 + j) with true by lia. }
  assert (Vz : forall i, j < i < n -> vec 0 V i = 0%R).
  { intros i Hi. rewrite Vhi by lia. unfold vec, V0. rewrite nthZ_zupd by (rewrite zlen_zmake by lia; lia). replace (j =? 0 + i) with false by lia. apply nthZ_zmake. lia. }
  split; auto. split; auto. intros i Hi.
  rewrite (sumZ_ext n _ (fun k => if k <? i then 0%R else (pencil A B j i k * vec 0 V k)%R)).
  2:{ intros k Hk. destruct (Z.ltb_spec k i); auto. unfold pencil. rewrite !lowB by lia. lra. }
  rewrite after_split by auto. destruct (Z_lt_dec i j).
  - specialize (T i ltac:(lia)). unfold tail_ok in T. rewrite Rmult_0_r, Rmult_0_l in T.
    match type of T with (Rabs ?z <= 0)%R => pose proof (Rabs_pos z); destruct (Req_dec z 0) as [Ez|Nz]; [exact Ez|apply Rabs_no_R0 in Nz; lra] end.
  - rewrite (after_ext n i _ (fun _ => 0%R)) by (intros k Hk Hk0; rewrite Vz by lia; lra).
    unfold after. rewrite (sumZ_zero n) by (intros k Hk; destruct (i <? k); auto).
    destruct (Z.eq_dec i j) as [->|]; [|rewrite Vz by lia; lra].
    unfold pencil, eigval. field. apply HD. auto.
Qed.
End Column.
(** an eigenvector is determined by its entry j *)
Lemma eig_column_unique M j (u v : Z -> R) N : 0 <= j < N ->
  (forall i k, 0 <= k < i -> i < N -> M i k = 0%R) -> (forall i, 0 <= i < j -> M i i <> 0%R) ->
  u j = v j -> (forall i, j < i < N -> u i = 0%R) -> (forall i, j < i < N -> v i = 0%R) ->
  (forall i, 0 <= i < N -> sumZ N (fun k => M i k * u k)%R = 0%R) -> (forall i, 0 <= i < N -> sumZ N (fun k => M i k * v k)%R = 0%R) ->
  forall i, 0 <= i < N -> u i = v i.
Proof.
  intros Hj Hup Hdg Huv Hu Hv Pu Pv i Hi.
  assert (Red : forall w, (forall i, j < i < N -> w i = 0%R) -> (forall i, 0 <= i < N -> sumZ N (fun k => M i k * w k)%R = 0%R) -> forall i, 0 <= i < j -> (matvec j M w i = - (M i j * w j))%R).
  { intros w Hw Pw q Hq. specialize (Pw q ltac:(lia)). rewrite (sumZ_split N j) in Pw by lia. rewrite (sumZ_first (N - j)) in Pw by lia.
    rewrite (sumZ_zero (N - j - 1)) in Pw by (intros k Hk; rewrite Hw by lia; lra). rewrite Z.add_0_r in Pw. unfold matvec. lra. }
  destruct (Z_lt_dec i j).
  - apply (tri_unique j M u v); [left; intros q k Hq Hk Hl; apply Hup; lia|intros q Hq; apply Hdg; lia| |lia].
    intros q Hq. rewrite (Red u), (Red v) by auto. now rewrite Huv.
  - destruct (Z.eq_dec i j) as [->|]; auto. rewrite Hu, Hv by lia. reflexivity.
Qed.

(** ** The sparse corrections *)
Lemma sparse_spec BS tn E1 A B D o p1 p2 p3 p4 n s idx : 0 <= tn -> tb_wf BS tn E1 -> tbeig_n E1 = s -> nonzero_diag s (tb_V E1) ->
  tb_ok A -> tb_ok B -> tb_n A = n -> tb_n B = n -> nonzero_diag n (tb_mat B) -> (forall i j, 0 <= i < j -> j < n -> pencil_eig A B i <> pencil_eig A B j) ->
  fits o n D -> 0 <= s <= n -> 0 <= idx -> idx <= zlen p3 -> idx <= zlen p4 -> is_perm s p1 -> is_perm (n - s) p2 ->
  (forall l, 0 <= l < idx -> 0 <= nthZ 0 p3 l < s /\ 0 <= nthZ 0 p4 l < n - s) ->
  exists Sp, sparse_from_eigenvectors BS tn 0%R E1 A B D o p1 p2 p3 p4 n s (Z.max (tb_b A) (tb_b B)) idx = Some Sp /\ sp_nnz Sp = idx /\
    zlen (sp_p Sp) = idx /\ zlen (sp_q Sp) = idx /\ zlen (sp_v Sp) = idx /\
    forall l, 0 <= l < idx -> nthZ 0 (sp_p Sp) l = nthZ 0 p1 (nthZ 0 p3 l) /\ nthZ 0 (sp_q Sp) l = nthZ 0 p2 (nthZ 0 p4 l) /\
      exists u w : Z -> R, let j := nthZ 0 p2 (nthZ 0 p4 l) + s in
        u j = vec o D j /\ (forall i, j < i < n -> u i = 0%R) /\ (forall i, 0 <= i < n -> sumZ n (fun k => pencil A B j i k * u k)%R = 0%R) /\
        isprod s (tb_V E1) w u /\ nthZ 0%R (sp_v Sp) l = w (nthZ 0 p1 (nthZ 0 p3 l)).
Proof.
  intros Htn Hwf Hs Hdg HA HB HnA HnB HD Hd Ho Hsn Hidx L3 L4 HP1 HP2 Hr. unfold sparse_from_eigenvectors.
  match goal with |- context [for_up 0 idx ?f ?z] => destruct (for_up_inv (fun q Sp => sp_nnz Sp = idx /\ zlen (sp_p Sp) = idx /\ zlen (sp_q Sp) = idx /\ zlen (sp_v Sp) = idx /\
    forall l, 0 <= l < q -> nthZ 0 (sp_p Sp) l = nthZ 0 p1 (nthZ 0 p3 l) /\ nthZ 0 (sp_q Sp) l = nthZ 0 p2 (nthZ 0 p4 l) /\
      exists u w : Z -> R, let j := nthZ 0 p2 (nthZ 0 p4 l) + s in
        u j = vec o D j /\ (forall i, j < i < n -> u i = 0%R) /\ (forall i, 0 <= i < n -> sumZ n (fun k => pencil A B j i k * u k)%R = 0%R) /\
        isprod s (tb_V E1) w u /\ nthZ 0%R (sp_v Sp) l = w (nthZ 0 p1 (nthZ 0 p3 l))) 0 idx f z) as (Sp & E & N & Lp & Lq & Lv & P) end.
  - lia.
  - cbn [sp_nnz sp_p sp_q sp_v]. rewrite !zlen_zmake by lia. do 4 (split; auto). intros; lia.
  - intros l Sp Hl (N & Lp & Lq & Lv & P). destruct (Hr l Hl) as [R3 R4].
    destruct HP1 as (I1 & J1 & K1). destruct HP2 as (I2 & J2 & K2). pose proof (J1 _ R3) as Ra. pose proof (J2 _ R4) as Rc.
    rewrite (zget_nthZ 0 p4) by lia. cbn [obind]. rewrite (zget_nthZ 0 p2) by lia. cbn [obind].
    set (a := nthZ 0 p1 (nthZ 0 p3 l)) in *. set (c := nthZ 0 p2 (nthZ 0 p4 l)) in *.
    destruct (eig_column_spec A B HA HB ltac:(lia) ltac:(now rewrite HnA) ltac:(rewrite HnA; auto) D o (c + s)) as (V & E & L & Vj & Vz & Pz); [lia|now rewrite HnA|].
    rewrite HnA in *. rewrite E. cbn [obind].
    destruct (bfsv_proof BS tn E1 Htn Hwf ltac:(now rewrite Hs) false V 0) as (V' & E' & L' & P' & _); [rewrite Hs; split; lia|]. rewrite Hs in P'. rewrite E'. cbn [obind].
    rewrite (zget_nthZ 0 p3) by lia. cbn [obind]. rewrite (zget_nthZ 0 p1) by lia. cbn [obind]. fold a.
    rewrite !zset_some by lia. cbn [obind]. rewrite (zget_nthZ 0%R V') by lia. cbn [obind]. rewrite zset_some by lia. cbn [obind].
    eexists; split; [reflexivity|]. cbn [sp_nnz sp_p sp_q sp_v]. rewrite !zlen_zupd. do 4 (split; auto). intros l' Hl'.
    rewrite !nthZ_zupd by lia. destruct (Z.eqb_spec l l') as [<-|].
    + fold a c. split; auto. split; auto. exists (vec 0 V), (vec 0 V'). cbn zeta. split; [exact Vj|]. split; [exact Vz|]. split; [exact Pz|]. split; [exact P'|]. reflexivity.
    + apply P. lia.
  - exists Sp. auto 10.
Qed.
