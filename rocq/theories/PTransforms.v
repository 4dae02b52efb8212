(** * Plans of connection transforms: the common part *)
From Coq Require Import ZArith List Lia Bool Reals Lra ZifyBool ZifyNat.
From Verif Require Import Base BaseFacts Arith SpecSum PSum SpecLin MBanded SpecBanded PTri MHier SpecHier MEig SpecEig MButter SpecButter PButter2 PButter3 PButterThms MEigPlan SpecEigPlan PEigPlan3 PEigPlan5 PEigPlan7
  SpecClassical SpecConn MClassical MConn PPoly PPenJ PPenU PPenC PPenL PDiag MTransforms SpecTransforms.
Import ListNotations.
Open Scope Z_scope.

(** the plan stands for the matrix U *)
Definition realises (BS T n : Z) (E : tbeig R) (U : Z -> Z -> R) : Prop :=
  tbeig_n E = n /\ (forall t, 0 <= t < T -> tb_wf BS t E) /\ forall i j, 0 <= i < n -> 0 <= j < n -> tb_V E i j = U i j.

(** ** A plan of a connection matrix converts *)
Lemma expansion_conn n U P Q c d : connects n U P Q -> isprod n U c d -> forall z, expansion n d Q z = expansion n c P z.
Proof.
  intros [_ C] H z. unfold expansion.
  rewrite (sumZ_ext n (fun i => c i * P i z)%R (fun j => sumZ n (fun i => (U i j * c j) * Q i z))%R).
  2:{ intros j Hj. rewrite (C j z Hj). unfold expansion. rewrite <- sumZ_scal. apply sumZ_ext. intros. ring. }
  rewrite sumZ_swap. apply sumZ_ext. intros i Hi. rewrite (H i Hi). unfold matvec. rewrite <- sumZ_scal_r. apply sumZ_ext. intros. ring.
Qed.
Lemma isprod_ext n U V c d : (forall i j, 0 <= i < n -> 0 <= j < n -> U i j = V i j) -> isprod n U c d -> isprod n V c d.
Proof. intros E H i Hi. rewrite (H i Hi). unfold matvec. apply sumZ_ext. intros. now rewrite E by lia. Qed.
Lemma realises_converts BS T n E U P Q : 0 <= n -> realises BS T n E U -> connects n U P Q -> (forall j, 0 <= j < n -> U j j <> 0%R) -> converts BS T n E P Q.
Proof.
  intros Hn (En & W & V) C D. split; [exact En|]. intros t x o Ht F. specialize (W t Ht). split.
  - destruct (bfmv_proof BS t E ltac:(lia) W false x o) as (y & Ey & A). { now rewrite En. }
    exists y. split; [exact Ey|]. rewrite En in A. destruct A as (A1 & A2 & A3). split; [exact A1|split; [|exact A3]].
    apply (expansion_conn n U P Q _ _ C). eapply isprod_ext; [|exact A2]. exact V.
  - destruct (bfsv_proof BS t E ltac:(lia) W) with (t := false) (x := x) (o := o) as (y & Ey & A). { rewrite En. intros j Hj. rewrite V by lia. now apply D. } { now rewrite En. }
    exists y. split; [exact Ey|]. rewrite En in A. destruct A as (A1 & A2 & A3). split; [exact A1|split; [|exact A3]].
    intros z. symmetry. apply (expansion_conn n U P Q _ _ C). eapply isprod_ext; [|exact A2]. exact V.
Qed.

(** ** The diagonal of a connection matrix *)
Lemma connects_diag_nz n k l U P Q : graded n k P -> graded n l Q -> connects n U P Q -> forall j, 0 <= j < n -> U j j <> 0%R.
Proof.
  intros GP GQ C j Hj Z. pose proof (connects_lead n n k l U P Q GP GQ ltac:(lia) C j Hj) as E. rewrite Z, Rmult_0_l in E.
  destruct (GP j ltac:(lia)) as [_ K]. congruence.
Qed.

(** ** Planning from a pencil *)
Section Plan.
Variables (BS T tn BLK : Z) (tol : R) (low : list R -> Z * Z -> Z * Z -> option (lowrank R)).
Hypotheses (HBS : 4 <= BS) (Htn : 0 <= tn < T) (HBLK : 1 <= BLK) (Htol : (tol <= 1)%R) (Hlow : exact_lowrank (thresholded_cauchykernel tol) low).

Lemma plan_of_ok n A B U lam D D' : 0 <= n -> diagonalizes n A B U lam -> (forall i j, 0 <= j < i -> i < n -> U i j = 0%R) ->
  tb_b A = tb_b B -> 0 <= tb_b A <= 2 -> (forall j, 0 <= j < n -> U j j <> 0%R) -> (forall i j, 0 <= i < j -> j < n -> lam i <> lam j) ->
  n <= zlen D -> holds_diag n 1 U D D' ->
  exists E, plan_of BS T tn BLK 0%R tol low (fun x => x) A B D' = Some E /\ realises BS T n E U /\ (none_close tol n lam -> no_sparse E).
Proof.
  intros Hn (OA & OB & nA & nB & NZ & EV & DG) Up Eb Hb Hd Hlam HD (H1 & H2 & H3).
  assert (V2 : forall j, 0 <= j < n -> vec 0 D' j = U j j). { intros j Hj. unfold vec. apply nthZ_zget. rewrite <- (H2 j Hj). f_equal. lia. }
  assert (DL : 2 <= BS / 2) by (apply Z.div_le_lower_bound; lia).
  destruct (tb_eig_FMM_proof BS T tn BLK tol low ltac:(lia) Htn HBLK Htol Hlow (S (Z.to_nat (tb_n A))) A B D' 0) as (E & L & EE & En & W & ZL & LE & EG & SA & NS); auto.
  { lia. } { rewrite Eb. lia. } { lia. } { now rewrite nA. }
  { intros i j Hi Hj. rewrite nA in Hj. rewrite !EV by lia. apply Hlam; lia. }
  { rewrite nA. split; lia. } { rewrite nA. intros j Hj. rewrite V2 by auto. auto. } { lia. }
  rewrite nA in *.
  destruct (drop_tb_proof BS T BLK tol low ltac:(lia) ltac:(lia) HBLK Hlow E L W SA ltac:(lia)) as (E' & L' & ED & En' & W' & ZL' & LE' & SA' & VV & NS').
  exists E'. unfold plan_of. rewrite nA. rewrite EE. cbn [obind fst snd]. rewrite ED. cbn [obind fst]. split; [reflexivity|].
  assert (VU : forall i j, 0 <= i < n -> 0 <= j < n -> tb_V E i j = U i j).
  { destruct EG as (EU & ED' & EQ). intros i j Hi Hj.
    refine (eig_column_unique (fun i k => tb_mat A i k - lam j * tb_mat B i k)%R j (fun i => tb_V E i j) (fun i => U i j) n ltac:(lia) _ _ _ _ _ _ _ i Hi).
    - intros i' k Hk Hi'. rewrite (tb_upper A n i' k), (tb_upper B n i' k) by lia. ring.
    - intros i' Hi' Hz. specialize (EV i' ltac:(lia)). unfold pencil_eig in EV. specialize (NZ i' ltac:(lia)).
      apply (Hlam i' j); try lia. rewrite <- EV. apply (Rmult_eq_reg_r (tb_mat B i' i')); auto. unfold Rdiv. rewrite Rmult_assoc, Rinv_l by auto. lra.
    - rewrite ED' by lia. apply V2; auto.
    - intros i' Hi'. apply EU; lia.
    - intros i' Hi'. apply Up; lia.
    - intros i' Hi'. specialize (EQ i' j Hi' Hj). unfold matmul in EQ.
      assert (LJ : (tb_mat A j j / tb_mat B j j = lam j)%R) by (specialize (EV j Hj); exact EV). rewrite LJ in EQ.
      rewrite (sumZ_ext n _ (fun k => tb_mat A i' k * tb_V E k j - lam j * (tb_mat B i' k * tb_V E k j))%R) by (intros; ring).
      rewrite sumZ_minus, sumZ_scal, EQ. ring.
    - intros i' Hi'. specialize (DG i' j Hi' Hj). unfold matmul in DG.
      rewrite (sumZ_ext n _ (fun k => tb_mat A i' k * U k j - lam j * (tb_mat B i' k * U k j))%R) by (intros; ring).
      rewrite sumZ_minus, sumZ_scal, DG. ring. }
  split.
  - split; [lia|]. split; [exact W'|]. intros i j Hi Hj. rewrite VV by lia. apply VU; auto.
  - intros NC. apply NS'. apply NS. intros i j Hi Hj. rewrite !EV by lia. apply NC; auto.
Qed.

(** ** The eigenvalues *)
Lemma quad_lam_ne (s : R) n i j : (-1 < s)%R -> 0 <= i < j -> j < n -> (IZR i * (IZR i + s) <> IZR j * (IZR j + s))%R.
Proof.
  intros Hs Hi Hj. assert (0 <= IZR i)%R by (apply IZR_le; lia). assert (IZR i + 1 <= IZR j)%R by (rewrite <- plus_IZR; apply IZR_le; lia).
  assert (IZR j * (IZR j + s) - IZR i * (IZR i + s) = (IZR j - IZR i) * (IZR i + IZR j + s))%R by ring.
  assert (0 < (IZR j - IZR i) * (IZR i + IZR j + s))%R by (apply Rmult_lt_0_compat; lra). lra.
Qed.
Lemma quad_far (s : R) n : (-1 < s)%R -> (IZR n * tol <= 1)%R -> none_close tol n (fun j => (IZR j * (IZR j + s))%R).
Proof.
  intros Hs Ht i j Hi Hj. unfold close. assert (0 <= IZR i)%R by (apply IZR_le; lia). assert (IZR i + 1 <= IZR j)%R by (rewrite <- plus_IZR; apply IZR_le; lia).
  assert (IZR j + 1 <= IZR n)%R by (rewrite <- plus_IZR; apply IZR_le; lia).
  assert (Id : (IZR j * (IZR j + s) - IZR i * (IZR i + s) = (IZR j - IZR i) * (IZR i + IZR j + s))%R) by ring.
  assert (Dp : (IZR i + IZR j + s <= (IZR j - IZR i) * (IZR i + IZR j + s))%R). { rewrite <- (Rmult_1_l (IZR i + IZR j + s)) at 1. apply Rmult_le_compat_r; lra. }
  assert (Jp : (0 <= IZR j * (IZR j + s))%R) by (apply Rmult_le_pos; lra).
  rewrite Rabs_minus_sym. rewrite (Rabs_right (_ - _)) by lra. rewrite (Rabs_right (IZR j * _)) by lra.
  assert (Ip : (Rabs (IZR i * (IZR i + s)) <= IZR j * (IZR j + s))%R).
  { destruct (Z.eq_dec i 0) as [->|]. { rewrite Rmult_0_l, Rabs_R0. lra. } assert (1 <= IZR i)%R by (apply IZR_le; lia). rewrite Rabs_right by (apply Rle_ge, Rmult_le_pos; lra). lra. }
  rewrite Rmax_right by lra. intros Hc.
  assert (tol * (IZR j * (IZR j + s)) <= IZR i + IZR j + s)%R; [|lra].
  destruct (Rle_dec tol 0).
  - assert (tol * (IZR j * (IZR j + s)) <= 0)%R; [|lra]. rewrite <- (Rmult_0_r tol). apply Rmult_le_compat_neg_l; auto.
  - apply Rle_trans with (1 * (IZR j + s))%R; [|lra]. rewrite <- Rmult_assoc. apply Rmult_le_compat_r; [lra|].
    apply Rle_trans with (tol * IZR n)%R; [|lra]. apply Rmult_le_compat_l; lra.
Qed.
Lemma lin_far n : (IZR n * tol <= 1)%R -> none_close tol n (fun j => IZR j).
Proof.
  intros Ht i j Hi Hj. unfold close. assert (0 <= IZR i)%R by (apply IZR_le; lia). assert (IZR i + 1 <= IZR j)%R by (rewrite <- plus_IZR; apply IZR_le; lia).
  assert (IZR j + 1 <= IZR n)%R by (rewrite <- plus_IZR; apply IZR_le; lia).
  rewrite Rabs_minus_sym, !Rabs_right by lra. rewrite Rmax_right by lra. intros Hc.
  destruct (Rle_dec tol 0).
  - assert (tol * IZR j <= 0)%R; [|lra]. rewrite <- (Rmult_0_r tol). apply Rmult_le_compat_neg_l; lra.
  - assert (tol * IZR j <= tol * IZR n)%R by (apply Rmult_le_compat_l; lra). lra.
Qed.

(** ** Scaling *)
Variable junk : list R.
Lemma scl_array_ok n (v0 : R) (step : Z -> R -> R) (r : Z -> R) : 0 <= n -> n <= zlen junk -> r 0%Z = v0 -> (forall i, 1 <= i < n -> r i = step i (r (i - 1)%Z)) ->
  exists x, scl_array junk n v0 step = Some x /\ zlen x = zlen junk /\ forall i, 0 <= i < n -> vec 0 x i = r i.
Proof.
  intros Hn HJ H0 HS. unfold scl_array. destruct (Z.ltb_spec 0 n).
  2:{ cbn [obind]. rewrite for_up_nil by lia. exists junk. split; [reflexivity|]. split; [reflexivity|]. intros; lia. }
  rewrite zset_some by lia. cbn [obind].
  destruct (for_up_inv (fun k x => zlen x = zlen junk /\ forall i, 0 <= i < k -> nthZ 0%R x i = r i) 1 n
    (fun i x => do p <- zget x (i - 1); zset x i (step i p)) (zupd junk 0 v0)) as (x & Ex & Lx & Hx).
  { lia. } { rewrite zlen_zupd. split; [reflexivity|]. intros i Hi. rewrite nthZ_zupd by lia. replace (0 =? i) with true by lia. now replace i with 0 by lia. }
  { intros k x Hk (Lx & Hx). rewrite (zget_nthZ 0%R) by lia. cbn [obind]. rewrite zset_some by lia. eexists. split; [reflexivity|].
    rewrite zlen_zupd. split; [exact Lx|]. intros i Hi. rewrite nthZ_zupd by lia. destruct (Z.eqb_spec i k) as [->|].
    - rewrite ?Z.eqb_refl. rewrite HS by lia. f_equal. apply Hx. lia.
    - rewrite ?(proj2 (Z.eqb_neq k i)) by lia. apply Hx. lia. }
  exists x. split; [exact Ex|]. split; [exact Lx|]. intros i Hi. unfold vec. rewrite Z.add_0_l. apply Hx; auto.
Qed.
Lemma scale_rows_no_sparse alpha x : forall E o E', scale_rows_tb BS alpha x o E = Some E' -> no_sparse E -> no_sparse E'.
Proof.
  induction E as [n V|n b F0 X Y p1 p2 Sp t1 t2 F1 IH1 F2 IH2]; intros o E' H NS; cbn [scale_rows_tb] in H.
  - destruct (n <? BS); [|discriminate]. apply obind_inv in H as (V' & _ & H). injection H as <-. exact I.
  - destruct (n <? BS); [discriminate|]. apply obind_inv in H as (G1 & E1 & H). apply obind_inv in H as (G2 & E2 & H). injection H as <-.
    destruct NS as (N0 & N1 & N2). cbn. split; [exact N0|]. split; [eapply IH1; eauto|eapply IH2; eauto].
Qed.
Lemma scale_columns_no_sparse alpha x : forall E o E', scale_columns_tb BS alpha x o E = Some E' -> no_sparse E -> no_sparse E'.
Proof.
  induction E as [n V|n b F0 X Y p1 p2 Sp t1 t2 F1 IH1 F2 IH2]; intros o E' H NS; cbn [scale_columns_tb] in H.
  - destruct (n <? BS); [|discriminate]. apply obind_inv in H as (V' & _ & H). injection H as <-. exact I.
  - destruct (n <? BS); [discriminate|]. apply obind_inv in H as ([X' Y'] & _ & H). apply obind_inv in H as (G1 & E1 & H). apply obind_inv in H as (G2 & E2 & H). injection H as <-.
    destruct NS as (N0 & N1 & N2). cbn. split; [exact N0|]. split; [eapply IH1; eauto|eapply IH2; eauto].
Qed.
Lemma rows_ok n E U x r : realises BS T n E U -> fits 0 n x -> (forall i, 0 <= i < n -> vec 0 x i = r i) ->
  exists E', scale_rows_tb BS 1%R x 0 E = Some E' /\ realises BS T n E' (fun i j => (r i * U i j)%R) /\ (no_sparse E -> no_sparse E').
Proof.
  intros (En & W & V) F X. destruct (scale_rows_tb_proof BS tn 1%R x E (W tn Htn) 0) as (E' & EE & W' & N' & V'). { now rewrite En. }
  exists E'. split; [exact EE|]. split; [|intros; eapply scale_rows_no_sparse; eauto]. split; [lia|]. split.
  - intros t Ht. destruct (scale_rows_tb_proof BS t 1%R x E (W t Ht) 0) as (E2 & EE2 & W2 & _). { now rewrite En. } congruence.
  - intros i j Hi Hj. rewrite V' by lia. rewrite X, V by lia. ring.
Qed.
Lemma columns_ok n E U x r : realises BS T n E U -> no_sparse E -> fits 0 n x -> (forall i, 0 <= i < n -> vec 0 x i = r i) -> (forall i, 0 <= i < n -> r i <> 0%R) ->
  exists E', scale_columns_tb BS 1%R x 0 E = Some E' /\ realises BS T n E' (fun i j => (U i j * r j)%R) /\ no_sparse E'.
Proof.
  intros (En & W & V) NS F X NZ. destruct (scale_columns_tb_proof BS tn 1%R x E (W tn Htn) NS 0) as (E' & EE & W' & N' & V'). { now rewrite En. } { rewrite En. intros. rewrite X by auto. auto. }
  exists E'. split; [exact EE|]. split; [|intros; eapply scale_columns_no_sparse; eauto]. split; [lia|]. split.
  - intros t Ht. destruct (scale_columns_tb_proof BS t 1%R x E (W t Ht) NS 0) as (E2 & EE2 & W2 & _). { now rewrite En. } { rewrite En. intros. rewrite X by auto. auto. } congruence.
  - intros i j Hi Hj. rewrite V' by lia. rewrite X, V by lia. ring.
Qed.
(** scaled bases *)
Lemma connects_rows n U P Q Q' r : connects n U P Q -> (forall i x, 0 <= i < n -> Q i x = (r i * Q' i x)%R) -> connects n (fun i j => (r i * U i j)%R) P Q'.
Proof.
  intros [Up C] H. split; [intros i j H1 H2; rewrite Up by auto; ring|]. intros j x Hj. rewrite (C j x Hj). unfold expansion. apply sumZ_ext. intros i Hi. rewrite H by auto. ring.
Qed.
Lemma connects_columns n U P P' Q r : connects n U P Q -> (forall i x, 0 <= i < n -> P' i x = (r i * P i x)%R) -> connects n (fun i j => (U i j * r j)%R) P' Q.
Proof.
  intros [Up C] H. split; [intros i j H1 H2; rewrite Up by auto; ring|]. intros j x Hj. rewrite H by auto. rewrite (C j x Hj). unfold expansion. rewrite <- sumZ_scal. apply sumZ_ext. intros. ring.
Qed.
Lemma connects_ext n U P Q P' Q' : connects n U P Q -> (forall i x, 0 <= i < n -> P' i x = P i x) -> (forall i x, 0 <= i < n -> Q' i x = Q i x) -> connects n U P' Q'.
Proof.
  intros [Up C] HP HQ. split; [exact Up|]. intros j x Hj. rewrite HP by auto. rewrite (C j x Hj). unfold expansion. apply sumZ_ext. intros. now rewrite HQ.
Qed.
End Plan.
