(** * Proofs about the divide-and-conquer eigenvector planners: assembling a node *)
From Coq Require Import ZArith List Lia Bool Reals Lra ZifyBool ZifyNat.
From Verif Require Import Arith Base BaseFacts SpecSum PSum SpecLin SpecBanded PTri PTri2 MBanded MHier SpecHier PHier5 MSort SpecSort PPerm PSort PSortThms MEig SpecEig PInter PEig PEigThms MButter SpecButter PButter2 PHier2 MEigPlan SpecEigPlan PEigPlan PEigPlan2 PEigPlan3.
Import ListNotations.
Open Scope Z_scope.

Lemma mv_ext_zero s B V g i : (forall a, 0 <= a < s -> g a = 0%R) -> matvec s B (matvec s V g) i = 0%R.
Proof.
  intros H. unfold matvec at 1. apply sumZ_zero. intros k Hk. unfold matvec. rewrite (sumZ_zero s); [lra|]. intros a Ha. rewrite H by auto. lra.
Qed.

Section Node.
Variables (s m b : Z) (A B V1 V2 X Y W : Z -> Z -> R) (D : Z -> R).
Let l1 := fun a : Z => (A a a / B a a)%R.
Let l2 := fun c : Z => (A (s + c)%Z (s + c)%Z / B (s + c)%Z (s + c)%Z)%R.
Hypothesis Hs : 0 <= s. Hypothesis Hm : 0 <= m. Hypothesis Hb : 0 <= b <= s.
Hypothesis UA : upper_tri (s + m) A. Hypothesis UB : upper_tri (s + m) B.
Hypothesis H1 : eigenvectors_of s A B D V1.
Hypothesis H2 : eigenvectors_of m (fun i j => A (s + i) (s + j)) (fun i j => B (s + i) (s + j)) (fun j => D (s + j)) V2.
Hypothesis HX : forall k i, 0 <= k < b -> 0 <= i < s -> matvec s B (fun a => matvec s V1 (fun a => X a k) a) i = eqR i (s - b + k).
Hypothesis HY : forall c k, 0 <= c < m -> 0 <= k < b -> Y c k = sumZ m (fun r => (A (s - b + k) (s + r) - l2 c * B (s - b + k) (s + r)) * V2 r c)%R.
Hypothesis Hz : forall i r, 0 <= i < s - b -> 0 <= r < m -> A i (s + r) = 0%R /\ B i (s + r) = 0%R.
Lemma node_eigenvectors : (forall a c, 0 <= a < s -> 0 <= c < m -> ((l2 c - l1 a) * W a c)%R = sumZ b (fun k => X a k * Y c k)%R) ->
  eigenvectors_of (s + m) A B D (block_mat s V1 W V2).
Proof.
  intros HW. destruct H1 as (U1 & D1 & P1). destruct H2 as (U2 & D2 & P2). split; [|split].
  - intros i j Hj Hi. unfold block_mat. destruct (Z.ltb_spec i s), (Z.ltb_spec j s); try lia; auto. apply U2; lia.
  - intros j Hj. unfold block_mat. destruct (Z.ltb_spec j s); [apply D1; lia|]. rewrite D2 by lia. f_equal. lia.
  - intros i j Hi Hj.
    assert (Sp : forall M, upper_tri (s + m) M -> matmul (s + m) M (block_mat s V1 W V2) i j =
      if j <? s then (if i <? s then matmul s M V1 i j else 0)%R
      else if i <? s then (matvec s M (matvec s V1 (fun a => W a (j - s)%Z)) i + sumZ m (fun r => M i (s + r)%Z * V2 r (j - s)%Z))%R
      else matmul m (fun i j => M (s + i) (s + j)) V2 (i - s) (j - s)).
    { intros M UM. unfold matmul at 1. rewrite sumZ_app by lia.
      rewrite (sumZ_ext m _ (fun k => if j <? s then 0%R else (M i (s + k)%Z * V2 k (j - s)%Z)%R)).
      2:{ intros k Hk. unfold block_mat. replace (s + k <? s) with false by lia. destruct (j <? s); [lra|]. do 2 f_equal. lia. }
      rewrite (sumZ_ext s _ (fun k => if i <? s then (M i k * (if j <? s then V1 k j else matvec s V1 (fun a => W a (j - s)%Z) k))%R else 0%R)).
      2:{ intros k Hk. unfold block_mat. replace (k <? s) with true by lia. destruct (Z.ltb_spec i s); [reflexivity|]. rewrite UM by lia. lra. }
      destruct (Z.ltb_spec i s), (Z.ltb_spec j s).
      - rewrite (sumZ_zero m) by auto. unfold matmul. lra.
      - reflexivity.
      - rewrite !sumZ_zero by auto. lra.
      - rewrite (sumZ_zero s) by auto. rewrite Rplus_0_l. unfold matmul. apply sumZ_ext. intros k Hk. do 2 f_equal. lia. }
    rewrite !Sp by auto. destruct (Z.ltb_spec j s).
    + destruct (Z.ltb_spec i s); [apply P1; lia|lra].
    + destruct (Z.ltb_spec i s).
      * pose proof (couple_residual s m b A B V1 V2 X Y l1 l2 P1 HX HY Hz (fun a => W a (j - s)%Z) (j - s) i ltac:(lia) ltac:(lia)) as CR.
        rewrite (mv_ext_zero s B V1 (fun a => (l2 (j - s) - l1 a) * W a (j - s)%Z - sumZ b (fun k => X a k * Y (j - s)%Z k))%R) in CR by (intros a Ha; rewrite HW by lia; lra).
        unfold l2 in CR. replace (s + (j - s)) with j in CR by lia. lra.
      * rewrite P2 by lia. replace (s + (j - s)) with j by lia. reflexivity.
Qed.
(** conversely, any eigenvector of column s+c gives the row equation *)
Lemma node_row (u w : Z -> R) c : 0 <= c < m -> nonzero_diag (s + m) B -> nonzero_diag s V1 ->
  (forall a, 0 <= a < m -> a <> c -> (A (s + a)%Z (s + a)%Z <> l2 c * B (s + a)%Z (s + a)%Z)%R) ->
  u (s + c) = D (s + c) -> (forall i, s + c < i < s + m -> u i = 0%R) -> (forall i, 0 <= i < s + m -> sumZ (s + m) (fun k => (A i k - l2 c * B i k) * u k)%R = 0%R) ->
  isprod s V1 w u -> forall a, 0 <= a < s -> ((l2 c - l1 a) * w a)%R = sumZ b (fun k => X a k * Y c k)%R.
Proof.
  intros Hc HDB HDV Hne2 Uj Uz Up Hw. destruct H1 as (U1 & D1 & P1). destruct H2 as (U2 & D2 & P2).
  (* the lower part of u is column c of V2 *)
  assert (EV : forall r, 0 <= r < m -> u (s + r) = V2 r c).
  { apply (eig_column_unique (fun i k => A (s + i) (s + k) - l2 c * B (s + i) (s + k))%R c (fun r => u (s + r)) (fun r => V2 r c) m); auto.
    - intros i k Hk Hi. rewrite UA, UB by lia. lra.
    - intros i Hi. specialize (Hne2 i ltac:(lia) ltac:(lia)). lra.
    - rewrite D2 by auto. auto.
    - intros i Hi. apply Uz. lia.
    - intros i Hi. apply U2; lia.
    - intros i Hi. specialize (Up (s + i) ltac:(lia)). rewrite sumZ_app in Up by lia. rewrite (sumZ_zero s) in Up by (intros k Hk; rewrite UA, UB by lia; lra). rewrite Rplus_0_l in Up. exact Up.
    - intros i Hi. specialize (P2 i c Hi Hc). unfold matmul in P2. fold (l2 c) in P2.
      rewrite (sumZ_ext m _ (fun k => A (s + i)%Z (s + k)%Z * V2 k c - l2 c * (B (s + i)%Z (s + k)%Z * V2 k c))%R) by (intros; ring).
      rewrite sumZ_minus, sumZ_scal, P2. ring. }
  assert (G0 : forall i, 0 <= i < s -> matvec s B (matvec s V1 (fun a => (l2 c - l1 a) * w a - sumZ b (fun k => X a k * Y c k))%R) i = 0%R).
  { intros i Hi. rewrite <- (couple_residual s m b A B V1 V2 X Y l1 l2 P1 HX HY Hz w c i Hc Hi).
    specialize (Up i ltac:(lia)). rewrite sumZ_app in Up by lia.
    assert (Q : forall M : Z -> Z -> R, matvec s M (matvec s V1 w) i = sumZ s (fun k => M i k * u k)%R) by (intros M; unfold matvec at 1; apply sumZ_ext; intros k Hk; now rewrite (Hw k Hk)).
    rewrite !Q.
    rewrite (sumZ_ext s (fun k => (A i k - l2 c * B i k) * u k)%R (fun k => A i k * u k - l2 c * (B i k * u k))%R) in Up by (intros; ring).
    rewrite (sumZ_ext m (fun k => (A i (s + k)%Z - l2 c * B i (s + k)%Z) * u (s + k)%Z)%R (fun k => A i (s + k)%Z * V2 k c - l2 c * (B i (s + k)%Z * V2 k c))%R) in Up by (intros k Hk; rewrite EV by auto; ring).
    rewrite !sumZ_minus, !sumZ_scal in Up. lra. }
  assert (Z0 : forall i, 0 <= i < s -> matvec s V1 (fun a => (l2 c - l1 a) * w a - sumZ b (fun k => X a k * Y c k))%R i = 0%R).
  { apply (tri_unique s B _ (fun _ => 0%R)).
    - left. intros i k Hi Hk Hl. apply UB; lia.
    - intros i Hi. apply HDB. lia.
    - intros i Hi. rewrite G0 by auto. unfold matvec. symmetry. apply sumZ_zero. intros; ring. }
  intros a Ha.
  assert (Z1 : ((l2 c - l1 a) * w a - sumZ b (fun k => X a k * Y c k))%R = 0%R).
  { apply (tri_unique s V1 (fun a => (l2 c - l1 a) * w a - sumZ b (fun k => X a k * Y c k))%R (fun _ => 0%R)); auto.
    - left. intros i k Hi Hk Hl. apply U1; lia.
    - intros i Hi. rewrite Z0 by auto. unfold matvec. symmetry. apply sumZ_zero. intros; ring. }
  lra.
Qed.
End Node.

(** ** The coupling of a node with exactly sampled kernel and one sparse entry for each close pair *)
Lemma sp_mat_one Sp l a c : 0 <= l < sp_nnz Sp -> nthZ 0 (sp_p Sp) l = a -> nthZ 0 (sp_q Sp) l = c ->
  (forall l', 0 <= l' < sp_nnz Sp -> nthZ 0 (sp_p Sp) l' = a -> nthZ 0 (sp_q Sp) l' = c -> l' = l) -> sp_mat Sp a c = nthZ 0%R (sp_v Sp) l.
Proof.
  intros Hl E1 E2 Hu. unfold sp_mat. rewrite (sumZ_single (sp_nnz Sp) l); auto.
  - unfold eqR. rewrite E1, E2, !Z.eqb_refl. lra.
  - intros l' Hl' Hne. unfold eqR. destruct (Z.eqb_spec (nthZ 0 (sp_p Sp) l') a); [|lra]. destruct (Z.eqb_spec (nthZ 0 (sp_q Sp) l') c); [|lra]. exfalso. auto.
Qed.
Lemma sp_mat_none Sp a c : (forall l', 0 <= l' < sp_nnz Sp -> nthZ 0 (sp_p Sp) l' = a -> nthZ 0 (sp_q Sp) l' = c -> False) -> sp_mat Sp a c = 0%R.
Proof.
  intros Hu. unfold sp_mat. apply sumZ_zero. intros l' Hl'. unfold eqR. destruct (Z.eqb_spec (nthZ 0 (sp_p Sp) l') a); [|lra]. destruct (Z.eqb_spec (nthZ 0 (sp_q Sp) l') c); [|lra]. exfalso. eauto.
Qed.
