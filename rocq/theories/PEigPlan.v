(** * Proofs about the divide-and-conquer eigenvector planners: views, the coupling equation, X and Y *)
From Coq Require Import ZArith List Lia Bool Reals Lra ZifyBool ZifyNat.
From Verif Require Import Arith Base BaseFacts SpecSum PSum SpecLin SpecBanded PTri PTri2 MBanded MHier MEig SpecEig PEig PEigThms MButter SpecButter PButter2 PHier2 MEigPlan.
Import ListNotations.
Open Scope Z_scope.

(** ** Views *)
Lemma zlen_skipn {F} k (l : list F) : 0 <= k <= zlen l -> zlen (skipn (Z.to_nat k) l) = zlen l - k.
Proof. intros H. unfold zlen in *. rewrite skipn_length. lia. Qed.
Lemma nth_error_skipn {F} k (l : list F) i : nth_error (skipn k l) i = nth_error l (k + i).
Proof. revert l. induction k as [|k IH]; intros l; [reflexivity|]. destruct l; cbn; [destruct i; reflexivity|apply IH]. Qed.
Lemma zget_skipn {F} k (l : list F) i : 0 <= k -> 0 <= i -> zget (skipn (Z.to_nat k) l) i = zget l (k + i).
Proof.
  intros Hk Hi. unfold zget. destruct (Z.ltb_spec i 0), (Z.ltb_spec (k + i) 0); try lia.
  rewrite nth_error_skipn. f_equal. lia.
Qed.
Section View.
Variables (A : tbanded R) (st sp : Z).
Hypothesis HA : tb_ok A.
Hypothesis Hs : 0 <= st <= sp /\ sp <= tb_n A.
Lemma view_ok : tb_ok (view_tbanded A st sp).
Proof.
  destruct HA as (H1 & H2 & H3). unfold view_tbanded. split; [cbn; lia|]. split; [cbn; lia|]. cbn [tb_n tb_b tb_data].
  assert (0 <= st * (tb_b A + 1)) by nia. assert (st * (tb_b A + 1) <= zlen (tb_data A)) by nia.
  rewrite zlen_skipn by lia. nia.
Qed.
Lemma view_mat i j : 0 <= i -> 0 <= j -> tb_mat (view_tbanded A st sp) i j = tb_mat A (st + i) (st + j).
Proof.
  intros Hi Hj. destruct HA as (H1 & H2 & H3). unfold tb_mat, view_tbanded. cbn [tb_n tb_b tb_data]. replace (st + j - (st + i)) with (j - i) by lia.
  destruct ((0 <=? j - i) && (j - i <=? tb_b A)) eqn:E; [|reflexivity]. assert (0 <= tb_b A + i - j) by lia. assert (0 <= st * (tb_b A + 1)) by nia. assert (0 <= j * (tb_b A + 1)) by nia.
  unfold mat, nthZ. rewrite zget_skipn by lia. replace (st * (tb_b A + 1) + (0 + (tb_b A + i - j + j * (tb_b A + 1)))) with (0 + (tb_b A + (st + i) - (st + j) + (st + j) * (tb_b A + 1))) by lia. reflexivity.
Qed.
End View.

(** ** The coupling of the halves *)
Section Couple.
Variables (s m b : Z) (A B V1 V2 X Y : Z -> Z -> R) (l1 l2 : Z -> R).
Hypothesis Hs : 0 <= s. Hypothesis Hm : 0 <= m. Hypothesis Hb : 0 <= b <= s.
Hypothesis E1 : forall i a, 0 <= i < s -> 0 <= a < s -> matmul s A V1 i a = (matmul s B V1 i a * l1 a)%R.
Hypothesis HX : forall k i, 0 <= k < b -> 0 <= i < s -> matvec s B (fun a => matvec s V1 (fun a => X a k) a) i = eqR i (s - b + k).
Hypothesis HY : forall c k, 0 <= c < m -> 0 <= k < b -> Y c k = sumZ m (fun r => (A (s - b + k) (s + r) - l2 c * B (s - b + k) (s + r)) * V2 r c)%R.
Hypothesis Hz : forall i r, 0 <= i < s - b -> 0 <= r < m -> A i (s + r) = 0%R /\ B i (s + r) = 0%R.
(** the residual of the column (V1 w, V2 c) in the first s rows *)
Lemma couple_residual (w : Z -> R) c i : 0 <= c < m -> 0 <= i < s ->
  (l2 c * (matvec s B (matvec s V1 w) i + sumZ m (fun r => B i (s + r)%Z * V2 r c)) - (matvec s A (matvec s V1 w) i + sumZ m (fun r => A i (s + r)%Z * V2 r c)))%R
  = matvec s B (matvec s V1 (fun a => (l2 c - l1 a) * w a - sumZ b (fun k => X a k * Y c k))%R) i.
Proof.
  intros Hc Hi.
  assert (EB : forall v, matvec s B (matvec s V1 v) i = sumZ s (fun a => matmul s B V1 i a * v a)%R).
  { intros v. rewrite <- mv_assoc. reflexivity. }
  assert (EA : matvec s A (matvec s V1 w) i = sumZ s (fun a => matmul s B V1 i a * l1 a * w a)%R).
  { rewrite <- mv_assoc. unfold matvec. apply sumZ_ext. intros a Ha. now rewrite E1. }
  rewrite !EB, EA.
  assert (EXY : sumZ s (fun a => matmul s B V1 i a * sumZ b (fun k => X a k * Y c k))%R = sumZ b (fun k => eqR i (s - b + k) * Y c k)%R).
  { rewrite (sumZ_ext s _ (fun a => sumZ b (fun k => matmul s B V1 i a * X a k * Y c k)%R)).
    2:{ intros a Ha. rewrite <- sumZ_scal. apply sumZ_ext. intros; ring. }
    rewrite sumZ_swap. apply sumZ_ext. intros k Hk. rewrite sumZ_scal_r. f_equal. rewrite <- HX by auto.
    change (sumZ s (fun a => matmul s B V1 i a * X a k)%R) with (matvec s (matmul s B V1) (fun a => X a k) i). apply mv_assoc. }
  assert (EG : sumZ b (fun k => eqR i (s - b + k) * Y c k)%R = sumZ m (fun r => (A i (s + r)%Z - l2 c * B i (s + r)%Z) * V2 r c)%R).
  { destruct (Z_lt_dec i (s - b)).
    - rewrite sumZ_zero. 2:{ intros k Hk. unfold eqR. rewrite (proj2 (Z.eqb_neq i (s - b + k))) by lia. lra. }
      symmetry. apply sumZ_zero. intros r Hr. destruct (Hz i r) as [-> ->]; [lia|lia|lra].
    - rewrite (sumZ_single b (i - (s - b))) by (try lia; intros k Hk Hne; unfold eqR; rewrite (proj2 (Z.eqb_neq i (s - b + k))) by lia; lra).
      unfold eqR. rewrite (proj2 (Z.eqb_eq i (s - b + (i - (s - b))))) by lia. rewrite HY by lia. replace (s - b + (i - (s - b))) with i by lia. lra. }
  rewrite (sumZ_ext s (fun a => matmul s B V1 i a * ((l2 c - l1 a) * w a - sumZ b (fun k => X a k * Y c k)))%R
    (fun a => (l2 c * (matmul s B V1 i a * w a) - matmul s B V1 i a * l1 a * w a) - matmul s B V1 i a * sumZ b (fun k => X a k * Y c k))%R) by (intros; ring).
  rewrite !sumZ_minus, sumZ_scal, EXY, EG.
  rewrite (sumZ_ext m (fun r => (A i (s + r)%Z - l2 c * B i (s + r)%Z) * V2 r c)%R (fun r => A i (s + r)%Z * V2 r c - l2 c * (B i (s + r)%Z * V2 r c))%R) by (intros; ring).
  rewrite sumZ_minus, sumZ_scal. ring.
Qed.
End Couple.

(** ** X *)
Section BuildX.
Variables (e : R) (solve : list R -> Z -> option (list R)) (B1 : tbanded R) (s b : Z) (V1 : Z -> Z -> R).
Hypothesis HB : tb_ok B1. Hypothesis Hn : tb_n B1 = s. Hypothesis HD : nonzero_diag s (tb_mat B1). Hypothesis Hb : 0 <= b <= s.
Hypothesis Hsolve : forall x o, fits o s x -> exists x', solve x o = Some x' /\ acts o s x x' (fun v w => isprod s V1 w v).
Lemma eig_X_spec : exists X, eig_X e solve B1 s b = Some X /\ zlen X = s * b /\
  forall k i, 0 <= k < b -> 0 <= i < s -> matvec s (tb_mat B1) (fun a => matvec s V1 (fun a => mat 0 s X a k) a) i = (e * eqR i (s - b + k))%R.
Proof.
  assert (Hs : 0 <= s) by lia. unfold eig_X.
  destruct (for_up_inv (fun j X => zlen X = s * b /\
      (forall k i, 0 <= k < j -> 0 <= i < s -> matvec s (tb_mat B1) (fun a => matvec s V1 (fun a => mat 0 s X a k) a) i = (e * eqR i (s - b + k))%R) /\
      (forall p, j * s <= p < s * b -> nthZ 0%R X p = 0%R)) 0 b
    (fun j X => do X <- zset X (s - b + j + j * s) e; do X <- tbsv false B1 X (j * s); solve X (j * s)) (zmake (s * b) zero)) as (X & E & L & P & _).
  - lia.
  - split; [rewrite zlen_zmake by nia; reflexivity|]. split; [intros; lia|]. intros p Hp. rewrite nthZ_zmake by lia. reflexivity.
  - intros j X Hj (L & P & Z0). assert (j * s + s <= s * b) by nia. assert (0 <= j * s) by nia.
    rewrite zset_some by lia. cbn [obind]. set (X1 := zupd X (s - b + j + j * s) e).
    assert (L1 : zlen X1 = s * b) by (unfold X1; rewrite zlen_zupd; auto).
    destruct (tbsv_proof B1 false X1 (j * s)) as (X2 & E2 & L2 & P2 & O2); auto; [now rewrite Hn|split; lia|].
    rewrite E2. cbn [obind]. rewrite Hn in *.
    destruct (Hsolve X2 (j * s)) as (X3 & E3 & L3 & P3 & O3); [split; lia|]. exists X3. split; auto. split; [lia|]. split.
    + intros k i Hk Hi. destruct (Z.eq_dec k j) as [->|].
      * cbn [op] in P2. assert (V31 : forall a, 0 <= a < s -> matvec s V1 (fun a => mat 0 s X3 a j) a = vec (j * s) X2 a).
        { intros a Ha. rewrite P3 by auto. unfold matvec. apply sumZ_ext. intros q Hq. unfold mat, vec. do 2 f_equal. lia. }
        unfold matvec at 1. rewrite (sumZ_ext s _ (fun a => tb_mat B1 i a * vec (j * s) X2 a)%R) by (intros a Ha; now rewrite V31).
        specialize (P2 i Hi). unfold matvec in P2. rewrite <- P2. unfold vec, X1. rewrite nthZ_zupd by lia. unfold eqR.
        destruct (Z.eqb_spec i (s - b + j)).
        -- replace (s - b + j + j * s =? j * s + i) with true by lia. lra.
        -- replace (s - b + j + j * s =? j * s + i) with false by lia. rewrite Z0 by lia. lra.
      * rewrite <- P by lia. unfold matvec. apply sumZ_ext. intros a Ha. f_equal. apply sumZ_ext. intros q Hq. f_equal.
        assert (k * s + s <= j * s) by nia.
        unfold mat, nthZ. rewrite O3, O2 by lia. unfold X1. rewrite zget_zupd_other by lia. reflexivity.
    + intros p Hp. unfold nthZ. rewrite O3, O2 by lia. unfold X1. rewrite zget_zupd_other by lia. apply Z0. lia.
  - exists X. auto.
Qed.
End BuildX.
