(** * Facts about [sumZ] *)
From Coq Require Import ZArith Reals Lia Lra.
From Verif Require Import SpecSum.
Open Scope Z_scope.

Lemma sumZ_0 n f : n <= 0 -> sumZ n f = 0%R.
Proof. intros. unfold sumZ. replace (Z.to_nat n) with O by lia. reflexivity. Qed.
Lemma sumZ_S n f : 0 <= n -> sumZ (n + 1) f = (sumZ n f + f n)%R.
Proof.
  intros. unfold sumZ. replace (Z.to_nat (n + 1)) with (S (Z.to_nat n)) by lia. cbn. now rewrite Z2Nat.id by lia.
Qed.
Lemma sumn_ext k f g : (forall i, 0 <= i < Z.of_nat k -> f i = g i) -> sumn k f = sumn k g.
Proof. induction k; intros; cbn; auto. rewrite IHk by (intros; apply H; lia). rewrite H by lia. reflexivity. Qed.
Lemma sumZ_ext n f g : (forall i, 0 <= i < n -> f i = g i) -> sumZ n f = sumZ n g.
Proof. intros. apply sumn_ext. intros. apply H. lia. Qed.
Lemma sumn_plus k f g : sumn k (fun i => (f i + g i)%R) = (sumn k f + sumn k g)%R.
Proof. induction k; cbn; [lra|]. rewrite IHk. lra. Qed.
Lemma sumZ_plus n f g : sumZ n (fun i => (f i + g i)%R) = (sumZ n f + sumZ n g)%R.
Proof. apply sumn_plus. Qed.
Lemma sumn_minus k f g : sumn k (fun i => (f i - g i)%R) = (sumn k f - sumn k g)%R.
Proof. induction k; cbn; [lra|]. rewrite IHk. lra. Qed.
Lemma sumZ_minus n f g : sumZ n (fun i => (f i - g i)%R) = (sumZ n f - sumZ n g)%R.
Proof. apply sumn_minus. Qed.
Lemma sumn_scal k a f : sumn k (fun i => (a * f i)%R) = (a * sumn k f)%R.
Proof. induction k; cbn; [lra|]. rewrite IHk. lra. Qed.
Lemma sumZ_scal n a f : sumZ n (fun i => (a * f i)%R) = (a * sumZ n f)%R.
Proof. apply sumn_scal. Qed.
Lemma sumZ_scal_r n a f : sumZ n (fun i => (f i * a)%R) = (sumZ n f * a)%R.
Proof. rewrite Rmult_comm, <- sumZ_scal. apply sumZ_ext. intros. lra. Qed.
Lemma sumZ_zero n f : (forall i, 0 <= i < n -> f i = 0%R) -> sumZ n f = 0%R.
Proof.
  intros. rewrite (sumZ_ext n f (fun _ => (0 * 0)%R)).
  - rewrite sumZ_scal. lra.
  - intros. rewrite H by auto. lra.
Qed.
Lemma sumZ_app k d f : 0 <= k -> 0 <= d -> sumZ (k + d) f = (sumZ k f + sumZ d (fun i => f (k + i)%Z))%R.
Proof.
  intros Hk Hd. pattern d. apply natlike_ind; auto.
  - rewrite Z.add_0_r, (sumZ_0 0) by lia. lra.
  - intros e He IH. unfold Z.succ. rewrite Z.add_assoc, sumZ_S, IH, (sumZ_S e) by lia. lra.
Qed.
Lemma sumZ_split n k f : 0 <= k <= n -> sumZ n f = (sumZ k f + sumZ (n - k) (fun i => f (k + i)%Z))%R.
Proof. intros H. rewrite <- sumZ_app by lia. f_equal. lia. Qed.
Lemma sumZ_first n f : 0 < n -> sumZ n f = (f 0%Z + sumZ (n - 1) (fun i => f (1 + i)%Z))%R.
Proof.
  intros. rewrite (sumZ_split n 1) by lia. f_equal. change 1 with (0 + 1). rewrite sumZ_S, sumZ_0 by lia. lra.
Qed.
Lemma sumZ_single n j f : 0 <= j < n -> (forall i, 0 <= i < n -> i <> j -> f i = 0%R) -> sumZ n f = f j.
Proof.
  intros Hj Hz. rewrite (sumZ_split n j), (sumZ_first (n - j)) by lia.
  rewrite (sumZ_zero j), (sumZ_zero (n - j - 1)).
  - replace (j + 0) with j by lia. lra.
  - intros. apply Hz; lia.
  - intros. apply Hz; lia.
Qed.
Lemma sumZ_swap n m f : sumZ n (fun i => sumZ m (fun j => f i j)) = sumZ m (fun j => sumZ n (fun i => f i j)).
Proof.
  unfold sumZ. induction (Z.to_nat n); cbn.
  - symmetry. change (sumn (Z.to_nat m) (fun _ => 0%R) = 0%R). generalize (Z.to_nat m). induction n0; cbn; lra.
  - rewrite IHn0, <- sumn_plus. reflexivity.
Qed.
Lemma sumZ_rev n f : sumZ n f = sumZ n (fun i => f (n - 1 - i)).
Proof.
  destruct (Z_le_dec n 0); [now rewrite !sumZ_0 by lia|].
  assert (H : forall k, 0 <= k <= n -> sumZ k (fun i => f (n - 1 - i)) = sumZ k (fun i => f (n - k + i))).
  { intros k [H0 H1]. revert H1. pattern k. apply natlike_ind; [| |exact H0]; cbv beta.
    - intros. rewrite !(sumZ_0 0) by lia. reflexivity.
    - intros e He IH He1. unfold Z.succ in *. rewrite sumZ_S, IH by lia. rewrite (sumZ_first (e + 1)) by lia.
      replace (e + 1 - 1) with e by lia. rewrite Rplus_comm. f_equal; [f_equal; lia|].
      apply sumZ_ext. intros. f_equal. lia. }
  rewrite (H n) by lia. apply sumZ_ext. intros. f_equal. lia.
Qed.
Lemma sumZ_pos n f : (forall i, 0 <= i < n -> (0 <= f i)%R) -> (0 <= sumZ n f)%R.
Proof.
  unfold sumZ. intros H. assert (H' : forall i, 0 <= i < Z.of_nat (Z.to_nat n) -> (0 <= f i)%R) by (intros; apply H; lia).
  revert H'. generalize (Z.to_nat n). clear. induction n; cbn [sumn]; intros; [lra|].
  assert (0 <= sumn n f)%R by (apply IHn; intros; apply H'; lia). assert (0 <= f (Z.of_nat n))%R by (apply H'; lia). lra.
Qed.
