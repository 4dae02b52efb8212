(** * Derivatives of any order; Laguerre and Hermite polynomials *)
From Coq Require Import ZArith List Lia Bool Reals Lra ZifyBool.
From Verif Require Import Base BaseFacts Arith SpecSum PSum SpecLin SpecBanded MBanded PBand MClassical SpecClassical PClass1 PClass2 PClass3 PClass4 PClass5.
Import ListNotations.
Open Scope Z_scope.

Fixpoint prodn (n : nat) (f : Z -> R) : R := match n with O => 1%R | S k => (prodn k f * f (Z.of_nat k))%R end.
Lemma prodn_ext n f g : (forall i, 0 <= i < Z.of_nat n -> f i = g i) -> prodn n f = prodn n g.
Proof. induction n; intros H; cbn; auto. rewrite IHn, (H (Z.of_nat n)) by (try lia; intros; apply H; lia). reflexivity. Qed.
Lemma prodn_first n f : prodn (S n) f = (f 0%Z * prodn n (fun i => f (i + 1)%Z))%R.
Proof.
  induction n. { cbn. ring. } change (prodn (S (S n)) f) with (prodn (S n) f * f (Z.of_nat (S n)))%R. rewrite IHn. cbn [prodn].
  replace (Z.of_nat (S n)) with (Z.of_nat n + 1) by lia. ring.
Qed.
Lemma prodn_mult n f g : prodn n (fun i => (f i * g i)%R) = (prodn n f * prodn n g)%R.
Proof. induction n; cbn; [ring|]. rewrite IHn. ring. Qed.
Lemma prodn_nonneg n f : (forall i, 0 <= i < Z.of_nat n -> (0 <= f i)%R) -> (0 <= prodn n f)%R.
Proof. induction n; intros H; cbn; [lra|]. apply Rmult_le_pos; [apply IHn; intros; apply H; lia|apply H; lia]. Qed.
Lemma prod_up_val order (f : Z -> R) : 0 <= order -> prod_up order f = Some (prodn (Z.to_nat order) f).
Proof.
  intros Ho. unfold prod_up.
  destruct (for_up_inv (fun k v => v = prodn (Z.to_nat k) f) 0 order (fun k v => Some (mul v (f k))) (ofZ 1)) as [v [E Hv]]; auto.
  - intros i v Hi ->. eexists; split; eauto. replace (Z.to_nat (i + 1)) with (S (Z.to_nat i)) by lia. cbn [prodn]. rewrite Z2Nat.id by lia. reflexivity.
  - now rewrite E, Hv.
Qed.

Lemma nd_ext k : forall f g f2 g2, (forall x, f x = f2 x) -> (forall x, g x = g2 x) -> nth_derivative k f g -> nth_derivative k f2 g2.
Proof.
  induction k; cbn; intros f g f2 g2 Hf Hg H.
  - intros x. now rewrite <- Hf, <- Hg.
  - destruct H as [f' [H1 H2]]. exists f'. split.
    + intros x. apply (derivable_pt_lim_ext f); auto.
    + apply (IHk f' g); auto.
Qed.
Lemma nd_scal k c : forall f g, nth_derivative k f g -> nth_derivative k (fun x => (c * f x)%R) (fun x => (c * g x)%R).
Proof.
  induction k; cbn; intros f g H.
  - intros x. now rewrite H.
  - destruct H as [f' [H1 H2]]. exists (fun x => (c * f' x)%R). split.
    + intros x. now apply (derivable_pt_lim_scal f).
    + now apply IHk.
Qed.
Lemma nd_zero k : nth_derivative k (fun _ => 0%R) (fun _ => 0%R).
Proof. induction k; cbn; auto. exists (fun _ => 0%R). split; auto. intros. apply derivable_pt_lim_const. Qed.

(** a chain of families with Fam k, degree j, differentiated to d k j times Fam (k+1), degree j-1 *)
Lemma nd_chain (d : Z -> Z -> R) : forall (order : nat) (Fam : Z -> Z -> R -> R) k0,
  (forall k j, k0 <= k < k0 + Z.of_nat order -> 0 <= j -> forall x, derivable_pt_lim (Fam k j) x (d k j * ext0 (Fam (k+1)%Z) (j-1)%Z x)%R) ->
  forall j, nth_derivative order (ext0 (Fam k0) j) (fun x => (prodn order (fun i => d (k0 + i)%Z (j - i)%Z) * ext0 (Fam (k0 + Z.of_nat order)%Z) (j - Z.of_nat order)%Z x)%R).
Proof.
  induction order as [|order IH]; intros Fam k0 H j.
  - cbn. intros x. rewrite Z.add_0_r, Z.sub_0_r. ring.
  - destruct (Z.ltb_spec j 0).
    { apply (nd_ext (S order) (fun _ => 0%R) (fun _ => 0%R)); [intros; now rewrite ext0_neg|intros; rewrite ext0_neg by lia; ring|apply nd_zero]. }
    exists (fun x => (d k0 j * ext0 (Fam (k0+1)%Z) (j-1)%Z x)%R). split.
    + intros x. apply (derivable_pt_lim_ext (Fam k0 j)); [intros; now rewrite ext0_pos by lia|]. apply H; lia.
    + eapply nd_ext; [intros x; reflexivity| |apply nd_scal, (IH Fam (k0+1))].
      * intros x. cbv beta. rewrite prodn_first, Z.add_0_r, Z.sub_0_r.
        replace (k0 + 1 + Z.of_nat order) with (k0 + Z.of_nat (S order)) by lia. replace (j - 1 - Z.of_nat order) with (j - Z.of_nat (S order)) by lia.
        rewrite Rmult_assoc. f_equal. f_equal. apply prodn_ext. intros i Hi. f_equal; lia.
      * intros k i Hk Hi. apply H; lia.
Qed.
(** norms along the chain *)
Lemma norm_chain (rho : Z -> Z -> R) (hs : Z -> Z -> R) j : forall (order : nat), Z.of_nat order <= j ->
  (forall k, 0 <= k < Z.of_nat order -> hs (k+1) (j-k-1) = (rho k (j-k)%Z * hs k (j-k)%Z)%R) ->
  hs (Z.of_nat order) (j - Z.of_nat order) = (prodn order (fun i => rho i (j-i)%Z) * hs 0%Z j)%R.
Proof.
  induction order as [|k IH]; intros Ho H.
  - cbn. rewrite Z.sub_0_r. ring.
  - cbn [prodn]. replace (Z.of_nat (S k)) with (Z.of_nat k + 1) by lia. replace (j - (Z.of_nat k + 1)) with (j - Z.of_nat k - 1) by lia.
    rewrite H, IH by (try lia; intros; apply H; lia). ring.
Qed.
Lemma sqrt_chain (rho d : Z -> R) n H K : (0 < H)%R -> (forall i, 0 <= i < Z.of_nat n -> (0 <= d i /\ 0 <= rho i)%R) ->
  K = (prodn n rho * H)%R -> (sqrt (prodn n (fun i => (d i * d i * rho i)%R)) * sqrt H = prodn n d * sqrt K)%R.
Proof.
  intros HH Hd HK. rewrite <- (Rmult_1_l (sqrt (prodn _ _))).
  apply (nrm _ _ _ _ _ H 1 (prodn n rho)); try lra.
  - apply prodn_nonneg. intros; now apply Hd.
  - apply prodn_nonneg. intros i Hi. specialize (Hd i Hi). apply Rmult_le_pos; nra.
  - apply prodn_nonneg. intros; now apply Hd.
  - rewrite !prodn_mult. ring.
Qed.

Section Jac.
Variables (a b : R) (order : Z) (Fam : Z -> Z -> R -> R) (hs : Z -> Z -> R).
Hypotheses (Ha : (-1 < a)%R) (Hb : (-1 < b)%R) (Ho : 0 <= order).
Hypothesis HP : forall k, 0 <= k <= order -> is_jacobi (a + IZR k) (b + IZR k) (Fam k).
Hypothesis Hh : forall k, 0 <= k <= order -> jacobi_norms (a + IZR k) (b + IZR k) (hs k).
Hypothesis Hm : forall k, 0 <= k < order -> jacobi_masses (a + IZR k) (b + IZR k) (hs k 0%Z) (hs (k+1) 0%Z).

Lemma jac_fam k : 0 <= k < order -> is_jacobi (a + IZR k + 1) (b + IZR k + 1) (Fam (k+1)).
Proof. intros Hk. assert (H := HP (k+1) ltac:(lia)). rewrite plus_IZR, <- !Rplus_assoc in H. exact H. Qed.
Lemma jac_nd j : nth_derivative (Z.to_nat order) (ext0 (Fam 0) j) (fun x => (prodn (Z.to_nat order) (fun i => (IZR j + a + b + IZR i + 1) / 2) * ext0 (Fam order) (j - order) x)%R).
Proof.
  assert (H := nd_chain (fun k j => ((IZR j + (a + IZR k) + (b + IZR k) + 1) / 2)%R) (Z.to_nat order) Fam 0).
  eapply nd_ext; [reflexivity| |apply H].
  - intros x. cbv beta. rewrite Z2Nat.id by lia. cbn [Z.add]. f_equal. apply prodn_ext. intros i Hi. rewrite minus_IZR. f_equal. cbn [Z.add]. lra.
  - intros k i Hk Hi x. rewrite Z2Nat.id in Hk by lia. assert (0 <= IZR k)%R by (apply IZR_le; lia).
    apply jac_deriv; try lra; [apply HP; lia|apply jac_fam; lia|lia].
Qed.
Lemma jacobi_derivative_proof data norm m n : 0 <= m -> 0 <= n -> n <= zlen data ->
  exists D, create_jacobi_derivative data norm m n order a b = Some D /\ bd_ok D /\ bd_m D = m /\ bd_n D = n /\ bd_l D = - order /\ bd_u D = order /\
    forall j, 0 <= j < n -> j - order < m ->
    nth_derivative (Z.to_nat order) (fam norm (Fam 0) (hs 0) j) (fun x => expansion m (fun i => bd_mat D i j) (fam norm (Fam order) (hs order)) x).
Proof.
  intros H0m H0n Hd.
  set (v := fun j : Z => if norm then sqrt (prodn (Z.to_nat order) (fun k => (IZR (j - k) * (IZR j + a + b + IZR k + 1))%R)) else prodn (Z.to_nat order) (fun k => ((IZR j + a + b + IZR k + 1) / 2)%R)).
  destruct (derivative_loop_sum data m n order v
    (fun j => if norm then do v <- prod_up order (fun k => mul (ofZ (j-k)) (add (add (add (add (ofZ j) a) b) (ofZ k)) (ofZ 1))); Some (sqrtA v)
       else prod_up order (fun k => div (add (add (add (add (ofZ j) a) b) (ofZ k)) (ofZ 1)) (ofZ 2)))) as [D (E & O & S & G & Sm)]; auto.
  { intros j Hj. unfold v. destruct norm; rewrite prod_up_val by lia; reflexivity. }
  exists D. split; [exact E|]. split; [auto|]. destruct S as (S1 & S2 & S3 & S4). cbn in S1, S2, S3, S4. split; [auto|split; [auto|split; [auto|split; [auto|]]]].
  intros j Hj Hjm. assert (N := jac_nd j). unfold expansion.
  assert (EQ : forall x, sumZ m (fun i => (bd_mat D i j * fam norm (Fam order) (hs order) i x)%R) = if (0 <=? j - order) then (v j * fam norm (Fam order) (hs order) (j - order) x)%R else 0%R).
  { intros x. rewrite (Sm j (fun i => fam norm (Fam order) (hs order) i x) Hj). replace (j - order <? m) with true by lia. now rewrite andb_true_r. }
  destruct norm.
  - assert (P0 : (0 < hs 0 j)%R). { apply (jn_pos (a + IZR 0) (b + IZR 0)); try (cbn; lra); [apply Hh; lia|lia]. }
    apply (nd_ext _ (fun x => (/ sqrt (hs 0 j) * ext0 (Fam 0) j x)%R) (fun x => (/ sqrt (hs 0 j) * (prodn (Z.to_nat order) (fun i => (IZR j + a + b + IZR i + 1) / 2) * ext0 (Fam order) (j - order) x))%R)).
    + intros x. rewrite ext0_pos by lia. unfold fam. unfold Rdiv. ring.
    + intros x. rewrite EQ. unfold ext0, fam. destruct (Z.leb_spec 0 (j - order)).
      2:{ replace (j - order <? 0) with true by lia. ring. }
      replace (j - order <? 0) with false by lia.
      assert (PK : (0 < hs order (j - order))%R).
      { assert (0 <= IZR order)%R by (apply IZR_le; lia). apply (jn_pos (a + IZR order) (b + IZR order)); try lra; [apply Hh; lia|lia]. }
      rewrite (entry (v j) (prodn (Z.to_nat order) (fun i => (IZR j + a + b + IZR i + 1) / 2)%R) _ _ _ P0 PK); [unfold Rdiv; ring|].
      unfold v. assert (HB : forall i, 0 <= i < order -> (0 <= IZR i /\ 1 <= IZR j - IZR i)%R).
      { intros i Hi. split; [apply IZR_le; lia|]. rewrite <- minus_IZR. apply IZR_le. lia. }
      rewrite <- (sqrt_chain (fun i => (4 * (IZR j - IZR i) / (IZR j + a + b + IZR i + 1))%R) (fun i => ((IZR j + a + b + IZR i + 1) / 2)%R) (Z.to_nat order) (hs 0 j)).
      * f_equal. f_equal. apply prodn_ext. intros i Hi. rewrite minus_IZR. destruct (HB i); [lia|]. field. lra.
      * exact P0.
      * intros i Hi. destruct (HB i); [lia|]. split; [lra|]. posl.
      * rewrite <- (Z2Nat.id order) at 1 2 by lia.
        rewrite (norm_chain (fun k j => (4 * IZR j / (IZR j + (a + IZR k) + (b + IZR k) + 1))%R) hs j); [|lia|].
        { f_equal. apply prodn_ext. intros i Hi. rewrite minus_IZR. f_equal. f_equal. lra. }
        intros k Hk. assert (0 <= IZR k)%R by (apply IZR_le; lia).
        assert (H2 := Hh (k+1) ltac:(lia)). rewrite plus_IZR, <- !Rplus_assoc in H2.
        apply hq_at1; auto; try lra; try lia; [apply Hh|apply Hm]; lia.
    + apply nd_scal. exact N.
  - apply (nd_ext _ (ext0 (Fam 0) j) (fun x => (prodn (Z.to_nat order) (fun i => (IZR j + a + b + IZR i + 1) / 2) * ext0 (Fam order) (j - order) x)%R)); [|intros x; rewrite EQ|exact N].
    + intros x. now rewrite ext0_pos by lia.
    + unfold ext0, fam. destruct (Z.leb_spec 0 (j - order)); [replace (j - order <? 0) with false by lia; reflexivity|replace (j - order <? 0) with true by lia; ring].
Qed.
End Jac.
