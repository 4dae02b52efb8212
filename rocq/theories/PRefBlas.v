(** The reference BLAS meets the contract *)
From Coq Require Import ZArith List Lia Bool Reals Lra ZifyBool ZifyNat.
From Verif Require Import Base Arith BaseFacts SpecSum PSum SpecLin MHarmonic SpecHarm PHarm MRefBlas.
Open Scope Z_scope.
Lemma fold_sum (f : nat -> R) k a : fold_left (fun acc k => (acc + f k)%R) (seq 0 k) a = (a + sumZ (Z.of_nat k) (fun i => f (Z.to_nat i)))%R.
Proof.
  induction k.
  - cbn [seq fold_left]. change (Z.of_nat 0) with 0. rewrite sumZ_0 by lia. ring.
  - rewrite seq_S, fold_left_app, IHk. cbn [fold_left]. rewrite Nat2Z.inj_succ. unfold Z.succ. rewrite sumZ_S by lia. rewrite Nat2Z.id. cbn [Nat.add]. ring.
Qed.
Lemma line_dot_sum n s o (u : Z -> R) B : line_dot n s o u B = sumZ n (fun k => (u k * nthZ 0 B (o + k * s))%R).
Proof.
  unfold line_dot. cbn [add mul zero R_arith].
  rewrite (fold_sum (fun k => (u (Z.of_nat k) * nthZ 0 B (o + Z.of_nat k * s))%R)). rewrite Rplus_0_l.
  destruct (Z_le_gt_dec 0 n) as [H|H].
  - rewrite Z2Nat.id by lia. apply sumZ_ext. intros k Hk. rewrite Z2Nat.id by lia. reflexivity.
  - replace (Z.of_nat (Z.to_nat n)) with 0 by lia. rewrite !sumZ_0 by lia. reflexivity.
Qed.
Lemma ref_line_ok n s o U B : 0 <= n -> 0 < s -> 0 <= o -> (0 < n -> o + (n - 1) * s < zlen B) ->
  exists B', ref_line n s o U B = Some B' /\ glines (fun _ : Z => True) n s (fun _ => o) (fun _ => U) B B'.
Proof.
  intros Hn Hs Ho Hf. unfold ref_line.
  destruct (for_up_inv (fun i X => zlen X = zlen B /\ (forall k, 0 <= k < i -> nthZ 0%R X (o + k * s) = line_dot n s o (U k) B) /\
      (forall p, (forall k, 0 <= k < i -> p <> o + k * s) -> zget X p = zget B p)) 0 n
    (fun i X => zset X (o + i * s) (line_dot n s o (U i) B)) B) as (X & E & LX & V & K); auto.
  - repeat split; auto. lia.
  - intros i X Hi (LX & V & K). assert (0 <= o + i * s < zlen X) by (rewrite LX; nia). rewrite zset_some by auto.
    eexists. split; [reflexivity|]. rewrite zlen_zupd. split; auto. split.
    + intros k Hk. destruct (Z.eq_dec k i) as [->|]; [rewrite nthZ_zupd_same; auto|]. rewrite nthZ_zupd_other by nia. apply V. lia.
    + intros p Hp. rewrite zget_zupd_other; [|intro; apply (Hp i); [lia|auto]]. apply K. intros k Hk. apply Hp. lia.
  - exists X. split; auto. split; auto. split.
    + intros _ i _ Hi. rewrite V by auto. apply line_dot_sum.
    + intros p Hp. apply K. intros k Hk. apply (Hp 0); auto.
Qed.
Lemma ref_lines_ok n s m base U B : 0 <= n -> 0 < s -> 0 <= m ->
  (forall j, 0 <= j < m -> 0 <= base j /\ (0 < n -> base j + (n - 1) * s < zlen B)) ->
  (forall j j' i i', 0 <= j < m -> 0 <= j' < m -> j <> j' -> 0 <= i < n -> 0 <= i' < n -> base j + i * s <> base j' + i' * s) ->
  exists B', ref_lines n s m base U B = Some B' /\ lines n s m base (fun _ => U) B B'.
Proof.
  intros Hn Hs Hm Hf HD. unfold ref_lines.
  destruct (glines_loop 0 m (fun _ (_ : Z) => True) n s (fun j _ => base j) (fun _ _ => U) (fun j B => ref_line n s (base j) U B) B) as (B' & E & H); auto.
  - intros j X Hj LX. apply ref_line_ok; auto. apply Hf; auto. rewrite LX. now apply Hf.
  - exists B'. split; auto. apply lines_glines. revert H.
    apply (glines_weaken _ _ n s _ _ _ _ B B' (fun j => (j, 0)) fst); cbn [fst snd]; auto. tauto.
Qed.
Lemma ref_tri_op trans ld T i j : ref_tri trans ld 1 T i j = op trans (utri ld T) i j.
Proof. unfold ref_tri, op, utri, mat, transp. destruct trans; rewrite Z.mul_1_l; reflexivity. Qed.
Lemma lines_ext n s m base U V B B' : (forall i k, U i k = V i k) -> lines n s m base (fun _ => U) B B' -> lines n s m base (fun _ => V) B B'.
Proof. intros H (L & K & W). repeat split; auto. intros. rewrite K by auto. apply sumZ_ext. intros. now rewrite H. Qed.
Lemma ref_fits_ok n ld (T : list R) : 0 < n -> fits_mat 0 n n ld T -> ref_fits 1 n ld T = true.
Proof. intros Hn H. unfold fits_mat in H. unfold ref_fits. destruct H as (_ & H1 & H2). apply andb_true_intro. split; lia. Qed.
Lemma ref_blas_ok : blas_ok ref_blas.
Proof.
  split.
  - intros trans n k T ldt B o ldb Hn Hk HT HB. cbn [dtrmm_left ref_blas]. rewrite ref_fits_ok by auto.
    destruct HB as (H1 & H2 & H3).
    destruct (ref_lines_ok n 1 k (fun j => o + j * ldb) (ref_tri trans ldt 1 T) B) as (B' & E & H); try lia.
    + intros j Hj. cbv beta. specialize (H3 ltac:(lia)). split; [nia|]. intros _. nia.
    + intros j j' i i' Hj Hj' Hn' Hi Hi' E. assert (E' : i + j * ldb = i' + j' * ldb) by lia. destruct (idx2_inj i j i' j' ldb); auto; lia.
    + exists B'. split; auto. eapply lines_ext; [|exact H]. apply ref_tri_op.
  - intros trans n k T ldt B o ldb Hn Hk HT HB. cbn [dtrmm_right ref_blas]. rewrite ref_fits_ok by auto.
    destruct HB as (H1 & H2 & H3).
    destruct (ref_lines_ok k ldb n (fun i => o + i) (ref_tri (negb trans) ldt 1 T) B) as (B' & E & H); try lia.
    + intros j j' i i' Hj Hj' Hn' Hi Hi' E. assert (E' : j + i * ldb = j' + i' * ldb) by lia. destruct (idx2_inj j i j' i' ldb); auto; lia.
    + exists B'. split; auto. eapply lines_ext; [|exact H]. intros. rewrite ref_tri_op. unfold transp. now destruct trans.
  - intros trans n T ldt x o inc Hn Hi HT Ho Hf. cbn [dtrmv ref_blas]. rewrite ref_fits_ok by auto.
    destruct (ref_lines_ok n inc 1 (fun _ => o) (ref_tri trans ldt 1 T) x) as (B' & E & H); try lia.
    exists B'. split; auto. eapply lines_ext; [|exact H]. apply ref_tri_op.
  - intros trans n k T ldt B o ldb Hn Hk Hld HT HI Ho Hldb HB. cbn [ztrmm_left ref_blas].
    replace (ref_fits 2 n ldt T) with true. 2:{ unfold ref_fits. symmetry. apply andb_true_intro. split; lia. }
    destruct (ref_lines_ok n 2 (2 * k) (fun j => 2 * (o + (j / 2) * ldb) + j mod 2) (ref_tri trans ldt 2 T) B) as (B' & E & H); try lia.
    + intros j Hj. cbv beta. specialize (HB ltac:(lia)). assert (0 <= j / 2 <= k - 1) by lia. assert (0 <= j mod 2 < 2) by lia.
      assert (0 <= (j / 2) * ldb <= (k - 1) * ldb) by nia. split; [lia|]. intros _. lia.
    + intros j j' i i' Hj Hj' Hn' Hi Hi' E. assert (E1 : j mod 2 = j' mod 2) by lia.
      assert (E' : i + (j / 2) * ldb = i' + (j' / 2) * ldb) by lia. destruct (idx2_inj i (j / 2) i' (j' / 2) ldb); auto; try lia.
    + exists B'. split; auto. eapply lines_ext; [|exact H]. intros i j. unfold ref_tri, op, transp. now destruct trans.
Qed.
