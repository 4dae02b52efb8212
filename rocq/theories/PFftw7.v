(** The annulus weights; refutations for arrays that are not square *)
From Coq Require Import ZArith List Lia Bool Reals Lra ZifyBool ZifyNat.
From Verif Require Import Base Arith BaseFacts SpecSum PSum SpecLin PTri MHarmonic SpecHarm PDrivers4 PHarm PHarm2 PHarm3 MFftw SpecFftw PTrig PFftw PFftw2 PFftw3 PFftw4 PFftw5 PFftw6.
Import ListNotations.
Open Scope Z_scope.

Section Annulus.
Variables (N : Z) (rho : R).
Hypothesis (HN : 0 < N) (Hr : (0 <= rho < 1)%R).
Notation w := (annulus_w sin cos PI N rho).
Let rN : (IZR N <> 0)%R. Proof. apply IZR_neq. lia. Qed.
Lemma ann_w_len : zlen w = N. Proof. apply zlen_ztab. lia. Qed.
Lemma half_angle n : ((IZR (N - n) - 1 / 2) * PI / (2 * IZR N) = PI / 2 - theta N n / 2)%R.
Proof. unfold theta. rewrite minus_IZR. field. auto. Qed.
Lemma radius_pos t : (0 < t < PI)%R -> (0 < cos (t / 2) * cos (t / 2) + rho * rho * (sin (t / 2) * sin (t / 2)))%R.
Proof.
  intros Ht. assert (0 < cos (t / 2))%R by (apply cos_gt_0; lra). assert (0 <= rho * rho)%R by nra. pose proof (Rle_0_sqr (sin (t / 2))) as H1. unfold Rsqr in H1. nra.
Qed.
Lemma theta_range n : 0 <= n < N -> (0 < theta N n < PI)%R.
Proof.
  intros Hn. pose proof PI_RGT_0 as HP. unfold theta. assert (0 <= IZR n)%R by (apply IZR_le; lia). assert (IZR n <= IZR N - 1)%R by (rewrite <- minus_IZR; apply IZR_le; lia).
  assert (0 < IZR N)%R by (apply IZR_lt; lia). split.
  - apply Rmult_lt_0_compat; [nra|]. now apply Rinv_0_lt_compat.
  - apply (Rmult_lt_reg_r (IZR N)); auto. unfold Rdiv. rewrite Rmult_assoc, Rinv_l, Rmult_1_r by auto. nra.
Qed.
Lemma ann_w_val n : 0 <= n < N -> nthZ 0%R w n = (ann_radius rho (theta N n) * sqrt (2 / (1 - rho * rho)))%R.
Proof.
  intros Hn. unfold annulus_w. rewrite (nthZ_zget 0%R _ n _ (zget_ztab _ _ _ Hn)).
  change (@half R R_arith) with (1 / 2)%R. change (@sqrtA R R_arith) with sqrt. change (@ofZ R R_arith) with IZR.
  change (@div R R_arith) with Rdiv. change (@mul R R_arith) with Rmult. change (@add R R_arith) with Rplus. change (@sub R R_arith) with Rminus. change (@one R R_arith) with 1%R.
  cbv zeta. rewrite half_angle. rewrite sin_shift, cos_shift. unfold ann_radius. pose proof (radius_pos (theta N n) (theta_range n Hn)) as HP.
  rewrite <- sqrt_mult; [|lra|]. { f_equal. field. nra. } apply Rmult_le_pos; [lra|]. apply Rlt_le, Rinv_0_lt_compat. nra.
Qed.
Lemma ann_w_nz n : 0 <= n < N -> nthZ 0%R w n <> 0%R.
Proof.
  intros Hn. rewrite ann_w_val by auto. apply Rgt_not_eq. apply Rmult_lt_0_compat; unfold ann_radius; apply sqrt_lt_R0.
  - apply radius_pos. now apply theta_range.
  - apply Rmult_lt_0_compat; [lra|]. apply Rinv_0_lt_compat. nra.
Qed.
End Annulus.

Section Wide.
Variable FT : fftw R.
Hypothesis OK : fftw_ok FT.
(** the values the programs return when the plan has its dimensions the wrong way round *)
Lemma tri_wide N M : 1 < N -> 1 < M ->
  evaluates M N (fun l z k j => (kind_mat REDFT01 M k l * kind_mat REDFT01 N j z * tw 2 qtr ((l + z * M) / N) ((l + z * M) mod N))%R) (tri_synthesis FT false true N M).
Proof.
  intros HN HM. eapply ev_prog; [|apply (sc_ev M N (fun z r => tw 2 qtr ((r + z * M) / N) ((r + z * M) mod N))); [|apply (run_tri_ev FT OK true N M); lia]].
  2: { apply (sc_view N M M N _ _ ltac:(lia) ltac:(lia) ltac:(lia) (sc_tri N M 2 qtr ltac:(lia) ltac:(lia))). }
  intros X. unfold tri_synthesis. replace (1 <? N) with true by lia. replace (1 <? M) with true by lia. cbn [andb]. assoc.
Qed.
Lemma tet_wide N L M : 1 < N -> 1 < L -> 1 < M ->
  evaluates M (N * L) (fun l z k j => (kind_mat REDFT01 M k l * kron L (kind_mat REDFT01 N) (kind_mat REDFT01 L) j z * tw3 L 2 (1 / 8) ((l + z * M) / N) ((l + z * M) mod N))%R) (tet_synthesis FT false true N L M).
Proof.
  intros HN HL HM. eapply ev_prog; [|apply (sc_ev M (N * L) (fun z r => tw3 L 2 (1 / 8) ((r + z * M) / N) ((r + z * M) mod N))); [|apply (run_tet_ev FT OK true N L M); lia]].
  2: { apply (sc_view N (L * M) M (N * L) _ (fun X => do X <- tet_scale N L M 2%R X; mulfor (N * L * M) (1 / 8)%R X) ltac:(lia) ltac:(lia) ltac:(lia)).
       eapply sc_ext; [|apply (sc_seq N (L * M)); [apply sc_tet; lia|rewrite <- Z.mul_assoc; apply sc_all; nia]]. intros. unfold tw3. ring. }
  intros X. unfold tet_synthesis. replace (1 <? N) with true by lia. replace (1 <? M) with true by lia. replace (1 <? L) with true by lia. cbn [andb]. assoc.
Qed.
Definition unit (n q : Z) : list R := zupd (zmake n 0%R) q 1%R.
Lemma unit_len n q : 0 <= n -> zlen (unit n q) = n. Proof. intros. unfold unit. rewrite zlen_zupd. now apply zlen_zmake. Qed.
Lemma unit_at n q p : 0 <= q < n -> nthZ 0%R (unit n q) p = if p =? q then 1%R else 0%R.
Proof.
  intros Hq. unfold unit. destruct (Z.eqb_spec p q) as [->|Hn].
  - apply nthZ_zupd_same. rewrite zlen_zmake; lia.
  - rewrite nthZ_zupd_other by lia. unfold nthZ. destruct (zget _ p) eqn:E; auto.
    pose proof (zget_range _ _ _ E) as B. rewrite zlen_zmake in B by lia. rewrite zget_zmake in E by lia. congruence.
Qed.
Lemma ev_unit A B K p l z : evaluates A B K p -> 0 <= l < A -> 0 <= z < B -> exists X', p (unit (A * B) (l + z * A)) = Some X' /\
  forall k j, 0 <= k < A -> 0 <= j < B -> nthZ 0%R X' (k + j * A) = K l z k j.
Proof.
  intros H Hl Hz. pose proof (in_grid A B l z Hl Hz) as HB. destruct (H (unit (A * B) (l + z * A))) as (X' & E & L & V); [apply unit_len; lia|].
  exists X'. split; auto. intros k j Hk Hj. rewrite V by auto. rewrite (sumZ_single B z); auto.
  - rewrite (sumZ_single A l); auto.
    + rewrite unit_at by auto. rewrite Z.eqb_refl. ring.
    + intros l' Hl' Hn. rewrite unit_at by auto. replace (l' + z * A =? l + z * A) with false by lia. ring.
  - intros z' Hz' Hn. apply sumZ_zero. intros l' Hl'. rewrite unit_at by auto. destruct (Z.eqb_spec (l' + z' * A) (l + z * A)) as [E'|]; [|ring].
    exfalso. destruct (idx2_inj l' z' l z A); auto.
Qed.
Lemma cos_apart : cos (PI / 6) <> cos (PI / 4).
Proof. pose proof PI_RGT_0. apply Rgt_not_eq. apply cos_decreasing_1; lra. Qed.
Lemma cos4 : (0 < cos (PI / 4))%R. Proof. pose proof PI_RGT_0. apply cos_gt_0; lra. Qed.
Lemma tri_grid_refuted : ~ evaluates 2 3 (fun l z k j => (cosine 2 l (theta 2 k) * cosine 3 z (theta 3 j))%R) (tri_synthesis FT false true 2 3).
Proof.
  intros H. destruct (ev_unit 2 3 _ _ 1 0 H) as (X1 & E1 & V1); try lia. destruct (ev_unit 3 2 _ _ 1 0 (tri_wide 2 3 ltac:(lia) ltac:(lia))) as (X2 & E2 & V2); try lia.
  change (3 * 2) with (2 * 3) in E2. change (1 + 0 * 3) with (1 + 0 * 2) in E2. rewrite E1 in E2. injection E2 as <-.
  specialize (V1 0 0 ltac:(lia) ltac:(lia)). specialize (V2 0 0 ltac:(lia) ltac:(lia)). change (0 + 0 * 2) with 0 in V1. change (0 + 0 * 3) with 0 in V2.
  rewrite V1 in V2. apply cos_apart. unfold cosine, theta, kind_mat, tw in V2. change (1 =? 0) with false in V2. change (0 =? 0) with true in V2. change ((1 + 0 * 3) / 2) with 0 in V2.
  change ((1 + 0 * 3) mod 2) with 1 in V2. change (0 =? 0) with true in V2. change (1 =? 0) with false in V2. cbv iota zeta in V2.
  replace (0 * (PI * (0 + / 2) / 3))%R with 0%R in V2 by field. rewrite cos_0 in V2.
  replace (1 * (PI * (0 + / 2) / 2))%R with (PI / 4)%R in V2 by field. replace (PI * 1 * (0 + / 2) / 3)%R with (PI / 6)%R in V2 by field. lra.
Qed.
Lemma tri_narrow_refuted : ~ evaluates 1 2 (fun l z k j => (cosine 1 l (theta 1 k) * cosine 2 z (theta 2 j))%R) (tri_synthesis FT false true 1 2).
Proof.
  intros H. destruct (ev_unit 1 2 _ _ 0 1 H) as (X1 & E1 & V1); try lia. unfold tri_synthesis in E1. cbn [Z.ltb Z.compare Pos.compare Pos.compare_cont andb] in E1. injection E1 as <-.
  specialize (V1 0 0 ltac:(lia) ltac:(lia)). rewrite unit_at in V1 by lia. cbn [Z.eqb Z.add Z.mul Pos.mul] in V1. unfold cosine, theta in V1.
  replace (0 * (PI * (0 + / 2) / 1))%R with 0%R in V1 by field. rewrite cos_0 in V1. replace (1 * (PI * (0 + / 2) / 2))%R with (PI / 4)%R in V1 by field. pose proof cos4. lra.
Qed.
Lemma tet_grid_refuted : ~ evaluates3 2 2 3 (fun l k => cosine 2 l (theta 2 k)) (fun l k => cosine 2 l (theta 2 k)) (fun l k => cosine 3 l (theta 3 k)) (tet_synthesis FT false true 2 2 3).
Proof.
  intros H. destruct (H (unit 12 1)) as (X1 & E1 & L1 & V1); [apply unit_len; lia|].
  destruct (ev_unit 3 4 _ _ 1 0 (tet_wide 2 2 3 ltac:(lia) ltac:(lia) ltac:(lia))) as (X2 & E2 & V2); try lia.
  change (3 * 4) with 12 in E2. change (1 + 0 * 3) with 1 in E2. rewrite E1 in E2. injection E2 as <-.
  specialize (V1 0 0 0 ltac:(lia) ltac:(lia) ltac:(lia)). specialize (V2 0 0 ltac:(lia) ltac:(lia)). change (0 + (0 + 0 * 2) * 2) with 0 in V1. change (0 + 0 * 3) with 0 in V2.
  rewrite V1 in V2. clear V1. rewrite (sumZ_single 3 0) in V2; try lia.
  2: { intros c Hc Hn. apply sumZ_zero. intros b Hb. apply sumZ_zero. intros a Ha. rewrite unit_at by lia. replace (a + (b + c * 2) * 2 =? 1) with false by lia. ring. }
  rewrite (sumZ_single 2 0) in V2; try lia.
  2: { intros b Hb Hn. apply sumZ_zero. intros a Ha. rewrite unit_at by lia. replace (a + (b + 0 * 2) * 2 =? 1) with false by lia. ring. }
  rewrite (sumZ_single 2 1) in V2; try lia.
  2: { intros a Ha Hn. rewrite unit_at by lia. replace (a + (0 + 0 * 2) * 2 =? 1) with false by lia. ring. }
  rewrite unit_at in V2 by lia. apply cos_apart. unfold cosine, theta, kron, kind_mat, tw3 in V2.
  change (1 + (0 + 0 * 2) * 2 =? 1) with true in V2. change (0 / 2) with 0 in V2. change (0 mod 2) with 0 in V2. change ((1 + 0 * 3) / 2) with 0 in V2. change ((1 + 0 * 3) mod 2) with 1 in V2.
  change (0 <? 2) with true in V2. change (0 mod 2) with 0 in V2. change (1 =? 0) with false in V2. change (0 =? 0) with true in V2. cbv iota zeta in V2.
  replace (0 * (PI * (0 + / 2) / 3))%R with 0%R in V2 by field. replace (0 * (PI * (0 + / 2) / 2))%R with 0%R in V2 by field. rewrite cos_0 in V2.
  replace (1 * (PI * (0 + / 2) / 2))%R with (PI / 4)%R in V2 by field. replace (PI * 1 * (0 + / 2) / 3)%R with (PI / 6)%R in V2 by field. lra.
Qed.
Lemma dot_unit n X q : zlen X = n -> 0 <= q < n -> dot X (unit n q) = nthZ 0%R X q /\ dot (unit n q) X = nthZ 0%R X q.
Proof.
  intros L Hq. unfold dot. rewrite unit_len, L by lia. split; (rewrite (sumZ_single n q); auto; [rewrite unit_at by auto; rewrite Z.eqb_refl; ring|]);
  intros i Hi Hn; rewrite unit_at by auto; replace (i =? q) with false by lia; ring.
Qed.
Lemma tri_synT_wide N M : 1 < N -> 1 < M -> evaluates M N (fun l z k j => (kind_mat REDFT10 M k l * kind_mat REDFT10 N j z * qtr)%R) (tri_synthesis FT true false N M).
Proof.
  intros HN HM. eapply ev_prog; [|apply (sc_ev M N (fun _ _ => qtr)); [apply (sc_all M N); lia|apply (run_tri_ev FT OK false N M); lia]].
  intros X. unfold tri_synthesis. replace (1 <? N) with true by lia. replace (1 <? M) with true by lia. cbn [andb]. rewrite (Z.mul_comm M N). reflexivity.
Qed.
Lemma tri_adjoint_refuted : ~ adjoint 6 (tri_synthesis FT false true 2 3) (tri_synthesis FT true false 2 3).
Proof.
  intros H. destruct (H (unit 6 3) (unit 6 0)) as (X' & Y' & E1 & E2 & L1 & L2 & D); try (apply unit_len; lia).
  destruct (ev_unit 3 2 _ _ 0 1 (tri_wide 2 3 ltac:(lia) ltac:(lia))) as (X1 & F1 & V1); try lia. destruct (ev_unit 3 2 _ _ 0 0 (tri_synT_wide 2 3 ltac:(lia) ltac:(lia))) as (X2 & F2 & V2); try lia.
  change (tri_synthesis FT false true 2 3 (unit 6 3) = Some X1) in F1. change (tri_synthesis FT true false 2 3 (unit 6 0) = Some X2) in F2.
  rewrite E1 in F1. injection F1 as <-. rewrite E2 in F2. injection F2 as <-.
  rewrite (proj1 (dot_unit 6 X' 0 L1 ltac:(lia))), (proj2 (dot_unit 6 Y' 3 L2 ltac:(lia))) in D.
  specialize (V1 0 0 ltac:(lia) ltac:(lia)). specialize (V2 0 1 ltac:(lia) ltac:(lia)). change (0 + 0 * 3) with 0 in V1. change (0 + 1 * 3) with 3 in V2. rewrite V1, V2 in D.
  unfold kind_mat, tw in D. change ((0 + 1 * 3) / 2) with 1 in D. change ((0 + 1 * 3) mod 2) with 1 in D. change (1 =? 0) with false in D. change (0 =? 0) with true in D. cbv iota zeta in D.
  replace (PI * (0 + / 2) * 0 / 3)%R with 0%R in D by field. rewrite cos_0 in D. replace (PI * (0 + / 2) * 1 / 2)%R with (PI / 4)%R in D by field. replace (PI * 1 * (0 + / 2) / 2)%R with (PI / 4)%R in D by field.
  pose proof cos4. lra.
Qed.
End Wide.
