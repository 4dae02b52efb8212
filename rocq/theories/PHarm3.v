(** Harmonic transforms: inverses and adjoints *)
From Coq Require Import ZArith List Lia Bool Reals Lra ZifyBool ZifyNat.
From Verif Require Import Base Arith BaseFacts SpecSum PSum SpecLin SpecBanded MBanded PTri PTri2 MRotations MDrivers SpecRot SpecDrivers PDrivers PDrivers4 PCheb PDriversThms MHarmonic SpecHarm PHarm PHarm2.
Open Scope Z_scope.

(** ** scaling *)
Definition diagU (w : Z -> Z -> R) (z i k : Z) : R := if i =? k then w z i else 0%R.
Lemma diag_mode N M w A A' : 0 < N -> 0 <= M -> zlen A = N * M -> zlen A' = zlen A ->
  (forall i z, 0 <= i < N -> 0 <= z < M -> nthZ 0%R A' (i + z * N) = (nthZ 0 A (i + z * N) * w z i)%R) -> mode 1 N M (diagU w) A A'.
Proof.
  intros HN HM LA LA' H. split; [lia|]. split; [lia|]. intros x i z Hx Hi Hz. unfold entry.
  replace (x + 1 * (i + N * z)) with (i + z * N) by lia. rewrite H by auto.
  rewrite (sumZ_single N i); auto.
  - unfold diagU. rewrite Z.eqb_refl. replace (x + 1 * (i + N * z)) with (i + z * N) by lia. ring.
  - intros k Hk Hn. unfold diagU. replace (i =? k) with false by lia. ring.
Qed.
Lemma norm2_mode s p N M : 1 <= N -> 1 <= M ->
  is_mode 1 N M (diagU (fun z i => ((if z =? 0 then s else 1) * (if i =? 0 then s else 1) * p)%R)) (chebyshev_normalization_2d s p N M).
Proof.
  intros HN HM A LA. rewrite Z.mul_1_l in LA.
  destruct (D34_value s p N N M A) as (H & _). destruct (H HN HM LA) as (A' & E & L & V). exists A'. split; auto.
  apply diag_mode; auto; try lia. intros i z Hi Hz. apply nthZ_zget.
  assert (Hp : 0 <= i + z * N < zlen A). { rewrite LA. pose proof (idx2 i z N M Hi Hz). lia. }
  rewrite (V i z (nthZ 0%R A (i + z * N))) by (auto; now apply zget_nthZ). f_equal. cbn. destruct (z =? 0), (i =? 0); ring.
Qed.
Lemma norm3_mode s p N L M : 1 <= N -> 1 <= L -> 1 <= M ->
  is_mode 1 N (L * M) (diagU (fun z i => ((if z / L =? 0 then s else 1) * (if z mod L =? 0 then s else 1) * (if i =? 0 then s else 1) * p)%R)) (chebyshev_normalization_3d s p N L M).
Proof.
  intros HN HL HM A LA. rewrite Z.mul_1_l in LA.
  destruct (D34_value s p N L M A) as (_ & H). destruct (H HN HL HM) as (A' & E & LL & V). { lia. } exists A'. split; auto.
  apply diag_mode; auto; try lia. intros i z Hi Hz. apply nthZ_zget.
  assert (Hp : 0 <= i + z * N < zlen A). { rewrite LA. pose proof (idx2 i z N (L * M) Hi Hz). lia. }
  pose proof (Z.div_mod z L ltac:(lia)). pose proof (Z.mod_pos_bound z L ltac:(lia)).
  assert (HH : 0 <= z / L < M). { split; [apply Z.div_pos; lia|apply Z.div_lt_upper_bound; lia]. }
  assert (EZ : z mod L + z / L * L = z) by lia.
  specialize (V i (z mod L) (z / L) (nthZ 0%R A (i + z * N)) Hi ltac:(lia) HH). rewrite EZ in V.
  rewrite V by (now apply zget_nthZ). f_equal. cbn. destruct (z / L =? 0), (z mod L =? 0), (i =? 0); ring.
Qed.
Lemma diagU_sym w z i k : transp (diagU w z) i k = diagU w z i k.
Proof. unfold transp, diagU. rewrite Z.eqb_sym. destruct (i =? k) eqn:E; auto. apply Z.eqb_eq in E. now subst. Qed.
Lemma norm2_adjoint s p N M : 1 <= N -> 1 <= M -> adjoint (N * M) (chebyshev_normalization_2d s p N M) (chebyshev_normalization_2d s p N M).
Proof.
  intros HN HM. replace (N * M) with (1 * N * M) by ring. eapply is_mode_adjoint; try lia.
  - apply norm2_mode; auto.
  - eapply is_mode_ext; [|apply norm2_mode; auto]. intros. symmetry. apply diagU_sym.
Qed.
Lemma norm3_adjoint s p N L M : 1 <= N -> 1 <= L -> 1 <= M -> adjoint (N * L * M) (chebyshev_normalization_3d s p N L M) (chebyshev_normalization_3d s p N L M).
Proof.
  intros HN HL HM. replace (N * L * M) with (1 * N * (L * M)) by ring. eapply is_mode_adjoint; try nia.
  - apply norm3_mode; auto.
  - eapply is_mode_ext; [|apply norm3_mode; auto]. intros. symmetry. apply diagU_sym.
Qed.
Lemma mio_inverse len p q : (forall A, zlen A = len -> mutually_inverse_on p q A) ->
  (forall A A', zlen A = len -> p A = Some A' -> zlen A' = len) -> (forall A A', zlen A = len -> q A = Some A' -> zlen A' = len) -> inverse len p q.
Proof.
  intros H Lp Lq X LX. destruct (H X LX) as ((B & H1 & H2) & (C & H3 & H4)). split; [exists B|exists C]; repeat split; eauto.
Qed.
Definition norm2 := chebyshev_normalization_2d (/ sqrt 2)%R (2 / PI)%R.
Definition norm2t := chebyshev_normalization_2d (sqrt 2) (PI / 2)%R.
Definition norm3 := chebyshev_normalization_3d (/ sqrt 2)%R (2 / PI * sqrt (2 / PI))%R.
Definition norm3t := chebyshev_normalization_3d (sqrt 2) (PI / 2 * sqrt (PI / 2))%R.
Lemma norm2_inverse N M : 1 <= N -> 1 <= M -> inverse (N * M) (norm2 N M) (norm2t N M).
Proof.
  intros HN HM. apply mio_inverse.
  - intros A LA. now apply (proj1 (D34_inverse N N M A)).
  - intros A A' LA E. destruct (norm2_mode (/ sqrt 2)%R (2 / PI)%R N M HN HM A) as (B & E' & _ & L & _). lia. unfold norm2 in E. assert (A' = B) by congruence. subst. lia.
  - intros A A' LA E. destruct (norm2_mode (sqrt 2)%R (PI / 2)%R N M HN HM A) as (B & E' & _ & L & _). lia. unfold norm2t in E. assert (A' = B) by congruence. subst. lia.
Qed.
Lemma norm3_inverse N L M : 1 <= N -> 1 <= L -> 1 <= M -> inverse (N * L * M) (norm3 N L M) (norm3t N L M).
Proof.
  intros HN HL HM. apply mio_inverse.
  - intros A LA. now apply (proj2 (D34_inverse N L M A)).
  - intros A A' LA E. destruct (norm3_mode (/ sqrt 2)%R (2 / PI * sqrt (2 / PI))%R N L M HN HL HM A) as (B & E' & _ & LL & _). lia. unfold norm3 in E. assert (A' = B) by congruence. subst. lia.
  - intros A A' LA E. destruct (norm3_mode (sqrt 2)%R (PI / 2 * sqrt (PI / 2))%R N L M HN HL HM A) as (B & E' & _ & LL & _). lia. unfold norm3t in E. assert (A' = B) by congruence. subst. lia.
Qed.

Lemma matmul_transp n U V i j : matmul n (transp U) (transp V) i j = matmul n V U j i.
Proof. unfold matmul, transp. apply sumZ_ext. intros; ring. Qed.
Lemma delta_sym i j : delta i j = delta j i. Proof. unfold delta. now rewrite Z.eqb_sym. Qed.
Lemma inverse_of_op n t U V : inverse_of n U V -> inverse_of n (op t U) (op t V).
Proof. intros H i j Hi Hj. destruct t; cbn; [|now apply H]. rewrite !matmul_transp, (delta_sym i j). destruct (H j i Hj Hi). auto. Qed.
Lemma inverse_of_transp n U V : inverse_of n U V -> inverse_of n (transp U) (transp V).
Proof. intros H. now apply (inverse_of_op n true). Qed.

Section Generic.
Variable BL : blas R.
Hypothesis OK : blas_ok BL.
Variables (N M : Z).
Hypotheses (HN : 0 < N) (HM : 0 <= M).
Variables hi lo : list R -> option (list R).
Hypothesis HINV : inverse (N * M) hi lo.
Hypothesis HADJ : adjoint (N * M) hi lo.

Lemma quad_inverse t P0 P1 P2 P3 Q0 Q1 Q2 Q3 :
  zlen P0 = N * N -> zlen P1 = N * N -> zlen P2 = N * N -> zlen P3 = N * N ->
  zlen Q0 = N * N -> zlen Q1 = N * N -> zlen Q2 = N * N -> zlen Q3 = N * N ->
  inverse_of N (utri N P0) (utri N Q0) -> inverse_of N (utri N P1) (utri N Q1) ->
  inverse_of N (utri N P2) (utri N Q2) -> inverse_of N (utri N P3) (utri N Q3) ->
  inverse (N * M) (quad BL t P0 P1 P2 P3 N M) (quad BL t Q0 Q1 Q2 Q3 N M).
Proof.
  intros. replace (N * M) with (1 * N * M) by ring.
  eapply is_mode_inverse; [lia|lia| |apply quad_mode; auto|apply quad_mode; auto].
  intros z Hz. cbv beta. apply inverse_of_op. unfold sel4. destruct (z mod 4 =? 0), (z mod 4 =? 1), (z mod 4 =? 2); auto.
Qed.
Lemma quad_adjoint t P0 P1 P2 P3 :
  zlen P0 = N * N -> zlen P1 = N * N -> zlen P2 = N * N -> zlen P3 = N * N ->
  adjoint (N * M) (quad BL t P0 P1 P2 P3 N M) (quad BL (negb t) P0 P1 P2 P3 N M).
Proof.
  intros. replace (N * M) with (1 * N * M) by ring. eapply is_mode_adjoint; [lia|lia|lia|apply quad_mode; auto|].
  eapply is_mode_ext; [|apply quad_mode; auto]. intros. cbv beta. now rewrite transp_op.
Qed.
Lemma left_inverse t P Q : zlen P = N * N -> zlen Q = N * N -> inverse_of N (utri N P) (utri N Q) ->
  inverse (N * M) (fun A => dtrmm_left BL t N M P N A 0 N) (fun A => dtrmm_left BL t N M Q N A 0 N).
Proof.
  intros. replace (N * M) with (1 * N * M) by ring. eapply is_mode_inverse; [lia|lia| |apply left_mode; auto|apply left_mode; auto].
  intros z Hz. cbv beta. now apply inverse_of_op.
Qed.
Lemma left_adjoint t P : zlen P = N * N -> adjoint (N * M) (fun A => dtrmm_left BL t N M P N A 0 N) (fun A => dtrmm_left BL (negb t) N M P N A 0 N).
Proof.
  intros. replace (N * M) with (1 * N * M) by ring. eapply is_mode_adjoint; [lia|lia|lia|apply left_mode; auto|].
  eapply is_mode_ext; [|apply left_mode; auto]. intros. cbv beta. now rewrite transp_op.
Qed.
Lemma right_inverse t P Q : 0 < M <= N -> zlen P = N * N -> zlen Q = N * N -> inverse_of N (utri N P) (utri N Q) -> inverse_of M (utri N P) (utri N Q) ->
  inverse (N * M) (fun A => dtrmm_right BL t N M P N A 0 N) (fun A => dtrmm_right BL t N M Q N A 0 N).
Proof.
  intros. replace (N * M) with (N * M * 1) by ring. eapply is_mode_inverse; [lia|lia| |apply right_mode; auto|apply right_mode; auto].
  intros z Hz. cbv beta. apply inverse_of_transp. now apply inverse_of_op.
Qed.
Lemma right_adjoint t P : 0 < M <= N -> zlen P = N * N -> adjoint (N * M) (fun A => dtrmm_right BL t N M P N A 0 N) (fun A => dtrmm_right BL (negb t) N M P N A 0 N).
Proof.
  intros. replace (N * M) with (N * M * 1) by ring. eapply is_mode_adjoint; [lia|lia|lia|apply right_mode; auto|].
  eapply is_mode_ext; [|apply right_mode; auto]. intros. cbv beta. unfold transp. now destruct t.
Qed.
(** the leading principal block of inverse upper triangular matrices *)
Lemma utri_leading P Q K : 0 <= K <= N -> inverse_of N (utri N P) (utri N Q) -> inverse_of K (utri N P) (utri N Q).
Proof.
  intros HK H.
  assert (G : forall P Q i j, 0 <= i < K -> 0 <= j < K -> matmul K (utri N P) (utri N Q) i j = matmul N (utri N P) (utri N Q) i j).
  { intros A B i j Hi Hj. unfold matmul. rewrite (sumZ_split N K) by lia.
    rewrite (sumZ_zero (N - K)). - ring.
    - intros k Hk. unfold utri at 2. replace (K + k <=? j) with false by lia. ring. }
  intros i j Hi Hj. rewrite !G by auto. apply H; lia.
Qed.

(** *** sphere, disk *)
Variables P0 P1 Q0 Q1 : list R.
Hypotheses (L0 : zlen P0 = N * N) (L1 : zlen P1 = N * N) (K0 : zlen Q0 = N * N) (K1 : zlen Q1 = N * N).
Lemma sph_adjoint_gen : adjoint (N * M) (sph2fourier BL hi lo P0 P1 false N M) (sph2fourier BL hi lo P0 P1 true N M).
Proof. unfold sph2fourier. apply adjoint_seq; auto. now apply (quad_adjoint false). Qed.
Lemma sph_inv_adjoint_gen : adjoint (N * M) (fourier2sph BL hi lo Q0 Q1 false N M) (fourier2sph BL hi lo Q0 Q1 true N M).
Proof. unfold fourier2sph. apply adjoint_seq; [now apply (quad_adjoint false)|now apply adjoint_sym]. Qed.
Lemma sphv_adjoint_gen : adjoint (N * M) (sphv2fourier BL hi lo P0 P1 false N M) (sphv2fourier BL hi lo P0 P1 true N M).
Proof. unfold sphv2fourier. apply adjoint_seq; auto. now apply (quad_adjoint false). Qed.
Lemma sphv_inv_adjoint_gen : adjoint (N * M) (fourier2sphv BL hi lo Q0 Q1 false N M) (fourier2sphv BL hi lo Q0 Q1 true N M).
Proof. unfold fourier2sphv. apply adjoint_seq; [now apply (quad_adjoint false)|now apply adjoint_sym]. Qed.
Hypotheses (I0 : inverse_of N (utri N P0) (utri N Q0)) (I1 : inverse_of N (utri N P1) (utri N Q1)).
Lemma sph_inverse_gen t : inverse (N * M) (sph2fourier BL hi lo P0 P1 t N M) (fourier2sph BL hi lo Q0 Q1 t N M).
Proof.
  unfold sph2fourier, fourier2sph. destruct t.
  - apply inverse_seq; [apply quad_inverse; auto|now apply inverse_sym].
  - apply inverse_seq; [auto|apply quad_inverse; auto].
Qed.
Lemma sphv_inverse_gen t : inverse (N * M) (sphv2fourier BL hi lo P0 P1 t N M) (fourier2sphv BL hi lo Q0 Q1 t N M).
Proof.
  unfold sphv2fourier, fourier2sphv. destruct t.
  - apply inverse_seq; [apply quad_inverse; auto|now apply inverse_sym].
  - apply inverse_seq; [auto|apply quad_inverse; auto].
Qed.
(** *** triangle *)
Lemma bind_assoc (p q r : list R -> option (list R)) A : (do B <- (do B <- p A; q B); r B) = (do B <- p A; do B <- q B; r B).
Proof. destruct (p A); reflexivity. Qed.
Lemma inverse_seq3 len p1 p2 p3 q1 q2 q3 : inverse len p1 q1 -> inverse len p2 q2 -> inverse len p3 q3 ->
  inverse len (fun A => do A <- p1 A; do A <- p2 A; p3 A) (fun A => do A <- q3 A; do A <- q2 A; q1 A).
Proof.
  intros H1 H2 H3. eapply inverse_ext; [| |exact (inverse_seq _ _ _ _ _ H1 (inverse_seq _ _ _ _ _ H2 H3))]; intros A; auto.
  apply bind_assoc.
Qed.
Lemma adjoint_seq3 len p1 p2 p3 q1 q2 q3 : adjoint len p1 q1 -> adjoint len p2 q2 -> adjoint len p3 q3 ->
  adjoint len (fun A => do A <- p1 A; do A <- p2 A; p3 A) (fun A => do A <- q3 A; do A <- q2 A; q1 A).
Proof.
  intros H1 H2 H3. eapply adjoint_ext; [| |exact (adjoint_seq _ _ _ _ _ H1 (adjoint_seq _ _ _ _ _ H2 H3))]; intros A; auto.
  apply bind_assoc.
Qed.
Lemma inverse_seq4 len p1 p2 p3 p4 q1 q2 q3 q4 : inverse len p1 q1 -> inverse len p2 q2 -> inverse len p3 q3 -> inverse len p4 q4 ->
  inverse len (fun A => do A <- p1 A; do A <- p2 A; do A <- p3 A; p4 A) (fun A => do A <- q4 A; do A <- q3 A; do A <- q2 A; q1 A).
Proof.
  intros H1 H2 H3 H4. eapply inverse_ext; [| |exact (inverse_seq _ _ _ _ _ H1 (inverse_seq3 _ _ _ _ _ _ _ H2 H3 H4))]; intros A; auto.
  cbv beta. destruct (q4 A) as [B|]; cbn [obind]; auto. apply bind_assoc.
Qed.
Lemma adjoint_seq4 len p1 p2 p3 p4 q1 q2 q3 q4 : adjoint len p1 q1 -> adjoint len p2 q2 -> adjoint len p3 q3 -> adjoint len p4 q4 ->
  adjoint len (fun A => do A <- p1 A; do A <- p2 A; do A <- p3 A; p4 A) (fun A => do A <- q4 A; do A <- q3 A; do A <- q2 A; q1 A).
Proof.
  intros H1 H2 H3 H4. eapply adjoint_ext; [| |exact (adjoint_seq _ _ _ _ _ H1 (adjoint_seq3 _ _ _ _ _ _ _ H2 H3 H4))]; intros A; auto.
  cbv beta. destruct (q4 A) as [B|]; cbn [obind]; auto. apply bind_assoc.
Qed.
Lemma inverse_seq5 len p1 p2 p3 p4 p5 q1 q2 q3 q4 q5 : inverse len p1 q1 -> inverse len p2 q2 -> inverse len p3 q3 -> inverse len p4 q4 -> inverse len p5 q5 ->
  inverse len (fun A => do A <- p1 A; do A <- p2 A; do A <- p3 A; do A <- p4 A; p5 A) (fun A => do A <- q5 A; do A <- q4 A; do A <- q3 A; do A <- q2 A; q1 A).
Proof.
  intros H1 H2 H3 H4 H5. eapply inverse_ext; [| |exact (inverse_seq _ _ _ _ _ H1 (inverse_seq4 _ _ _ _ _ _ _ _ _ H2 H3 H4 H5))]; intros A; auto.
  cbv beta. destruct (q5 A) as [B|]; cbn [obind]; auto. destruct (q4 B) as [C|]; cbn [obind]; auto. apply bind_assoc.
Qed.
Lemma adjoint_seq5 len p1 p2 p3 p4 p5 q1 q2 q3 q4 q5 : adjoint len p1 q1 -> adjoint len p2 q2 -> adjoint len p3 q3 -> adjoint len p4 q4 -> adjoint len p5 q5 ->
  adjoint len (fun A => do A <- p1 A; do A <- p2 A; do A <- p3 A; do A <- p4 A; p5 A) (fun A => do A <- q5 A; do A <- q4 A; do A <- q3 A; do A <- q2 A; q1 A).
Proof.
  intros H1 H2 H3 H4 H5. eapply adjoint_ext; [| |exact (adjoint_seq _ _ _ _ _ H1 (adjoint_seq4 _ _ _ _ _ _ _ _ _ H2 H3 H4 H5))]; intros A; auto.
  cbv beta. destruct (q5 A) as [B|]; cbn [obind]; auto. destruct (q4 B) as [C|]; cbn [obind]; auto. apply bind_assoc.
Qed.

Hypothesis HMN : 0 < M <= N.
Variables nm nmt : list R -> option (list R).
Hypotheses (NI : inverse (N * M) nm nmt) (NA : adjoint (N * M) nm nm) (NAt : adjoint (N * M) nmt nmt).
Lemma tri_inverse_gen c0 c1 t : inverse (N * M) (tri2cheb BL hi lo nm c0 c1 P0 P1 t N M) (cheb2tri BL hi lo nmt c0 c1 Q0 Q1 t N M).
Proof.
  assert (I1M : inverse_of M (utri N P1) (utri N Q1)) by (apply utri_leading; auto; lia).
  unfold tri2cheb, cheb2tri. destruct t; apply inverse_seq4; auto.
  - apply inverse_guard. intros _. now apply right_inverse.
  - apply inverse_guard. intros _. now apply left_inverse.
  - now apply inverse_sym.
  - apply inverse_guard. intros _. now apply left_inverse.
  - apply inverse_guard. intros _. now apply right_inverse.
Qed.
Lemma tri_adjoint_gen c0 c1 : adjoint (N * M) (tri2cheb BL hi lo nm c0 c1 P0 P1 false N M) (tri2cheb BL hi lo nm c0 c1 P0 P1 true N M).
Proof.
  unfold tri2cheb. apply adjoint_seq4; auto.
  - apply adjoint_guard. intros _. now apply (left_adjoint false).
  - apply adjoint_guard. intros _. now apply (right_adjoint true).
Qed.
Lemma tri_inv_adjoint_gen c0 c1 : adjoint (N * M) (cheb2tri BL hi lo nmt c0 c1 Q0 Q1 false N M) (cheb2tri BL hi lo nmt c0 c1 Q0 Q1 true N M).
Proof.
  unfold cheb2tri. apply adjoint_seq4; auto.
  - apply adjoint_guard. intros _. now apply (right_adjoint true).
  - apply adjoint_guard. intros _. now apply (left_adjoint false).
  - now apply adjoint_sym.
Qed.

(** *** rectangularised disk *)
Variables P2 Q2 : list R.
Hypotheses (L2 : zlen P2 = N * N) (K2 : zlen Q2 = N * N) (I2 : inverse_of N (utri N P2) (utri N Q2)).
Definition pairop t T0 T1 (A : list R) := do A <- dtrmm_left BL t N ((M + 1) / 2) T0 N A 0 (2 * N); dtrmm_left BL t N (M / 2) T1 N A N (2 * N).
Lemma pair_inverse t : inverse (N * M) (pairop t P0 P1) (pairop t Q0 Q1).
Proof.
  replace (N * M) with (1 * N * M) by ring. eapply is_mode_inverse; [lia|lia| |apply pair_mode; auto|apply pair_mode; auto].
  intros z Hz. cbv beta. apply inverse_of_op. unfold sel2. destruct (z mod 2 =? 0); auto.
Qed.
Lemma pair_adjoint t T0 T1 : zlen T0 = N * N -> zlen T1 = N * N -> adjoint (N * M) (pairop t T0 T1) (pairop (negb t) T0 T1).
Proof.
  intros. replace (N * M) with (1 * N * M) by ring. eapply is_mode_adjoint; [lia|lia|lia|apply pair_mode; auto|].
  eapply is_mode_ext; [|apply pair_mode; auto]. intros. cbv beta. now rewrite transp_op.
Qed.
Lemma rect_unfold t A : rectdisk2cheb BL hi lo P0 P1 P2 t N M A =
  if t then do A <- dtrmm_right BL false N M P2 N A 0 N; do A <- pairop true P0 P1 A; lo A
  else do A <- hi A; do A <- pairop false P0 P1 A; dtrmm_right BL true N M P2 N A 0 N.
Proof.
  unfold rectdisk2cheb, pairop. destruct t;
  match goal with |- (do A <- ?x; _) = _ => destruct x as [B|]; auto end; cbn [obind];
  match goal with |- (do A <- ?x; _) = _ => destruct x as [C|]; auto end.
Qed.
Lemma rect_unfold' t A : cheb2rectdisk BL hi lo Q0 Q1 Q2 t N M A =
  if t then do A <- hi A; do A <- pairop true Q0 Q1 A; dtrmm_right BL false N M Q2 N A 0 N
  else do A <- dtrmm_right BL true N M Q2 N A 0 N; do A <- pairop false Q0 Q1 A; lo A.
Proof.
  unfold cheb2rectdisk, pairop. destruct t;
  match goal with |- (do A <- ?x; _) = _ => destruct x as [B|]; auto end; cbn [obind];
  match goal with |- (do A <- ?x; _) = _ => destruct x as [C|]; auto end.
Qed.
Lemma rect_inverse_gen t : inverse (N * M) (rectdisk2cheb BL hi lo P0 P1 P2 t N M) (cheb2rectdisk BL hi lo Q0 Q1 Q2 t N M).
Proof.
  assert (I2M : inverse_of M (utri N P2) (utri N Q2)) by (apply utri_leading; auto; lia).
  eapply inverse_ext; [intros A; symmetry; apply rect_unfold|intros A; symmetry; apply rect_unfold'|].
  destruct t; apply inverse_seq3; auto using pair_inverse.
  - now apply right_inverse. - now apply inverse_sym. - now apply right_inverse.
Qed.
Lemma rect_adjoint_gen : adjoint (N * M) (rectdisk2cheb BL hi lo P0 P1 P2 false N M) (rectdisk2cheb BL hi lo P0 P1 P2 true N M).
Proof.
  eapply adjoint_ext; [intros A; symmetry; apply rect_unfold|intros A; symmetry; apply rect_unfold|].
  apply adjoint_seq3; auto. - now apply (pair_adjoint false). - now apply (right_adjoint true).
Qed.
Lemma rect_inv_adjoint_gen : adjoint (N * M) (cheb2rectdisk BL hi lo Q0 Q1 Q2 false N M) (cheb2rectdisk BL hi lo Q0 Q1 Q2 true N M).
Proof.
  eapply adjoint_ext; [intros A; symmetry; apply rect_unfold'|intros A; symmetry; apply rect_unfold'|].
  apply adjoint_seq3; auto. - now apply (right_adjoint true). - now apply (pair_adjoint false). - now apply adjoint_sym.
Qed.
End Generic.

(** ** annulus *)
Section Ann.
Variable BL : blas R.
Hypothesis OK : blas_ok BL.
Variables (N M : Z).
Hypotheses (HN : 0 < N) (HM : 0 <= M).
Variables hi lo : list R -> option (list R).
Hypothesis HINV : inverse (N * M) hi lo.
Hypothesis HADJ : adjoint (N * M) hi lo.
Variables R0 R1 : tbanded R.
Hypotheses (T0 : tb_ok R0) (T1 : tb_ok R1) (N0 : tb_n R0 = N) (N1 : tb_n R1 = N).
Hypotheses (D0 : nonzero_diag N (tb_mat R0)) (D1 : nonzero_diag N (tb_mat R1)).
Variables P0 Q0 : list R.
Hypotheses (L0 : zlen P0 = N * N) (K0 : zlen Q0 = N * N).
Definition RU t := sel4 (op t (tb_mat R0)) (op t (tb_mat R1)) (op t (tb_mat R1)) (op t (tb_mat R0)).
Lemma mpmv_col t (Rm : tbanded R) : tb_ok Rm -> tb_n Rm = N -> nonzero_diag N (tb_mat Rm) -> colfun true N (op t (tb_mat Rm)) (mpmv t 0 Rm Rm).
Proof. intros H1 H2 H3 x o Hx. cbn. rewrite <- H2 in Hx, H3 |- *. apply tbsv_proof; assumption. Qed.
Lemma mpsv_col t (Rm : tbanded R) : tb_ok Rm -> tb_n Rm = N -> colfun false N (op t (tb_mat Rm)) (mpsv t 0 Rm Rm).
Proof. intros H1 H2 x o Hx. cbn. rewrite <- H2 in Hx |- *. apply tbmv_proof; assumption. Qed.
Lemma quadm_solve t : is_comode 1 N M (RU t) (quadm (mpmv t 0 R0 R0) (mpmv t 0 R1 R1) N M).
Proof. intros A LA. rewrite Z.mul_1_l in LA. apply (quadm_lines true); auto using mpmv_col. Qed.
Lemma quadm_mul t : is_mode 1 N M (RU t) (quadm (mpsv t 0 R0 R0) (mpsv t 0 R1 R1) N M).
Proof. intros A LA. rewrite Z.mul_1_l in LA. apply (quadm_lines false); auto using mpsv_col. Qed.
Lemma RU_tri t z : upper_tri N (RU t z) \/ lower_tri N (RU t z).
Proof. unfold RU, sel4. destruct (z mod 4 =? 0), (z mod 4 =? 1), (z mod 4 =? 2); apply op_tri; left; apply tb_upper. Qed.
Lemma RU_diag t z : nonzero_diag N (RU t z).
Proof. unfold RU, sel4. destruct (z mod 4 =? 0), (z mod 4 =? 1), (z mod 4 =? 2); now apply op_diag. Qed.
Lemma quadm_inverse t : inverse (N * M) (quadm (mpmv t 0 R0 R0) (mpmv t 0 R1 R1) N M) (quadm (mpsv t 0 R0 R0) (mpsv t 0 R1 R1) N M).
Proof.
  intros X LX. split.
  - destruct (quadm_solve t X) as (X1 & E1 & M1). lia. pose proof M1 as (LL & _ & _).
    destruct (quadm_mul t X1 LL) as (X2 & E2 & M2). exists X1. split; auto. split; [lia|]. rewrite E2. f_equal.
    eapply mode_fun; [| |exact M2|exact M1]; lia.
  - destruct (quadm_mul t X) as (X1 & E1 & M1). lia. pose proof M1 as (_ & LL & _).
    destruct (quadm_solve t X1 LL) as (X2 & E2 & M2). exists X1. split; auto. split; [lia|]. rewrite E2. f_equal.
    destruct M1 as (A1 & A2 & A3), M2 as (B1 & B2 & B3). apply (entry_ext 1 N M); try lia; auto.
    intros x y z Hx Hy Hz. apply (tri_unique N (RU t z) (fun k => entry 1 N X2 x k z) (fun k => entry 1 N X x k z)); auto.
    + apply RU_tri. + apply RU_diag.
    + intros i Hi. unfold matvec. rewrite <- A3, <- B3; auto.
Qed.
Lemma RU_negb t z i k : transp (RU t z) i k = RU (negb t) z i k.
Proof. unfold RU, sel4. destruct t, (z mod 4 =? 0), (z mod 4 =? 1), (z mod 4 =? 2); reflexivity. Qed.
Lemma quadm_solve_adjoint : adjoint (N * M) (quadm (mpmv false 0 R0 R0) (mpmv false 0 R1 R1) N M) (quadm (mpmv true 0 R0 R0) (mpmv true 0 R1 R1) N M).
Proof.
  replace (N * M) with (1 * N * M) by ring. eapply is_comode_adjoint; [lia|lia|lia|apply quadm_solve|].
  intros X LX. destruct (quadm_solve true X LX) as (X' & E & M1 & M2 & M3). exists X'. split; auto. split; [auto|split; [auto|]].
  intros. rewrite M3 by auto. apply sumZ_ext. intros. now rewrite RU_negb.
Qed.
Lemma quadm_mul_adjoint : adjoint (N * M) (quadm (mpsv false 0 R0 R0) (mpsv false 0 R1 R1) N M) (quadm (mpsv true 0 R0 R0) (mpsv true 0 R1 R1) N M).
Proof.
  replace (N * M) with (1 * N * M) by ring. eapply is_mode_adjoint; [lia|lia|lia|apply quadm_mul|].
  eapply is_mode_ext; [|apply quadm_mul]. intros. now rewrite RU_negb.
Qed.
Lemma ann_adjoint_gen : adjoint (N * M) (ann2cxf BL hi lo R0 R1 P0 false N M) (ann2cxf BL hi lo R0 R1 P0 true N M).
Proof. unfold ann2cxf. apply adjoint_seq3; auto using quadm_solve_adjoint. now apply (left_adjoint BL OK N M HN HM false). Qed.
Lemma ann_inv_adjoint_gen : adjoint (N * M) (cxf2ann BL hi lo R0 R1 Q0 false N M) (cxf2ann BL hi lo R0 R1 Q0 true N M).
Proof. unfold cxf2ann. apply adjoint_seq3; auto using quadm_mul_adjoint. - now apply (left_adjoint BL OK N M HN HM false). - now apply adjoint_sym. Qed.
Hypothesis I0 : inverse_of N (utri N P0) (utri N Q0).
Lemma ann_inverse_gen t : inverse (N * M) (ann2cxf BL hi lo R0 R1 P0 t N M) (cxf2ann BL hi lo R0 R1 Q0 t N M).
Proof.
  unfold ann2cxf, cxf2ann. destruct t; apply inverse_seq3; auto using quadm_inverse.
  - now apply left_inverse. - now apply inverse_sym. - now apply left_inverse.
Qed.
End Ann.

(** ** tetrahedron *)
Section Tet.
Variable BL : blas R.
Hypothesis OK : blas_ok BL.
Variables (N L : Z).
Hypotheses (HN : 0 < N) (HL : 0 < L <= N).
Notation len := (N * L * N).
Variables hi lo nm nmt : list R -> option (list R).
Hypotheses (HINV : inverse len hi lo) (HADJ : adjoint len hi lo).
Hypotheses (NI : inverse len nm nmt) (NA : adjoint len nm nm) (NAt : adjoint len nmt nmt).
Variables P0 P1 P2 Q0 Q1 Q2 : list R.
Hypotheses (L0 : zlen P0 = N * N) (L1 : zlen P1 = N * N) (L2 : zlen P2 = N * N) (K0 : zlen Q0 = N * N) (K1 : zlen Q1 = N * N) (K2 : zlen Q2 = N * N).
Lemma d1_adjoint t T : zlen T = N * N -> adjoint len (dim1 BL t T N L N) (dim1 BL (negb t) T N L N).
Proof.
  intros. replace len with (1 * N * (L * N)) by ring. eapply is_mode_adjoint; [lia|lia|nia|apply dim1_mode; auto; lia|].
  eapply is_mode_ext; [|apply dim1_mode; auto; lia]. intros. cbv beta. now rewrite transp_op.
Qed.
Lemma d2_adjoint t T : zlen T = N * N -> adjoint len (dim2 BL t T N L N) (dim2 BL (negb t) T N L N).
Proof.
  intros. eapply is_mode_adjoint; [lia|lia|lia|apply dim2_mode; auto; lia|].
  eapply is_mode_ext; [|apply dim2_mode; auto; lia]. intros. cbv beta. unfold transp. now destruct t.
Qed.
Lemma d3_adjoint t T : zlen T = N * N -> adjoint len (dim3 BL t T N L) (dim3 BL (negb t) T N L).
Proof.
  intros. replace len with (N * L * N * 1) by ring. eapply is_mode_adjoint; [nia|lia|lia|apply dim3_mode; auto; lia|].
  eapply is_mode_ext; [|apply dim3_mode; auto; lia]. intros. cbv beta. now rewrite transp_op.
Qed.
Lemma tet_adjoint_gen c0 c1 c2 : adjoint len (tet2cheb BL hi lo nm c0 c1 c2 P0 P1 P2 false N L N) (tet2cheb BL hi lo nm c0 c1 c2 P0 P1 P2 true N L N).
Proof.
  unfold tet2cheb. apply adjoint_seq5; auto.
  - apply adjoint_guard. intros _. now apply (d1_adjoint false).
  - apply adjoint_guard. intros _. now apply (d2_adjoint true).
  - apply adjoint_guard. intros _. now apply (d3_adjoint true).
Qed.
Lemma tet_inv_adjoint_gen c0 c1 c2 : adjoint len (cheb2tet BL hi lo nmt c0 c1 c2 Q0 Q1 Q2 false N L N) (cheb2tet BL hi lo nmt c0 c1 c2 Q0 Q1 Q2 true N L N).
Proof.
  unfold cheb2tet. apply adjoint_seq5; auto.
  - apply adjoint_guard. intros _. now apply (d3_adjoint true).
  - apply adjoint_guard. intros _. now apply (d2_adjoint true).
  - apply adjoint_guard. intros _. now apply (d1_adjoint false).
  - now apply adjoint_sym.
Qed.
Hypotheses (I0 : inverse_of N (utri N P0) (utri N Q0)) (I1 : inverse_of N (utri N P1) (utri N Q1)) (I2 : inverse_of N (utri N P2) (utri N Q2)).
Lemma d1_inverse t : inverse len (dim1 BL t P0 N L N) (dim1 BL t Q0 N L N).
Proof.
  replace len with (1 * N * (L * N)) by ring. eapply is_mode_inverse; [lia|nia| |apply dim1_mode; auto; lia|apply dim1_mode; auto; lia].
  intros z Hz. now apply inverse_of_op.
Qed.
Lemma d2_inverse t : inverse len (dim2 BL t P1 N L N) (dim2 BL t Q1 N L N).
Proof.
  eapply is_mode_inverse; [lia|lia| |apply dim2_mode; auto; lia|apply dim2_mode; auto; lia].
  intros z Hz. apply inverse_of_transp. apply inverse_of_op. apply utri_leading; auto; lia.
Qed.
Lemma d3_inverse t : inverse len (dim3 BL t P2 N L) (dim3 BL t Q2 N L).
Proof.
  replace len with (N * L * N * 1) by ring. eapply is_mode_inverse; [lia|lia| |apply dim3_mode; auto; lia|apply dim3_mode; auto; lia].
  intros z Hz. now apply inverse_of_op.
Qed.
Lemma tet_inverse_gen c0 c1 c2 t : inverse len (tet2cheb BL hi lo nm c0 c1 c2 P0 P1 P2 t N L N) (cheb2tet BL hi lo nmt c0 c1 c2 Q0 Q1 Q2 t N L N).
Proof.
  unfold tet2cheb, cheb2tet. destruct t; apply inverse_seq5; auto; try (apply inverse_guard; intros _);
    auto using d1_inverse, d2_inverse, d3_inverse. now apply inverse_sym.
Qed.
End Tet.

(** ** spin-weighted sphere *)
Lemma complexify_ok N P : 0 <= N -> zlen P = N * N -> exists C, complexify N P = Some C /\ zreal N C /\
  forall i j, 0 <= i < N -> 0 <= j < N -> creal N C i j = utri N P i j.
Proof.
  intros HN LP. unfold complexify.
  destruct (for_up_inv (fun k C => zlen C = 2 * (N * N) /\ (forall p, 0 <= p < N * N -> nthZ 0%R C (2 * p + 1) = 0%R) /\ (forall p, 0 <= p < k -> nthZ 0%R C (2 * p) = nthZ 0%R P p)) 0 (N * N)
    (fun i C => do x <- zget P i; zset C (2 * i) x) (zmake (2 * (N * N)) zero)) as (C & E & LC & H1 & H2).
  - nia.
  - split; [apply zlen_zmake; nia|]. split; [|lia]. intros p Hp. apply nthZ_zmake. lia.
  - intros k C Hk (LC & H1 & H2). rewrite (zget_nthZ 0%R P k) by lia. cbn [obind]. rewrite zset_some by lia.
    eexists. split; [reflexivity|]. split; [rewrite zlen_zupd; auto|]. split.
    + intros p Hp. rewrite nthZ_zupd_other by lia. auto.
    + intros p Hp. destruct (Z.eq_dec p k) as [->|]; [rewrite nthZ_zupd_same by lia; auto|]. rewrite nthZ_zupd_other by lia. apply H2. lia.
  - exists C. split; auto. split.
    + split; auto. intros i j Hi Hj. apply H1. pose proof (idx2 i j N N). lia.
    + intros i j Hi Hj. unfold creal, utri, mat. destruct (i <=? j); auto. rewrite H2; [f_equal; lia|]. pose proof (idx2 i j N N). lia.
Qed.
Section Spin.
Variable BL : blas R.
Hypothesis OK : blas_ok BL.
Variables (N M s : Z).
Hypotheses (HN : 0 < N) (HM : 0 <= M).
Notation len := (2 * N * M).
Variables hi lo : list R -> option (list R).
Hypotheses (HINV : inverse len hi lo) (HADJ : adjoint len hi lo).
Variables P1 P2 Q1 Q2 : list R.
Hypotheses (L1 : zreal N P1) (L2 : zreal N P2) (K1 : zreal N Q1) (K2 : zreal N Q2).
Definition ZU t (A1 A2 : list R) z := op t (creal N (if Z.rem s 2 =? 0 then sel4 A1 A2 A2 A1 z else sel4 A2 A1 A1 A2 z)).
Lemma zquad_s_mode t A1 A2 : zreal N A1 -> zreal N A2 -> is_mode 2 N M (ZU t A1 A2) (zquad_s BL s t A1 A2 N M).
Proof. intros. unfold zquad_s, ZU. destruct (Z.rem s 2 =? 0); apply zquad_mode; auto. Qed.
Lemma zquad_s_adjoint t A1 A2 : zreal N A1 -> zreal N A2 -> adjoint len (zquad_s BL s t A1 A2 N M) (zquad_s BL s (negb t) A1 A2 N M).
Proof.
  intros. eapply is_mode_adjoint; [lia|lia|lia|apply zquad_s_mode; auto|]. eapply is_mode_ext; [|apply zquad_s_mode; auto].
  intros. unfold ZU. now rewrite transp_op.
Qed.
Lemma spin_adjoint_gen : adjoint len (spinsph2fourier BL hi lo s P1 P2 false N M) (spinsph2fourier BL hi lo s P1 P2 true N M).
Proof. unfold spinsph2fourier. apply adjoint_seq; auto. now apply (zquad_s_adjoint false). Qed.
Lemma spin_inv_adjoint_gen : adjoint len (fourier2spinsph BL hi lo s Q1 Q2 false N M) (fourier2spinsph BL hi lo s Q1 Q2 true N M).
Proof. unfold fourier2spinsph. apply adjoint_seq; [now apply (zquad_s_adjoint false)|now apply adjoint_sym]. Qed.
Hypotheses (I1 : inverse_of N (creal N P1) (creal N Q1)) (I2 : inverse_of N (creal N P2) (creal N Q2)).
Lemma spin_inverse_gen t : inverse len (spinsph2fourier BL hi lo s P1 P2 t N M) (fourier2spinsph BL hi lo s Q1 Q2 t N M).
Proof.
  assert (HQ : inverse len (zquad_s BL s t P1 P2 N M) (zquad_s BL s t Q1 Q2 N M)).
  { eapply is_mode_inverse; [lia|lia| |apply zquad_s_mode; auto|apply zquad_s_mode; auto].
    intros z Hz. unfold ZU. apply inverse_of_op. unfold sel4. destruct (Z.rem s 2 =? 0), (z mod 4 =? 0), (z mod 4 =? 1), (z mod 4 =? 2); auto. }
  unfold spinsph2fourier, fourier2spinsph. destruct t; apply inverse_seq; auto. now apply inverse_sym.
Qed.
End Spin.
