(** * Proofs: eigenvalues and eigenvectors of 2x2-block triangular pencils *)
From Coq Require Import ZArith List Lia Bool ZifyBool ZifyNat Reals Lra.
From Verif Require Import Arith Base BaseFacts SpecSum PSum SpecLin MBanded SpecBanded PBand PTri PTri2 MHier MEig MButter SpecButter MBlock SpecBlock PBlock PBlock2.
Import ListNotations.
Open Scope Z_scope.

(** ** Quadratics *)
Section Quadratic.
Open Scope R_scope.
Lemma sqrt_sq d : 0 <= d -> sqrt d * sqrt d = d. Proof. apply sqrt_sqrt. Qed.
Lemma quadratic_some (a b c : R) : a <> 0 -> (exists x, x <> 0 /\ a * (x * x) + b * x + c = 0) ->
  exists l1 l2, real_quadratic_formula a b c = Some (l1, l2) /\ l1 <= l2 /\ forall x, a * (x * x) + b * x + c = a * (x - l1) * (x - l2).
Proof.
  intros Ha (x0 & Hx0 & E0).
  assert (Ed : b * b - 4 * a * c = (2 * a * x0 + b) * (2 * a * x0 + b)). { replace c with (- (a * (x0 * x0) + b * x0)) by lra. ring. }
  assert (Hd : 0 <= b * b - 4 * a * c) by (rewrite Ed; apply Rle_0_sqr).
  assert (Hbc : ~ (b = 0 /\ c = 0)). { intros [-> ->]. assert (a * (x0 * x0) = 0) by lra. apply Rmult_integral in H as [|H]; [contradiction|]. apply Rmult_integral in H as [|]; contradiction. }
  unfold real_quadratic_formula. cbn [sub mul ofZ ltb zero sqrtA div opp add R_arith].
  change (IZR 4) with 4. change (IZR 2) with 2. change (IZR (-2)) with (-2).
  set (D := b * b - 4 * a * c) in *. unfold R_ltb. destruct (Rlt_dec D 0) as [|_]; [lra|].
  pose proof (sqrt_pos D) as Hs. pose proof (sqrt_sq D Hd) as Hq. set (s := sqrt D) in *.
  assert (Hk : a * c = (b * b - s * s) / 4) by (rewrite Hq; unfold D; field).
  assert (Pos : b <= 0 -> 0 < s - b).
  { intros Hb. destruct (Rle_lt_dec (s - b) 0) as [Hle|]; auto. exfalso. assert (s = 0) by lra. assert (b = 0) by lra. apply Hbc. split; auto.
    assert (a * c = 0) by (rewrite Hk, H, H0; lra). apply Rmult_integral in H1 as [|]; [contradiction|auto]. }
  (* the two roots *)
  assert (R1 : forall t, t <> 0 -> t = b + s -> -2 * c / t = (- b + s) / (2 * a)).
  { intros t Ht ->. apply (Rmult_eq_reg_r ((b + s) * (2 * a))); [|apply Rmult_integral_contrapositive; split; lra].
    replace (-2 * c / (b + s) * ((b + s) * (2 * a))) with (-4 * (a * c)) by (field; auto). rewrite Hk. field. lra. }
  assert (R2 : forall t, t <> 0 -> t = s - b -> 2 * c / t = (- b - s) / (2 * a)).
  { intros t Ht ->. apply (Rmult_eq_reg_r ((s - b) * (2 * a))); [|apply Rmult_integral_contrapositive; split; lra].
    replace (2 * c / (s - b) * ((s - b) * (2 * a))) with (4 * (a * c)) by (field; auto). rewrite Hk. field. lra. }
  assert (F : forall x, a * (x * x) + b * x + c = a * (x - (- b - s) / (2 * a)) * (x - (- b + s) / (2 * a))).
  { intros x. apply (Rmult_eq_reg_r a); auto. replace ((a * (x * x) + b * x + c) * a) with (a * a * (x * x) + a * b * x + a * c) by ring. rewrite Hk. field. auto. }
  destruct (Rlt_dec 0 a) as [Pa|Na].
  - assert (Ord : (- b - s) / (2 * a) <= (- b + s) / (2 * a)). { unfold Rdiv. apply Rmult_le_compat_r; [|lra]. apply Rlt_le, Rinv_0_lt_compat. lra. }
    destruct (Rlt_dec 0 b).
    + eexists _, _. split; [reflexivity|]. rewrite (R1 (b + s)) by lra. replace (- (b + s) / (2 * a)) with ((- b - s) / (2 * a)) by (field; auto). split; auto.
    + eexists _, _. split; [reflexivity|]. pose proof (Pos ltac:(lra)). rewrite (R2 (s - b)) by lra. replace ((s - b) / (2 * a)) with ((- b + s) / (2 * a)) by (field; auto). split; auto.
  - destruct (Rlt_dec a 0) as [La|]; [|lra].
    assert (Ord : (- b + s) / (2 * a) <= (- b - s) / (2 * a)). { unfold Rdiv. apply Rmult_le_compat_neg_l with (r := / (2 * a)) in Hs; [|apply Rlt_le, Rinv_lt_0_compat; lra]. rewrite Rmult_0_r in Hs. replace ((- b + s) * / (2 * a)) with (- b * / (2 * a) + / (2 * a) * s) by ring. replace ((- b - s) * / (2 * a)) with (- b * / (2 * a) - / (2 * a) * s) by ring. lra. }
    destruct (Rlt_dec 0 b).
    + eexists _, _. split; [reflexivity|]. rewrite (R1 (b + s)) by lra. replace (- (b + s) / (2 * a)) with ((- b - s) / (2 * a)) by (field; auto). split; auto. intros x. rewrite F. ring.
    + eexists _, _. split; [reflexivity|]. pose proof (Pos ltac:(lra)). rewrite (R2 (s - b)) by lra. replace ((s - b) / (2 * a)) with ((- b + s) / (2 * a)) by (field; auto). split; auto. intros x. rewrite F. ring.
Qed.
Lemma quadratic_none (a b c : R) : (forall x, a * (x * x) + b * x + c <> 0) -> real_quadratic_formula a b c = None.
Proof.
  intros H. unfold real_quadratic_formula. cbn [sub mul ofZ ltb zero sqrtA div opp add R_arith]. unfold R_ltb. change (IZR 4) with 4.
  destruct (Rlt_dec (b * b - 4 * a * c) 0) as [|Hd]; auto.
  destruct (Req_dec a 0) as [->|Ha]. { destruct (Rlt_dec 0 0); [lra|]. reflexivity. }
  exfalso. apply Rnot_lt_le in Hd. apply (H ((- b + sqrt (b * b - 4 * a * c)) / (2 * a))). pose proof (sqrt_sq _ Hd) as Hq. set (s := sqrt _) in *.
  assert (Hc : c = (b * b - s * s) / (4 * a)) by (rewrite Hq; field; auto). rewrite Hc. field. auto.
Qed.
End Quadratic.
Definition pencil2 (A B : Z -> Z -> R) (l : R) (i k : Z) : R := (A i k - l * B i k)%R.
Lemma gen_eig_some A B j : det2 B j <> 0%R -> (exists l, l <> 0%R /\ pencil_det2 A B l j = 0%R) ->
  exists l1 l2, generalized_eigenvalues_2x2 (blk A j j) (blk B j j) = Some (l1, l2) /\ (l1 <= l2)%R /\ forall l, pencil_det2 A B l j = (det2 B j * (l - l1) * (l - l2))%R.
Proof.
  intros Hd (l & Hl & E). unfold generalized_eigenvalues_2x2, blk. cbn [m00 m01 m10 m11 sub mul add R_arith]. fold (det2 B j).
  match goal with |- context [real_quadratic_formula ?a ?b ?c] => destruct (quadratic_some a b c) as (l1 & l2 & E1 & O & G) end.
  - exact Hd.
  - exists l. split; auto. rewrite <- E. unfold pencil_det2, det2. ring.
  - exists l1, l2. split; auto. split; auto. intros x. rewrite <- G. unfold pencil_det2, det2. ring.
Qed.
Lemma gen_eig_none A B j : (forall l, pencil_det2 A B l j <> 0%R) -> generalized_eigenvalues_2x2 (blk A j j) (blk B j j) = None.
Proof.
  intros H. unfold generalized_eigenvalues_2x2, blk. cbn [m00 m01 m10 m11 sub mul add R_arith]. apply quadratic_none. intros x E. apply (H x). rewrite <- E. unfold pencil_det2, det2. ring.
Qed.
Lemma btband_eigenvalues_proof A B lambda : bt_ok A -> bt_ok B -> bt_n B = bt_n A -> fits 0 (2 * bt_n A) lambda ->
  (forall j, 0 <= j < bt_n A -> det2 (bt_mat B) j <> 0%R /\ exists l, l <> 0%R /\ pencil_det2 (bt_mat A) (bt_mat B) l j = 0%R) ->
  exists lambda', btband_eigenvalues A B lambda = Some lambda' /\ zlen lambda' = zlen lambda /\ (forall p, 2 * bt_n A <= p -> zget lambda' p = zget lambda p) /\
    forall j, 0 <= j < bt_n A -> generalized_eigenvalues_2x2 (blk (bt_mat A) j j) (blk (bt_mat B) j j) = Some (vec 0 lambda' (2 * j), vec 0 lambda' (2 * j + 1)) /\
      (vec 0 lambda' (2 * j) <= vec 0 lambda' (2 * j + 1))%R /\
      forall l, pencil_det2 (bt_mat A) (bt_mat B) l j = (det2 (bt_mat B) j * (l - vec 0 lambda' (2 * j)%Z) * (l - vec 0 lambda' (2 * j + 1)%Z))%R.
Proof.
  intros HA HB HN HF Hj. destruct (bt_ok_n A HA) as [Hn _]. unfold btband_eigenvalues.
  match goal with |- context [for_up 0 _ ?f lambda] => destruct (for_up_inv (fun q l' => zlen l' = zlen lambda /\ (forall p, 2 * q <= p -> zget l' p = zget lambda p) /\
    forall j, 0 <= j < q -> generalized_eigenvalues_2x2 (blk (bt_mat A) j j) (blk (bt_mat B) j j) = Some (vec 0 l' (2 * j), vec 0 l' (2 * j + 1)) /\
      (vec 0 l' (2 * j) <= vec 0 l' (2 * j + 1))%R /\
      forall l, pencil_det2 (bt_mat A) (bt_mat B) l j = (det2 (bt_mat B) j * (l - vec 0 l' (2 * j)%Z) * (l - vec 0 l' (2 * j + 1)%Z))%R) 0 (bt_n A) f lambda) as [l' [E (L1 & O & G)]] end.
  - lia.
  - repeat split; auto; intros; lia.
  - intros j l1 Hq (L1 & O & G). rewrite !bt_get_val by (auto; lia). cbn [obind]. destruct (Hj j Hq) as [D R].
    destruct (gen_eig_some _ _ _ D R) as (e1 & e2 & E & Or & P). rewrite E. cbn [obind fst snd].
    destruct (set_pair_val l1 0 (bt_n A) j e1 e2) as (l2 & E2 & L2 & V0 & V1 & O2); [destruct HF; split; lia|lia|].
    exists l2. split; auto. split; [lia|split].
    + intros p Hp. rewrite <- (O p) by lia. apply (O2 p); lia.
    + intros i Hi. destruct (Z.eq_dec i j) as [->|].
      * rewrite V0, V1. auto.
      * unfold vec. rewrite !(fun k H => nthZ_zget 0%R l2 (0 + k) (nthZ 0%R l1 (0 + k)) H) by (rewrite O2 by lia; apply zget_nthZ; destruct HF; lia). apply G. lia.
  - exists l'. split; auto.
Qed.
Lemma for_up_none {S} lo hi j (body : Z -> S -> option S) s : lo <= j < hi -> (forall s, body j s = None) -> for_up lo hi body s = None.
Proof.
  intros Hj Hb. assert (H : forall m hi, hi - j = Z.of_nat m -> j < hi -> for_up lo hi body s = None).
  { induction m; intros h Hh Hlt; [lia|]. rewrite for_up_last by lia. destruct (Z.eq_dec (h - 1) j) as [->|].
    - destruct (for_up lo j body s); cbn [obind]; auto.
    - rewrite (IHm (h - 1)) by lia. reflexivity. }
  apply (H (Z.to_nat (hi - j))); lia.
Qed.
Lemma btband_eigenvalues_complex A B lambda j : bt_ok A -> bt_ok B -> bt_n B = bt_n A -> 0 <= j < bt_n A ->
  (forall l, pencil_det2 (bt_mat A) (bt_mat B) l j <> 0%R) -> btband_eigenvalues A B lambda = None.
Proof.
  intros HA HB HN Hj Hc. unfold btband_eigenvalues. apply (for_up_none 0 (bt_n A) j); auto. intros s.
  rewrite !bt_get_val by (auto; lia). cbn [obind]. rewrite gen_eig_none by auto. reflexivity.
Qed.

(** ** Eigenvectors *)
Section Vectors.
Variables (A B : btband R).
Hypothesis HA : bt_ok A.
Hypothesis HB : bt_ok B.
Hypothesis HN : bt_n B = bt_n A.
Let n := bt_n A.
Let bnd := Z.max (bt_b A) (bt_b B).
Let W l := pencil2 (bt_mat A) (bt_mat B) l.
Lemma W_upper l : is_block_upper n (W l).
Proof. intros i j Hi Hj Hl. unfold W, pencil2. rewrite (bt_block_upper A HA i j), (bt_block_upper B HB i j) by (rewrite ?HN; auto). ring. Qed.
Lemma W_band l i k p q : ~ (0 <= k - i <= bnd) -> p = 0 \/ p = 1 -> q = 0 \/ q = 1 -> W l (2 * i + p) (2 * k + q) = 0%R.
Proof. intros H Hp Hq. destruct (bt_ok_n A HA), (bt_ok_n B HB). unfold W, pencil2. rewrite !bt_mat_out by (auto; unfold bnd in H; lia). ring. Qed.
Lemma bt_diff_val l i k : 0 <= i -> k < n -> bt_diff A B l i k = Some (blk (W l) i k).
Proof. intros Hi Hk. unfold bt_diff. rewrite !bt_get_val by (auto; unfold n in Hk; lia). reflexivity. Qed.
Lemma blk_eig_val l o i V : 0 <= i < n -> fits o (2 * n) V -> det2 (W l) i <> 0%R ->
  exists V', blk_eig A B n bnd l o i V = Some V' /\ zlen V' = zlen V /\ (forall k, k <> 2 * i -> k <> 2 * i + 1 -> zget V' (o + k) = zget V (o + k)) /\
    forall p, p = 0 \/ p = 1 -> matvec (2 * n) (W l) (vec o V') (2 * i + p) = 0%R.
Proof.
  intros Hi HF Hd. destruct (bt_ok_n A HA) as [HnA HbA], (bt_ok_n B HB) as [HnB HbB]. assert (F0 := HF). destruct F0 as [F0 F1]. unfold blk_eig.
  set (hi := Z.min (i + bnd + 1) n). rewrite (blk_dot_val _ (W l) _ _ _ _ i); [| intros; apply bt_diff_val; unfold hi in *; lia | intros; unfold hi in *; lia].
  cbn [obind fst snd]. rewrite bt_diff_val by lia. cbn [obind].
  match goal with |- context [set_pair V o i ?t0 ?t1] => destruct (set_pair_val V o n i t0 t1 HF Hi) as (x' & E & L & V0 & V1 & O) end.
  exists x'. repeat split; auto. intros p Hp.
  rewrite matvec_blocks. rewrite (sumZ_pick n i) by auto.
  assert (Es : sumZ n (fun k => if k =? i then 0%R else brow p (W l) i k (vec o x')) = sumZ (hi - (i + 1)) (fun q => brow p (W l) i (i + 1 + q) (vec o V))).
  { rewrite (sumZ_window n (i + 1) hi).
    - apply sumZ_ext. intros q Hq. replace (i + 1 + q =? i) with false by lia. unfold brow. rewrite !(vec_ext V x') by (apply O; lia). reflexivity.
    - lia. - unfold hi; lia.
    - intros k Hk Hk2. destruct (Z.eqb_spec k i); auto. unfold brow. pose proof (W_band l i k p 0) as Z0. pose proof (W_band l i k p 1) as Z1. rewrite Z.add_0_r in Z0.
      rewrite Z0, Z1 by (auto; unfold hi in *; lia). lra. }
  rewrite Es. unfold brow at 1. rewrite V0, V1.
  set (S0 := sumZ (hi - (i + 1)) (fun q => brow 0 (W l) i (i + 1 + q) (vec o V))). set (S1 := sumZ (hi - (i + 1)) (fun q => brow 1 (W l) i (i + 1 + q) (vec o V))).
  destruct (inverse_2x2_val (W l) i S0 S1 Hd) as [X0 X1]. cbn [opp R_arith]. set (r0 := m2_row0 _ S0 S1) in *. set (r1 := m2_row1 _ S0 S1) in *.
  destruct Hp as [-> | ->].
  - rewrite Z.add_0_r. fold S0. rewrite <- X0 at 1. ring.
  - fold S1. rewrite <- X1 at 1. ring.
Qed.
(** rows that only see entries that did not change *)
Lemma matvec_keeps l q p (v w : Z -> R) : 0 <= q < n -> p = 0 \/ p = 1 -> (forall k, 2 * q <= k < 2 * n -> v k = w k) ->
  matvec (2 * n) (W l) v (2 * q + p) = matvec (2 * n) (W l) w (2 * q + p).
Proof.
  intros Hq Hp He. rewrite !matvec_blocks. apply sumZ_ext. intros k Hk. unfold brow. destruct (Z_lt_dec k q).
  - rewrite !W_upper by lia. ring.
  - rewrite !He by lia. reflexivity.
Qed.
Lemma two_columns j l1 l2 o1 o2 V : 0 <= j < n -> fits o1 (2 * n) V -> fits o2 (2 * n) V -> o2 = o1 + 2 * n ->
  (forall i, 0 <= i < j -> det2 (W l1) i <> 0%R /\ det2 (W l2) i <> 0%R) ->
  (forall q p, j <= q < n -> p = 0 \/ p = 1 -> matvec (2 * n) (W l1) (vec o1 V) (2 * q + p) = 0%R /\ matvec (2 * n) (W l2) (vec o2 V) (2 * q + p) = 0%R) ->
  exists V', for_dn (j - 1) 0 (fun i V => do V <- blk_eig A B n bnd l1 o1 i V; blk_eig A B n bnd l2 o2 i V) V = Some V' /\ zlen V' = zlen V /\
    (forall p, ~ (o1 <= p < o1 + 2 * j) -> ~ (o2 <= p < o2 + 2 * j) -> zget V' p = zget V p) /\
    forall q p, 0 <= q < n -> p = 0 \/ p = 1 -> matvec (2 * n) (W l1) (vec o1 V') (2 * q + p) = 0%R /\ matvec (2 * n) (W l2) (vec o2 V') (2 * q + p) = 0%R.
Proof.
  intros Hj H1 H2 Ho Hd H0.
  match goal with |- context [for_dn (j - 1) 0 ?f V] => destruct (for_dn_inv (fun i V' => zlen V' = zlen V /\
    (forall p, ~ (o1 <= p < o1 + 2 * j) -> ~ (o2 <= p < o2 + 2 * j) -> zget V' p = zget V p) /\
    forall q p, i < q < n -> p = 0 \/ p = 1 -> matvec (2 * n) (W l1) (vec o1 V') (2 * q + p) = 0%R /\ matvec (2 * n) (W l2) (vec o2 V') (2 * q + p) = 0%R) (j - 1) 0 f V) as [V' [E (L1 & O & G)]] end.
  - lia.
  - repeat split; auto; apply H0; auto; lia.
  - intros i V1 Hi (L1 & O & G). destruct H1 as [A0 A1], H2 as [B0 B1]. destruct (Hd i ltac:(lia)) as [D1 D2].
    destruct (blk_eig_val l1 o1 i V1) as (V2 & E2 & L2 & O2 & G2); [lia|split; lia|auto|]. rewrite E2. cbn [obind].
    destruct (blk_eig_val l2 o2 i V2) as (V3 & E3 & L3 & O3 & G3); [lia|split; lia|auto|].
    assert (K1 : forall k, 0 <= k < 2 * n -> vec o1 V3 k = vec o1 V2 k). { intros k Hk. unfold vec. apply vec_ext with (o := o1). replace (o1 + k) with (o2 + (k - 2 * n)) by lia. apply O3; lia. }
    assert (K2 : forall k, 0 <= k < 2 * n -> vec o2 V2 k = vec o2 V1 k). { intros k Hk. unfold vec. apply vec_ext with (o := o2). replace (o2 + k) with (o1 + (k + 2 * n)) by lia. apply O2; lia. }
    exists V3. split; auto. split; [lia|split].
    + intros p P1 P2. replace p with (o2 + (p - o2)) by lia. rewrite O3 by lia. replace (o2 + (p - o2)) with (o1 + (p - o1)) by lia. rewrite O2 by lia. replace (o1 + (p - o1)) with p by lia. auto.
    + intros q p Hq Hp. destruct (Z.eq_dec q i) as [->|].
      * split; [|now apply G3]. rewrite <- (G2 p Hp). apply matvec_keeps; auto; try lia. intros; apply K1; lia.
      * destruct (G q p) as [Ga Gb]; auto; try lia. split; [rewrite <- Ga | rewrite <- Gb]; apply matvec_keeps; auto; try lia.
        -- intros k Hk. rewrite K1 by lia. apply vec_ext. apply O2; lia.
        -- intros k Hk. rewrite <- K2 by lia. apply vec_ext. apply O3; lia.
  - exists V'. split; auto. split; auto. split; auto. intros q p Hq Hp. apply G; auto; lia.
Qed.
Lemma diag_column j l o V : 0 <= j < n -> pencil_det2 (bt_mat A) (bt_mat B) l j = 0%R -> W l (2 * j + 1) (2 * j + 1) <> 0%R ->
  vec o V (2 * j + 1) = eig_second (blk (bt_mat A) j j) (blk (bt_mat B) j j) l (vec o V (2 * j)) ->
  (forall k, 2 * j + 2 <= k < 2 * n -> vec o V k = 0%R) ->
  forall q p, j <= q < n -> p = 0 \/ p = 1 -> matvec (2 * n) (W l) (vec o V) (2 * q + p) = 0%R.
Proof.
  intros Hj Hdet Hne Hv Hz q p Hq Hp. rewrite matvec_blocks. destruct (Z.eq_dec q j) as [->|].
  - rewrite (sumZ_single n j); [|lia|intros k Hk Hkj; unfold brow; destruct (Z_lt_dec k j); [rewrite !W_upper by lia; ring | rewrite !Hz by lia; ring]].
    unfold brow. rewrite Hv. unfold eig_second, blk. cbn [m00 m01 m10 m11 mul sub div R_arith].
    fold (det2 (W l) j) in Hdet. change (det2 (W l) j = 0%R) in Hdet. unfold det2 in Hdet.
    assert (E : forall a b, W l a b = (bt_mat A a b - l * bt_mat B a b)%R) by reflexivity.
    set (v := vec o V (2 * j)).
    assert (En : ((bt_mat B (2 * j + 1)%Z (2 * j)%Z * l - bt_mat A (2 * j + 1)%Z (2 * j)%Z) = - W l (2 * j + 1)%Z (2 * j)%Z)%R) by (rewrite E; ring).
    assert (Ed : ((bt_mat A (2 * j + 1)%Z (2 * j + 1)%Z - bt_mat B (2 * j + 1)%Z (2 * j + 1)%Z * l) = W l (2 * j + 1)%Z (2 * j + 1)%Z)%R) by (rewrite E; ring).
    rewrite En, Ed. destruct Hp as [-> | ->]; rewrite ?Z.add_0_r.
    + apply (Rmult_eq_reg_r (W l (2 * j + 1) (2 * j + 1))); auto. rewrite Rmult_0_l.
      replace ((W l (2 * j)%Z (2 * j)%Z * v + W l (2 * j)%Z (2 * j + 1)%Z * (- W l (2 * j + 1)%Z (2 * j)%Z * v / W l (2 * j + 1)%Z (2 * j + 1)%Z)) * W l (2 * j + 1)%Z (2 * j + 1)%Z)%R
        with ((W l (2 * j)%Z (2 * j)%Z * W l (2 * j + 1)%Z (2 * j + 1)%Z - W l (2 * j)%Z (2 * j + 1)%Z * W l (2 * j + 1)%Z (2 * j)%Z) * v)%R by (field; auto).
      rewrite Hdet. ring.
    + field. auto.
  - apply sumZ_zero. intros k Hk. unfold brow. destruct (Z_lt_dec k q); [rewrite !W_upper by lia; ring | rewrite !Hz by lia; ring].
Qed.
End Vectors.
