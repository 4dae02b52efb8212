(** * Proofs: block banded and dense block-triangular multiply and solve *)
From Coq Require Import ZArith List Lia Bool ZifyBool ZifyNat Reals Lra.
From Verif Require Import Arith Base BaseFacts SpecSum PSum SpecLin MBanded SpecBanded PTri PTri2 PBandedThms MHier MEig MButter SpecButter MBlock SpecBlock PBlock.
Import ListNotations.
Open Scope Z_scope.

Lemma even_div i : (2 * i) / 2 = i. Proof. lia. Qed.
Lemma odd_div i : (2 * i + 1) / 2 = i. Proof. lia. Qed.
Lemma even_mod i : (2 * i) mod 2 = 0. Proof. lia. Qed.
Lemma odd_mod i : (2 * i + 1) mod 2 = 1. Proof. lia. Qed.
Lemma bt_mat_blk A i k : blk (bt_mat A) i k = M2 (tb_mat (bt00 A) i k) (tb_mat (bt01 A) i k) (tb_mat (bt10 A) i k) (tb_mat (bt11 A) i k).
Proof. unfold blk, bt_mat. rewrite !even_div, !odd_div, !even_mod, !odd_mod. reflexivity. Qed.
Lemma bt_get_val A i k : bt_ok A -> 0 <= i -> k < bt_n A -> bt_get A i k = Some (blk (bt_mat A) i k).
Proof.
  intros ((H0 & N0 & B0) & (H1 & N1 & B1) & (H2 & N2 & B2) & (H3 & N3 & B3)) Hi Hk. unfold bt_get.
  rewrite !tb_get_val by auto. rewrite N0, N1, N2, N3. replace ((0 <=? i) && (k <? bt_n A)) with true by lia. cbn [obind]. now rewrite bt_mat_blk.
Qed.
Lemma tb_mat_out T i k : ~ (0 <= k - i <= tb_b T) -> tb_mat T i k = 0%R.
Proof. intros H. unfold tb_mat. replace ((0 <=? k - i) && (k - i <=? tb_b T)) with false by lia. reflexivity. Qed.
Lemma bt_mat_out A i k p q : bt_ok A -> ~ (0 <= k - i <= bt_b A) -> p = 0 \/ p = 1 -> q = 0 \/ q = 1 -> bt_mat A (2 * i + p) (2 * k + q) = 0%R.
Proof.
  intros ((H0 & N0 & B0) & (H1 & N1 & B1) & (H2 & N2 & B2) & (H3 & N3 & B3)) H [-> | ->] [-> | ->]; rewrite ?Z.add_0_r; unfold bt_mat; rewrite ?even_div, ?odd_div, ?even_mod, ?odd_mod; cbn [Z.eqb Pos.eqb]; apply tb_mat_out; lia.
Qed.
Lemma bt_block_upper A : bt_ok A -> is_block_upper (bt_n A) (bt_mat A).
Proof. intros H i j Hi Hj Hl. replace i with (2 * (i / 2) + i mod 2) by lia. replace j with (2 * (j / 2) + j mod 2) by lia. apply bt_mat_out; auto; lia. Qed.
Lemma bt_ok_n {F} (A : btband F) : bt_ok A -> 0 <= bt_n A /\ 0 <= bt_b A.
Proof. intros (((H0 & H1 & H2) & N0 & B0) & _). lia. Qed.
Lemma bt_get_t_val A i k : bt_ok A -> 0 <= k -> i < bt_n A -> bt_get_t A i k = Some (blk (transp (bt_mat A)) i k).
Proof. intros H Hk Hi. unfold bt_get_t. rewrite bt_get_val by auto. reflexivity. Qed.

Lemma btbmv_proof A t x o : bt_ok A -> fits o (2 * bt_n A) x ->
  exists x', btbmv t A x o = Some x' /\ acts o (2 * bt_n A) x x' (isprod (2 * bt_n A) (op t (bt_mat A))).
Proof.
  intros HA HF. destruct (bt_ok_n A HA) as [Hn Hb]. unfold btbmv. destruct t; cbn [op].
  - apply blk_mul_dn; auto; try lia.
    + intros. apply bt_get_t_val; auto; lia.
    + intros. unfold transp. apply bt_mat_out; auto. lia.
  - apply blk_mul_up; auto; try lia.
    + intros. apply bt_get_val; auto; lia.
    + intros. apply bt_mat_out; auto. lia.
Qed.
Lemma inverse_2x2_val (U : Z -> Z -> R) i t0 t1 : det2 U i <> 0%R -> let b := inverse_2x2 (blk U i i) in
  (U (2 * i)%Z (2 * i)%Z * m2_row0 b t0 t1 + U (2 * i)%Z (2 * i + 1)%Z * m2_row1 b t0 t1 = t0)%R /\
  (U (2 * i + 1)%Z (2 * i)%Z * m2_row0 b t0 t1 + U (2 * i + 1)%Z (2 * i + 1)%Z * m2_row1 b t0 t1 = t1)%R.
Proof. intros H. unfold det2 in H. unfold inverse_2x2, blk, m2_row0, m2_row1. cbn [m00 m01 m10 m11 add sub mul div opp R_arith]. cbv zeta. split; field; exact H. Qed.
Lemma inverse_2x2_t (U : Z -> Z -> R) i : m2_t (inverse_2x2 (blk U i i)) = inverse_2x2 (blk (transp U) i i).
Proof. unfold m2_t, inverse_2x2, blk, transp. cbn [m00 m01 m10 m11 add sub mul div opp R_arith]. f_equal; f_equal; ring. Qed.
Lemma det2_transp U i : det2 (transp U) i = det2 U i.
Proof. unfold det2, transp. ring. Qed.
Lemma btbsv_proof A t x o : bt_ok A -> nonsingular_blocks (bt_n A) (bt_mat A) -> fits o (2 * bt_n A) x ->
  exists x', btbsv t A x o = Some x' /\ acts o (2 * bt_n A) x x' (fun v w => isprod (2 * bt_n A) (op t (bt_mat A)) w v).
Proof.
  intros HA Hd HF. destruct (bt_ok_n A HA) as [Hn Hb]. unfold btbsv. destruct t; cbn [op].
  - apply blk_sol_up; auto; try lia.
    + intros. apply bt_get_t_val; auto; lia.
    + intros. unfold transp. apply bt_mat_out; auto. lia.
    + intros i Hi. exists (blk (bt_mat A) i i). split; [apply bt_get_val; auto; lia|]. intros t0 t1. cbv beta. rewrite inverse_2x2_t. apply inverse_2x2_val. rewrite det2_transp. auto.
  - apply blk_sol_dn; auto; try lia.
    + intros. apply bt_get_val; auto; lia.
    + intros. apply bt_mat_out; auto. lia.
    + intros i Hi. exists (blk (bt_mat A) i i). split; [apply bt_get_val; auto; lia|]. intros. apply inverse_2x2_val. auto.
Qed.
Lemma btb_inverse_proof A t x o : bt_ok A -> nonsingular_blocks (bt_n A) (bt_mat A) -> fits o (2 * bt_n A) x ->
  (do y <- btbmv t A x o; btbsv t A y o) = Some x /\ (do y <- btbsv t A x o; btbmv t A y o) = Some x.
Proof.
  intros HA Hd HF. split.
  - destruct (btbmv_proof A t x o HA HF) as (y & E & H). rewrite E. cbn [obind].
    destruct (btbsv_proof A t y o HA Hd (acts_fits _ _ _ _ _ H HF)) as (z & E2 & H2). rewrite E2. f_equal. eapply block_solve_mul_id; eauto. now apply bt_block_upper.
  - destruct (btbsv_proof A t x o HA Hd HF) as (y & E & H). rewrite E. cbn [obind].
    destruct (btbmv_proof A t y o HA (acts_fits _ _ _ _ _ H HF)) as (z & E2 & H2). rewrite E2. f_equal. eapply block_mul_solve_id; eauto.
Qed.

(** ** Dense *)
Lemma blk_update_val f a o i j n (x : list R) : fits o (2 * n) x -> 0 <= i < n -> 0 <= j < n -> i <> j ->
  exists x', blk_update f a o i j x = Some x' /\ zlen x' = zlen x /\
    vec o x' (2 * i) = f (vec o x (2 * i)) (m2_row0 a (vec o x (2 * j)) (vec o x (2 * j + 1))) /\
    vec o x' (2 * i + 1) = f (vec o x (2 * i + 1)) (m2_row1 a (vec o x (2 * j)) (vec o x (2 * j + 1))) /\
    (forall k, k <> 2 * i -> k <> 2 * i + 1 -> zget x' (o + k) = zget x (o + k)).
Proof.
  intros [F0 F1] Hi Hj Hij. unfold blk_update. rewrite !(zget_nthZ 0%R) by lia. cbn [obind]. rewrite zset_some by lia. cbn [obind].
  rewrite !zget_zupd_other by lia. rewrite !(zget_nthZ 0%R) by lia. cbn [obind]. rewrite zset_some by (rewrite zlen_zupd; lia).
  eexists; split; [reflexivity|]. rewrite !zlen_zupd. split; auto. unfold vec. repeat split.
  - rewrite nthZ_zupd_other by lia. now rewrite nthZ_zupd_same by lia.
  - now rewrite nthZ_zupd_same by (rewrite zlen_zupd; lia).
  - intros. now rewrite !zget_zupd_other by lia.
Qed.
Lemma blk_apply_val a o i n (x : list R) : fits o (2 * n) x -> 0 <= i < n ->
  exists x', blk_apply a o i x = Some x' /\ zlen x' = zlen x /\
    vec o x' (2 * i) = m2_row0 a (vec o x (2 * i)) (vec o x (2 * i + 1)) /\
    vec o x' (2 * i + 1) = m2_row1 a (vec o x (2 * i)) (vec o x (2 * i + 1)) /\
    (forall k, k <> 2 * i -> k <> 2 * i + 1 -> zget x' (o + k) = zget x (o + k)).
Proof.
  intros HF Hi. assert (F0 := HF). destruct F0 as [F0 F1]. unfold blk_apply. rewrite !(zget_nthZ 0%R) by lia. cbn [obind]. now apply (set_pair_val x o n).
Qed.

Section Dense.
Variables (n : Z) (U : Z -> Z -> R) (get : Z -> Z -> option (m2 R)).
Hypothesis Hn : 0 <= n.
Hypothesis Hup : is_block_upper n U.
Hypothesis Hget : forall i j, 0 <= i <= j -> j < n -> get i j = Some (blk U i j).
Variables (o : Z) (x : list R).
Hypothesis HF : fits o (2 * n) x.

Lemma upper_brow p i k v : 0 <= i < n -> 0 <= k < i -> p = 0 \/ p = 1 -> brow p U i k v = 0%R.
Proof. intros. unfold brow. rewrite !Hup by lia. lra. Qed.
Lemma brow_ext p V i k v w : v (2 * k) = w (2 * k) -> v (2 * k + 1) = w (2 * k + 1) -> brow p V i k v = brow p V i k w.
Proof. intros E0 E1. unfold brow. now rewrite E0, E1. Qed.
Lemma row_brow i k (v : Z -> R) : m2_row0 (blk U i k) (v (2 * k)) (v (2 * k + 1)) = brow 0 U i k v /\ m2_row1 (blk U i k) (v (2 * k)) (v (2 * k + 1)) = brow 1 U i k v.
Proof. unfold m2_row0, m2_row1, blk, brow. cbn [m00 m01 m10 m11 add mul R_arith]. rewrite Z.add_0_r. split; reflexivity. Qed.
Lemma row_brow_t i k (v : Z -> R) : m2_row0 (m2_t (blk U i k)) (v (2 * i)) (v (2 * i + 1)) = brow 0 (transp U) k i v /\ m2_row1 (m2_t (blk U i k)) (v (2 * i)) (v (2 * i + 1)) = brow 1 (transp U) k i v.
Proof. unfold m2_row0, m2_row1, m2_t, blk, brow, transp. cbn [m00 m01 m10 m11 add mul R_arith]. rewrite Z.add_0_r. split; reflexivity. Qed.

(** one column subtracted from or added to the rows above: for i < j, x_i <- f x_i (U_ij x_j) *)
Lemma col_update f j (y : list R) : zlen y = zlen x -> 0 <= j < n ->
  exists y', for_up 0 j (fun i y => do a <- get i j; blk_update f a o i j y) y = Some y' /\ zlen y' = zlen y /\
    (forall i p, 0 <= i < j -> p = 0 \/ p = 1 -> vec o y' (2 * i + p) = f (vec o y (2 * i + p)) (brow p U i j (vec o y))) /\
    (forall k, k < 0 \/ 2 * j <= k -> zget y' (o + k) = zget y (o + k)).
Proof.
  intros Hl Hj. destruct HF as [F0 F1].
  destruct (for_up_inv (fun i y' => zlen y' = zlen y /\ (forall q p, 0 <= q < i -> p = 0 \/ p = 1 -> vec o y' (2 * q + p) = f (vec o y (2 * q + p)) (brow p U q j (vec o y))) /\
      (forall k, k < 0 \/ 2 * i <= k -> zget y' (o + k) = zget y (o + k))) 0 j (fun i y => do a <- get i j; blk_update f a o i j y) y) as [y' [E (L1 & G & O)]]; [lia| | |].
  - repeat split; auto. intros; lia.
  - intros i y1 Hi (L1 & G & O). rewrite Hget by lia. cbn [obind].
    destruct (blk_update_val f (blk U i j) o i j n y1) as (y2 & E2 & L2 & V0 & V1 & O2); [split; lia|lia|lia|lia|].
    exists y2. split; auto. split; [lia|split].
    + intros q p Hq Hp. destruct (Z.eq_dec q i) as [->|].
      * destruct (row_brow i j (vec o y1)) as [R0 R1]. rewrite R0 in V0. rewrite R1 in V1.
        destruct Hp as [-> | ->]; rewrite ?Z.add_0_r; [rewrite V0 | rewrite V1]; f_equal; try (apply vec_ext; apply O; lia); apply brow_ext; apply vec_ext; apply O; lia.
      * rewrite (vec_ext y1) by (apply O2; lia). apply G; lia.
    + intros k Hk. rewrite O2 by lia. apply O. lia.
  - exists y'. auto.
Qed.
Lemma btrmv_N : exists x', for_up 0 n (fun j x => do x <- for_up 0 j (fun i x => do a <- get i j; blk_update add a o i j x) x; do a <- get j j; blk_apply a o j x) x = Some x' /\
  acts o (2 * n) x x' (isprod (2 * n) U).
Proof.
  destruct (for_up_inv (fun j x' => zlen x' = zlen x /\ (forall q p, 0 <= q < j -> p = 0 \/ p = 1 -> vec o x' (2 * q + p) = sumZ j (fun k => brow p U q k (vec o x))) /\
      (forall k, k < 0 \/ 2 * j <= k -> zget x' (o + k) = zget x (o + k))) 0 n
      (fun j x => do x <- for_up 0 j (fun i x => do a <- get i j; blk_update add a o i j x) x; do a <- get j j; blk_apply a o j x) x) as [x' [E (L1 & G & O)]]; [lia| | |].
  - repeat split; auto. intros; lia.
  - intros j x1 Hj (L1 & G & O). destruct (col_update add j x1 L1 Hj) as (y & E1 & L2 & G2 & O2). rewrite E1. cbn [obind]. rewrite Hget by lia. cbn [obind].
    destruct HF as [F0 F1]. destruct (blk_apply_val (blk U j j) o j n y) as (z & E3 & L3 & V0 & V1 & O3); [split; lia|lia|].
    destruct (row_brow j j (vec o y)) as [R0 R1]. rewrite R0 in V0. rewrite R1 in V1.
    assert (Eb : forall i p, brow p U i j (vec o y) = brow p U i j (vec o x)) by (intros; apply brow_ext; (rewrite (vec_ext x1) by (apply O2; lia); apply vec_ext; apply O; lia)).
    assert (Eb1 : forall i p, brow p U i j (vec o x1) = brow p U i j (vec o x)) by (intros; apply brow_ext; apply vec_ext; apply O; lia).
    exists z. split; auto. split; [lia|split].
    + intros q p Hq Hp. rewrite sumZ_S by lia. destruct (Z.eq_dec q j) as [->|].
      * rewrite sumZ_zero by (intros; apply upper_brow; auto; lia). destruct Hp as [-> | ->]; rewrite ?Z.add_0_r; [rewrite V0|rewrite V1]; rewrite Eb; lra.
      * rewrite (vec_ext y) by (apply O3; lia). rewrite G2, G, Eb1 by lia. reflexivity.
    + intros k Hk. rewrite O3, O2, O by lia. reflexivity.
  - exists x'. split; auto. split; [|split]; auto.
    + apply isprod_blocks. intros i p Hi Hp. rewrite matvec_blocks. now apply G.
    + intros p Hp. replace p with (o + (p - o)) by lia. apply O. destruct HF. lia.
Qed.
Section Solve.
Hypothesis Hd : nonsingular_blocks n U.
Lemma apply_inverse V i (y y' : list R) : det2 V i <> 0%R -> vec o y' (2 * i) = m2_row0 (inverse_2x2 (blk V i i)) (vec o y (2 * i)) (vec o y (2 * i + 1)) ->
  vec o y' (2 * i + 1) = m2_row1 (inverse_2x2 (blk V i i)) (vec o y (2 * i)) (vec o y (2 * i + 1)) ->
  forall p, p = 0 \/ p = 1 -> brow p V i i (vec o y') = vec o y (2 * i + p).
Proof.
  intros D V0 V1 p Hp. unfold brow. rewrite V0, V1. destruct (inverse_2x2_val V i (vec o y (2 * i)) (vec o y (2 * i + 1)) D) as [X0 X1].
  destruct Hp as [-> | ->]; rewrite ?Z.add_0_r; assumption.
Qed.
Lemma btrsv_N : exists x', for_dn (n - 1) 0 (fun j x => do a <- get j j; do x <- blk_apply (inverse_2x2 a) o j x; for_up 0 j (fun i x => do a <- get i j; blk_update sub a o i j x) x) x = Some x' /\
  acts o (2 * n) x x' (fun v w => isprod (2 * n) U w v).
Proof.
  destruct HF as [F0 F1].
  destruct (for_dn_inv (fun j x' => zlen x' = zlen x /\
      (forall q p, 0 <= q <= j -> p = 0 \/ p = 1 -> (vec o x' (2 * q + p) + sumZ n (fun k => if k <=? j then 0 else brow p U q k (vec o x')) = vec o x (2 * q + p))%R) /\
      (forall q p, j < q < n -> p = 0 \/ p = 1 -> matvec (2 * n) U (vec o x') (2 * q + p) = vec o x (2 * q + p)) /\
      (forall k, k < 0 \/ 2 * n <= k -> zget x' (o + k) = zget x (o + k))) (n - 1) 0
      (fun j x => do a <- get j j; do x <- blk_apply (inverse_2x2 a) o j x; for_up 0 j (fun i x => do a <- get i j; blk_update sub a o i j x) x) x) as [x' [E (L1 & G & G' & O)]].
  - lia.
  - split; [auto|split; [|split]]; auto.
    + intros q p Hq Hp. rewrite sumZ_zero; [lra|]. intros k Hk. replace (k <=? n - 1) with true by lia. reflexivity.
    + intros; lia.
  - intros j x1 Hj (L1 & G & G' & O). rewrite Hget by lia. cbn [obind].
    destruct (blk_apply_val (inverse_2x2 (blk U j j)) o j n x1) as (y & E3 & L3 & V0 & V1 & O3); [split; lia|lia|]. rewrite E3. cbn [obind].
    destruct (col_update sub j y ltac:(lia) ltac:(lia)) as (z & E1 & L2 & G2 & O2). exists z. split; auto.
    pose proof (apply_inverse U j x1 y (Hd j ltac:(lia)) V0 V1) as Hj2.
    assert (Hzy : forall k, 2 * j <= k -> vec o z k = vec o y k) by (intros; apply vec_ext; apply O2; lia).
    assert (Hyx : forall k, k <> 2 * j -> k <> 2 * j + 1 -> vec o y k = vec o x1 k) by (intros; apply vec_ext; apply O3; lia).
    split; [lia|split; [|split]].
    + intros q p Hq Hp. rewrite <- (G q p) by lia. rewrite (sumZ_pick n j) by lia. replace (j <=? j - 1) with false by lia.
      rewrite G2 by lia. rewrite (Hyx (2 * q + p)) by lia. rewrite (brow_ext p U q j (vec o z) (vec o y)) by (apply Hzy; lia). cbn [sub R_arith].
      rewrite (sumZ_ext n (fun k => if k =? j then 0%R else if k <=? j - 1 then 0%R else brow p U q k (vec o z)) (fun k => if k <=? j then 0%R else brow p U q k (vec o x1))); [ring|].
      intros k Hk. destruct (Z.eqb_spec k j); [subst; replace (j <=? j) with true by lia; reflexivity|]. replace (k <=? j - 1) with (k <=? j) by lia.
      destruct (Z.leb_spec k j); auto. apply brow_ext; rewrite Hzy by lia; apply Hyx; lia.
    + intros q p Hq Hp. destruct (Z.eq_dec q j) as [->|].
      * rewrite <- (G j p) by lia. rewrite matvec_blocks. rewrite (sumZ_pick n j) by lia.
        rewrite (brow_ext p U j j (vec o z) (vec o y)) by (apply Hzy; lia). rewrite Hj2 by auto. f_equal. apply sumZ_ext. intros k Hk.
        destruct (Z.eqb_spec k j); [subst; replace (j <=? j) with true by lia; reflexivity|].
        destruct (Z.leb_spec k j); [apply upper_brow; auto; lia|]. apply brow_ext; rewrite Hzy by lia; apply Hyx; lia.
      * rewrite <- (G' q p) by lia. rewrite !matvec_blocks. apply sumZ_ext. intros k Hk. destruct (Z_lt_dec k q).
        -- rewrite !upper_brow by (auto; lia). reflexivity.
        -- apply brow_ext; rewrite Hzy by lia; apply Hyx; lia.
    + intros k Hk. rewrite O2, O3, O by lia. reflexivity.
  - exists x'. split; auto. split; [|split]; auto.
    + apply isprod_blocks. intros i p Hi Hp. symmetry. apply G'; auto; lia.
    + intros p Hp. replace p with (o + (p - o)) by lia. apply O. lia.
Qed.
End Solve.

(** x_i <- f x_i (U_ji^T x_j), for j in any order within [0, i) *)
Definition tsum (i : Z) (p : Z) (v : Z -> R) : R := sumZ i (fun k => brow p (transp U) i k v).
Lemma btrmv_T : exists x', for_dn (n - 1) 0 (fun i x => do a <- get i i; do x <- blk_apply (m2_t a) o i x; for_dn (i - 1) 0 (fun j x => do a <- get j i; blk_update add (m2_t a) o i j x) x) x = Some x' /\
  acts o (2 * n) x x' (isprod (2 * n) (transp U)).
Proof.
  destruct HF as [F0 F1].
  assert (Hw : forall i v p, 0 <= i < n -> p = 0 \/ p = 1 -> matvec (2 * n) (transp U) v (2 * i + p) = (brow p (transp U) i i v + tsum i p v)%R).
  { intros i v p Hi Hp. rewrite matvec_blocks. rewrite (sumZ_split n (i + 1)) by lia. rewrite (sumZ_zero (n - (i + 1))).
    - rewrite sumZ_S by lia. unfold tsum. lra.
    - intros k Hk. unfold brow, transp. rewrite !Hup by lia. lra. }
  destruct (for_dn_inv (fun i x' => zlen x' = zlen x /\
      (forall q p, i < q < n -> p = 0 \/ p = 1 -> vec o x' (2 * q + p) = matvec (2 * n) (transp U) (vec o x) (2 * q + p)) /\
      (forall k, k < 2 * (i + 1) \/ 2 * n <= k -> zget x' (o + k) = zget x (o + k))) (n - 1) 0
      (fun i x => do a <- get i i; do x <- blk_apply (m2_t a) o i x; for_dn (i - 1) 0 (fun j x => do a <- get j i; blk_update add (m2_t a) o i j x) x) x) as [x' [E (L1 & G & O)]].
  - lia.
  - repeat split; auto. intros; lia.
  - intros i x1 Hi (L1 & G & O). rewrite Hget by lia. cbn [obind].
    destruct (blk_apply_val (m2_t (blk U i i)) o i n x1) as (y & E3 & L3 & V0 & V1 & O3); [split; lia|lia|]. rewrite E3. cbn [obind].
    destruct (row_brow_t i i (vec o x1)) as [R0 R1]. rewrite R0 in V0. rewrite R1 in V1.
    destruct (for_dn_inv (fun j y' => zlen y' = zlen y /\
       (forall p, p = 0 \/ p = 1 -> (vec o y' (2 * i + p) + sumZ (j + 1) (fun k => brow p (transp U) i k (vec o y)) = vec o y (2 * i + p) + tsum i p (vec o y))%R) /\
       (forall k, k <> 2 * i -> k <> 2 * i + 1 -> zget y' (o + k) = zget y (o + k))) (i - 1) 0 (fun j x => do a <- get j i; blk_update add (m2_t a) o i j x) y) as [z [E4 (L4 & G4 & O4)]].
    + lia.
    + split; auto. split; auto. intros p Hp. unfold tsum. replace (i - 1 + 1) with i by lia. reflexivity.
    + intros j y1 Hj (L4 & G4 & O4). rewrite Hget by lia. cbn [obind].
      destruct (blk_update_val add (m2_t (blk U j i)) o i j n y1) as (y2 & E5 & L5 & W0 & W1 & O5); [split; lia|lia|lia|lia|].
      destruct (row_brow_t j i (vec o y1)) as [S0 S1]. rewrite S0 in W0. rewrite S1 in W1.
      exists y2. split; auto. split; [lia|split].
      * intros p Hp. rewrite <- (G4 p Hp). replace (j - 1 + 1) with j by lia. rewrite sumZ_S by lia. rewrite <- (brow_ext p (transp U) i j (vec o y1) (vec o y)) by (apply vec_ext; apply O4; lia).
        cbn [add R_arith] in W0, W1. destruct Hp as [-> | ->]; rewrite ?Z.add_0_r; [rewrite W0 | rewrite W1]; lra.
      * intros k Hk1 Hk2. rewrite O5, O4 by lia. reflexivity.
    + exists z. split; auto. split; [lia|split].
      * intros q p Hq Hp. destruct (Z.eq_dec q i) as [->|].
        -- specialize (G4 p Hp). rewrite sumZ_0 in G4 by lia. rewrite Hw by lia. rewrite <- (brow_ext p (transp U) i i (vec o x1) (vec o x)) by (apply vec_ext; apply O; lia).
           assert (Et : tsum i p (vec o y) = tsum i p (vec o x)). { unfold tsum. apply sumZ_ext. intros k Hk. apply brow_ext; (rewrite (vec_ext x1) by (apply O3; lia)); apply vec_ext; apply O; lia. }
           rewrite <- Et. assert (Ey : vec o y (2 * i + p) = brow p (transp U) i i (vec o x1)) by (destruct Hp as [-> | ->]; rewrite ?Z.add_0_r; assumption).
           rewrite <- Ey. lra.
        -- rewrite (vec_ext y) by (apply O4; lia). rewrite (vec_ext x1) by (apply O3; lia). apply G; lia.
      * intros k Hk. rewrite O4, O3, O by lia. reflexivity.
  - exists x'. split; auto. split; [|split]; auto.
    + apply isprod_blocks. intros i p Hi Hp. apply G; auto; lia.
    + intros p Hp. replace p with (o + (p - o)) by lia. apply O. lia.
Qed.
Lemma btrsv_T : nonsingular_blocks n U ->
  exists x', for_up 0 n (fun i x => do x <- for_up 0 i (fun j x => do a <- get j i; blk_update sub (m2_t a) o i j x) x; do a <- get i i; blk_apply (inverse_2x2 (m2_t a)) o i x) x = Some x' /\
  acts o (2 * n) x x' (fun v w => isprod (2 * n) (transp U) w v).
Proof.
  intros Hd. destruct HF as [F0 F1].
  assert (Hw : forall i v p, 0 <= i < n -> p = 0 \/ p = 1 -> matvec (2 * n) (transp U) v (2 * i + p) = (brow p (transp U) i i v + tsum i p v)%R).
  { intros i v p Hi Hp. rewrite matvec_blocks. rewrite (sumZ_split n (i + 1)) by lia. rewrite (sumZ_zero (n - (i + 1))).
    - rewrite sumZ_S by lia. unfold tsum. lra.
    - intros k Hk. unfold brow, transp. rewrite !Hup by lia. lra. }
  destruct (for_up_inv (fun i x' => zlen x' = zlen x /\
      (forall q p, 0 <= q < i -> p = 0 \/ p = 1 -> matvec (2 * n) (transp U) (vec o x') (2 * q + p) = vec o x (2 * q + p)) /\
      (forall k, k < 0 \/ 2 * i <= k -> zget x' (o + k) = zget x (o + k))) 0 n
      (fun i x => do x <- for_up 0 i (fun j x => do a <- get j i; blk_update sub (m2_t a) o i j x) x; do a <- get i i; blk_apply (inverse_2x2 (m2_t a)) o i x) x) as [x' [E (L1 & G & O)]].
  - lia.
  - repeat split; auto. intros; lia.
  - intros i x1 Hi (L1 & G & O).
    destruct (for_up_inv (fun j y' => zlen y' = zlen x1 /\
       (forall p, p = 0 \/ p = 1 -> (vec o y' (2 * i + p) + sumZ j (fun k => brow p (transp U) i k (vec o x1)) = vec o x1 (2 * i + p))%R) /\
       (forall k, k <> 2 * i -> k <> 2 * i + 1 -> zget y' (o + k) = zget x1 (o + k))) 0 i (fun j x => do a <- get j i; blk_update sub (m2_t a) o i j x) x1) as [y [E4 (L4 & G4 & O4)]].
    + lia.
    + split; auto. split; auto. intros p Hp. rewrite sumZ_0 by lia. lra.
    + intros j y1 Hj (L4 & G4 & O4). rewrite Hget by lia. cbn [obind].
      destruct (blk_update_val sub (m2_t (blk U j i)) o i j n y1) as (y2 & E5 & L5 & W0 & W1 & O5); [split; lia|lia|lia|lia|].
      destruct (row_brow_t j i (vec o y1)) as [S0 S1]. rewrite S0 in W0. rewrite S1 in W1.
      exists y2. split; auto. split; [lia|split].
      * intros p Hp. rewrite <- (G4 p Hp). rewrite sumZ_S by lia. rewrite <- (brow_ext p (transp U) i j (vec o y1) (vec o x1)) by (apply vec_ext; apply O4; lia).
        cbn [sub R_arith] in W0, W1. destruct Hp as [-> | ->]; rewrite ?Z.add_0_r; [rewrite W0 | rewrite W1]; lra.
      * intros k Hk1 Hk2. rewrite O5, O4 by lia. reflexivity.
    + rewrite E4. cbn [obind]. rewrite Hget by lia. cbn [obind]. change (m2_t (blk U i i)) with (blk (transp U) i i).
      destruct (blk_apply_val (inverse_2x2 (blk (transp U) i i)) o i n y) as (z & E3 & L3 & V0 & V1 & O3); [split; lia|lia|].
      pose proof (apply_inverse (transp U) i y z ltac:(rewrite det2_transp; apply Hd; lia) V0 V1) as Hi2.
      exists z. split; auto. split; [lia|split].
      * intros q p Hq Hp. rewrite Hw by lia.
        assert (Et : forall r, r <= i -> tsum r p (vec o z) = tsum r p (vec o x1)). { intros r Hr. unfold tsum. apply sumZ_ext. intros k Hk. apply brow_ext; (rewrite (vec_ext y) by (apply O3; lia)); apply vec_ext; apply O4; lia. }
        rewrite Et by lia. destruct (Z.eq_dec q i) as [->|].
        -- rewrite Hi2 by auto. unfold tsum. rewrite (G4 p Hp). apply vec_ext. apply O. lia.
        -- rewrite (brow_ext p (transp U) q q (vec o z) (vec o x1)) by ((rewrite (vec_ext y) by (apply O3; lia)); apply vec_ext; apply O4; lia).
           rewrite <- Hw by lia. apply G; lia.
      * intros k Hk. rewrite O3, O4, O by lia. reflexivity.
  - exists x'. split; auto. split; [|split]; auto.
    + apply isprod_blocks. intros i p Hi Hp. symmetry. apply G; auto; lia.
    + intros p Hp. replace p with (o + (p - o)) by lia. apply O. lia.
Qed.
End Dense.

Lemma block_upper_is n U : is_block_upper n (block_upper U).
Proof. intros i j Hi Hj Hl. unfold block_upper. replace (i / 2 <=? j / 2) with false by lia. reflexivity. Qed.
Lemma dense_blk_val n A LDA i j : fits_mat 0 (2 * n) (2 * n) LDA A -> 0 <= i <= j -> j < n -> dense_blk A LDA i j = Some (blk (block_upper (mat 0 LDA A)) i j).
Proof.
  intros HA Hi Hj. unfold dense_blk.
  pose proof (fun p q Hp Hq => mat_zget 0 LDA (2 * n) (2 * n) A p q HA Hp Hq) as H. cbn [Z.add] in H.
  rewrite !H by lia. cbn [obind]. unfold blk, block_upper. rewrite !even_div, !odd_div. replace (i <=? j) with true by lia. reflexivity.
Qed.
Lemma block_upper_det n U : nonsingular_blocks n U -> nonsingular_blocks n (block_upper U).
Proof. intros H i Hi. specialize (H i Hi). unfold det2, block_upper in *. rewrite !even_div, !odd_div. replace (i <=? i) with true by lia. exact H. Qed.
Lemma btrmv_proof t n A LDA x o : 0 <= n -> fits_mat 0 (2 * n) (2 * n) LDA A -> fits o (2 * n) x ->
  exists x', btrmv t n A LDA x o = Some x' /\ acts o (2 * n) x x' (isprod (2 * n) (op t (block_upper (mat 0 LDA A)))).
Proof.
  intros Hn HA HF. unfold btrmv. destruct t; cbn [op].
  - apply (btrmv_T n _ (dense_blk A LDA)); auto using block_upper_is. intros; eapply dense_blk_val; eauto.
  - apply (btrmv_N n _ (dense_blk A LDA)); auto using block_upper_is. intros; eapply dense_blk_val; eauto.
Qed.
Lemma btrsv_proof t n A LDA x o : 0 <= n -> fits_mat 0 (2 * n) (2 * n) LDA A -> nonsingular_blocks n (mat 0 LDA A) -> fits o (2 * n) x ->
  exists x', btrsv t n A LDA x o = Some x' /\ acts o (2 * n) x x' (fun v w => isprod (2 * n) (op t (block_upper (mat 0 LDA A))) w v).
Proof.
  intros Hn HA Hd HF. unfold btrsv. destruct t; cbn [op].
  - apply (btrsv_T n _ (dense_blk A LDA)); auto using block_upper_is, block_upper_det. intros; eapply dense_blk_val; eauto.
  - apply (btrsv_N n _ (dense_blk A LDA)); auto using block_upper_is, block_upper_det. intros; eapply dense_blk_val; eauto.
Qed.
Lemma btr_inverse_proof t n A LDA x o : 0 <= n -> fits_mat 0 (2 * n) (2 * n) LDA A -> nonsingular_blocks n (mat 0 LDA A) -> fits o (2 * n) x ->
  (do y <- btrmv t n A LDA x o; btrsv t n A LDA y o) = Some x /\ (do y <- btrsv t n A LDA x o; btrmv t n A LDA y o) = Some x.
Proof.
  intros Hn HA Hd HF. split.
  - destruct (btrmv_proof t n A LDA x o Hn HA HF) as (y & E & H). rewrite E. cbn [obind].
    destruct (btrsv_proof t n A LDA y o Hn HA Hd (acts_fits _ _ _ _ _ H HF)) as (z & E2 & H2). rewrite E2. f_equal. eapply block_solve_mul_id; eauto using block_upper_is, block_upper_det.
  - destruct (btrsv_proof t n A LDA x o Hn HA Hd HF) as (y & E & H). rewrite E. cbn [obind].
    destruct (btrmv_proof t n A LDA y o Hn HA (acts_fits _ _ _ _ _ H HF)) as (z & E2 & H2). rewrite E2. f_equal. eapply block_mul_solve_id; eauto.
Qed.
(** columns, for any matrix whose systems have one solution *)
Lemma columns_unique (f g : list R -> Z -> option (list R)) n N LDB B U : 0 <= n -> 0 <= N -> fits_mat 0 n N LDB B ->
  (forall v w, (forall i, 0 <= i < n -> matvec n U v i = matvec n U w i) -> forall i, 0 <= i < n -> v i = w i) ->
  (forall x o, fits o n x -> exists x', f x o = Some x' /\ acts o n x x' (isprod n U)) ->
  (forall x o, fits o n x -> exists x', g x o = Some x' /\ acts o n x x' (fun v w => isprod n U w v)) ->
  (exists B', columnwise f B LDB N = Some B' /\ acts_columns n N LDB B B' (isprod n U)) /\
  (do B' <- columnwise f B LDB N; columnwise g B' LDB N) = Some B /\ (do B' <- columnwise g B LDB N; columnwise f B' LDB N) = Some B.
Proof.
  intros Hn HN HB Hu Hf Hg. split; [|split].
  - apply columnwise_proof; auto. intros; eapply isprod_ext; eauto.
  - apply (columnwise_inverse _ _ n N LDB B (isprod n U)); auto.
    + intros; eapply isprod_ext; eauto.
    + intros v v' w P1 P2. apply Hu. intros i Hi. now rewrite <- P1, <- P2.
  - apply (columnwise_inverse _ _ n N LDB B (fun v w => isprod n U w v)); auto.
    + intros v v' w w' Hv Hw H1. eapply isprod_ext; eauto.
    + intros v v' w P1 P2 i Hi. now rewrite P1, P2.
Qed.
Lemma btr_columns_proof t n A LDA B LDB N : 0 <= n -> 0 <= N -> fits_mat 0 (2 * n) (2 * n) LDA A -> nonsingular_blocks n (mat 0 LDA A) -> fits_mat 0 (2 * n) N LDB B ->
  (exists B', btrmm t n A LDA B LDB N = Some B' /\ acts_columns (2 * n) N LDB B B' (isprod (2 * n) (op t (block_upper (mat 0 LDA A))))) /\
  (do B' <- btrmm t n A LDA B LDB N; btrsm t n A LDA B' LDB N) = Some B /\ (do B' <- btrsm t n A LDA B LDB N; btrmm t n A LDA B' LDB N) = Some B.
Proof.
  intros Hn HN HA Hd HB. apply columns_unique; auto; try lia.
  - intros v w. apply (block_unique n _ t); auto using block_upper_is, block_upper_det.
  - intros. now apply btrmv_proof.
  - intros. now apply btrsv_proof.
Qed.
