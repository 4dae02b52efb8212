(** * Proofs: 2x2-block triangular multiply and solve *)
From Coq Require Import ZArith List Lia Bool ZifyBool ZifyNat Reals Lra.
From Verif Require Import Arith Base BaseFacts SpecSum PSum SpecLin MBanded SpecBanded PTri PTri2 MHier MEig MButter SpecButter MBlock SpecBlock.
Import ListNotations.
Open Scope Z_scope.
Ltac Zify.zify_post_hook ::= Z.to_euclidean_division_equations.

Lemma sumZ_pairs n f : sumZ (2 * n) f = sumZ n (fun k => (f (2 * k)%Z + f (2 * k + 1)%Z)%R).
Proof.
  destruct (Z_le_dec n 0); [rewrite !sumZ_0 by lia; reflexivity|].
  assert (H : 0 <= n) by lia. clear n0. revert n H. apply natlike_ind.
  - now rewrite !sumZ_0 by lia.
  - intros m Hm IH. replace (2 * Z.succ m) with (2 * m + 1 + 1) by lia. unfold Z.succ. rewrite !sumZ_S by lia. rewrite IH. ring.
Qed.
Definition blk (U : Z -> Z -> R) (i k : Z) : m2 R := M2 (U (2 * i) (2 * k)) (U (2 * i) (2 * k + 1)) (U (2 * i + 1) (2 * k)) (U (2 * i + 1) (2 * k + 1)).
Definition brow (p : Z) (U : Z -> Z -> R) (i k : Z) (v : Z -> R) : R := (U (2 * i + p)%Z (2 * k)%Z * v (2 * k)%Z + U (2 * i + p)%Z (2 * k + 1)%Z * v (2 * k + 1)%Z)%R.
Lemma matvec_blocks n U v i p : matvec (2 * n) U v (2 * i + p) = sumZ n (fun k => brow p U i k v).
Proof. unfold matvec. now rewrite sumZ_pairs. Qed.
Lemma isprod_blocks n U v w : (forall i p, 0 <= i < n -> p = 0 \/ p = 1 -> w (2 * i + p) = matvec (2 * n) U v (2 * i + p)) -> isprod (2 * n) U v w.
Proof. intros H i Hi. replace i with (2 * (i / 2) + i mod 2) by lia. apply H; lia. Qed.

Lemma set_pair_val (x : list R) o n i t0 t1 : fits o (2 * n) x -> 0 <= i < n ->
  exists x', set_pair x o i t0 t1 = Some x' /\ zlen x' = zlen x /\ vec o x' (2 * i) = t0 /\ vec o x' (2 * i + 1) = t1 /\
    (forall k, k <> 2 * i -> k <> 2 * i + 1 -> zget x' (o + k) = zget x (o + k)).
Proof.
  intros [F0 F1] Hi. unfold set_pair. rewrite zset_some by lia. cbn [obind]. rewrite zset_some by (rewrite zlen_zupd; lia).
  eexists; split; [reflexivity|]. rewrite !zlen_zupd. split; auto. unfold vec. repeat split.
  - rewrite nthZ_zupd_other by lia. now rewrite nthZ_zupd_same by lia.
  - now rewrite nthZ_zupd_same by (rewrite zlen_zupd; lia).
  - intros. now rewrite !zget_zupd_other by lia.
Qed.

Lemma blk_dot_val get U x o lo hi i : (forall k, lo <= k < hi -> get k = Some (blk U i k)) -> (forall k, lo <= k < hi -> 0 <= o + 2 * k /\ o + 2 * k + 1 < zlen x) ->
  blk_dot get x o lo hi = Some (sumZ (hi - lo) (fun q => brow 0 U i (lo + q) (vec o x)), sumZ (hi - lo) (fun q => brow 1 U i (lo + q) (vec o x))).
Proof.
  intros Hg Hx. unfold blk_dot. destruct (Z_le_dec hi lo).
  { rewrite for_up_nil, !sumZ_0 by lia. reflexivity. }
  match goal with |- for_up lo hi ?b ?s = _ =>
    destruct (for_up_inv (fun k t => t = (sumZ (k - lo) (fun q => brow 0 U i (lo + q) (vec o x)), sumZ (k - lo) (fun q => brow 1 U i (lo + q) (vec o x)))) lo hi b s) as [t [E H]] end.
  - lia.
  - now rewrite !sumZ_0 by lia.
  - intros k t Hk ->. rewrite Hg by lia. cbn [obind]. pose proof (Hx k Hk).
    rewrite !(zget_nthZ 0%R) by lia. cbn [obind fst snd].
    eexists; split; [reflexivity|]. replace (k + 1 - lo) with (k - lo + 1) by lia. rewrite !sumZ_S by lia.
    replace (lo + (k - lo)) with k by lia. unfold brow, vec, m2_row0, m2_row1, blk. cbn [m00 m01 m10 m11 add mul R_arith]. rewrite !Z.add_0_r. reflexivity.
  - rewrite E, H. reflexivity.
Qed.

Section BRows.
Variables (n : Z) (U : Z -> Z -> R) (get : Z -> Z -> option (m2 R)) (lo hi : Z -> Z) (o : Z).
Hypothesis Hn : 0 <= n.
Hypothesis Hlo : forall i, 0 <= i < n -> 0 <= lo i.
Hypothesis Hhi : forall i, 0 <= i < n -> hi i <= n.
Hypothesis Hget : forall i k, 0 <= i < n -> lo i <= k < hi i -> get i k = Some (blk U i k).

Section Mul.
Hypothesis Hz : forall i k p q, 0 <= i < n -> 0 <= k < n -> ~ (lo i <= k < hi i) -> p = 0 \/ p = 1 -> q = 0 \/ q = 1 -> U (2 * i + p) (2 * k + q) = 0%R.
Lemma brow_zero i k p v : 0 <= i < n -> 0 <= k < n -> ~ (lo i <= k < hi i) -> p = 0 \/ p = 1 -> brow p U i k v = 0%R.
Proof. intros. unfold brow. pose proof (Hz i k p 0). pose proof (Hz i k p 1). rewrite Z.add_0_r in H3. rewrite H3, H4 by auto. lra. Qed.
Lemma blk_mul_val i x x0 : 0 <= i < n -> fits o (2 * n) x -> (forall k, lo i <= k < hi i -> vec o x (2 * k) = vec o x0 (2 * k) /\ vec o x (2 * k + 1) = vec o x0 (2 * k + 1)) ->
  exists x', blk_mul get lo hi o i x = Some x' /\ zlen x' = zlen x /\ (forall p, p = 0 \/ p = 1 -> vec o x' (2 * i + p) = matvec (2 * n) U (vec o x0) (2 * i + p)) /\
    (forall k, k <> 2 * i -> k <> 2 * i + 1 -> zget x' (o + k) = zget x (o + k)).
Proof.
  intros Hi HF He. assert (F0 := HF). destruct F0 as [F0 F1]. unfold blk_mul. pose proof (Hlo i Hi). pose proof (Hhi i Hi).
  rewrite (blk_dot_val _ U _ _ _ _ i); [| intros; apply Hget; auto | intros; lia].
  cbn [obind fst snd]. match goal with |- context [set_pair x o i ?t0 ?t1] => destruct (set_pair_val x o n i t0 t1 HF Hi) as (x' & E & L & V0 & V1 & O) end.
  exists x'. repeat split; auto. intros p Hp. rewrite matvec_blocks. rewrite (sumZ_window n (lo i) (hi i)); auto.
  - destruct Hp as [-> | ->]; [rewrite Z.add_0_r, V0 | rewrite V1]; apply sumZ_ext; intros q Hq; unfold brow; destruct (He (lo i + q) ltac:(lia)) as [-> ->]; reflexivity.
  - intros. now apply brow_zero.
Qed.
Lemma blk_mul_up x : fits o (2 * n) x -> (forall i, 0 <= i < n -> i <= lo i) ->
  exists x', for_up 0 n (blk_mul get lo hi o) x = Some x' /\ acts o (2 * n) x x' (isprod (2 * n) U).
Proof.
  intros HF Hup. destruct HF as [F0 F1].
  destruct (for_up_inv (fun i x' => zlen x' = zlen x /\ (forall q p, 0 <= q < i -> p = 0 \/ p = 1 -> vec o x' (2 * q + p) = matvec (2 * n) U (vec o x) (2 * q + p)) /\
      (forall p, p < 0 \/ 2 * i <= p -> zget x' (o + p) = zget x (o + p))) 0 n (blk_mul get lo hi o) x) as [x' [E (L1 & G & O)]]; auto.
  - repeat split; auto. intros; lia.
  - intros i x1 Hi (L1 & G & O). destruct (blk_mul_val i x1 x) as (x2 & E2 & L2 & G2 & O2); auto.
    + split; lia.
    + intros k Hk. pose proof (Hup i Hi). split; apply vec_ext; apply O; lia.
    + exists x2. split; auto. split; [lia|split].
      * intros q p Hq Hp. destruct (Z.eq_dec q i) as [->|]; [now apply G2|]. rewrite (vec_ext x1) by (apply O2; lia). apply G; lia.
      * intros p Hp. rewrite O2 by lia. apply O. lia.
  - exists x'. split; auto. split; [|split]; auto.
    + apply isprod_blocks. auto.
    + intros p Hp. replace p with (o + (p - o)) by lia. apply O. lia.
Qed.
Lemma blk_mul_dn x : fits o (2 * n) x -> (forall i, 0 <= i < n -> hi i <= i + 1) ->
  exists x', for_dn (n - 1) 0 (blk_mul get lo hi o) x = Some x' /\ acts o (2 * n) x x' (isprod (2 * n) U).
Proof.
  intros HF Hdn. destruct HF as [F0 F1].
  destruct (for_dn_inv (fun i x' => zlen x' = zlen x /\ (forall q p, i < q < n -> p = 0 \/ p = 1 -> vec o x' (2 * q + p) = matvec (2 * n) U (vec o x) (2 * q + p)) /\
      (forall p, p <= 2 * i + 1 \/ 2 * n <= p -> zget x' (o + p) = zget x (o + p))) (n - 1) 0 (blk_mul get lo hi o) x) as [x' [E (L1 & G & O)]].
  - lia.
  - repeat split; auto. intros; lia.
  - intros i x1 Hi (L1 & G & O). destruct (blk_mul_val i x1 x) as (x2 & E2 & L2 & G2 & O2); [lia|split; lia| |].
    + intros k Hk. pose proof (Hdn i ltac:(lia)). split; apply vec_ext; apply O; lia.
    + exists x2. split; auto. split; [lia|split].
      * intros q p Hq Hp. destruct (Z.eq_dec q i) as [->|]; [now apply G2|]. rewrite (vec_ext x1) by (apply O2; lia). apply G; lia.
      * intros p Hp. rewrite O2 by lia. apply O. lia.
  - exists x'. split; auto. split; [|split]; auto.
    + apply isprod_blocks. intros; apply G; lia.
    + intros p Hp. replace p with (o + (p - o)) by lia. apply O. lia.
Qed.
End Mul.

Section Sol.
Variables (inv : m2 R -> m2 R) (diag : Z -> option (m2 R)).
Hypothesis Hz : forall i k p q, 0 <= i < n -> 0 <= k < n -> k <> i -> ~ (lo i <= k < hi i) -> p = 0 \/ p = 1 -> q = 0 \/ q = 1 -> U (2 * i + p) (2 * k + q) = 0%R.
Hypothesis Hd : forall i, 0 <= i < n -> exists a, diag i = Some a /\ forall t0 t1, let b := inv a in
  (U (2 * i) (2 * i) * m2_row0 b t0 t1 + U (2 * i) (2 * i + 1)%Z * m2_row1 b t0 t1 = t0)%R /\
  (U (2 * i + 1)%Z (2 * i)%Z * m2_row0 b t0 t1 + U (2 * i + 1)%Z (2 * i + 1)%Z * m2_row1 b t0 t1 = t1)%R.
Lemma brow_zero_sol i k p v : 0 <= i < n -> 0 <= k < n -> k <> i -> ~ (lo i <= k < hi i) -> p = 0 \/ p = 1 -> brow p U i k v = 0%R.
Proof. intros. unfold brow. pose proof (Hz i k p 0). pose proof (Hz i k p 1). rewrite Z.add_0_r in H4. rewrite H4, H5 by auto. lra. Qed.
Lemma blk_sol_val i x : 0 <= i < n -> fits o (2 * n) x -> ~ (lo i <= i < hi i) ->
  exists x', blk_sol get inv diag lo hi o i x = Some x' /\ zlen x' = zlen x /\
    (forall k, k <> 2 * i -> k <> 2 * i + 1 -> zget x' (o + k) = zget x (o + k)) /\
    forall p, p = 0 \/ p = 1 -> matvec (2 * n) U (vec o x') (2 * i + p) = vec o x (2 * i + p).
Proof.
  intros Hi HF Hni. assert (F0 := HF). destruct F0 as [F0 F1]. unfold blk_sol. pose proof (Hlo i Hi). pose proof (Hhi i Hi). destruct (Hd i Hi) as [a [D1 D2]].
  rewrite (blk_dot_val _ U _ _ _ _ i); [| intros; apply Hget; auto | intros; lia].
  cbn [obind fst snd]. rewrite D1. cbn [obind]. rewrite !(zget_nthZ 0%R) by lia. cbn [obind].
  match goal with |- context [set_pair x o i ?t0 ?t1] => destruct (set_pair_val x o n i t0 t1 HF Hi) as (x' & E & L & V0 & V1 & O) end.
  exists x'. repeat split; auto. intros p Hp.
  rewrite matvec_blocks. rewrite (sumZ_pick n i) by auto.
  assert (Es : sumZ n (fun k => if k =? i then 0%R else brow p U i k (vec o x')) = sumZ (hi i - lo i) (fun q => brow p U i (lo i + q) (vec o x))).
  { rewrite (sumZ_window n (lo i) (hi i)); auto.
    - apply sumZ_ext. intros q Hq. replace (lo i + q =? i) with false by lia. unfold brow. rewrite !(vec_ext x x') by (apply O; lia). reflexivity.
    - intros k Hk Hk2. destruct (Z.eqb_spec k i); auto. now apply brow_zero_sol. }
  rewrite Es. unfold brow at 1. rewrite V0, V1. destruct (D2 (sub (nthZ 0%R x (o + 2 * i)) (sumZ (hi i - lo i) (fun q => brow 0 U i (lo i + q) (vec o x)))) (sub (nthZ 0%R x (o + (2 * i + 1))) (sumZ (hi i - lo i) (fun q => brow 1 U i (lo i + q) (vec o x))))) as [X0 X1].
  destruct Hp as [-> | ->].
  - rewrite Z.add_0_r. rewrite X0. unfold vec. cbn [sub R_arith]. ring.
  - rewrite X1. unfold vec. cbn [sub R_arith]. ring.
Qed.
Lemma blk_sol_dn x : fits o (2 * n) x -> (forall i, 0 <= i < n -> i < lo i) ->
  exists x', for_dn (n - 1) 0 (blk_sol get inv diag lo hi o) x = Some x' /\ acts o (2 * n) x x' (fun v w => isprod (2 * n) U w v).
Proof.
  intros HF Hup. destruct HF as [F0 F1].
  destruct (for_dn_inv (fun i x' => zlen x' = zlen x /\ (forall q p, i < q < n -> p = 0 \/ p = 1 -> matvec (2 * n) U (vec o x') (2 * q + p) = vec o x (2 * q + p)) /\
      (forall p, p <= 2 * i + 1 \/ 2 * n <= p -> zget x' (o + p) = zget x (o + p))) (n - 1) 0 (blk_sol get inv diag lo hi o) x) as [x' [E (L1 & G & O)]].
  - lia.
  - repeat split; auto. intros; lia.
  - intros i x1 Hi (L1 & G & O). pose proof (Hup i ltac:(lia)).
    destruct (blk_sol_val i x1) as (x2 & E2 & L2 & O2 & G2); [lia|split; lia|lia|].
    exists x2. split; auto. split; [lia|split].
    + intros q p Hq Hp. destruct (Z.eq_dec q i) as [->|].
      * rewrite G2 by auto. apply vec_ext. apply O. lia.
      * rewrite <- (G q p) by lia. rewrite !matvec_blocks. apply sumZ_ext. intros k Hk. destruct (Z.eq_dec k i) as [->|].
        -- pose proof (Hup q ltac:(lia)). rewrite !brow_zero_sol by lia. reflexivity.
        -- unfold brow. rewrite !(vec_ext x1 x2) by (apply O2; lia). reflexivity.
    + intros p Hp. rewrite O2 by lia. apply O. lia.
  - exists x'. split; auto. split; [|split]; auto.
    + apply isprod_blocks. intros. symmetry. apply G; lia.
    + intros p Hp. replace p with (o + (p - o)) by lia. apply O. lia.
Qed.
Lemma blk_sol_up x : fits o (2 * n) x -> (forall i, 0 <= i < n -> hi i <= i) ->
  exists x', for_up 0 n (blk_sol get inv diag lo hi o) x = Some x' /\ acts o (2 * n) x x' (fun v w => isprod (2 * n) U w v).
Proof.
  intros HF Hdn. destruct HF as [F0 F1].
  destruct (for_up_inv (fun i x' => zlen x' = zlen x /\ (forall q p, 0 <= q < i -> p = 0 \/ p = 1 -> matvec (2 * n) U (vec o x') (2 * q + p) = vec o x (2 * q + p)) /\
      (forall p, p < 0 \/ 2 * i <= p -> zget x' (o + p) = zget x (o + p))) 0 n (blk_sol get inv diag lo hi o) x) as [x' [E (L1 & G & O)]]; auto.
  - repeat split; auto. intros; lia.
  - intros i x1 Hi (L1 & G & O). pose proof (Hdn i ltac:(lia)).
    destruct (blk_sol_val i x1) as (x2 & E2 & L2 & O2 & G2); [lia|split; lia|lia|].
    exists x2. split; auto. split; [lia|split].
    + intros q p Hq Hp. destruct (Z.eq_dec q i) as [->|].
      * rewrite G2 by auto. apply vec_ext. apply O. lia.
      * rewrite <- (G q p) by lia. rewrite !matvec_blocks. apply sumZ_ext. intros k Hk. destruct (Z.eq_dec k i) as [->|].
        -- pose proof (Hdn q ltac:(lia)). rewrite !brow_zero_sol by lia. reflexivity.
        -- unfold brow. rewrite !(vec_ext x1 x2) by (apply O2; lia). reflexivity.
    + intros p Hp. rewrite O2 by lia. apply O. lia.
  - exists x'. split; auto. split; [|split]; auto.
    + apply isprod_blocks. intros. symmetry. apply G; lia.
    + intros p Hp. replace p with (o + (p - o)) by lia. apply O. lia.
Qed.
End Sol.
End BRows.

(** ** Block triangular systems have one solution *)
Lemma block_unique_gen n U (r : Z -> nat) v w :
  (forall i k p q, 0 <= i < n -> 0 <= k < n -> k <> i -> ~ (r k < r i)%nat -> p = 0 \/ p = 1 -> q = 0 \/ q = 1 -> U (2 * i + p) (2 * k + q) = 0%R) ->
  nonsingular_blocks n U -> (forall i, 0 <= i < 2 * n -> matvec (2 * n) U v i = matvec (2 * n) U w i) ->
  forall i, 0 <= i < 2 * n -> v i = w i.
Proof.
  intros Hz Hd He. assert (H : forall m i, 0 <= i < n -> (r i < m)%nat -> v (2 * i) = w (2 * i) /\ v (2 * i + 1) = w (2 * i + 1)).
  { induction m; intros i Hi Hm; [lia|].
    assert (Hp : forall p, p = 0 \/ p = 1 -> brow p U i i v = brow p U i i w).
    { intros p Hp. specialize (He (2 * i + p) ltac:(lia)). rewrite !matvec_blocks in He. rewrite (sumZ_pick n i), (sumZ_pick n i (fun k => brow p U i k w)) in He by auto.
      rewrite (sumZ_ext n (fun k => if k =? i then 0%R else brow p U i k v) (fun k => if k =? i then 0%R else brow p U i k w)) in He; [lra|].
      intros k Hk. destruct (Z.eqb_spec k i); auto. unfold brow. destruct (lt_dec (r k) (r i)).
      - destruct (IHm k Hk ltac:(lia)) as [-> ->]. reflexivity.
      - pose proof (Hz i k p 0) as Z0. pose proof (Hz i k p 1) as Z1. rewrite Z.add_0_r in Z0. rewrite Z0, Z1 by auto. lra. }
    pose proof (Hp 0 ltac:(auto)) as P0. pose proof (Hp 1 ltac:(auto)) as P1. unfold brow in P0, P1. rewrite Z.add_0_r in P0.
    pose proof (Hd i Hi) as D. unfold det2 in D.
    set (a := U (2 * i) (2 * i)) in *. set (b := U (2 * i) (2 * i + 1)) in *. set (c := U (2 * i + 1) (2 * i)) in *. set (d := U (2 * i + 1) (2 * i + 1)) in *.
    set (v0 := v (2 * i)) in *. set (v1 := v (2 * i + 1)) in *. set (w0 := w (2 * i)) in *. set (w1 := w (2 * i + 1)) in *.
    assert (E0 : ((a * d - b * c) * (v0 - w0) = 0)%R) by (replace ((a * d - b * c) * (v0 - w0))%R with (d * ((a * v0 + b * v1) - (a * w0 + b * w1)) - b * ((c * v0 + d * v1) - (c * w0 + d * w1)))%R by ring; rewrite P0, P1; ring).
    assert (E1 : ((a * d - b * c) * (v1 - w1) = 0)%R) by (replace ((a * d - b * c) * (v1 - w1))%R with (a * ((c * v0 + d * v1) - (c * w0 + d * w1)) - c * ((a * v0 + b * v1) - (a * w0 + b * w1)))%R by ring; rewrite P0, P1; ring).
    apply Rmult_integral in E0. apply Rmult_integral in E1. split; [destruct E0|destruct E1]; try lra; contradiction. }
  intros i Hi. destruct (H (S (r (i / 2))) (i / 2) ltac:(lia) ltac:(lia)) as [H0 H1].
  assert (i = 2 * (i / 2) \/ i = 2 * (i / 2) + 1) as [E|E] by lia; rewrite E; auto.
Qed.
Lemma block_unique n U t v w : is_block_upper n U -> nonsingular_blocks n U ->
  (forall i, 0 <= i < 2 * n -> matvec (2 * n) (op t U) v i = matvec (2 * n) (op t U) w i) -> forall i, 0 <= i < 2 * n -> v i = w i.
Proof.
  intros Hu Hd He. destruct t; cbn [op] in He.
  - apply (block_unique_gen n (transp U) (fun k => Z.to_nat k)); auto.
    + intros. unfold transp. apply Hu; lia.
    + intros i Hi. specialize (Hd i Hi). unfold det2, transp in *. intros E. apply Hd. rewrite <- E. ring.
  - apply (block_unique_gen n U (fun k => Z.to_nat (n - 1 - k))); auto. intros. apply Hu; lia.
Qed.
Lemma block_solve_mul_id n U t o x x1 x2 : fits o (2 * n) x -> is_block_upper n U -> nonsingular_blocks n U ->
  acts o (2 * n) x x1 (isprod (2 * n) (op t U)) -> acts o (2 * n) x1 x2 (fun v w => isprod (2 * n) (op t U) w v) -> x2 = x.
Proof.
  intros HF Hu Hd A1 A2. apply (acts_id o (2 * n)); auto.
  destruct A1 as (L1 & P1 & O1), A2 as (L2 & P2 & O2). split; [lia|split].
  - apply (block_unique n U t); auto. intros i Hi. rewrite <- (P2 i Hi), <- (P1 i Hi). reflexivity.
  - intros p Hp. rewrite O2, O1 by auto. reflexivity.
Qed.
Lemma block_mul_solve_id n U t o x x1 x2 : fits o (2 * n) x ->
  acts o (2 * n) x x1 (fun v w => isprod (2 * n) (op t U) w v) -> acts o (2 * n) x1 x2 (isprod (2 * n) (op t U)) -> x2 = x.
Proof. apply mul_solve_id. Qed.
