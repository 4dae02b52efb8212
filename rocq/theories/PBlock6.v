(** * Storing a 2x2 block *)
From Coq Require Import ZArith List Lia Bool Reals Lra ZifyBool.
From Verif Require Import Base BaseFacts Arith SpecSum PSum SpecLin MBanded SpecBanded PTri MBlock SpecBlock PBlock PBlock2 PGrad4.
Import ListNotations.
Open Scope Z_scope.

Lemma tb_store (A : tbanded R) v i j : tb_ok A -> 0 <= i -> j < tb_n A -> 0 <= j - i <= tb_b A ->
  exists A', tb_set A v i j = Some A' /\ tb_ok A' /\ tb_n A' = tb_n A /\ tb_b A' = tb_b A /\
    forall p q, 0 <= p < tb_n A -> 0 <= q < tb_n A -> tb_mat A' p q = if (p =? i) && (q =? j) then v else tb_mat A p q.
Proof.
  intros HA Hi Hj Hb. destruct (tb_set_val A v i j HA) as (A' & E & O & N & B & G). exists A'. repeat (split; [assumption|]). intros p q Hp Hq.
  specialize (G p q). unfold tG, tb_in in G. rewrite N in G. replace ((0 <=? p) && (q <? tb_n A)) with true in G by lia. rewrite G.
  replace (_ && (p =? i) && (q =? j)) with ((p =? i) && (q =? j)) by lia. reflexivity.
Qed.
Lemma bt_store_proof A v i j : bt_ok A -> 0 <= i -> j < bt_n A -> 0 <= j - i <= bt_b A ->
  exists A', bt_set A v i j = Some A' /\ bt_ok A' /\ bt_n A' = bt_n A /\ bt_b A' = bt_b A /\ bt_get A' i j = Some v /\
    bt_mat A' (2 * i) (2 * j) = m00 v /\ bt_mat A' (2 * i) (2 * j + 1) = m01 v /\ bt_mat A' (2 * i + 1) (2 * j) = m10 v /\ bt_mat A' (2 * i + 1) (2 * j + 1) = m11 v /\
    forall p q, 0 <= p < 2 * bt_n A -> 0 <= q < 2 * bt_n A -> ~ (p / 2 = i /\ q / 2 = j) -> bt_mat A' p q = bt_mat A p q.
Proof.
  intros HA Hi Hj Hb. pose proof HA as ((H0 & N0 & B0) & (H1 & N1 & B1) & (H2 & N2 & B2) & (H3 & N3 & B3)). unfold bt_set.
  destruct (tb_store (bt00 A) (m00 v) i j H0 Hi ltac:(lia) ltac:(lia)) as (a & E0 & O0 & M0 & C0 & G0).
  destruct (tb_store (bt01 A) (m01 v) i j H1 Hi ltac:(lia) ltac:(lia)) as (b & E1 & O1 & M1 & C1 & G1).
  destruct (tb_store (bt10 A) (m10 v) i j H2 Hi ltac:(lia) ltac:(lia)) as (c & E2 & O2 & M2' & C2 & G2).
  destruct (tb_store (bt11 A) (m11 v) i j H3 Hi ltac:(lia) ltac:(lia)) as (d & E3 & O3 & M3 & C3 & G3).
  rewrite E0, E1, E2, E3. cbn [obind]. set (A' := BTBand a b c d (bt_n A) (bt_b A)).
  assert (OK : bt_ok A') by (unfold bt_ok, A'; cbn; repeat split; try assumption; try congruence; try apply O0; try apply O1; try apply O2; try apply O3).
  rewrite N0 in G0. rewrite N1 in G1. rewrite N2 in G2. rewrite N3 in G3.
  assert (V : bt_mat A' (2 * i) (2 * j) = m00 v /\ bt_mat A' (2 * i) (2 * j + 1) = m01 v /\ bt_mat A' (2 * i + 1) (2 * j) = m10 v /\ bt_mat A' (2 * i + 1) (2 * j + 1) = m11 v).
  { unfold bt_mat. rewrite !even_div, !odd_div, !even_mod, !odd_mod. cbn. rewrite G0, G1, G2, G3 by lia. rewrite !Z.eqb_refl. cbn. auto. }
  exists A'. split; [reflexivity|]. split; [exact OK|]. split; [reflexivity|]. split; [reflexivity|].
  split; [rewrite bt_get_val by (assumption || exact Hj); unfold blk; destruct V as (V0 & V1 & V2 & V3); rewrite V0, V1, V2, V3; destruct v; reflexivity|].
  destruct V as (V0 & V1 & V2 & V3). repeat (split; [assumption|]). intros p q Hp Hq Hne. unfold bt_mat. assert (X : (p / 2 =? i) && (q / 2 =? j) = false) by lia.
  destruct (p mod 2 =? 0), (q mod 2 =? 0); cbn [bt00 bt01 bt10 bt11 A']; [rewrite G0|rewrite G1|rewrite G2|rewrite G3]; try lia; rewrite X; reflexivity.
Qed.
