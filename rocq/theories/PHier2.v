(** * Proofs: low-rank and hierarchical products *)
From Coq Require Import ZArith List Lia Bool ZifyBool ZifyNat Reals Lra.
From Verif Require Import Arith Base BaseFacts SpecSum PSum SpecLin MBanded SpecBanded PTri MHier SpecHier PHier.
Import ListNotations.
Open Scope Z_scope.

Lemma mv_assoc r n U W x i : matvec n (matmul r U W) x i = matvec r U (matvec n W x) i.
Proof.
  unfold matvec, matmul. rewrite (sumZ_ext n _ (fun k => sumZ r (fun l => (U i l * W l k * x k)%R))) by (intros; now rewrite <- sumZ_scal_r).
  rewrite sumZ_swap. apply sumZ_ext. intros l Hl. rewrite <- sumZ_scal. apply sumZ_ext. intros. lra.
Qed.
Lemma mv_ext n U V x y i : (forall k, 0 <= k < n -> U i k = V i k) -> (forall k, 0 <= k < n -> x k = y k) -> matvec n U x i = matvec n V y i.
Proof. intros H1 H2. apply sumZ_ext. intros k Hk. now rewrite H1, H2. Qed.
Lemma mv_scal n U a x i : matvec n U (fun k => (a * x k)%R) i = (a * matvec n U x i)%R.
Proof. unfold matvec. rewrite <- sumZ_scal. apply sumZ_ext. intros. lra. Qed.
Lemma transp_mm r U W i j : transp (matmul r U W) i j = matmul r (transp W) (transp U) i j.
Proof. unfold transp, matmul. apply sumZ_ext. intros. lra. Qed.
Lemma mm_ext r U U' W W' i j : (forall k, 0 <= k < r -> U i k = U' i k) -> (forall k, 0 <= k < r -> W k j = W' k j) -> matmul r U W i j = matmul r U' W' i j.
Proof. intros H1 H2. apply sumZ_ext. intros k Hk. now rewrite H1, H2. Qed.

(** ** low rank *)
Section LR.
Variable L : lowrank R.
Notation m := (lr_m L). Notation n := (lr_n L). Notation r := (lr_r L).
Notation U := (mat 0 m (lr_U L)). Notation S := (mat 0 r (lr_S L)). Notation V := (mat 0 n (lr_V L)).
Lemma lr_alg3 t v i : lr_three L = true -> matvec (ocols t m n) (op t (lr_mat L)) v i =
  matvec r (if t then V else U) (matvec r (op t S) (matvec (ocols t m n) (transp (if t then U else V)) v)) i.
Proof.
  intros H3. rewrite <- mv_assoc. rewrite <- mv_assoc. rewrite mv_assoc. rewrite <- !mv_assoc. apply mv_ext; auto. intros k Hk. unfold lr_mat. rewrite H3.
  destruct t; cbn [op].
  - rewrite transp_mm. unfold matmul at 1 3. unfold transp, matmul.
    rewrite (sumZ_ext r _ (fun l => sumZ r (fun p => (V i p * S l p * U k l)%R))).
    2:{ intros l Hl. rewrite <- sumZ_scal_r. apply sumZ_ext. intros. lra. }
    apply sumZ_ext. intros l Hl. now rewrite sumZ_scal_r.
  - unfold matmul, transp.
    rewrite (sumZ_ext r _ (fun p => sumZ r (fun l => (U i p * S p l * V k l)%R))).
    2:{ intros p Hp. rewrite <- sumZ_scal. apply sumZ_ext. intros. lra. }
    rewrite sumZ_swap. apply sumZ_ext. intros l Hl. now rewrite sumZ_scal_r.
Qed.
Lemma lr_alg2 t v i : lr_three L = false -> matvec (ocols t m n) (op t (lr_mat L)) v i =
  matvec r (if t then V else U) (matvec (ocols t m n) (transp (if t then U else V)) v) i.
Proof.
  intros H3. rewrite <- mv_assoc. apply mv_ext; auto. intros k Hk. unfold lr_mat. rewrite H3. destruct t; cbn [op]; [apply transp_mm|reflexivity].
Qed.
Hypothesis ok : lr_ok L.
Lemma fU : fits_mat 0 m r m (lr_U L).
Proof. destruct ok as (A & B & C & D & _). split; [lia|]. split; [lia|]. intros. lia. Qed.
Lemma fV : fits_mat 0 n r n (lr_V L).
Proof. destruct ok as (A & B & C & D & E & _). split; [lia|]. split; [lia|]. intros. lia. Qed.
Lemma fS : lr_three L = true -> fits_mat 0 r r r (lr_S L).
Proof. destruct ok as (A & B & C & D & E & G & _). intros H. specialize (G H). split; [lia|]. split; [lia|]. intros. lia. Qed.

Lemma lrmv_proof t alpha x ox beta y oy : fits ox (ocols t m n) x -> fits oy (orows t m n) y ->
  exists y', lrmv t alpha L x ox beta y oy = Some y' /\
    writes oy (orows t m n) y y' (fun i => (alpha * matvec (ocols t m n) (op t (lr_mat L)) (vec ox x) i + beta * vec oy y i)%R).
Proof.
  intros Hx Hy. pose proof fU as FU. pose proof fV as FV. pose proof fS as FS. destruct ok as (A & B & C & _ & _ & _ & T1 & T2).
  assert (G1 : exists t1, gemv true (ocols t m n) r 1%R (if t then lr_U L else lr_V L) 0 (ocols t m n) x ox 0%R (lr_t1 L) 0 = Some t1 /\
     fits 0 r t1 /\ forall i, 0 <= i < r -> vec 0 t1 i = matvec (ocols t m n) (transp (if t then U else V)) (vec ox x) i).
  { destruct (gemv_proof true (ocols t m n) r 1%R (if t then lr_U L else lr_V L) 0 (ocols t m n) x ox 0%R (lr_t1 L) 0) as (t1 & E & W); try (destruct t; cbn; auto; lia); [split; cbn; lia|].
    exists t1. split; auto. split; [eapply writes_fits; [exact W|split; cbn; lia]|]. intros i Hi. rewrite (writes_vec _ _ _ _ _ _ W Hi). cbn [op ocols]. rewrite Rmult_1_l, Rmult_0_l, Rplus_0_r. destruct t; reflexivity. }
  destruct G1 as (t1 & E1 & F1 & V1).
  assert (FIN : forall t2, fits 0 r t2 -> (forall i, 0 <= i < r -> vec 0 t2 i = (if lr_three L then matvec r (op t S) (matvec (ocols t m n) (transp (if t then U else V)) (vec ox x)) i else matvec (ocols t m n) (transp (if t then U else V)) (vec ox x) i)) ->
    exists y', gemv false (orows t m n) r alpha (if t then lr_V L else lr_U L) 0 (orows t m n) t2 0 beta y oy = Some y' /\
    writes oy (orows t m n) y y' (fun i => (alpha * matvec (ocols t m n) (op t (lr_mat L)) (vec ox x) i + beta * vec oy y i)%R)).
  { intros t2 F2 V2. destruct (gemv_proof false (orows t m n) r alpha (if t then lr_V L else lr_U L) 0 (orows t m n) t2 0 beta y oy) as (y' & E & W); try (destruct t; cbn; auto; lia).
    exists y'. split; auto. eapply writes_ext; [|exact W]. intros i Hi. cbv beta. cbn [op]. f_equal. f_equal. cbn [ocols].
    destruct (lr_three L) eqn:H3; [rewrite lr_alg3 by auto|rewrite lr_alg2 by auto]; apply mv_ext; auto; intros; destruct t; reflexivity. }
  unfold lrmv. destruct (lr_three L) eqn:H3.
  - assert (G2 : exists t2, gemv t r r 1%R (lr_S L) 0 r t1 0 0%R (lr_t2 L) 0 = Some t2 /\ fits 0 r t2 /\
      forall i, 0 <= i < r -> vec 0 t2 i = matvec r (op t S) (matvec (ocols t m n) (transp (if t then U else V)) (vec ox x)) i).
    { destruct (gemv_proof t r r 1%R (lr_S L) 0 r t1 0 0%R (lr_t2 L) 0) as (t2 & E & W); auto; try (destruct t; cbn; auto; fail); [destruct t; split; cbn; lia|].
      exists t2. assert (Q : orows t r r = r) by (destruct t; auto). assert (Q' : ocols t r r = r) by (destruct t; auto). rewrite Q, Q' in W.
      split; auto. split; [eapply writes_fits; [exact W|split; cbn; lia]|]. intros i Hi. rewrite (writes_vec _ _ _ _ _ _ W Hi). rewrite Rmult_1_l, Rmult_0_l, Rplus_0_r. apply mv_ext; auto. }
    destruct G2 as (t2 & E2 & F2 & V2). destruct t; cbn [orows ocols] in *.
    + change (@one R R_arith) with 1%R. change (@zero R R_arith) with 0%R. rewrite E1. cbn [obind]. rewrite E2. cbn [obind]. apply FIN; auto.
    + change (@one R R_arith) with 1%R. change (@zero R R_arith) with 0%R. rewrite E1. cbn [obind]. rewrite E2. cbn [obind]. apply FIN; auto.
  - destruct t; cbn [orows ocols] in *; change (@one R R_arith) with 1%R; change (@zero R R_arith) with 0%R; rewrite E1; cbn [obind]; apply FIN; auto.
Qed.

Lemma check_temps_len p t : 0 <= p -> r * p <= zlen (check_temps (F:=R) r p t).
Proof. intros Hp. unfold check_temps, zlen, zmake. rewrite app_length, repeat_length. lia. Qed.
Lemma lrmm_proof t p alpha B oB ldb beta C oC ldc : 0 <= p -> fits_mat oB (ocols t m n) p ldb B -> fits_mat oC (orows t m n) p ldc C ->
  exists C', lrmm t p alpha L B oB ldb beta C oC ldc = Some C' /\
    writes_mat oC (orows t m n) p ldc C C' (fun i k => (alpha * matvec (ocols t m n) (op t (lr_mat L)) (vec (oB + k * ldb) B) i + beta * mat oC ldc C i k)%R).
Proof.
  intros Hp HB HC. pose proof fU as FU. pose proof fV as FV. pose proof fS as FS. destruct ok as (A & A' & A3 & _).
  set (s1 := check_temps r p (lr_t1 L)). set (s2 := check_temps r p (lr_t2 L)).
  assert (T1 : fits_mat 0 r p r s1) by (split; [lia|]; split; [lia|]; intros; pose proof (check_temps_len p (lr_t1 L) Hp); unfold s1; lia).
  assert (T2 : fits_mat 0 r p r s2) by (split; [lia|]; split; [lia|]; intros; pose proof (check_temps_len p (lr_t2 L) Hp); unfold s2; lia).
  assert (G1 : exists t1, gemm true (ocols t m n) r p 1%R (if t then lr_U L else lr_V L) 0 (ocols t m n) B oB ldb 0%R s1 0 r = Some t1 /\
     fits_mat 0 r p r t1 /\ forall i k, 0 <= i < r -> 0 <= k < p -> vec (0 + k * r) t1 i = matvec (ocols t m n) (transp (if t then U else V)) (vec (oB + k * ldb) B) i).
  { destruct (gemm_proof true (ocols t m n) r p 1%R (if t then lr_U L else lr_V L) 0 (ocols t m n) B oB ldb 0%R s1 0 r) as (t1 & E & W); try (destruct t; cbn; auto; lia).
    exists t1. split; auto. cbn [orows] in W. split; [eapply wm_fits; [exact W|auto]|]. intros i k Hi Hk.
    replace (vec (0 + k * r) t1 i) with (mat 0 r t1 i k) by (unfold vec, mat; f_equal; lia).
    rewrite (wm_val _ _ _ _ _ _ _ _ _ W Hi Hk). cbn [op ocols]. rewrite Rmult_1_l, Rmult_0_l, Rplus_0_r. destruct t; reflexivity. }
  destruct G1 as (t1 & E1 & F1 & V1).
  assert (FIN : forall t2, fits_mat 0 r p r t2 -> (forall i k, 0 <= i < r -> 0 <= k < p -> vec (0 + k * r) t2 i = (if lr_three L then matvec r (op t S) (matvec (ocols t m n) (transp (if t then U else V)) (vec (oB + k * ldb) B)) i else matvec (ocols t m n) (transp (if t then U else V)) (vec (oB + k * ldb) B) i)) ->
    exists y', gemm false (orows t m n) r p alpha (if t then lr_V L else lr_U L) 0 (orows t m n) t2 0 r beta C oC ldc = Some y' /\
    writes_mat oC (orows t m n) p ldc C y' (fun i k => (alpha * matvec (ocols t m n) (op t (lr_mat L)) (vec (oB + k * ldb) B) i + beta * mat oC ldc C i k)%R)).
  { intros t2 F2 V2. destruct (gemm_proof false (orows t m n) r p alpha (if t then lr_V L else lr_U L) 0 (orows t m n) t2 0 r beta C oC ldc) as (y' & E & W); try (destruct t; cbn; auto; lia).
    exists y'. split; auto. eapply wm_ext; [|exact W]. intros i k Hi Hk. cbv beta. cbn [op]. f_equal. f_equal. cbn [ocols].
    destruct (lr_three L) eqn:H3; [rewrite lr_alg3 by auto|rewrite lr_alg2 by auto]; apply mv_ext; auto; intros; destruct t; reflexivity. }
  unfold lrmm. fold s1 s2. destruct (lr_three L) eqn:H3.
  - assert (G2 : exists t2, gemm t r r p 1%R (lr_S L) 0 r t1 0 r 0%R s2 0 r = Some t2 /\ fits_mat 0 r p r t2 /\
      forall i k, 0 <= i < r -> 0 <= k < p -> vec (0 + k * r) t2 i = matvec r (op t S) (matvec (ocols t m n) (transp (if t then U else V)) (vec (oB + k * ldb) B)) i).
    { destruct (gemm_proof t r r p 1%R (lr_S L) 0 r t1 0 r 0%R s2 0 r) as (t2 & E & W); auto; try (destruct t; cbn; auto; fail).
      exists t2. assert (Q : orows t r r = r) by (destruct t; auto). assert (Q' : ocols t r r = r) by (destruct t; auto). rewrite Q, Q' in W.
      split; auto. split; [eapply wm_fits; [exact W|auto]|]. intros i k Hi Hk. replace (vec (0 + k * r) t2 i) with (mat 0 r t2 i k) by (unfold vec, mat; f_equal; lia).
      rewrite (wm_val _ _ _ _ _ _ _ _ _ W Hi Hk). rewrite Rmult_1_l, Rmult_0_l, Rplus_0_r. apply mv_ext; auto. }
    destruct G2 as (t2 & E2 & F2 & V2). destruct t; cbn [orows ocols] in *; change (@one R R_arith) with 1%R; change (@zero R R_arith) with 0%R; rewrite E1; cbn [obind]; rewrite E2; cbn [obind]; apply FIN; auto.
  - destruct t; cbn [orows ocols] in *; change (@one R R_arith) with 1%R; change (@zero R R_arith) with 0%R; rewrite E1; cbn [obind]; apply FIN; auto.
Qed.
End LR.

(** ** block layouts *)
Lemma before_0 f : before 0 f = 0.
Proof. reflexivity. Qed.
Lemma before_S n f : 0 <= n -> before (n + 1) f = before n f + f n.
Proof. intros H. unfold before. replace (Z.to_nat (n + 1)) with (S (Z.to_nat n)) by lia. cbn [beforen]. now rewrite Z2Nat.id by lia. Qed.
Lemma before_mono f n : (forall k, 0 <= k < n -> 0 <= f k) -> forall k, 0 <= k <= n -> 0 <= before k f <= before n f.
Proof.
  intros Hf k Hk. replace n with (k + Z.of_nat (Z.to_nat (n - k))) by lia.
  assert (G : forall d, k + Z.of_nat d <= n -> before k f <= before (k + Z.of_nat d) f).
  { induction d; intros Hd; [replace (k + Z.of_nat 0) with k by lia; lia|]. replace (k + Z.of_nat (S d)) with (k + Z.of_nat d + 1) by lia. rewrite before_S by lia. specialize (IHd ltac:(lia)). specialize (Hf (k + Z.of_nat d)). lia. }
  split; [|apply G; lia].
  assert (Hk2 : Z.of_nat (Z.to_nat k) <= n) by lia. rewrite <- (Z2Nat.id k) by lia. clear G. revert Hk2. induction (Z.to_nat k) as [|d IH]; intros; [cbn; lia|].
  replace (Z.of_nat (S d)) with (Z.of_nat d + 1) by lia. rewrite before_S by lia. specialize (Hf (Z.of_nat d)). lia.
Qed.
Lemma before_bound f n k : (forall k, 0 <= k < n -> 0 <= f k) -> 0 <= k < n -> 0 <= before k f /\ before k f + f k <= before n f.
Proof.
  intros Hf Hk. rewrite <- before_S by lia. pose proof (before_mono f n Hf k ltac:(lia)). pose proof (before_mono f n Hf (k + 1) ltac:(lia)). lia.
Qed.

Lemma transp_placed p q r c U i j : transp (placed p q r c U) i j = placed q p c r (transp U) i j.
Proof. unfold transp, placed. destruct ((p <=? j) && (j <? p + r) && (q <=? i) && (i <? q + c)) eqn:E; destruct ((q <=? i) && (i <? q + c) && (p <=? j) && (j <? p + r)) eqn:E'; auto; lia. Qed.
(** product with a placed block *)
Lemma placed_mv n p q r c U ox x i : 0 <= q -> q + c <= n ->
  matvec n (placed p q r c U) (vec ox x) i = if (p <=? i) && (i <? p + r) then matvec c U (vec (ox + q) x) (i - p) else 0%R.
Proof.
  intros Hq Hc. unfold matvec. destruct ((p <=? i) && (i <? p + r)) eqn:E.
  - rewrite (sumZ_window n q (q + c)); try lia.
    + replace (q + c - q) with c by lia. apply sumZ_ext. intros k Hk. unfold placed. replace ((p <=? i) && (i <? p + r) && (q <=? q + k) && (q + k <? q + c)) with true by lia.
      replace (q + k - q) with k by lia. f_equal. unfold vec. f_equal. lia.
    + intros k Hk Hn. unfold placed. replace ((p <=? i) && (i <? p + r) && (q <=? k) && (k <? q + c)) with false by lia. lra.
  - apply sumZ_zero. intros k Hk. unfold placed. rewrite E. cbn. lra.
Qed.

(** ** a double loop that adds a contribution per block *)
Section Acc.
Variable W : list R -> (Z -> Z -> R) -> Prop.
Hypothesis Wext : forall C v w, (forall i k, v i k = w i k) -> W C v -> W C w.
Variables (O I : Z) (contrib : Z -> Z -> Z -> Z -> R).
Hypotheses (HO : 0 <= O) (HI : 0 <= I).
Lemma acc_loop (body : Z -> Z -> list R -> option (list R)) C v :
  (forall o i C v, 0 <= o < O -> 0 <= i < I -> W C v -> exists C', body o i C = Some C' /\ W C' (fun a k => (v a k + contrib o i a k)%R)) -> W C v ->
  exists C', for_up 0 O (fun o C => for_up 0 I (body o) C) C = Some C' /\ W C' (fun a k => (v a k + sumZ O (fun o => sumZ I (fun i => contrib o i a k)))%R).
Proof.
  intros Hstep HW.
  destruct (for_up_inv (fun o C' => W C' (fun a k => (v a k + sumZ o (fun o => sumZ I (fun i => contrib o i a k)))%R)) 0 O (fun o C => for_up 0 I (body o) C) C) as (C' & E & H); eauto.
  - eapply Wext; [|exact HW]. intros. cbv beta. rewrite sumZ_0 by lia. lra.
  - intros o C1 Ho W1.
    destruct (for_up_inv (fun i C' => W C' (fun a k => (v a k + sumZ o (fun o => sumZ I (fun i => contrib o i a k)) + sumZ i (fun i => contrib o i a k))%R)) 0 I (body o) C1) as (C2 & E2 & W2); auto.
    + eapply Wext; [|exact W1]. intros. cbv beta. rewrite (sumZ_0 0) by lia. lra.
    + intros i C2 Hi W2. destruct (Hstep o i C2 _ Ho Hi W2) as (C3 & E3 & W3). exists C3. split; auto. eapply Wext; [|exact W3]. intros. cbv beta. rewrite (sumZ_S i) by lia. lra.
    + exists C2. split; auto. eapply Wext; [|exact W2]. intros. cbv beta. rewrite (sumZ_S o) by lia. lra.
Qed.
Lemma acc_block_loop osz isz sz_o sz_i (call : Z -> Z -> Z -> Z -> list R -> option (list R)) C v :
  (forall o, 0 <= o < O -> osz o = Some (sz_o o)) -> (forall i, 0 <= i < I -> isz i = Some (sz_i i)) ->
  (forall o i C v, 0 <= o < O -> 0 <= i < I -> W C v -> exists C', call o i (before o sz_o) (before i sz_i) C = Some C' /\ W C' (fun a k => (v a k + contrib o i a k)%R)) -> W C v ->
  exists C', block_loop O I osz isz call C = Some C' /\ W C' (fun a k => (v a k + sumZ O (fun o => sumZ I (fun i => contrib o i a k)))%R).
Proof.
  intros Ho Hi Hstep HW. unfold block_loop.
  match goal with |- context [for_up 0 O ?b (C, 0)] =>
  destruct (for_up_inv (fun o Cq => snd Cq = before o sz_o /\ W (fst Cq) (fun a k => (v a k + sumZ o (fun o => sumZ I (fun i => contrib o i a k)))%R)) 0 O b (C, 0)) as ([C' q] & E & H); auto end.
  - split; [reflexivity|]. cbn [fst snd]. eapply Wext; [|exact HW]. intros. cbv beta. rewrite sumZ_0 by lia. lra.
  - intros o [C1 q] Hoo (Q1 & W1). cbn [fst snd] in *. subst q.
    match goal with |- context [for_up 0 I ?b (C1, 0)] =>
    destruct (for_up_inv (fun i Cq => snd Cq = before i sz_i /\ W (fst Cq) (fun a k => (v a k + sumZ o (fun o => sumZ I (fun i => contrib o i a k)) + sumZ i (fun i => contrib o i a k))%R)) 0 I b (C1, 0)) as ([C2 p] & E2 & P2 & W2); auto end.
    + split; [reflexivity|]. cbn [fst snd]. eapply Wext; [|exact W1]. intros. cbv beta. rewrite (sumZ_0 0) by lia. lra.
    + intros i [C2 p] Hii (P2 & W2). cbn [fst snd] in *. subst p. destruct (Hstep o i C2 _ Hoo Hii W2) as (C3 & E3 & W3). rewrite E3. cbn [obind]. rewrite Hi by auto. cbn [obind].
      eexists; split; [reflexivity|]. cbn [fst snd]. split; [now rewrite before_S by lia|]. eapply Wext; [|exact W3]. intros. cbv beta. rewrite (sumZ_S i) by lia. lra.
    + rewrite E2. cbn [obind fst snd] in *. rewrite Ho by auto. cbn [obind]. eexists; split; [reflexivity|]. cbn [fst snd]. split; [now rewrite before_S by lia|].
      eapply Wext; [|exact W2]. intros. cbv beta. rewrite (sumZ_S o) by lia. lra.
  - cbn [fst snd] in *. destruct H as (_ & H). rewrite E. cbn [obind fst]. eauto.
Qed.
End Acc.

(** ** facts about a well-formed tree *)
Lemma h_ok_nonneg {F} (H : hmat F) : h_ok H -> 0 <= hrows H /\ 0 <= hcols H.
Proof.
  induction 1 as [A HA|L HL|m n M N bl HM HN Hl Hb IH Hs Em En]; cbn [hrows hcols].
  - destruct HA as (? & ? & ?); auto.
  - destruct HL as (? & ? & ?); auto.
  - subst. split.
    + apply before_mono with (n := M); [|lia]. intros k Hk. unfold rsize. destruct (zget_ex bl k) as (b & Eb); [nia|]. rewrite (nthZ_zget _ _ _ _ Eb). apply (IH k b Eb).
    + apply before_mono with (n := N); [|lia]. intros k Hk. unfold csize. destruct (zget_ex bl (k * M)) as (b & Eb); [nia|]. rewrite (nthZ_zget _ _ _ _ Eb). apply (IH _ b Eb).
Qed.

Lemma zget_map {A B} (f : A -> B) l k : zget (map f l) k = match zget l k with Some v => Some (f v) | None => None end.
Proof. unfold zget. destruct (k <? 0); auto. rewrite nth_error_map. now destruct (nth_error l (Z.to_nat k)). Qed.

Section Tree.
Variables (m n M N : Z) (bl : list (hmat R)).
Hypothesis ok : h_ok (HTree m n M N bl).
Notation rs := (rsize bl). Notation cs := (csize bl M).
Lemma tree_facts : 1 <= M /\ 1 <= N /\ zlen bl = M * N /\ m = before M rs /\ n = before N cs /\ (forall k b, zget bl k = Some b -> h_ok b) /\
  (forall a b, 0 <= a < M -> 0 <= b < N -> exists X, zget bl (a + b * M) = Some X /\ h_ok X /\ hrows X = rs a /\ hcols X = cs b) /\
  (forall a, 0 <= a < M -> 0 <= rs a) /\ (forall b, 0 <= b < N -> 0 <= cs b) /\
  (forall a, 0 <= a < M -> 0 <= before a rs /\ before a rs + rs a <= m) /\ (forall b, 0 <= b < N -> 0 <= before b cs /\ before b cs + cs b <= n).
Proof.
  inversion ok as [| |m' n' M' N' bl' HM HN Hl Hb Hs Em En]; subst m' n' M' N' bl'.
  assert (G : forall a b, 0 <= a < M -> 0 <= b < N -> exists X, zget bl (a + b * M) = Some X /\ h_ok X /\ hrows X = rs a /\ hcols X = cs b).
  { intros a b Ha Hb'. destruct (zget_ex bl (a + b * M)) as (X & EX); [nia|]. exists X. split; auto. split; [eauto|]. eauto. }
  assert (Ra : forall a, 0 <= a < M -> 0 <= rs a).
  { intros a Ha. destruct (G a 0 Ha ltac:(lia)) as (X & _ & HX & E1 & E2). apply h_ok_nonneg in HX. lia. }
  assert (Cb : forall b, 0 <= b < N -> 0 <= cs b).
  { intros b Hb'. destruct (G 0 b ltac:(lia) Hb') as (X & _ & HX & E1 & E2). apply h_ok_nonneg in HX. lia. }
  do 9 (split; auto). split; [rewrite Em|rewrite En]; intros; apply before_bound; auto.
Qed.
Lemma tree_rows a : 0 <= a < M -> block_rows bl M a (N - 1) = Some (rs a).
Proof. intros Ha. destruct tree_facts as (HM & HN & _ & _ & _ & _ & G & _). destruct (G a (N - 1) Ha ltac:(lia)) as (X & E & _ & R1 & _). unfold block_rows. rewrite E. cbn [obind]. now rewrite R1. Qed.
Lemma tree_cols b : 0 <= b < N -> block_cols bl M 0 b = Some (cs b).
Proof. intros Hb. destruct tree_facts as (HM & HN & _ & _ & _ & _ & G & _). destruct (G 0 b ltac:(lia) Hb) as (X & E & _ & _ & R1). unfold block_cols. rewrite E. cbn [obind]. now rewrite R1. Qed.
(** the placed blocks *)
Definition pb (a b : Z) : Z -> Z -> R := placed (before a rs) (before b cs) (rs a) (cs b) (nthZ (fun _ _ => 0%R) (map h_mat bl) (a + b * M)).
Lemma h_mat_tree i j : h_mat (HTree m n M N bl) i j = sumZ N (fun b => sumZ M (fun a => pb a b i j)).
Proof. reflexivity. Qed.
Lemma mv_tree t nn v i : matvec nn (op t (h_mat (HTree m n M N bl))) v i = sumZ N (fun b => sumZ M (fun a => matvec nn (op t (pb a b)) v i)).
Proof.
  unfold matvec. rewrite (sumZ_ext nn _ (fun k => sumZ N (fun b => sumZ M (fun a => (op t (pb a b) i k * v k)%R)))).
  - rewrite sumZ_swap. apply sumZ_ext. intros b Hb. rewrite sumZ_swap. reflexivity.
  - intros k Hk. destruct t; cbn [op]; unfold transp; rewrite h_mat_tree, <- sumZ_scal_r; apply sumZ_ext; intros b Hb; rewrite <- sumZ_scal_r; apply sumZ_ext; auto.
Qed.
Lemma pb_mv t a b X ox x i : 0 <= a < M -> 0 <= b < N -> zget bl (a + b * M) = Some X ->
  matvec (ocols t m n) (op t (pb a b)) (vec ox x) i =
    let p := orows t (before a rs) (before b cs) in let q := ocols t (before a rs) (before b cs) in
    if (p <=? i) && (i <? p + orows t (rs a) (cs b)) then matvec (ocols t (rs a) (cs b)) (op t (h_mat X)) (vec (ox + q) x) (i - p) else 0%R.
Proof.
  intros Ha Hb EX. destruct tree_facts as (HM & HN & _ & _ & _ & _ & G & Ra & Cb & Ba & Bb). cbv zeta.
  assert (EN : nthZ (fun _ _ => 0%R) (map h_mat bl) (a + b * M) = h_mat X) by (apply nthZ_zget; now rewrite zget_map, EX).
  pose proof (Ba a Ha). pose proof (Bb b Hb).
  destruct t; cbn [op orows ocols].
  - rewrite (mv_ext m _ (placed (before b cs) (before a rs) (cs b) (rs a) (transp (h_mat X))) _ (vec ox x)) by (intros; try reflexivity; unfold pb; rewrite transp_placed, EN; reflexivity).
    now rewrite placed_mv by lia.
  - unfold pb. rewrite EN. now rewrite placed_mv by lia.
Qed.
End Tree.

Theorem ghmv_proof t alpha H x ox beta y oy : h_ok H -> fits ox (ocols t (hrows H) (hcols H)) x -> fits oy (orows t (hrows H) (hcols H)) y ->
  exists y', ghmv t alpha H x ox beta y oy = Some y' /\
    writes oy (orows t (hrows H) (hcols H)) y y' (fun i => (alpha * matvec (ocols t (hrows H) (hcols H)) (op t (h_mat H)) (vec ox x) i + beta * vec oy y i)%R).
Proof.
  intros ok. revert ox beta y oy. induction ok as [A HA|L HL|m n M N bl HM HN Hl Hb IH Hs Em En]; intros ox beta y oy Hx Hy.
  - cbn [ghmv hrows hcols h_mat] in *. destruct HA as (A1 & A2 & A3). apply gemv_proof; auto. split; [lia|]. split; [lia|]. intros; lia.
  - cbn [ghmv hrows hcols h_mat] in *. now apply lrmv_proof.
  - assert (ok : h_ok (HTree m n M N bl)) by (constructor; auto).
    pose proof (tree_facts m n M N bl ok) as (_ & _ & _ & _ & _ & _ & G & Ra & Cb & Ba & Bb).
    assert (Hmn : 0 <= m /\ 0 <= n) by (apply (h_ok_nonneg _ ok)).
    cbn [hrows hcols] in *.
    destruct (scale_vec_val (orows t m n) beta y oy) as (y1 & E1 & W1); [destruct t; cbn; lia|auto|].
    set (call := fun a b q p y => do call <- zget (map (fun b x ox y oy => ghmv t alpha b x ox one y oy) bl) (a + b * M); call x (ox + q) y (oy + p)).
    set (W := fun C (v : Z -> Z -> R) => writes oy (orows t m n) y C (fun i => v i 0)).
    assert (Wext : forall C v w, (forall i k, v i k = w i k) -> W C v -> W C w) by (intros C v w Q; apply writes_ext; auto).
    assert (W0 : W y1 (fun i _ => (beta * vec oy y i)%R)) by exact W1.
    assert (STEP : forall a b C v, 0 <= a < M -> 0 <= b < N -> W C v ->
      exists C', call a b (ocols t (before a (rsize bl)) (before b (csize bl M))) (orows t (before a (rsize bl)) (before b (csize bl M))) C = Some C' /\
        W C' (fun i k => (v i k + alpha * matvec (ocols t m n) (op t (pb M bl a b)) (vec ox x) i)%R)).
    { intros a b C v Ha Hb' WC. destruct (G a b Ha Hb') as (X & EX & okX & RX & CX). pose proof (Ba a Ha). pose proof (Bb b Hb'). pose proof (Ra a Ha). pose proof (Cb b Hb').
      set (p := orows t (before a (rsize bl)) (before b (csize bl M))). set (q := ocols t (before a (rsize bl)) (before b (csize bl M))).
      destruct (IH _ X EX (ox + q) 1%R C (oy + p)) as (C' & E & WX).
      { destruct Hx. rewrite RX, CX. unfold q. destruct t; cbn [ocols] in *; split; lia. }
      { destruct Hy. destruct WC as (LC & _). rewrite RX, CX. unfold p. destruct t; cbn [orows] in *; split; lia. }
      exists C'. split; [unfold call; rewrite zget_map, EX; cbn [obind]; exact E|].
      rewrite RX, CX in WX. unfold W in *.
      eapply writes_ext; [|eapply (writes_sub oy (orows t m n) p _ y C C'); [| |exact WC|exact WX]]; try (unfold p; destruct t; cbn [orows]; lia).
      intros i Hi. cbv beta. rewrite (pb_mv m n M N bl ok t a b X ox x i Ha Hb' EX). cbv zeta. fold p q.
      destruct ((p <=? i) && (i <? p + orows t (rsize bl a) (csize bl M b))) eqn:EQ; [|lra].
      replace (vec (oy + p) C (i - p)) with (vec oy C i) by (unfold vec; f_equal; lia). rewrite (writes_vec oy (orows t m n) y C _ i WC) by auto. lra. }
    assert (FIN : exists y', (if t then block_loop M N (fun a => block_rows bl M a (N - 1)) (fun b => block_cols bl M 0 b) call y1
                    else block_loop N M (fun b => block_cols bl M 0 b) (fun a => block_rows bl M a (N - 1)) (fun b a => call a b) y1) = Some y' /\
       W y' (fun i _ => (beta * vec oy y i + sumZ N (fun b => sumZ M (fun a => alpha * matvec (ocols t m n) (op t (pb M bl a b)) (vec ox x) i)))%R)).
    { destruct t.
      - destruct (acc_block_loop W Wext M N (fun a b i k => (alpha * matvec m (op true (pb M bl a b)) (vec ox x) i)%R) ltac:(lia) ltac:(lia) (fun a => block_rows bl M a (N - 1)) (fun b => block_cols bl M 0 b) (rsize bl) (csize bl M) call y1 (fun i _ => (beta * vec oy y i)%R)) as (y' & E & WW); [| | |exact W0|].
        + intros; now apply (tree_rows m n). + intros; now apply (tree_cols m n M N). + intros a b C v Ha Hb'. apply STEP; auto.
        + exists y'. split; [exact E|]. eapply Wext; [|exact WW]. intros i k. cbv beta. now rewrite sumZ_swap.
      - destruct (acc_block_loop W Wext N M (fun b a i k => (alpha * matvec n (op false (pb M bl a b)) (vec ox x) i)%R) ltac:(lia) ltac:(lia) (fun b => block_cols bl M 0 b) (fun a => block_rows bl M a (N - 1)) (csize bl M) (rsize bl) (fun b a => call a b) y1 (fun i _ => (beta * vec oy y i)%R)) as (y' & E & WW); [| | |exact W0|].
        + intros; now apply (tree_cols m n M N). + intros; now apply (tree_rows m n). + intros b a C v Hb' Ha. apply STEP; auto.
        + exists y'. split; [exact E|]. exact WW. }
    destruct FIN as (y' & E & WW). exists y'. split.
    + cbn [ghmv]. destruct t; cbn [orows] in *; rewrite E1; cbn [obind]; exact E.
    + eapply writes_ext; [|exact WW]. intros i Hi. cbv beta. rewrite (mv_tree m n M N bl). rewrite <- sumZ_scal. rewrite Rplus_comm. f_equal. apply sumZ_ext. intros. now rewrite <- sumZ_scal.
Qed.
