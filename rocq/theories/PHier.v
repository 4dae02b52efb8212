(** * Proofs: gemv, gemm, low-rank and hierarchical products *)
From Coq Require Import ZArith List Lia Bool ZifyBool ZifyNat Reals Lra.
From Verif Require Import Arith Base BaseFacts SpecSum PSum SpecLin MBanded SpecBanded PTri MHier SpecHier.
Import ListNotations.
Open Scope Z_scope.

(** ** writing part of a vector *)
Lemma writes_self o n (y : list R) : fits o n y -> writes o n y y (vec o y).
Proof. intros [H0 H1]. split; auto. split; auto. intros i Hi. apply zget_nthZ. lia. Qed.
Lemma writes_vec o n (y y' : list R) v i : writes o n y y' v -> 0 <= i < n -> vec o y' i = v i.
Proof. intros (_ & V & _) Hi. apply nthZ_zget. auto. Qed.
Lemma writes_ext {F} o n (y y' : list F) v w : (forall i, 0 <= i < n -> v i = w i) -> writes o n y y' v -> writes o n y y' w.
Proof. intros E (L & V & O). split; auto. split; auto. intros i Hi. rewrite V by auto. now rewrite E. Qed.
Lemma writes_sub {F} o n p r (y y1 y2 : list F) v w : 0 <= p -> p + r <= n -> writes o n y y1 v -> writes (o + p) r y1 y2 w ->
  writes o n y y2 (fun i => if (p <=? i) && (i <? p + r) then w (i - p) else v i).
Proof.
  intros Hp Hr (L & V & O) (L2 & V2 & O2). split; [lia|]. split.
  - intros i Hi. destruct ((p <=? i) && (i <? p + r)) eqn:E.
    + replace (o + i) with (o + p + (i - p)) by lia. apply V2. lia.
    + rewrite O2 by lia. auto.
  - intros q Hq. rewrite O2 by lia. auto.
Qed.
Lemma writes_trans {F} o n (y y1 y2 : list F) v w : writes o n y y1 v -> writes o n y1 y2 w -> writes o n y y2 w.
Proof. intros (L & V & O) (L2 & V2 & O2). split; [lia|]. split; auto. intros q Hq. rewrite O2; auto. Qed.
Lemma writes_fits {F} o n o' n' (y y' : list F) v : writes o n y y' v -> fits o' n' y -> fits o' n' y'.
Proof. intros (L & _) [H0 H1]. split; lia. Qed.

(** a loop rewriting entry oy+i to [val i (old entry)] *)
Lemma vec_loop n (body : Z -> list R -> option (list R)) (val : Z -> R -> R) (y : list R) oy : 0 <= n -> fits oy n y ->
  (forall i y', 0 <= i < n -> zlen y' = zlen y -> body i y' = Some (zupd y' (oy + i) (val i (vec oy y' i)))) ->
  exists y', for_up 0 n body y = Some y' /\ writes oy n y y' (fun i => val i (vec oy y i)).
Proof.
  intros Hn [F0 F1] Hb.
  destruct (for_up_inv (fun i y' => writes oy i y y' (fun i => val i (vec oy y i))) 0 n body y) as (y' & E & W); auto.
  - split; auto. split; [intros; lia|auto].
  - intros i y1 Hi (L & V & O). rewrite Hb by auto. eexists; split; [reflexivity|]. split; [now rewrite zlen_zupd|]. split.
    + intros k Hk. destruct (Z.eq_dec k i) as [->|].
      * rewrite zget_zupd_same by lia. do 2 f_equal. apply vec_ext. apply O. lia.
      * rewrite zget_zupd_other by lia. apply V. lia.
    + intros q Hq. rewrite zget_zupd_other by lia. apply O. lia.
  - eauto.
Qed.

Lemma eqbR x y : eqb x y = true <-> x = y.
Proof. change (eqb x y) with (R_eqb x y). unfold R_eqb. destruct (Req_EM_T x y); split; intros; auto; discriminate. Qed.

Lemma scale_vec_val n beta y oy : 0 <= n -> fits oy n y -> exists y', scale_vec n beta y oy = Some y' /\ writes oy n y y' (fun i => (beta * vec oy y i)%R).
Proof.
  intros Hn Hf. unfold scale_vec. destruct (eqb beta one) eqn:E1.
  { apply eqbR in E1. cbn in E1. subst. exists y. split; auto. eapply writes_ext; [|apply writes_self; auto]. intros; cbv beta; lra. }
  destruct (eqb beta zero) eqn:E2.
  { apply eqbR in E2. cbn in E2. subst. destruct (vec_loop n (fun i y => zset y (oy + i) zero) (fun _ _ => 0%R) y oy) as (y' & E & W); auto.
    - intros i y' Hi L. destruct Hf. rewrite zset_some by lia. reflexivity.
    - exists y'. split; auto. eapply writes_ext; [|exact W]. intros; cbv beta; lra. }
  destruct (vec_loop n (fun i y => do yi <- zget y (oy + i); zset y (oy + i) (mul beta yi)) (fun _ v => (beta * v)%R) y oy) as (y' & E & W); auto.
  - intros i y' Hi L. destruct Hf. rewrite (zget_vec oy y' i n) by (auto; split; lia). cbn [obind]. rewrite zset_some by lia. reflexivity.
  - eauto.
Qed.

Lemma mat_get o m n ld (A : list R) i j : fits_mat o m n ld A -> 0 <= i < m -> 0 <= j < n -> zget A (o + (i + j * ld)) = Some (mat o ld A i j).
Proof.
  intros (H0 & H1 & H2) Hi Hj. apply zget_nthZ. specialize (H2 ltac:(lia)). assert (0 <= j * ld) by (apply Z.mul_nonneg_nonneg; lia).
  assert (j * ld <= (n - 1) * ld) by (apply Z.mul_le_mono_nonneg_r; lia). lia.
Qed.


Lemma gemv_proof t m n alpha A oA lda x ox beta y oy : 0 <= m -> 0 <= n -> fits_mat oA m n lda A -> fits ox (ocols t m n) x -> fits oy (orows t m n) y ->
  exists y', gemv t m n alpha A oA lda x ox beta y oy = Some y' /\
    writes oy (orows t m n) y y' (fun i => (alpha * matvec (ocols t m n) (op t (mat oA lda A)) (vec ox x) i + beta * vec oy y i)%R).
Proof.
  intros Hm Hn HA Hx Hy. unfold gemv. destruct t; cbn [orows ocols op] in *.
  - destruct (scale_vec_val n beta y oy Hn Hy) as (y1 & E1 & W1). rewrite E1. cbn [obind].
    assert (Hy1 : fits oy n y1) by (eapply writes_fits; eauto).
    destruct (vec_loop n (fun i y => do t <- for_up 0 m (fun j t => do a <- zget A (oA + (j + i * lda)); do xj <- zget x (ox + j); Some (add t (mul a xj))) zero;
      do yi <- zget y (oy + i); zset y (oy + i) (add yi (mul alpha t))) (fun i v => (v + alpha * matvec m (transp (mat oA lda A)) (vec ox x) i)%R) y1 oy) as (y2 & E2 & W2); auto.
    + intros i y' Hi L.
      assert (ES : for_up 0 m (fun j t => do a <- zget A (oA + (j + i * lda)); do xj <- zget x (ox + j); Some (add t (mul a xj))) zero = Some (matvec m (transp (mat oA lda A)) (vec ox x) i)).
      { match goal with |- for_up 0 m ?b ?s = _ => destruct (for_up_inv (fun k t => t = sumZ k (fun j => (mat oA lda A j i * vec ox x j)%R)) 0 m b s) as (t & Et & Ht); auto end.
        - intros j t Hj ->. rewrite (mat_get oA m n lda A j i) by auto. cbn [obind]. rewrite (zget_vec ox x j m) by auto. cbn [obind].
          eexists; split; [reflexivity|]. now rewrite sumZ_S by lia.
        - rewrite Et, Ht. reflexivity. }
      rewrite ES. cbn [obind]. destruct Hy1. rewrite (zget_vec oy y' i n) by (auto; split; lia). cbn [obind]. rewrite zset_some by lia. reflexivity.
    + exists y2. split; auto. eapply writes_ext; [|eapply writes_trans; [exact W1|exact W2]]. intros i Hi. cbv beta. rewrite (writes_vec oy n y y1 _ i W1) by auto. lra.
  - destruct (scale_vec_val m beta y oy Hm Hy) as (y1 & E1 & W1). rewrite E1. cbn [obind].
    match goal with |- context [for_up 0 n ?b y1] =>
      destruct (for_up_inv (fun j y' => writes oy m y y' (fun i => (alpha * sumZ j (fun k => (mat oA lda A i k * vec ox x k)%R) + beta * vec oy y i)%R)) 0 n b y1) as (y2 & E2 & W2); auto end.
    + eapply writes_ext; [|exact W1]. intros i Hi. cbv beta. rewrite sumZ_0 by lia. lra.
    + intros j y2 Hj W2. rewrite (zget_vec ox x j n) by auto. cbn [obind].
      assert (Hy2 : fits oy m y2) by (eapply writes_fits; eauto).
      destruct (vec_loop m (fun i y => do yi <- zget y (oy + i); do a <- zget A (oA + (i + j * lda)); zset y (oy + i) (add yi (mul a (mul alpha (vec ox x j)))))
        (fun i v => (v + mat oA lda A i j * (alpha * vec ox x j))%R) y2 oy) as (y3 & E3 & W3); auto.
      * intros i y' Hi L. destruct Hy2. rewrite (zget_vec oy y' i m) by (auto; split; lia). cbn [obind]. rewrite (mat_get oA m n lda A i j) by auto. cbn [obind]. rewrite zset_some by lia. reflexivity.
      * rewrite E3. eexists; split; [reflexivity|]. eapply writes_ext; [|eapply writes_trans; [exact W2|exact W3]].
        intros i Hi. cbv beta. rewrite (writes_vec oy m y y2 _ i W2) by auto. rewrite sumZ_S by lia. lra.
    + exists y2. split; auto.
Qed.

(** ** writing part of a matrix *)
Lemma wm_self o m p ld (C : list R) : fits_mat o m p ld C -> writes_mat o m p ld C C (mat o ld C).
Proof. intros H. split; auto. split; auto. intros i k Hi Hk. now apply (mat_get o m p ld). Qed.
Lemma wm_val o m p ld (C C' : list R) v i k : writes_mat o m p ld C C' v -> 0 <= i < m -> 0 <= k < p -> mat o ld C' i k = v i k.
Proof. intros (_ & V & _) Hi Hk. apply nthZ_zget. auto. Qed.
Lemma wm_ext {F} o m p ld (C C' : list F) v w : (forall i k, 0 <= i < m -> 0 <= k < p -> v i k = w i k) -> writes_mat o m p ld C C' v -> writes_mat o m p ld C C' w.
Proof. intros E (L & V & O). split; auto. split; auto. intros i k Hi Hk. rewrite V by auto. now rewrite E. Qed.
Lemma wm_fits {F} o m p ld o' m' p' ld' (C C' : list F) v : writes_mat o m p ld C C' v -> fits_mat o' m' p' ld' C -> fits_mat o' m' p' ld' C'.
Proof. intros (L & _) (A & B & D). split; [auto|]. split; auto. intros. rewrite L. auto. Qed.
Lemma fits_sub {F} o m p ld r c m' p' (C : list F) : fits_mat o m p ld C -> 0 <= r -> 0 <= m' -> r + m' <= m -> 0 <= c -> c + p' <= p -> fits_mat (o + r + c * ld) m' p' ld C.
Proof.
  intros (A & B & D) Hr Hm Hrm Hc Hp. assert (0 <= c * ld) by (apply Z.mul_nonneg_nonneg; lia). split; [lia|]. split; [lia|]. intros Hp'.
  specialize (D ltac:(lia)). assert ((c + (p' - 1)) * ld <= (p - 1) * ld) by (apply Z.mul_le_mono_nonneg_r; lia). lia.
Qed.
Lemma wm_sub {F} o m p ld r c m' p' (C C1 C2 : list F) v w : m <= ld -> 0 <= r -> r + m' <= m -> 0 <= c -> c + p' <= p ->
  writes_mat o m p ld C C1 v -> writes_mat (o + r + c * ld) m' p' ld C1 C2 w ->
  writes_mat o m p ld C C2 (fun i k => if (r <=? i) && (i <? r + m') && (c <=? k) && (k <? c + p') then w (i - r) (k - c) else v i k).
Proof.
  intros Hld Hr Hrm Hc Hcp (L & V & O) (L2 & V2 & O2). split; [lia|]. split.
  - intros i k Hi Hk. destruct ((r <=? i) && (i <? r + m') && (c <=? k) && (k <? c + p')) eqn:E.
    + replace (o + (i + k * ld)) with (o + r + c * ld + ((i - r) + (k - c) * ld)) by lia. apply V2; lia.
    + rewrite O2; auto. intros i' k' Hi' Hk' Eq.
      assert (Q : i + k * ld = (r + i') + (c + k') * ld) by lia. apply idx2_inj in Q; lia.
  - intros q Hq. rewrite O2; auto. intros i' k' Hi' Hk' Eq. apply (Hq (r + i') (c + k')); lia.
Qed.

Lemma gemm_proof t m n p alpha A oA lda B oB ldb beta C oC ldc : 0 <= m -> 0 <= n -> 0 <= p -> fits_mat oA m n lda A ->
  fits_mat oB (ocols t m n) p ldb B -> fits_mat oC (orows t m n) p ldc C ->
  exists C', gemm t m n p alpha A oA lda B oB ldb beta C oC ldc = Some C' /\
    writes_mat oC (orows t m n) p ldc C C' (fun i k => (alpha * matvec (ocols t m n) (op t (mat oA lda A)) (vec (oB + k * ldb) B) i + beta * mat oC ldc C i k)%R).
Proof.
  intros Hm Hn Hp HA HB HC. unfold gemm. set (rr := orows t m n) in *.
  assert (Hrr : 0 <= rr) by (unfold rr, orows; destruct t; lia). assert (Hcc : 0 <= ocols t m n) by (unfold ocols; destruct t; lia).
  pose proof HC as (HC0 & HC1 & HC2). pose proof HB as (HB0 & HB1 & HB2).
  match goal with |- context [for_up 0 p ?b C] =>
    destruct (for_up_inv (fun k0 C' => writes_mat oC rr p ldc C C' (fun i k => if k <? k0 then (alpha * matvec (ocols t m n) (op t (mat oA lda A)) (vec (oB + k * ldb) B) i + beta * mat oC ldc C i k)%R else mat oC ldc C i k)) 0 p b C) as (C' & E & W); auto end.
  - eapply wm_ext; [|apply wm_self; auto]. intros i k Hi Hk. cbv beta. now replace (k <? 0) with false by lia.
  - intros k0 C1 Hk W1.
    assert (HC1' : fits_mat (oC + 0 + k0 * ldc) rr 1 ldc C1) by (eapply fits_sub; [eapply wm_fits; [exact W1|exact HC]| | | | |]; lia).
    assert (HB1' : fits_mat (oB + 0 + k0 * ldb) (ocols t m n) 1 ldb B) by (apply (fits_sub oB (ocols t m n) p ldb 0 k0 (ocols t m n) 1); auto; lia).
    destruct (gemv_proof t m n alpha A oA lda B (oB + k0 * ldb) beta C1 (oC + k0 * ldc) Hm Hn HA) as (C2 & E2 & W2).
    { destruct HB1' as (Q1 & Q2 & Q3). split; lia. } { destruct HC1' as (Q1 & Q2 & Q3). fold rr. split; lia. }
    rewrite E2. eexists; split; [reflexivity|]. fold rr in W2.
    assert (W2' : writes_mat (oC + 0 + k0 * ldc) rr 1 ldc C1 C2 (fun i _ => (alpha * matvec (ocols t m n) (op t (mat oA lda A)) (vec (oB + k0 * ldb) B) i + beta * vec (oC + k0 * ldc) C1 i)%R)).
    { destruct W2 as (L2 & V2 & O2). split; auto. split.
      - intros i k Hi Hk'. assert (k = 0) by lia. subst k. replace (oC + 0 + k0 * ldc + (i + 0 * ldc)) with (oC + k0 * ldc + i) by lia. auto.
      - intros q Hq. apply O2. destruct (Z_lt_dec q (oC + k0 * ldc)); [lia|]. destruct (Z_lt_dec q (oC + k0 * ldc + rr)); [|lia].
        exfalso. apply (Hq (q - (oC + k0 * ldc)) 0); lia. }
    eapply wm_ext; [|eapply (wm_sub _ _ _ _ 0 k0 rr 1); [| | | | |exact W1|exact W2']]; try lia.
    intros i k Hi Hk'. cbv beta. destruct (Z.eq_dec k k0) as [->|].
    + replace ((0 <=? i) && (i <? 0 + rr) && (k0 <=? k0) && (k0 <? k0 + 1)) with true by lia. replace (k0 <? k0 + 1) with true by lia.
      replace (i - 0) with i by lia. replace (vec (oC + k0 * ldc) C1 i) with (mat oC ldc C1 i k0) by (unfold vec, mat; f_equal; lia).
      rewrite (wm_val oC rr p ldc C C1 _ i k0 W1) by lia. now replace (k0 <? k0) with false by lia.
    + replace ((0 <=? i) && (i <? 0 + rr) && (k0 <=? k) && (k <? k0 + 1)) with false by lia. now replace (k <? k0 + 1) with (k <? k0) by lia.
  - exists C'. split; auto. eapply wm_ext; [|exact W]. intros i k Hi Hk. cbv beta. now replace (k <? p) with true by lia.
Qed.
