(** * Proofs: ghmm, scaling and sampling of hierarchical matrices *)
From Coq Require Import ZArith List Lia Bool ZifyBool ZifyNat Reals Lra.
From Verif Require Import Arith Base BaseFacts SpecSum PSum SpecLin MBanded SpecBanded PTri MHier SpecHier PHier PHier2.
Import ListNotations.
Open Scope Z_scope.

Lemma offsets_val n size sz : 1 <= n -> (forall k, 0 <= k < n -> size k = Some (sz k)) ->
  exists t, offsets n size = Some t /\ forall k, 0 <= k < n -> zget t k = Some (before k sz).
Proof.
  intros Hn Hs. unfold offsets.
  match goal with |- context [for_up 1 n ?b ?s] =>
  destruct (for_up_inv (fun j t => zlen t = n /\ forall k, 0 <= k < j -> zget t k = Some (before k sz)) 1 n b s) as (t & E & L & V); auto end.
  - split; [rewrite zlen_zmake; lia|]. intros k Hk. rewrite zget_zmake by lia. now replace k with 0 by lia.
  - intros j t Hj (L & V). rewrite V by lia. cbn [obind]. rewrite Hs by lia. cbn [obind]. rewrite zset_some by lia. eexists; split; [reflexivity|]. split; [now rewrite zlen_zupd|].
    intros k Hk. destruct (Z.eq_dec k j) as [->|].
    + rewrite zget_zupd_same by lia. rewrite <- before_S by lia. do 2 f_equal. lia.
    + rewrite zget_zupd_other by lia. apply V. lia.
  - eauto.
Qed.

Lemma scale_mat_val n beta p ld C o : 0 <= n -> 0 <= p -> fits_mat o n p ld C ->
  exists C', for_up 0 p (fun j C => scale_vec n beta C (o + j * ld)) C = Some C' /\ writes_mat o n p ld C C' (fun i k => (beta * mat o ld C i k)%R).
Proof.
  intros Hn Hp HC. pose proof HC as (C0 & C1 & C2).
  destruct (for_up_inv (fun k0 C' => writes_mat o n p ld C C' (fun i k => if k <? k0 then (beta * mat o ld C i k)%R else mat o ld C i k)) 0 p (fun j C => scale_vec n beta C (o + j * ld)) C) as (C' & E & W); auto.
  - eapply wm_ext; [|apply wm_self; auto]. intros i k Hi Hk. cbv beta. now replace (k <? 0) with false by lia.
  - intros k0 D Hk W1.
    assert (HD : fits_mat (o + 0 + k0 * ld) n 1 ld D) by (apply (fits_sub o n p ld 0 k0 n 1); try lia; apply (wm_fits _ _ _ _ _ _ _ _ _ _ _ W1 HC)).
    destruct (scale_vec_val n beta D (o + k0 * ld) Hn) as (D2 & E2 & W2). { destruct HD as (Q1 & Q2 & Q3). split; lia. }
    rewrite E2. eexists; split; [reflexivity|].
    assert (W2' : writes_mat (o + 0 + k0 * ld) n 1 ld D D2 (fun i _ => (beta * vec (o + k0 * ld) D i)%R)).
    { destruct W2 as (L2 & V2 & O2). split; auto. split.
      - intros i k Hi Hk'. assert (k = 0) by lia. subst k. replace (o + 0 + k0 * ld + (i + 0 * ld)) with (o + k0 * ld + i) by lia. auto.
      - intros q Hq. apply O2. destruct (Z_lt_dec q (o + k0 * ld)); [lia|]. destruct (Z_lt_dec q (o + k0 * ld + n)); [|lia].
        exfalso. apply (Hq (q - (o + k0 * ld)) 0); lia. }
    eapply wm_ext; [|eapply (wm_sub _ _ _ _ 0 k0 n 1); [| | | | |exact W1|exact W2']]; try lia.
    intros i k Hi Hk'. cbv beta. destruct (Z.eq_dec k k0) as [->|].
    + replace ((0 <=? i) && (i <? 0 + n) && (k0 <=? k0) && (k0 <? k0 + 1)) with true by lia. replace (k0 <? k0 + 1) with true by lia.
      replace (i - 0) with i by lia. replace (vec (o + k0 * ld) D i) with (mat o ld D i k0) by (unfold vec, mat; f_equal; lia).
      rewrite (wm_val o n p ld C D _ i k0 W1) by lia. now replace (k0 <? k0) with false by lia.
    + replace ((0 <=? i) && (i <? 0 + n) && (k0 <=? k) && (k <? k0 + 1)) with false by lia. now replace (k <? k0 + 1) with (k <? k0) by lia.
  - exists C'. split; auto. eapply wm_ext; [|exact W]. intros i k Hi Hk. cbv beta. now replace (k <? p) with true by lia.
Qed.

Theorem ghmm_proof t alpha B ldb ldc H p oB beta C oC : h_ok H -> 0 <= p ->
  fits_mat oB (ocols t (hrows H) (hcols H)) p ldb B -> fits_mat oC (orows t (hrows H) (hcols H)) p ldc C ->
  exists C', ghmm t alpha H p B oB ldb beta C oC ldc = Some C' /\
    writes_mat oC (orows t (hrows H) (hcols H)) p ldc C C'
      (fun i k => (alpha * matvec (ocols t (hrows H) (hcols H)) (op t (h_mat H)) (vec (oB + k * ldb) B) i + beta * mat oC ldc C i k)%R).
Proof.
  intros ok. revert p oB beta C oC. induction ok as [A HA|L HL|m n M N bl HM HN Hl Hb IH Hs Em En]; intros p oB beta C oC Hp HB HC.
  - cbn [ghmm hrows hcols h_mat] in *. destruct HA as (A1 & A2 & A3). apply gemm_proof; auto. split; [lia|]. split; [lia|]. intros; lia.
  - cbn [ghmm hrows hcols h_mat] in *. now apply lrmm_proof.
  - assert (ok : h_ok (HTree m n M N bl)) by (constructor; auto).
    pose proof (tree_facts m n M N bl ok) as (_ & _ & _ & _ & _ & _ & G & Ra & Cb & Ba & Bb).
    assert (Hmn : 0 <= m /\ 0 <= n) by (apply (h_ok_nonneg _ ok)).
    cbn [hrows hcols] in *. pose proof HC as (HC0 & HC1 & HC2).
    destruct (offsets_val M (fun a => block_rows bl M a (N - 1)) (rsize bl) HM) as (mrows & EM & VM). { intros; now apply (tree_rows m n). }
    destruct (offsets_val N (fun b => block_cols bl M 0 b) (csize bl M) HN) as (ncols & EN & VN). { intros; now apply (tree_cols m n M N). }
    destruct (scale_mat_val (orows t m n) beta p ldc C oC) as (C1 & E1 & W1); auto; [destruct t; cbn; lia|].
    set (calls := map (fun b p oB C oC => ghmm t alpha b p B oB ldb one C oC ldc) bl).
    set (body := fun c0 w a b C => do call <- zget calls (a + b * M); do mr <- zget mrows a; do nc <- zget ncols b;
          call w (oB + ocols t mr nc + c0 * ldb) C (oC + orows t mr nc + c0 * ldc)).
    set (W := fun D (v : Z -> Z -> R) => writes_mat oC (orows t m n) p ldc C D v).
    assert (Wext : forall C v w, (forall i k, v i k = w i k) -> W C v -> W C w) by (intros D v w Q; apply wm_ext; auto).
    set (con := fun c0 w a b i k => if (c0 <=? k) && (k <? c0 + w) then (alpha * matvec (ocols t m n) (op t (pb M bl a b)) (vec (oB + k * ldb) B) i)%R else 0%R).
    assert (STEP : forall c0 w, 0 <= c0 -> 0 <= w -> c0 + w <= p -> forall a b D v, 0 <= a < M -> 0 <= b < N -> W D v ->
      exists D', body c0 w a b D = Some D' /\ W D' (fun i k => (v i k + con c0 w a b i k)%R)).
    { intros c0 w Hc0 Hw Hcw a b D v Ha Hb' WD. destruct (G a b Ha Hb') as (X & EX & okX & RX & CX). pose proof (Ba a Ha). pose proof (Bb b Hb'). pose proof (Ra a Ha). pose proof (Cb b Hb').
      set (pp := orows t (before a (rsize bl)) (before b (csize bl M))). set (q := ocols t (before a (rsize bl)) (before b (csize bl M))).
      destruct (IH _ X EX w (oB + q + c0 * ldb) 1%R D (oC + pp + c0 * ldc) Hw) as (D' & E & WX).
      { rewrite RX, CX. apply (fits_sub oB (ocols t m n) p ldb); auto; unfold q; destruct t; cbn [ocols]; lia. }
      { rewrite RX, CX. apply (fits_sub oC (orows t m n) p ldc); auto; [apply (wm_fits _ _ _ _ _ _ _ _ _ _ _ WD HC)|..]; unfold pp; destruct t; cbn [orows]; lia. }
      exists D'. split. { unfold body, calls. rewrite zget_map, EX. cbn [obind]. rewrite VM, VN by auto. cbn [obind]. exact E. }
      rewrite RX, CX in WX. unfold W in *.
      eapply wm_ext; [|eapply (wm_sub oC (orows t m n) p ldc pp c0 _ w C D D'); [| | | | |exact WD|exact WX]]; try lia; try (unfold pp; destruct t; cbn [orows]; lia).
      intros i k Hi Hk. cbv beta. unfold con. destruct ((c0 <=? k) && (k <? c0 + w)) eqn:EK.
      - rewrite (pb_mv m n M N bl ok t a b X (oB + k * ldb) B i Ha Hb' EX). cbv zeta. fold pp q.
        replace ((pp <=? i) && (i <? pp + orows t (rsize bl a) (csize bl M b)) && (c0 <=? k) && (k <? c0 + w)) with ((pp <=? i) && (i <? pp + orows t (rsize bl a) (csize bl M b))) by lia.
        destruct ((pp <=? i) && (i <? pp + orows t (rsize bl a) (csize bl M b))) eqn:EQ; [|lra].
        replace (mat (oC + pp + c0 * ldc) ldc D (i - pp) (k - c0)) with (mat oC ldc D i k) by (unfold mat; f_equal; lia). rewrite (wm_val _ _ _ _ _ _ _ _ _ WD) by auto.
        replace (oB + q + c0 * ldb + (k - c0) * ldb) with (oB + k * ldb + q) by lia. lra.
      - replace ((pp <=? i) && (i <? pp + orows t (rsize bl a) (csize bl M b)) && (c0 <=? k) && (k <? c0 + w)) with false by lia. lra. }
    set (part := fun c0 w C => if t then for_up 0 N (fun b C => for_up 0 M (fun a C => body c0 w a b C) C) C else for_up 0 M (fun a C => for_up 0 N (fun b C => body c0 w a b C) C) C).
    assert (PART : forall c0 w D v, 0 <= c0 -> 0 <= w -> c0 + w <= p -> W D v -> exists D', part c0 w D = Some D' /\
      W D' (fun i k => (v i k + if (c0 <=? k) && (k <? c0 + w) then alpha * matvec (ocols t m n) (op t (h_mat (HTree m n M N bl))) (vec (oB + k * ldb) B) i else 0)%R)).
    { intros c0 w D v H1 H2 H3 WD.
      assert (SUM : forall i k, sumZ N (fun b => sumZ M (fun a => con c0 w a b i k)) = (if (c0 <=? k) && (k <? c0 + w) then alpha * matvec (ocols t m n) (op t (h_mat (HTree m n M N bl))) (vec (oB + k * ldb) B) i else 0)%R).
      { intros i k. unfold con. destruct ((c0 <=? k) && (k <? c0 + w)).
        - rewrite (mv_tree m n M N bl), <- sumZ_scal. apply sumZ_ext. intros. now rewrite <- sumZ_scal.
        - apply sumZ_zero. intros. now apply sumZ_zero. }
      unfold part. destruct (bool_dec t true) as [Et|Et].
      - destruct (acc_loop W Wext N M (fun b a => con c0 w a b) ltac:(lia) ltac:(lia) (fun b a => body c0 w a b) D v) as (D' & E & WW); auto.
        exists D'. split; [rewrite Et; exact E|]. eapply Wext; [|exact WW]. intros i k. cbv beta. now rewrite SUM.
      - destruct (acc_loop W Wext M N (con c0 w) ltac:(lia) ltac:(lia) (body c0 w) D v) as (D' & E & WW); auto.
        apply not_true_is_false in Et. exists D'. split; [rewrite Et; exact E|]. eapply Wext; [|exact WW]. intros i k. cbv beta. now rewrite sumZ_swap, SUM. }
    assert (FIN : exists D', (if (ocols t m n) <=? p then for_up 0 2 (fun k C => do c0 <- zget [0; p / 2; p] k; do c1 <- zget [0; p / 2; p] (k + 1); part c0 (c1 - c0) C) C1 else part 0 p C1) = Some D' /\
      W D' (fun i k => (alpha * matvec (ocols t m n) (op t (h_mat (HTree m n M N bl))) (vec (oB + k * ldb) B) i + beta * mat oC ldc C i k)%R)).
    { destruct (ocols t m n <=? p) eqn:EP.
      - unfold for_up. change (Z.to_nat (2 - 0)) with 2%nat. cbn [itero]. change (0 + Z.of_nat 0) with 0. change (0 + Z.of_nat 1) with 1.
        change (zget [0; p / 2; p] 0) with (Some 0). change (zget [0; p / 2; p] (0 + 1)) with (Some (p / 2)). change (zget [0; p / 2; p] 1) with (Some (p / 2)). change (zget [0; p / 2; p] (1 + 1)) with (Some p). cbn [obind].
        destruct (PART 0 (p / 2 - 0) C1 _ ltac:(lia) ltac:(lia) ltac:(lia) W1) as (D1 & ED1 & WD1). rewrite ED1. cbn [obind].
        destruct (PART (p / 2) (p - p / 2) D1 _ ltac:(lia) ltac:(lia) ltac:(lia) WD1) as (D2 & ED2 & WD2). rewrite ED2.
        exists D2. split; auto. eapply wm_ext; [|exact WD2]. intros i k Hi Hk. cbv beta.
        destruct (Z_lt_dec k (p / 2)).
        + replace ((0 <=? k) && (k <? 0 + (p / 2 - 0))) with true by lia. replace ((p / 2 <=? k) && (k <? p / 2 + (p - p / 2))) with false by lia. lra.
        + replace ((0 <=? k) && (k <? 0 + (p / 2 - 0))) with false by lia. replace ((p / 2 <=? k) && (k <? p / 2 + (p - p / 2))) with true by lia. lra.
      - destruct (PART 0 p C1 _ ltac:(lia) ltac:(lia) ltac:(lia) W1) as (D1 & ED1 & WD1). exists D1. split; auto. eapply wm_ext; [|exact WD1]. intros i k Hi Hk. cbv beta.
        replace ((0 <=? k) && (k <? 0 + p)) with true by lia. lra. }
    destruct FIN as (D' & E & WW). exists D'. split; [|exact WW].
    cbn [ghmm]. rewrite EM, EN. cbn [obind]. destruct t; cbn [orows ocols] in *; rewrite E1; cbn [obind]; exact E.
Qed.
