(** * Proofs: glue for Properties_Hier.v *)
From Coq Require Import ZArith List Lia Bool ZifyBool ZifyNat Reals Lra.
From Verif Require Import Arith Base BaseFacts SpecSum PSum SpecLin MBanded SpecBanded PTri MSort SpecSort MHier SpecHier PHier PHier2 PHier3 PHier4 PHier5.
Import ListNotations.
Open Scope Z_scope.

Lemma mv_is_mm n U oB ldb B i k : matvec n U (vec (oB + k * ldb) B) i = matmul n U (mat oB ldb B) i k.
Proof. unfold matvec, matmul. apply sumZ_ext. intros. unfold vec, mat. do 2 f_equal. lia. Qed.
Lemma gemm_mat_proof t m n p alpha A oA lda B oB ldb beta C oC ldc : 0 <= m -> 0 <= n -> 0 <= p ->
  fits_mat oA m n lda A -> fits_mat oB (ocols t m n) p ldb B -> fits_mat oC (orows t m n) p ldc C ->
  exists C', gemm t m n p alpha A oA lda B oB ldb beta C oC ldc = Some C' /\
    writes_mat oC (orows t m n) p ldc C C'
      (fun i k => (alpha * matmul (ocols t m n) (op t (mat oA lda A)) (mat oB ldb B) i k + beta * mat oC ldc C i k)%R).
Proof. intros. destruct (gemm_proof t m n p alpha A oA lda B oB ldb beta C oC ldc) as (C' & E & W); auto. exists C'. split; auto. eapply wm_ext; [|exact W]. intros. cbv beta. now rewrite mv_is_mm. Qed.
Lemma lrmm_mat_proof L : lr_ok L -> forall t p alpha B oB ldb beta C oC ldc, 0 <= p ->
  fits_mat oB (ocols t (lr_m L) (lr_n L)) p ldb B -> fits_mat oC (orows t (lr_m L) (lr_n L)) p ldc C ->
  exists C', lrmm t p alpha L B oB ldb beta C oC ldc = Some C' /\
    writes_mat oC (orows t (lr_m L) (lr_n L)) p ldc C C'
      (fun i k => (alpha * matmul (ocols t (lr_m L) (lr_n L)) (op t (lr_mat L)) (mat oB ldb B) i k + beta * mat oC ldc C i k)%R).
Proof. intros. destruct (lrmm_proof L H t p alpha B oB ldb beta C oC ldc) as (C' & E & W); auto. exists C'. split; auto. eapply wm_ext; [|exact W]. intros. cbv beta. now rewrite mv_is_mm. Qed.
Lemma ghmm_mat_proof t alpha B ldb ldc H p oB beta C oC : h_ok H -> 0 <= p ->
  fits_mat oB (ocols t (hrows H) (hcols H)) p ldb B -> fits_mat oC (orows t (hrows H) (hcols H)) p ldc C ->
  exists C', ghmm t alpha H p B oB ldb beta C oC ldc = Some C' /\
    writes_mat oC (orows t (hrows H) (hcols H)) p ldc C C'
      (fun i k => (alpha * matmul (ocols t (hrows H) (hcols H)) (op t (h_mat H)) (mat oB ldb B) i k + beta * mat oC ldc C i k)%R).
Proof. intros. destruct (ghmm_proof t alpha B ldb ldc H p oB beta C oC) as (C' & E & W); auto. exists C'. split; auto. eapply wm_ext; [|exact W]. intros. cbv beta. now rewrite mv_is_mm. Qed.
Lemma demv_proof t alpha A x ox beta y oy : de_ok A -> fits ox (ocols t (de_m A) (de_n A)) x -> fits oy (orows t (de_m A) (de_n A)) y ->
  exists y', demv t alpha A x ox beta y oy = Some y' /\
    writes oy (orows t (de_m A) (de_n A)) y y' (fun i => (alpha * matvec (ocols t (de_m A) (de_n A)) (op t (de_mat A)) (vec ox x) i + beta * vec oy y i)%R).
Proof. intros (A1 & A2 & A3) Hx Hy. apply gemv_proof; auto. split; [lia|]. split; [lia|]. intros; lia. Qed.
Lemma flattened_proof m n M N bl a b X i j : h_ok (HTree m n M N bl) -> 0 <= a < M -> 0 <= b < N -> zget bl (a + b * M) = Some X ->
  0 <= i < hrows X -> 0 <= j < hcols X ->
  h_mat (HTree m n M N bl) (before a (rsize bl) + i) (before b (csize bl M) + j) = h_mat X i j.
Proof.
  intros ok Ha Hb EX Hi Hj. destruct (tree_facts m n M N bl ok) as (_ & _ & _ & _ & _ & _ & G & _). destruct (G a b Ha Hb) as (X' & EX' & _ & R1 & C1). assert (X' = X) by congruence. subst X'.
  rewrite (tree_block m n M N bl a b X) by (auto; lia). f_equal; lia.
Qed.
Lemma C28_example_proof : lr_ok (LowRank [1; 2; 3]%R [5]%R [7; 11]%R [0]%R [0]%R 3 2 1 true) /\ de_ok (Dense [1; 2; 3; 4; 5; 6]%R 3 2).
Proof. split; repeat split; cbn; intros; lia. Qed.
Lemma C29_example_proof :
  let H := HTree 3 2 2 1 [HDense (Dense [1; 2] 1 2); HTree 2 2 1 2 [HLow (LowRank [1; 1] [1] [5] [0] [0] 2 1 1 false); HDense (Dense [3; 4] 2 1)]]%R in
  h_ok H /\ hrows H = 3 /\ hcols H = 2.
Proof.
  cbv zeta. split; [|split; reflexivity]. constructor; try lia; try reflexivity.
  - intros k b Hk. assert (Hr : 0 <= k < 2) by (apply zget_range in Hk; exact Hk). assert (Q : k = 0 \/ k = 1) by lia. destruct Q as [-> | ->]; cbv in Hk; inversion Hk; subst.
    + constructor. repeat split; cbn; lia.
    + constructor; try lia; try reflexivity.
      * intros k b Hk'. assert (Hr' : 0 <= k < 2) by (apply zget_range in Hk'; exact Hk'). assert (Q : k = 0 \/ k = 1) by lia. destruct Q as [-> | ->]; cbv in Hk'; inversion Hk'; subst; constructor; repeat split; cbn; intros; try lia; discriminate.
      * intros a b X Ha Hb. assert (a = 0) by lia. subst a. assert (Q : b = 0 \/ b = 1) by lia. destruct Q as [-> | ->]; intros E; cbv in E; inversion E; split; reflexivity.
  - intros a b X Ha Hb. assert (b = 0) by lia. subst b. assert (Q : a = 0 \/ a = 1) by lia. destruct Q as [-> | ->]; intros E; cbv in E; inversion E; split; reflexivity.
Qed.
Lemma C29_sample_example_proof x y (c : R) i j : fst i < snd i -> fst j < snd j ->
  exists L, Some (LowRank (zmake (len i) 1%R) [] (zmake (len j) c) [0%R] [0%R] (len i) (len j) 1 false) = Some L /\
    lr_ok L /\ lr_m L = len i /\ lr_n L = len j /\ samples (fun _ _ => c) x y 0 i j (lr_mat L).
Proof.
  intros Hi Hj. eexists; split; [reflexivity|]. assert (0 <= len i) by (unfold len; lia). assert (0 <= len j) by (unfold len; lia).
  split. { unfold lr_ok. cbn [lr_m lr_n lr_r lr_U lr_V lr_S lr_t1 lr_t2 lr_three]. rewrite !zlen_zmake by lia. cbn. repeat split; try lia; try discriminate. }
  split; auto. split; auto. intros a b Ha Hb. unfold lr_mat. cbn [lr_m lr_n lr_r lr_U lr_V lr_S lr_t1 lr_t2 lr_three]. unfold matmul, transp. change 1 with (0 + 1). rewrite sumZ_S, sumZ_0 by lia. unfold mat.
  rewrite !(nthZ_zget _ _ _ 1%R) by (apply zget_zmake; unfold len; lia). rewrite !(nthZ_zget _ _ _ c) by (apply zget_zmake; unfold len; lia).
  replace (0 + 1 * c - c)%R with 0%R by lra. rewrite Rabs_R0. lra.
Qed.
