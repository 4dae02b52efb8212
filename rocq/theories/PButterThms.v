(** * Proofs of the statements in Properties_Butter.v *)
From Coq Require Import ZArith List Lia Bool Reals Lra ZifyBool ZifyNat.
From Verif Require Import Arith Base BaseFacts SpecSum PSum SpecLin SpecBanded PTri PTri2 MBanded MHier SpecHier MButter SpecButter PButter PButter2 PButter3.
Import ListNotations.
Open Scope Z_scope.

Lemma C30_columns_proof : forall BS tn E, 0 <= tn -> tb_wf BS tn E -> nonzero_diag (tbeig_n E) (tb_V E) ->
  forall t B LDB N, 0 <= N -> fits_mat 0 (tbeig_n E) N LDB B ->
  (exists B', bfmm BS tn t E B LDB N = Some B' /\ acts_columns (tbeig_n E) N LDB B B' (isprod (tbeig_n E) (op t (tb_V E)))) /\
  (do B' <- bfmm BS tn t E B LDB N; bfsm BS tn t E B' LDB N) = Some B /\ (do B' <- bfsm BS tn t E B LDB N; bfmm BS tn t E B' LDB N) = Some B.
Proof.
  intros BS tn E Htn Hw HD t B LDB N HN HB. unfold bfmm, bfsm. apply columns_both; auto.
  - eapply tb_n_nonneg; eauto.
  - apply op_tri. left. eapply tb_V_upper; eauto.
  - now apply op_diag.
  - intros. now apply bfmv_proof.
  - intros. now apply bfsv_proof.
Qed.
Lemma C30_columns_ADI_proof : forall BS E, ad_wf BS E -> nonzero_diag (tbadi_n E) (ad_V E) ->
  forall t B LDB N, 0 <= N -> fits_mat 0 (tbadi_n E) N LDB B ->
  (exists B', bfmm_ADI BS t E B LDB N = Some B' /\ acts_columns (tbadi_n E) N LDB B B' (isprod (tbadi_n E) (op t (ad_V E)))) /\
  (do B' <- bfmm_ADI BS t E B LDB N; bfsm_ADI BS t E B' LDB N) = Some B /\ (do B' <- bfsm_ADI BS t E B LDB N; bfmm_ADI BS t E B' LDB N) = Some B.
Proof.
  intros BS E Hw HD t B LDB N HN HB. unfold bfmm_ADI, bfsm_ADI. apply columns_both; auto.
  - eapply ad_n_nonneg; eauto.
  - apply op_tri. left. eapply ad_V_upper; eauto.
  - now apply op_diag.
  - intros. now apply bfmv_ADI_proof.
  - intros. now apply bfsv_ADI_proof.
Qed.
(** a tree of order 3 with a permuted coupling and a sparse correction *)
Definition tree3 {F} (v : Z -> F) : tbeig F :=
  TBNode 3 1 (HDense (Dense [v 2; v 3] 1 2)) [v 5] [v 7; v 1] [0] [1; 0] (Sparse [0] [1] [v 2] 1) [v 0] [v 0; v 0]
    (TBLeaf 1 [v 1]) (TBLeaf 2 [v 1; v 9; v 4; v 1]).
Lemma C30_example_proof : tb_wf 3 0 (tree3 IZR) /\ nonzero_diag 3 (tb_V (tree3 IZR)).
Proof.
  split.
  - cbn [tb_wf tree3]. change (3 / 2) with 1. change (3 - 1) with 2.
    split; [lia|]. split; [lia|]. split; [lia|]. split; [constructor; cbv; intuition discriminate|]. split; [reflexivity|]. split; [reflexivity|].
    split; [cbv; discriminate|]. split; [cbv; discriminate|].
    split; [split; [cbv; discriminate|intros i Hi; assert (i = 0) by lia; subst; cbv; intuition discriminate]|].
    split; [split; [cbv; discriminate|intros i Hi; assert (Q : i = 0 \/ i = 1) by lia; destruct Q; subst; cbv; intuition discriminate]|].
    split; [split; [cbv; discriminate|split; [cbv; discriminate|split; [cbv; discriminate|split; [cbv; discriminate|intros i Hi; cbn in Hi; assert (i = 0) by lia; subst; cbv; intuition discriminate]]]]|].
    split; [cbv; discriminate|]. split; [cbv; discriminate|]. split; [reflexivity|]. split; [reflexivity|].
    split; (split; [lia|cbv; discriminate]).
  - intros i Hi. assert (Q : i = 0 \/ i = 1 \/ i = 2) by lia. destruct Q as [->|[->| ->]]; cbv -[IZR]; lra.
Qed.
Lemma C30_computed_proof :
  @bfmv Z Z_arith 3 0 false (tree3 (fun z : Z => z)) [1; 10; 100] 0 = Some [-1849; 410; 100] /\
  @bfsv Z Z_arith 3 0 false (tree3 (fun z : Z => z)) [-1849; 410; 100] 0 = Some [1; 10; 100] /\
  @bfmv Z Z_arith 3 0 true (tree3 (fun z : Z => z)) [1; 10; 100] 0 = Some [1; -95; 132] /\
  @bfsv Z Z_arith 3 0 true (tree3 (fun z : Z => z)) [1; -95; 132] 0 = Some [1; 10; 100].
Proof. repeat split; reflexivity. Qed.
Definition adi2 {F} (v : Z -> F) : tbadi F :=
  ADNode 2 (LowRank [v 3] [] [v 5] [v 0] [v 0] 1 1 1 false) (ADLeaf 1 [v 1]) (ADLeaf 1 [v 1]).
Lemma C30_example_ADI_proof : ad_wf 2 (adi2 IZR) /\ nonzero_diag 2 (ad_V (adi2 IZR)) /\
  @bfmv_ADI Z Z_arith 2 false (adi2 (fun z : Z => z)) [1; 10] 0 = Some [151; 10] /\ @bfsv_ADI Z Z_arith 2 false (adi2 (fun z : Z => z)) [151; 10] 0 = Some [1; 10].
Proof.
  split; [|split; [|split; reflexivity]].
  - cbn [ad_wf adi2]. change (2 / 2) with 1. change (2 - 1) with 1. split; [lia|]. split; [lia|]. split; [cbv; intuition discriminate|].
    split; [reflexivity|]. split; [reflexivity|]. split; [reflexivity|]. split; [reflexivity|]. split; (split; [lia|cbv; discriminate]).
  - intros i Hi. assert (Q : i = 0 \/ i = 1) by lia. destruct Q as [->| ->]; cbv -[IZR]; lra.
Qed.
Lemma C30_scale_columns_sparse_refuted_proof :
  exists E x, tb_wf 3 0 E /\ fits 0 (tbeig_n E) x /\ (forall i, 0 <= i < tbeig_n E -> vec 0 x i <> 0%R) /\
    exists E', scale_columns_tb 3 1%R x 0 E = Some E' /\ tb_V E' 0 2 <> (1 * vec 0 x 2 * tb_V E 0 2)%R.
Proof.
  exists (tree3 IZR), [1; 1; 2]%R. split; [apply C30_example_proof|]. split; [split; cbv; discriminate|]. split.
  - intros i Hi. cbn [tree3 tbeig_n] in Hi. assert (Q : i = 0 \/ i = 1 \/ i = 2) by lia. destruct Q as [->|[->| ->]]; cbv -[IZR]; lra.
  - eexists. split; [reflexivity|]. cbv -[IZR Rmult Rplus Rminus Ropp Rdiv]. lra.
Qed.
