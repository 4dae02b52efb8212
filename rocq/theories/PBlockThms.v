(** * Examples for Properties_Block.v *)
From Coq Require Import ZArith List Lia Bool ZifyBool ZifyNat Reals Lra.
From Verif Require Import Arith Base BaseFacts SpecSum PSum SpecLin MBanded SpecBanded PBand PTri PTri2 MHier MEig MButter SpecButter MBlock SpecBlock PBlock PBlock2 PBlock3 PBlock4 PBlock5.
Import ListNotations.
Open Scope Z_scope.

(** the pencil ([[P, J], [0, Q]], I) with P = [[2,1],[1,2]], Q = [[6,1],[1,6]], J all ones *)
Definition blkA {F} (v : Z -> F) : btband F :=
  BTBand (TBanded [v 0; v 2; v 1; v 6] 2 1) (TBanded [v 0; v 1; v 1; v 1] 2 1) (TBanded [v 0; v 1; v 1; v 1] 2 1) (TBanded [v 0; v 2; v 1; v 6] 2 1) 2 1.
Definition blkI {F} (v : Z -> F) : btband F :=
  BTBand (TBanded [v 0; v 1; v 0; v 1] 2 1) (TBanded [v 0; v 0; v 0; v 0] 2 1) (TBanded [v 0; v 0; v 0; v 0] 2 1) (TBanded [v 0; v 1; v 0; v 1] 2 1) 2 1.
(** det P = det Q = 1 *)
Definition blkU {F} (v : Z -> F) : btband F :=
  BTBand (TBanded [v 0; v 2; v 3; v 3] 2 1) (TBanded [v 0; v 1; v 4; v 2] 2 1) (TBanded [v 0; v 1; v 5; v 1] 2 1) (TBanded [v 0; v 1; v 6; v 1] 2 1) 2 1.
Lemma bt_ok_ex {F} (v : Z -> F) : bt_ok (blkA v) /\ bt_ok (blkI v) /\ bt_ok (blkU v).
Proof. repeat split; cbv; discriminate. Qed.
Ltac two j := let H := fresh in assert (H : j = 0 \/ j = 1) by lia; destruct H as [-> | ->].
Ltac blk_entries := unfold det2, bt_mat, tb_mat, mat, nthZ; cbn; unfold Pos.to_nat; cbn.
Lemma nonsingular_ex : nonsingular_blocks 2 (bt_mat (blkU IZR)).
Proof. intros j Hj. two j; blk_entries; lra. Qed.
Lemma pencil_ex j l : 0 <= j < 2 -> pencil_det2 (bt_mat (blkA IZR)) (bt_mat (blkI IZR)) l j = ((l - IZR (4 * j + 1)) * (l - IZR (4 * j + 3)))%R.
Proof. intros Hj. unfold pencil_det2. two j; blk_entries; ring. Qed.
Lemma roots_two (a b l1 l2 : R) : (a < b)%R -> (l1 <= l2)%R -> (forall l, (l - a) * (l - b) = (1 * (l - l1) * (l - l2)))%R -> l1 = a /\ l2 = b.
Proof.
  intros Hab Hl H. pose proof (H a) as Ha. pose proof (H b) as Hb. rewrite Rmult_1_l in *.
  assert (((a - l1) * (a - l2) = 0)%R) by (rewrite <- Ha; ring). assert (((b - l1) * (b - l2) = 0)%R) by (rewrite <- Hb; ring).
  apply Rmult_integral in H0. apply Rmult_integral in H1. lra.
Qed.
Lemma eigen_ex : let A := blkA IZR in let B := blkI IZR in let V := [1; 0; 0; 0; 1; 0; 0; 0; 1; 1; 1; 0; 1; 1; 1; 0]%R in
  bt_ok A /\ bt_ok B /\ bt_n B = bt_n A /\ 2 * bt_n A * (2 * bt_n A) <= zlen V /\
  (forall j, 0 <= j < bt_n A -> det2 (bt_mat B) j <> 0%R /\ exists l, l <> 0%R /\ pencil_det2 (bt_mat A) (bt_mat B) l j = 0%R) /\
  no_block_lower (bt_n A) V /\
  exists lambda', btband_eigenvalues A B [0; 0; 0; 0]%R = Some lambda' /\ (forall j, 0 <= j < 2 -> vec 0 lambda' (2 * j) = IZR (4 * j + 1) /\ vec 0 lambda' (2 * j + 1) = IZR (4 * j + 3)) /\
  (forall j p, 0 <= j < bt_n A -> p = 0 \/ p = 1 -> (bt_mat A (2 * j + 1) (2 * j + 1) - vec 0 lambda' (2 * j + p) * bt_mat B (2 * j + 1)%Z (2 * j + 1)%Z)%R <> 0%R) /\
  (forall i j p, 0 <= i < j -> j < bt_n A -> p = 0 \/ p = 1 -> pencil_det2 (bt_mat A) (bt_mat B) (vec 0 lambda' (2 * j + p)) i <> 0%R).
Proof.
  intros A B V. destruct (@bt_ok_ex R IZR) as (HA & HB & _).
  assert (Hj : forall j, 0 <= j < bt_n A -> det2 (bt_mat B) j <> 0%R /\ exists l, l <> 0%R /\ pencil_det2 (bt_mat A) (bt_mat B) l j = 0%R).
  { intros j Hj. change (bt_n A) with 2 in Hj. split.
    - unfold B. two j; blk_entries; lra.
    - exists (IZR (4 * j + 1)). split; [intros E; apply (eq_IZR _ 0) in E; lia|]. unfold A, B. rewrite pencil_ex by auto. ring. }
  split; auto. split; auto. split; auto. split; [cbv; discriminate|]. split; auto.
  split. { intros i j Hi Hj2 Hl. change (bt_n A) with 2 in *. assert ((i = 2 \/ i = 3) /\ (j = 0 \/ j = 1)) as [[-> | ->] [-> | ->]] by lia; reflexivity. }
  destruct (btband_eigenvalues_proof A B [0; 0; 0; 0]%R HA HB eq_refl ltac:(split; cbv; discriminate) Hj) as (l' & E & _ & _ & G).
  assert (K : forall j, 0 <= j < 2 -> vec 0 l' (2 * j) = IZR (4 * j + 1) /\ vec 0 l' (2 * j + 1) = IZR (4 * j + 3)).
  { intros j Hj2. destruct (G j Hj2) as (_ & O & P). apply roots_two; [apply IZR_lt; lia|auto|]. intros l. rewrite <- pencil_ex by auto. fold A B. rewrite P.
    replace (det2 (bt_mat B) j) with 1%R; [reflexivity|]. unfold B. two j; blk_entries; ring. }
  assert (K2 : forall j p, 0 <= j < 2 -> p = 0 \/ p = 1 -> vec 0 l' (2 * j + p) = IZR (4 * j + 1 + 2 * p)).
  { intros j p Hj2 [-> | ->]; [rewrite Z.add_0_r|]; destruct (K j Hj2) as [K0 K1]; [rewrite K0|rewrite K1]; f_equal; lia. }
  exists l'. split; auto. split; auto. change (bt_n A) with 2. split.
  - intros j p Hj2 Hp. rewrite K2 by auto. unfold A, B. two j; destruct Hp as [-> | ->]; blk_entries; lra.
  - intros i j p Hi Hj2 Hp. rewrite K2 by (auto; lia). unfold A, B. rewrite pencil_ex by lia. assert (i = 0 /\ j = 1) as [-> ->] by lia. destruct Hp as [-> | ->]; cbn; lra.
Qed.
Lemma block_computed : 
  @btbmv Z Z_arith false (blkU (fun z => z)) [1; 10; 100; 1000] 0 = Some [4312; 6511; 2300; 1100] /\
  @btbsv Z Z_arith false (blkU (fun z => z)) [4312; 6511; 2300; 1100] 0 = Some [1; 10; 100; 1000] /\
  @btbmv Z Z_arith true (blkU (fun z => z)) [1; 10; 100; 1000] 0 = Some [12; 11; 1353; 1264] /\
  @btbsv Z Z_arith true (blkU (fun z => z)) [12; 11; 1353; 1264] 0 = Some [1; 10; 100; 1000].
Proof. vm_compute. repeat split. Qed.
Definition dense4 {F} (v : Z -> F) : list F := map v [2; 1; 7; 7; 1; 1; 7; 7; 3; 5; 3; 1; 4; 6; 2; 1].
Lemma dense4_nonsingular : nonsingular_blocks 2 (mat 0 4 (dense4 IZR)).
Proof. intros j Hj. two j; unfold det2, mat, nthZ; cbn; unfold Pos.to_nat; cbn; lra. Qed.
Lemma dense_computed :
  @btrmv Z Z_arith false 2 (dense4 (fun z => z)) 4 [1; 10; 100; 1000] 0 = Some [4312; 6511; 2300; 1100] /\
  @btrsv Z Z_arith false 2 (dense4 (fun z => z)) 4 [4312; 6511; 2300; 1100] 0 = Some [1; 10; 100; 1000] /\
  @btrmv Z Z_arith true 2 (dense4 (fun z => z)) 4 [1; 10; 100; 1000] 0 = Some [12; 11; 1353; 1264] /\
  @btrsv Z Z_arith true 2 (dense4 (fun z => z)) 4 [12; 11; 1353; 1264] 0 = Some [1; 10; 100; 1000].
Proof. vm_compute. repeat split. Qed.
(** a plan of order 2 x 2 whose inner plan is a leaf; the scratch holds junk *)
Definition planE {F} (v : Z -> F) (s0 c0 : F) : btbeig F :=
  BtbEig (TBLeaf 4 (map v [1; 9; 9; 9; 2; -1; 9; 9; 3; 4; 1; 9; 5; 6; 7; -1])) [s0; v 0] [c0; v (-1)] (map v [8; 8; 8; 8]) 2.
Definition planR : btbeig R := planE IZR (3 / 5)%R (4 / 5)%R.
Lemma planE_ok : bf_wf 5 0 planR /\ unit_rotations 2 (bf_s planR) (bf_c planR) /\ nonzero_diag 4 (tb_V (bf_F planR)).
Proof.
  split; [|split].
  - repeat split; try (cbv; discriminate).
  - intros i Hi. two i; unfold nthZ, planR; cbn; unfold Pos.to_nat; cbn; field.
  - intros i Hi. assert (i = 0 \/ i = 1 \/ i = 2 \/ i = 3) as [-> | [-> | [-> | ->]]] by lia; unfold planR, planE; cbn [bf_F tb_V map]; unfold upper, mat, nthZ; cbn; unfold Pos.to_nat; cbn; intros HH; lra.
Qed.
Lemma plan_computed :
  @bbfmv Z Z_arith 5 0 false (planE (fun z => z) 1 0) [1; 10; 100; 1000] 0 = Some [-6390; 5321; -7100; 1000] /\
  @bbfsv Z Z_arith 5 0 false (planE (fun z => z) 1 0) [-6390; 5321; -7100; 1000] 0 = Some [1; 10; 100; 1000] /\
  @bbbfmv Z Z_arith 5 0 false true false (planE (fun z => z) 1 0) [10; 1000] 0 = Some [-5990; -7000].
Proof. vm_compute. repeat split. Qed.
Lemma C45_eigenvalues_proof : forall A B lambda, bt_ok A -> bt_ok B -> bt_n B = bt_n A -> fits 0 (2 * bt_n A) lambda ->
  (forall j, 0 <= j < bt_n A -> det2 (bt_mat B) j <> 0%R /\ exists l, l <> 0%R /\ pencil_det2 (bt_mat A) (bt_mat B) l j = 0%R) ->
  exists lambda', btband_eigenvalues A B lambda = Some lambda' /\ zlen lambda' = zlen lambda /\ (forall p, 2 * bt_n A <= p -> zget lambda' p = zget lambda p) /\
    forall j, 0 <= j < bt_n A -> (vec 0 lambda' (2 * j) <= vec 0 lambda' (2 * j + 1))%R /\
      forall l, pencil_det2 (bt_mat A) (bt_mat B) l j = (det2 (bt_mat B) j * (l - vec 0 lambda' (2 * j)%Z) * (l - vec 0 lambda' (2 * j + 1)%Z))%R.
Proof.
  intros A B lambda HA HB HN HF Hj. destruct (btband_eigenvalues_proof A B lambda HA HB HN HF Hj) as (l' & E & L & O & G).
  exists l'. repeat split; auto; apply (G j); auto.
Qed.
