(** * Proofs of the statements in Properties_Eig.v *)
From Coq Require Import ZArith List Lia Bool Reals Lra ZifyBool ZifyNat.
From Verif Require Import Arith Base BaseFacts SpecSum PSum SpecLin SpecBanded PTri MBanded MEig SpecSort SpecEig PInter PEig.
Import ListNotations.
Open Scope Z_scope.

Lemma C43_eigenvalues_proof : forall A B lambda, tb_ok A -> tb_ok B -> tb_n B = tb_n A -> tb_n A <= zlen lambda ->
  exists lambda', triangular_banded_eigenvalues A B lambda = Some lambda' /\ writes 0 (tb_n A) lambda lambda' (pencil_eig A B).
Proof.
  intros A B la HA HB Hn Hl. unfold triangular_banded_eigenvalues. set (n := tb_n A) in *.
  match goal with |- context [for_up 0 n ?f la] => destruct (for_up_inv (fun q l => zlen l = zlen la /\ (forall i, 0 <= i < q -> zget l (0 + i) = Some (pencil_eig A B i)) /\ (forall p, p < 0 \/ q <= p -> zget l p = zget la p)) 0 n f la) as (l' & E & L & G & O) end.
  - unfold n. apply HA.
  - split; auto. split; auto. intros; lia.
  - intros j l Hj (L & G & O). rewrite !(qget n) by (auto; lia). cbn [obind]. rewrite zset_some by lia. eexists; split; [reflexivity|]. split; [now rewrite zlen_zupd|]. split.
    + intros i Hi. destruct (Z.eq_dec i j) as [->|]; [rewrite zget_zupd_same by lia; reflexivity|]. rewrite zget_zupd_other by lia. apply G; lia.
    + intros p Hp. rewrite zget_zupd_other by lia. apply O; lia.
  - exists l'. split; auto. split; auto.
Qed.
Lemma C43_residual_proof : forall eps A B V, tb_ok A -> tb_ok B -> tb_n B = tb_n A -> (0 <= eps)%R -> nonzero_diag (tb_n A) (tb_mat B) ->
  (forall i j, 0 <= i < j -> j < tb_n A -> (tb_mat A i i <> pencil_eig A B j * tb_mat B i i)%R /\
     (4 * (Rabs (pencil_eig A B j * tb_mat B i i) + Rabs (tb_mat A i i)) * eps <= Rabs (pencil_eig A B j * tb_mat B i i - tb_mat A i i))%R) ->
  tb_n A * tb_n A <= zlen V -> no_lower (tb_n A) V ->
  exists V', triangular_banded_eigenvectors eps A B V = Some V' /\ keeps_lower (tb_n A) V V' /\
    forall i j, 0 <= i < tb_n A -> 0 <= j < tb_n A ->
      (Rabs (matmul (tb_n A) (tb_mat A) (mat 0 (tb_n A) V') i j - matmul (tb_n A) (tb_mat B) (mat 0 (tb_n A) V') i j * pencil_eig A B j)
       <= 4 * eps * sumZ (tb_n A) (fun k => (Rabs (tb_mat A i k) + Rabs (pencil_eig A B j * tb_mat B i k)) * Rabs (mat 0 (tb_n A) V' k j)))%R.
Proof.
  intros eps A B V HA HB Hn He HD Hsep HV Hlow.
  destruct (eigenvectors_spec A B eps HA HB Hn He Hsep HD V HV Hlow) as (V' & E & L & P & O & T). exists V'. split; auto. split; [split; auto|]. exact T.
Qed.
Lemma C43_exact_proof : forall A B V, tb_ok A -> tb_ok B -> tb_n B = tb_n A -> nonzero_diag (tb_n A) (tb_mat B) ->
  (forall i j, 0 <= i < j -> j < tb_n A -> pencil_eig A B i <> pencil_eig A B j) ->
  tb_n A * tb_n A <= zlen V -> no_lower (tb_n A) V ->
  exists V', triangular_banded_eigenvectors 0%R A B V = Some V' /\ keeps_lower (tb_n A) V V' /\
    forall i j, 0 <= i < tb_n A -> 0 <= j < tb_n A ->
      matmul (tb_n A) (tb_mat A) (mat 0 (tb_n A) V') i j = (matmul (tb_n A) (tb_mat B) (mat 0 (tb_n A) V') i j * pencil_eig A B j)%R.
Proof.
  intros A B V HA HB Hn HD Hd HV Hlow.
  destruct (C43_residual_proof 0%R A B V) as (V' & E & K & T); auto; try lra.
  - intros i j Hi Hj. split.
    + intros Eq. apply (Hd i j Hi Hj). unfold pencil_eig at 1. rewrite Eq. field. apply HD. lia.
    + rewrite Rmult_0_r. apply Rabs_pos.
  - exists V'. split; auto. split; auto. intros i j Hi Hj. specialize (T i j Hi Hj). rewrite Rmult_0_r, Rmult_0_l in T.
    pose proof (Rabs_pos (matmul (tb_n A) (tb_mat A) (mat 0 (tb_n A) V') i j - matmul (tb_n A) (tb_mat B) (mat 0 (tb_n A) V') i j * pencil_eig A B j)).
    destruct (Req_dec (matmul (tb_n A) (tb_mat A) (mat 0 (tb_n A) V') i j - matmul (tb_n A) (tb_mat B) (mat 0 (tb_n A) V') i j * pencil_eig A B j) 0) as [Z0|Nz]; [lra|].
    apply Rabs_no_R0 in Nz. lra.
Qed.
Lemma C43_quadratic_proof : forall eps A B C V, tb_ok A -> tb_ok B -> tb_ok C -> tb_n B = tb_n A -> tb_n C = tb_n A -> (0 <= eps)%R ->
  (forall j, 0 <= j < tb_n A -> tb_mat C j j <> 0%R /\ (0 <= tb_mat B j j * tb_mat B j j + 4 * tb_mat A j j * tb_mat C j j)%R) ->
  (forall i j, 0 <= i < j -> j < tb_n A ->
     (tb_mat A i i + quad_eig A B C j * tb_mat B i i - quad_eig A B C j * quad_eig A B C j * tb_mat C i i)%R <> 0%R) ->
  tb_n A * tb_n A <= zlen V -> no_lower (tb_n A) V ->
  exists V', triangular_banded_quadratic_eigenvectors eps A B C V = Some V' /\ keeps_lower (tb_n A) V V' /\
    forall i j, 0 <= i < tb_n A -> 0 <= j < tb_n A ->
      (Rabs (matmul (tb_n A) (tb_mat A) (mat 0 (tb_n A) V') i j + matmul (tb_n A) (tb_mat B) (mat 0 (tb_n A) V') i j * quad_eig A B C j
             - matmul (tb_n A) (tb_mat C) (mat 0 (tb_n A) V') i j * (quad_eig A B C j * quad_eig A B C j))
       <= 4 * eps * sumZ (tb_n A) (fun k => (Rabs (tb_mat A i k) + Rabs (quad_eig A B C j) * (Rabs (tb_mat B i k) + Rabs (quad_eig A B C j) * Rabs (tb_mat C i k))) * Rabs (mat 0 (tb_n A) V' k j)))%R.
Proof.
  intros eps A B C V HA HB HC Hn Hm He Hr Hsep HV Hlow.
  destruct (quadratic_spec A B C eps HA HB HC Hn Hm He Hsep Hr V HV Hlow) as (V' & E & L & P & O & T). exists V'. split; auto. split; [split; auto|]. exact T.
Qed.
Lemma C43_quadratic_eigenvalues_proof : forall A B C lambda, tb_ok A -> tb_ok B -> tb_ok C -> tb_n B = tb_n A -> tb_n C = tb_n A -> tb_n A <= zlen lambda ->
  (exists lambda', triangular_banded_quadratic_eigenvalues A B C lambda = Some lambda' /\ writes 0 (tb_n A) lambda lambda' (quad_eig A B C)) /\
  forall j, 0 <= j < tb_n A -> tb_mat C j j <> 0%R -> (0 <= tb_mat B j j * tb_mat B j j + 4 * tb_mat A j j * tb_mat C j j)%R ->
    (tb_mat A j j + tb_mat B j j * quad_eig A B C j = tb_mat C j j * (quad_eig A B C j * quad_eig A B C j))%R.
Proof.
  intros A B C la HA HB HC Hn Hm Hl. split.
  - unfold triangular_banded_quadratic_eigenvalues. set (n := tb_n A) in *.
    match goal with |- context [for_up 0 n ?f la] => destruct (for_up_inv (fun q l => zlen l = zlen la /\ (forall i, 0 <= i < q -> zget l (0 + i) = Some (quad_eig A B C i)) /\ (forall p, p < 0 \/ q <= p -> zget l p = zget la p)) 0 n f la) as (l' & E & L & G & O) end.
    + unfold n. apply HA.
    + split; auto. split; auto. intros; lia.
    + intros j l Hj (L & G & O). rewrite !(qget n) by (auto; lia). cbn [obind]. rewrite zset_some by lia. eexists; split; [reflexivity|]. split; [now rewrite zlen_zupd|]. split.
      * intros i Hi. destruct (Z.eq_dec i j) as [->|]; [rewrite zget_zupd_same by lia; reflexivity|]. rewrite zget_zupd_other by lia. apply G; lia.
      * intros p Hp. rewrite zget_zupd_other by lia. apply O; lia.
    + exists l'. split; auto. split; auto.
  - intros j Hj H1 H2. unfold quad_eig. pose proof (sqrt_sqrt _ H2) as Hs. set (s := sqrt _) in *.
    set (a := tb_mat A j j) in *. set (b := tb_mat B j j) in *. set (c := tb_mat C j j) in *.
    apply Rminus_diag_uniq. replace (a + b * ((b + s) / (2 * c)) - c * ((b + s) / (2 * c) * ((b + s) / (2 * c))))%R with ((b * b + 4 * a * c - s * s) / (4 * c))%R by (field; auto).
    rewrite Hs. field. auto.
Qed.
(** a concrete pencil: A = [[1,1],[0,2]], B = [[1,3],[0,1]] *)
Lemma C43_example_proof :
  let A := TBanded [0; 1; 1; 2]%R 2 1 in let B := TBanded [0; 1; 3; 1]%R 2 1 in let V := [1; 0; 0; 1]%R in
  tb_ok A /\ tb_ok B /\ tb_n B = tb_n A /\ nonzero_diag 2 (tb_mat B) /\ (forall i j, 0 <= i < j -> j < 2 -> pencil_eig A B i <> pencil_eig A B j) /\ 2 * 2 <= zlen V /\ no_lower 2 V.
Proof.
  cbv zeta. split; [cbv; intuition discriminate|]. split; [cbv; intuition discriminate|]. split; [reflexivity|].
  assert (Q : forall i, 0 <= i < 2 -> i = 0 \/ i = 1) by (intros; lia). split; [|split; [|split]].
  - intros i Hi. destruct (Q i Hi) as [-> | ->]; cbv -[Rdiv IZR]; lra.
  - intros i j Hi Hj. assert (i = 0) by lia. assert (j = 1) by lia. subst. cbv -[Rdiv IZR]. lra.
  - cbv. discriminate.
  - intros i j Hi Hj. assert (j = 0) by lia. assert (i = 1) by lia. subst. reflexivity.
Qed.
Lemma C43_computed_proof :
  @triangular_banded_eigenvectors Z Z_arith 0 (TBanded [0; 1; 1; 2] 2 1) (TBanded [0; 1; 3; 1] 2 1) [1; 0; 0; 1] = Some [1; 0; -5; 1].
Proof. reflexivity. Qed.
Lemma C31_example_proof :
  @count_intersections Z Z_arith 1 4 [-9; 1; 5; 9] 3 [-9; 1; 8] = Some 7 /\
  @produce_intersection_indices Z Z_arith 1 4 [-9; 1; 5; 9] 3 [-9; 1; 8] [7; 7; 7; 7; 7; 7; 7; 7] [8; 8; 8; 8; 8; 8; 8; 8] =
    Some ([0; 1; 2; 3; 1; 2; 3; 7], [0; 1; 1; 1; 2; 2; 2; 8]) /\
  @produce_intersection_indices Z Z_arith 1 4 [-9; 1; 5; 9] 3 [-9; 1; 8] [7; 7; 7] [8; 8; 8; 8; 8; 8; 8] = None.
Proof. split; [|split]; reflexivity. Qed.
Lemma C31_sorted_proof : (1 / 2 <= 1)%R /\ nondecreasing [1; 2; 3]%R 0 (3 - 1) /\ nondecreasing [2; 5]%R 0 (2 - 1).
Proof.
  split; [lra|]. split; intros i j H1 H2 H3.
  - assert (Q : (i = 0 /\ j = 1) \/ (i = 0 /\ j = 2) \/ (i = 1 /\ j = 2)) by lia. destruct Q as [[-> ->]|[[-> ->]|[-> ->]]]; cbv -[IZR Rle Rlt]; lra.
  - assert (Q : i = 0 /\ j = 1) by lia. destruct Q as [-> ->]; cbv -[IZR Rle Rlt]; lra.
Qed.
