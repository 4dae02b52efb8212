(** * Proofs: the computed eigenvectors *)
From Coq Require Import ZArith List Lia Bool ZifyBool ZifyNat Reals Lra.
From Verif Require Import Arith Base BaseFacts SpecSum PSum SpecLin PTri MHier SpecHier PHier PHier2 PHier4 MDprk SpecDprk PDprk PDprk3.
Import ListNotations.
Open Scope Z_scope.

Lemma eigcols n m (body : Z -> list R -> option (list R)) (val : Z -> Z -> R) : 0 <= n -> 0 <= m ->
  (forall j Q, 0 <= j < m -> zlen Q = n * m -> exists Q', body j Q = Some Q' /\ writes (j * n) n Q Q' (val j)) ->
  exists Q, for_up 0 m body (zmake (n * m) 0%R) = Some Q /\ zlen Q = n * m /\ forall i j, 0 <= i < n -> 0 <= j < m -> mat 0 n Q i j = val j i.
Proof.
  intros Hn Hm Hb.
  destruct (for_up_inv (fun k Q => zlen Q = n * m /\ forall i j, 0 <= i < n -> 0 <= j < k -> mat 0 n Q i j = val j i) 0 m body (zmake (n * m) 0%R)) as (Q & E & I); auto.
  - split; [apply zlen_zmake; now apply Z.mul_nonneg_nonneg|intros; lia].
  - intros k Q Hk (L & V). destruct (Hb k Q Hk L) as (Q' & E & LW & VW & OW). exists Q'. split; auto. split; [lia|]. intros i j Hi Hj. destruct (Z.eq_dec j k) as [->|].
    + unfold mat. rewrite Z.add_0_l. unfold nthZ. rewrite Z.add_comm, VW by auto. reflexivity.
    + rewrite <- V by lia. unfold mat. rewrite !Z.add_0_l. unfold nthZ. rewrite OW; auto. left. assert (j * n <= (k - 1) * n) by (apply Z.mul_le_mono_nonneg_r; lia). lia.
  - exists Q. split; [exact E|]. exact I.
Qed.
Lemma col_range n m j : 0 <= n -> 0 <= j < m -> 0 <= j * n /\ j * n + n <= n * m.
Proof. intros Hn Hj. split; [apply Z.mul_nonneg_nonneg; lia|]. assert ((j + 1) * n <= m * n) by (apply Z.mul_le_mono_nonneg_r; lia). lia. Qed.

Lemma copysignR a b : copysignA a b = (if Rlt_dec b 0 then - Rabs a else Rabs a)%R.
Proof. unfold copysignA. cbn. unfold R_ltb. destruct (Rlt_dec b 0); reflexivity. Qed.
Lemma copysign_sq a b : (copysignA a b * copysignA a b = a * a)%R.
Proof. rewrite copysignR. destruct (Rlt_dec b 0); unfold Rabs; destruct (Rcase_abs a); lra. Qed.
Lemma copysign_mul_pos a b : (0 <= copysignA a b * b)%R.
Proof. rewrite copysignR. pose proof (Rabs_pos a). destruct (Rlt_dec b 0); nra. Qed.
Lemma inv_sqrt_sq x : (0 < x)%R -> (1 / sqrt x * (1 / sqrt x) * x = 1)%R.
Proof. intros H. pose proof (sqrt_lt_R0 x H). pose proof (sqrt_sqrt x ltac:(lra)) as E. replace (1 / sqrt x * (1 / sqrt x) * x)%R with (x * / (sqrt x * sqrt x))%R by (field; lra). rewrite E. field. lra. Qed.

Section Eigvecs.
Variables (A : dpr1 R) (lo hi : list R) (m : Z).
Hypothesis ok : dp_ok A.
Hypothesis Hm : 0 <= m <= dp_n A.
Hypothesis Hlo : m <= zlen lo.
Hypothesis Hhi : m <= zlen hi.
Let n := dp_n A. Let d := nR (dp_d A). Let z := nR (dp_z A).
Let lam j := (nR hi j + nR lo j)%R.
Lemma raw_column_val j Q : 0 <= j < m -> zlen Q = n * m -> exists Q', raw_column A lo hi j Q = Some Q' /\ writes (j * n) n Q Q' (fun i => (z i / (d i - lam j))%R).
Proof.
  intros Hj L. destruct ok as (Hn & Hd & Hz). destruct (col_range n m j Hn Hj) as (C0 & C1). unfold raw_column. fold n.
  apply (vec_loop n _ (fun i _ => (z i / (d i - lam j))%R)); [exact Hn|split; lia|]. intros i Q' Hi L'. unfold n in *. rewrite !(zget_nthZ 0%R) by lia. cbn [obind]. rewrite quot_val by lia. cbn [obind].
  rewrite zset_some by lia. rewrite Z.add_comm. reflexivity.
Qed.
Lemma scale_column_val j nrm Q : 0 <= j < m -> zlen Q = n * m -> exists Q', scale_column n j nrm Q = Some Q' /\ writes (j * n) n Q Q' (fun i => (vec (j * n) Q i * nrm)%R).
Proof.
  intros Hj L. destruct ok as (Hn & Hd & Hz). destruct (col_range n m j Hn Hj) as (C0 & C1). unfold scale_column.
  apply (vec_loop n _ (fun i v => (v * nrm)%R)); [exact Hn|split; lia|]. intros i Q' Hi L'. rewrite !(zget_nthZ 0%R) by lia. cbn [obind]. rewrite zset_some by lia. unfold vec. rewrite (Z.add_comm (j * n) i). reflexivity.
Qed.
Lemma col_get j (Q' Q : list R) v i : 0 <= j < m -> zlen Q = n * m -> writes (j * n) n Q Q' v -> 0 <= i < n -> zget Q' (i + j * n) = Some (v i).
Proof. intros Hj L (_ & V & _) Hi. rewrite Z.add_comm. now apply V. Qed.
Lemma eigvecs_vals : exists Q, dpr1_eigvecs A lo hi m = Some Q /\ zlen Q = n * m /\ forall i j, 0 <= i < n -> 0 <= j < m ->
  mat 0 n Q i j = (copysignA (1 / sqrt (cP n d z (lam j) (lam j))) (z j / (d j - lam j)) * (z i / (d i - lam j)))%R.
Proof.
  destruct ok as (Hn & Hd & Hz). unfold dpr1_eigvecs. cbv zeta. fold n.
  apply (eigcols n m _ (fun j i => (copysignA (1 / sqrt (cP n d z (lam j) (lam j))) (z j / (d j - lam j)) * (z i / (d i - lam j)))%R)); [exact Hn|lia|].
  intros j Q Hj L. destruct (raw_column_val j Q Hj L) as (Q1 & -> & W1). cbn [obind].
  match goal with |- context [for_up 0 n ?b zero] => destruct (for_up_inv (fun k t => t = sumZ k (fun i => (z i / (d i - lam j) * (z i / (d i - lam j)))%R)) 0 n b zero) as (t & -> & Et); auto end.
  { intros i t Hi ->. rewrite (col_get j Q1 Q _ i Hj L W1) by auto. cbn [obind]. eexists; split; [reflexivity|]. now rewrite sumZ_S by lia. }
  cbn [obind]. fold (cP n d z (lam j) (lam j)) in Et. subst t. rewrite (col_get j Q1 Q _ j Hj L W1) by (unfold n; lia). cbn [obind].
  destruct (scale_column_val j (copysignA (1 / sqrt (cP n d z (lam j) (lam j))) (z j / (d j - lam j)))%R Q1 Hj) as (Q2 & E2 & W2); [destruct W1; lia|].
  exists Q2. split; [exact E2|]. destruct W1 as (L1 & V1 & O1), W2 as (L2 & V2 & O2). split; [lia|]. split.
  - intros i Hi. rewrite V2 by auto. unfold vec. rewrite (nthZ_zget 0%R Q1 _ _ (V1 i Hi)). f_equal. apply Rmult_comm.
  - intros p Hp. now rewrite O2, O1 by auto.
Qed.
Lemma definite_eigvecs_vals B : exists Q, definite_dpr1_eigvecs A B lo hi m = Some Q /\ zlen Q = n * m /\ forall i j, 0 <= i < n -> 0 <= j < m ->
  mat 0 n Q i j = (copysignA (1 / sqrt (cP n d z (lam j) (lam j) + ip_sigma B * cS n d z (lam j) * cS n d z (lam j))) (z j / (d j - lam j)) * (z i / (d i - lam j)))%R.
Proof.
  destruct ok as (Hn & Hd & Hz). unfold definite_dpr1_eigvecs. cbv zeta. fold n.
  apply (eigcols n m _ (fun j i => (copysignA (1 / sqrt (cP n d z (lam j) (lam j) + ip_sigma B * cS n d z (lam j) * cS n d z (lam j))) (z j / (d j - lam j)) * (z i / (d i - lam j)))%R)); [exact Hn|lia|].
  intros j Q Hj L. destruct (raw_column_val j Q Hj L) as (Q1 & -> & W1). cbn [obind].
  match goal with |- context [for_up 0 n ?b (zero, zero)] => destruct (for_up_inv (fun k t => t = (sumZ k (fun i => (z i / (d i - lam j) * (z i / (d i - lam j)))%R), sumZ k (fun i => (z i / (d i - lam j) * z i)%R))) 0 n b (zero, zero)) as (t & -> & Et); auto end.
  { intros i t Hi ->. rewrite (col_get j Q1 Q _ i Hj L W1) by auto. rewrite (zget_nthZ 0%R) by (unfold n in *; lia). cbn [obind]. eexists; split; [reflexivity|]. now rewrite !sumZ_S by lia. }
  cbn [obind]. subst t. cbv beta iota. fold (cP n d z (lam j) (lam j)).
  rewrite (sumZ_ext n (fun i => (z i / (d i - lam j) * z i)%R) (fun i => (z i * (z i / (d i - lam j)))%R)) by (intros; apply Rmult_comm). rewrite zcol.
  rewrite (col_get j Q1 Q _ j Hj L W1) by (unfold n; lia). cbn [obind].
  match goal with |- exists Q', scale_column n j ?x Q1 = _ /\ _ => destruct (scale_column_val j x Q1 Hj) as (Q2 & E2 & W2); [destruct W1; lia|] end.
  exists Q2. split; [exact E2|]. destruct W1 as (L1 & V1 & O1), W2 as (L2 & V2 & O2). split; [lia|]. split.
  - intros i Hi. rewrite V2 by auto. unfold vec. rewrite (nthZ_zget 0%R Q1 _ _ (V1 i Hi)). f_equal. apply Rmult_comm.
  - intros p Hp. now rewrite O2, O1 by auto.
Qed.

Lemma pencil_root_croot sigma l : pencil_root A sigma l -> croot n d z (dp_rho A) sigma l.
Proof.
  intros (Ho & Hp & E). split; [exact Ho|]. unfold pencil_secular_function in E. change (pole_sum A l) with (cS n d z l) in E. 
  replace (cS n d z l) with (- / (dp_rho A - sigma * l))%R by lra. field. auto.
Qed.
Lemma dp_mat_fun i j : dp_mat A i j = (delta i j * d i + dp_rho A * z i * z j)%R. Proof. reflexivity. Qed.

Lemma definite_eigvecs_proof B : ip_n B = n -> (forall i, 0 <= i < n -> nR (ip_z B) i = z i) -> posdef n (ip_mat B) ->
  (forall j, 0 <= j < m -> pencil_root A (ip_sigma B) (lam j)) -> (forall j k, 0 <= j < m -> 0 <= k < m -> j <> k -> lam j <> lam k) ->
  exists Q, definite_dpr1_eigvecs A B lo hi m = Some Q /\ zlen Q = n * m /\ eigensystem n m (dp_mat A) (ip_mat B) lam (mat 0 n Q) /\
    (forall j, 0 <= j < m -> (0 <= mat 0 n Q j j)%R).
Proof.
  intros HB HZ HP Hr Hd. destruct (definite_eigvecs_vals B) as (Q & E & L & V). exists Q. split; auto. split; auto. split.
  2:{ intros j Hj. rewrite V by (unfold n; lia). apply copysign_mul_pos. }
  assert (HP' : posdef n (fun i j => (delta i j * 1 + ip_sigma B * z i * z j)%R)).
  { intros v Hv. rewrite (sumZ_ext n _ (fun i => (v i * matvec n (ip_mat B) v i)%R)); [now apply HP|]. intros i Hi. f_equal. apply mv_ext; auto.
    intros k Hk. unfold ip_mat. rewrite !HZ by auto. lra. }
  eapply eigensystem_ext; [| | | |apply (root_system n d z (dp_rho A) (ip_sigma B) m lam
    (fun j => (copysignA (1 / sqrt (cP n d z (lam j) (lam j) + ip_sigma B * cS n d z (lam j) * cS n d z (lam j))) (z j / (d j - lam j)))%R))].
  - reflexivity.
  - intros i j Hi Hj. unfold ip_mat. rewrite !HZ by auto. lra.
  - reflexivity.
  - intros i j Hi Hj. symmetry. now apply V.
  - intros j Hj. now apply pencil_root_croot, Hr.
  - auto.
  - intros j Hj. rewrite copysign_sq. apply inv_sqrt_sq. apply (norm_pos n d z (dp_rho A)); auto. now apply pencil_root_croot, Hr.
Qed.
Lemma eigvecs_proof : (forall j, 0 <= j < m -> pencil_root A 0 (lam j)) -> (forall j k, 0 <= j < m -> 0 <= k < m -> j <> k -> lam j <> lam k) ->
  exists Q, dpr1_eigvecs A lo hi m = Some Q /\ zlen Q = n * m /\ eigensystem n m (dp_mat A) delta lam (mat 0 n Q) /\
    (forall j, 0 <= j < m -> (0 <= mat 0 n Q j j)%R).
Proof.
  intros Hr Hd. destruct eigvecs_vals as (Q & E & L & V). exists Q. split; auto. split; auto. split.
  2:{ intros j Hj. rewrite V by (unfold n; lia). apply copysign_mul_pos. }
  eapply eigensystem_ext; [| | | |apply (root_system n d z (dp_rho A) 0 m lam (fun j => (copysignA (1 / sqrt (cP n d z (lam j) (lam j))) (z j / (d j - lam j)))%R))].
  - reflexivity.
  - intros i j Hi Hj. cbv beta. lra.
  - reflexivity.
  - intros i j Hi Hj. symmetry. now apply V.
  - intros j Hj. now apply pencil_root_croot, Hr.
  - auto.
  - intros j Hj. rewrite copysign_sq. pose proof (norm_pos n d z (dp_rho A) 0 (lam j) (posdef_rank1 n z 0 (Rle_refl 0)) (pencil_root_croot 0 (lam j) (Hr j Hj))) as HN.
    rewrite !Rmult_0_l, Rplus_0_r in *. now apply inv_sqrt_sq.
Qed.
End Eigvecs.

(** ** Hierarchical eigenvectors *)
Section EigvecsFMM.
Variables (A : dpr1 R) (lam : Z -> R) (m : Z) (Q N : hmat R).
Hypothesis ok : dp_ok A.
Hypothesis Hm : 0 <= m.
Let n := dp_n A. Let d := nR (dp_d A). Let z := nR (dp_z A).
(** the hierarchical matrices hold the two kernels *)
Hypothesis HQ : h_ok Q /\ hrows Q = n /\ hcols Q = m /\ forall i j, 0 <= i < n -> 0 <= j < m -> h_mat Q i j = (/ (d i - lam j))%R.
Hypothesis HN : h_ok N /\ hrows N = n /\ hcols N = m /\ forall i j, 0 <= i < n -> 0 <= j < m -> h_mat N i j = (/ (d i - lam j) * / (d i - lam j))%R.
Lemma rows_scaled H g : h_ok H -> hrows H = n -> hcols H = m -> (forall i j, 0 <= i < n -> 0 <= j < m -> h_mat H i j = g i j) ->
  exists H', scale_rows one H (dp_z A) 0 = Some H' /\ h_ok H' /\ hrows H' = n /\ hcols H' = m /\ forall i j, 0 <= i < n -> 0 <= j < m -> h_mat H' i j = (z i * g i j)%R.
Proof.
  intros Ho Hr Hc Hg. destruct ok as (Hn & Hd & Hz). destruct (scale_rows_proof 1%R H (dp_z A) 0 Ho) as (H' & E & S1 & S2 & S3 & S4); [split; unfold n in *; lia|].
  exists H'. split; [exact E|]. split; auto. split; [lia|]. split; [lia|]. intros i j Hi Hj. rewrite S4 by lia. rewrite Hg by auto. unfold vec. rewrite Z.add_0_l. fold z. lra.
Qed.
Lemma ghmv_zT H g beta y : h_ok H -> hrows H = n -> hcols H = m -> (forall i j, 0 <= i < n -> 0 <= j < m -> h_mat H i j = g i j) -> zlen y = m ->
  exists y', ghmv true one H (dp_z A) 0 beta y 0 = Some y' /\ zlen y' = m /\ forall j, 0 <= j < m -> nR y' j = (sumZ n (fun i => z i * g i j) + beta * nR y j)%R.
Proof.
  intros Ho Hr Hc Hg Ly. destruct ok as (Hn & Hd & Hz). destruct (ghmv_proof true 1%R H (dp_z A) 0 beta y 0 Ho) as (y' & E & L & V & O); [cbn; split; unfold n in *; lia|cbn; split; lia|].
  exists y'. split; [exact E|]. split; [lia|]. intros j Hj. cbn [orows ocols op] in V. unfold nthZ at 1. change (zget y' j) with (zget y' (0 + j)). rewrite V by lia.
  unfold vec at 2. rewrite Z.add_0_l, Rmult_1_l. f_equal. unfold matvec, transp. rewrite Hr. apply sumZ_ext. intros i Hi. rewrite Hg by auto. unfold vec. rewrite Z.add_0_l. fold z. apply Rmult_comm.
Qed.
Lemma map_loop (f : R -> R) y : zlen y = m ->
  exists y', for_up 0 m (fun j v => do vj <- zget v j; zset v j (f vj)) y = Some y' /\ zlen y' = m /\ forall j, 0 <= j < m -> nR y' j = f (nR y j).
Proof.
  intros L. destruct (vec_loop m (fun j v => do vj <- zget v j; zset v j (f vj)) (fun _ v => f v) y 0) as (y' & E & L' & V & _); [lia|split; lia| |].
  { intros i y1 Hi L1. rewrite (zget_nthZ 0%R) by lia. cbn [obind]. rewrite zset_some by lia. unfold vec. now rewrite Z.add_0_l. }
  exists y'. split; auto. split; [lia|]. intros j Hj. apply nthZ_zget. rewrite <- (Z.add_0_l j). rewrite V by auto. unfold vec. now rewrite Z.add_0_l.
Qed.
Lemma cols_scaled H g x : h_ok H -> hrows H = n -> hcols H = m -> (forall i j, 0 <= i < n -> 0 <= j < m -> h_mat H i j = g i j) -> zlen x = m ->
  exists H', scale_columns one H x 0 = Some H' /\ h_ok H' /\ hrows H' = n /\ hcols H' = m /\ forall i j, 0 <= i < n -> 0 <= j < m -> h_mat H' i j = (nR x j * g i j)%R.
Proof.
  intros Ho Hr Hc Hg Lx. destruct (scale_columns_proof 1%R H x 0 Ho) as (H' & E & S1 & S2 & S3 & S4); [split; lia|].
  exists H'. split; [exact E|]. split; auto. split; [lia|]. split; [lia|]. intros i j Hi Hj. rewrite S4 by lia. rewrite Hg by auto. unfold vec. rewrite Z.add_0_l. lra.
Qed.
Lemma sqrt_inv_sq x : (0 < x)%R -> (sqrt (1 / x) * sqrt (1 / x) * x = 1)%R.
Proof. intros H. rewrite sqrt_sqrt; [field; lra|]. apply Rlt_le. unfold Rdiv. rewrite Rmult_1_l. now apply Rinv_0_lt_compat. Qed.

Lemma eigvecs_FMM_proof : (forall j, 0 <= j < m -> pencil_root A 0 (lam j)) -> (forall j k, 0 <= j < m -> 0 <= k < m -> j <> k -> lam j <> lam k) ->
  exists H, dpr1_eigvecs_FMM A Q N m = Some H /\ h_ok H /\ hrows H = n /\ hcols H = m /\ eigensystem n m (dp_mat A) delta lam (h_mat H).
Proof.
  intros Hr Hd. destruct HQ as (Q1 & Q2 & Q3 & Q4), HN as (N1 & N2 & N3 & N4). unfold dpr1_eigvecs_FMM.
  destruct (rows_scaled N _ N1 N2 N3 N4) as (N' & -> & M1 & M2 & M3 & M4). cbn [obind].
  destruct (ghmv_zT N' _ 0%R (zmake m 0%R) M1 M2 M3 M4) as (q & Eq & Lq & Vq); [apply zlen_zmake; lia|].
  change (@zero R R_arith) with 0%R. rewrite Eq. cbn [obind].
  destruct (map_loop (fun x => sqrt (1 / x)) q Lq) as (q2 & Eq2 & Lq2 & Vq2). cbn [sqrtA div one R_arith]. rewrite Eq2. cbn [obind].
  destruct (rows_scaled Q _ Q1 Q2 Q3 Q4) as (Q' & EQ' & P1 & P2 & P3 & P4). cbn [one R_arith] in EQ'. rewrite EQ'. cbn [obind].
  destruct (cols_scaled Q' _ q2 P1 P2 P3 P4 Lq2) as (H & E & K1 & K2 & K3 & K4). exists H. split; [exact E|]. split; auto. split; auto. split; auto.
  eapply eigensystem_ext; [| | | |apply (root_system n d z (dp_rho A) 0 m lam (nR q2))].
  - reflexivity.
  - intros i j Hi Hj. cbv beta. lra.
  - reflexivity.
  - intros i j Hi Hj. symmetry. now apply K4.
  - intros j Hj. now apply pencil_root_croot, Hr.
  - auto.
  - intros j Hj. pose proof (norm_pos n d z (dp_rho A) 0 (lam j) (posdef_rank1 n z 0 (Rle_refl 0)) (pencil_root_croot A 0 (lam j) (Hr j Hj))) as HP.
    rewrite !Rmult_0_l, Rplus_0_r in *. rewrite Vq2, Vq by auto. rewrite Rmult_0_l, Rplus_0_r.
    replace (sumZ n _) with (cP n d z (lam j) (lam j)); [now apply sqrt_inv_sq|]. apply sumZ_ext. intros; unfold Rdiv; ring.
Qed.
Lemma definite_eigvecs_FMM_proof B : ip_n B = n -> (forall i, 0 <= i < n -> nR (ip_z B) i = z i) -> posdef n (ip_mat B) ->
  (forall j, 0 <= j < m -> pencil_root A (ip_sigma B) (lam j)) -> (forall j k, 0 <= j < m -> 0 <= k < m -> j <> k -> lam j <> lam k) ->
  exists H, definite_dpr1_eigvecs_FMM A B Q N m = Some H /\ h_ok H /\ hrows H = n /\ hcols H = m /\ eigensystem n m (dp_mat A) (ip_mat B) lam (h_mat H).
Proof.
  intros HB HZ HP Hr Hd. destruct HQ as (Q1 & Q2 & Q3 & Q4), HN as (N1 & N2 & N3 & N4). unfold definite_dpr1_eigvecs_FMM.
  destruct (rows_scaled Q _ Q1 Q2 Q3 Q4) as (Q' & -> & P1 & P2 & P3 & P4). cbn [obind].
  destruct (rows_scaled N _ N1 N2 N3 N4) as (N' & -> & M1 & M2 & M3 & M4). cbn [obind].
  destruct (ghmv_zT Q' _ 0%R (zmake m 0%R) P1 P2 P3 P4) as (v & Ev & Lv & Vv); [apply zlen_zmake; lia|].
  change (@zero R R_arith) with 0%R. rewrite Ev. cbn [obind].
  destruct (map_loop (fun x => (x * x)%R) v Lv) as (v2 & Ev2 & Lv2 & Vv2). change (@mul R R_arith) with Rmult. rewrite Ev2. cbn [obind].
  destruct (ghmv_zT N' _ (ip_sigma B) v2 M1 M2 M3 M4 Lv2) as (v3 & -> & Lv3 & Vv3). cbn [obind].
  destruct (map_loop (fun x => sqrt (1 / x)) v3 Lv3) as (v4 & Ev4 & Lv4 & Vv4). cbn [sqrtA div one R_arith]. rewrite Ev4. cbn [obind].
  destruct (cols_scaled Q' _ v4 P1 P2 P3 P4 Lv4) as (H & E & K1 & K2 & K3 & K4). exists H. split; [exact E|]. split; auto. split; auto. split; auto.
  assert (HP' : posdef n (fun i j => (delta i j * 1 + ip_sigma B * z i * z j)%R)).
  { intros w Hw. rewrite (sumZ_ext n _ (fun i => (w i * matvec n (ip_mat B) w i)%R)); [now apply HP|]. intros i Hi. f_equal. apply mv_ext; auto.
    intros k Hk. unfold ip_mat. rewrite !HZ by auto. lra. }
  eapply eigensystem_ext; [| | | |apply (root_system n d z (dp_rho A) (ip_sigma B) m lam (nR v4))].
  - reflexivity.
  - intros i j Hi Hj. unfold ip_mat. rewrite !HZ by auto. lra.
  - reflexivity.
  - intros i j Hi Hj. symmetry. now apply K4.
  - intros j Hj. now apply pencil_root_croot, Hr.
  - auto.
  - intros j Hj. pose proof (norm_pos n d z (dp_rho A) (ip_sigma B) (lam j) HP' (pencil_root_croot A _ (lam j) (Hr j Hj))) as HW.
    rewrite Vv4, Vv3, Vv2, Vv by auto. rewrite Rmult_0_l, Rplus_0_r.
    replace (sumZ n (fun i => (z i * (z i * (/ (d i - lam j) * / (d i - lam j))))%R)) with (cP n d z (lam j) (lam j)) by (apply sumZ_ext; intros; unfold Rdiv; ring).
    replace (sumZ n (fun i => (z i * (z i * / (d i - lam j)))%R)) with (cS n d z (lam j)) by (apply sumZ_ext; intros; unfold Rdiv; ring).
    rewrite <- Rmult_assoc. now apply sqrt_inv_sq.
Qed.
End EigvecsFMM.
