(** * Proofs: assembled statements for Properties_Banded.v *)
From Coq Require Import ZArith List Lia Bool ZifyBool ZifyNat Reals Lra.
From Verif Require Import Arith Base BaseFacts SpecSum PSum SpecLin MBanded SpecBanded PTri PTri2 PBand PClen.
Import ListNotations.
Open Scope Z_scope.

Lemma C17_upper_factor_proof : forall (A : banded R) trans x o,
  bd_ok A -> 0 <= bd_l A -> 0 <= bd_u A -> nonzero_diag (bd_n A) (bd_mat A) -> fits o (bd_n A) x ->
  (exists x', brmv trans A x o = Some x' /\ acts o (bd_n A) x x' (isprod (bd_n A) (op trans (upper (bd_mat A))))) /\
  (exists x', brsv trans A x o = Some x' /\
     acts o (bd_n A) x x' (fun v w => isprod (bd_n A) (op trans (upper (bd_mat A))) w v)) /\
  (do y <- brmv trans A x o; brsv trans A y o) = Some x /\
  (do y <- brsv trans A x o; brmv trans A y o) = Some x.
Proof. intros. split; [now apply brmv_proof|split; [now apply brsv_proof|now apply br_inverse_proof]]. Qed.
Lemma C17_lower_factor_proof : forall (A : banded R) trans x o,
  bd_ok A -> 0 <= bd_l A -> 0 <= bd_u A -> nonzero_diag (bd_n A) (bd_mat A) -> fits o (bd_n A) x ->
  (exists x', blmv trans A x o = Some x' /\ acts o (bd_n A) x x' (isprod (bd_n A) (op trans (lower (bd_mat A))))) /\
  (exists x', blsv trans A x o = Some x' /\
     acts o (bd_n A) x x' (fun v w => isprod (bd_n A) (op trans (lower (bd_mat A))) w v)) /\
  (do y <- blmv trans A x o; blsv trans A y o) = Some x /\
  (do y <- blsv trans A x o; blmv trans A y o) = Some x.
Proof. intros. split; [now apply blmv_proof|split; [now apply blsv_proof|now apply bl_inverse_proof]]. Qed.

Ltac r3 := let i := fresh "i" in let H := fresh "H" in intros i H; cbn in H; assert (i = 0 \/ i = 1 \/ i = 2) as [->|[->| ->]] by lia.
Lemma C17_example_proof :
  let A := TBanded [0; 2; 1; 3; 4; 5]%R 3 1 in
  tb_ok A /\ nonzero_diag (tb_n A) (tb_mat A) /\ fits 1 (tb_n A) [9; 1; 1; 1; 9]%R.
Proof.
  split; [|split].
  - repeat split; cbn; lia.
  - r3; unfold tb_mat, mat, nthZ; cbn; unfold Pos.to_nat; cbn; intros HH; lra.
  - split; cbn; lia.
Qed.
Lemma C17_factor_example_proof :
  let A := Banded [0; 2; 7; 1; 3; 8; 4; 5; 0]%R 3 3 1 1 in
  bd_ok A /\ nonzero_diag (bd_n A) (bd_mat A).
Proof.
  split.
  - repeat split; cbn; lia.
  - r3; unfold bd_mat, mat, nthZ; cbn; unfold Pos.to_nat; cbn; intros HH; lra.
Qed.

Lemma C18_mul_proof : forall trans n A oA LDA x o,
  0 <= n -> fits_mat oA n n LDA A -> fits o n x ->
  exists x', trmv trans n A oA LDA x o = Some x' /\
    acts o n x x' (isprod n (op trans (upper (mat oA LDA A)))).
Proof. intros. now apply trmv_gen_proof. Qed.
Lemma C18_solve_proof : forall trans n A oA LDA x o,
  0 <= n -> fits_mat oA n n LDA A -> nonzero_diag n (mat oA LDA A) -> fits o n x ->
  exists x', trsv trans n A oA LDA x o = Some x' /\
    acts o n x x' (fun v w => isprod n (op trans (upper (mat oA LDA A))) w v).
Proof. intros. now apply trsv_gen_proof. Qed.
Lemma C18_inverse_proof : forall trans n A oA LDA x o,
  0 <= n -> fits_mat oA n n LDA A -> nonzero_diag n (mat oA LDA A) -> fits o n x ->
  (do y <- trmv trans n A oA LDA x o; trsv trans n A oA LDA y o) = Some x /\
  (do y <- trsv trans n A oA LDA x o; trmv trans n A oA LDA y o) = Some x.
Proof. intros. now apply trsv_trmv_proof. Qed.
Lemma C18_columnwise_proof : forall trans n A LDA B LDB N,
  0 <= n -> 0 <= N -> fits_mat 0 n n LDA A -> nonzero_diag n (mat 0 LDA A) -> fits_mat 0 n N LDB B ->
  (exists B', trmm trans n A LDA B LDB N = Some B' /\
     acts_columns n N LDB B B' (isprod n (op trans (upper (mat 0 LDA A))))) /\
  (exists B', trsm trans n A LDA B LDB N = Some B' /\
     acts_columns n N LDB B B' (fun v w => isprod n (op trans (upper (mat 0 LDA A))) w v)) /\
  (do C <- trmm trans n A LDA B LDB N; trsm trans n A LDA C LDB N) = Some B /\
  (do C <- trsm trans n A LDA B LDB N; trmm trans n A LDA C LDB N) = Some B.
Proof. intros. split; [now apply trmm_proof|split; [now apply trsm_proof|now apply trsm_trmm_proof]]. Qed.
Lemma C18_example_proof :
  let A := [2; 0; 0; 1; 3; 0; 7; 4; 5; 0]%R in
  fits_mat 0 3 3 3 A /\ nonzero_diag 3 (mat 0 3 A) /\ fits_mat 0 3 2 4 [1; 1; 1; 9; 1; 2; 3]%R.
Proof.
  split; [|split].
  - repeat split; cbn; lia.
  - r3; unfold mat, nthZ; cbn; unfold Pos.to_nat; cbn; intros HH; lra.
  - repeat split; cbn; lia.
Qed.

Lemma bd_stored_in {F} {AF : Arith F} (A : banded F) i j : bd_stored A i j <-> bd_in A i j = true.
Proof. unfold bd_stored, bd_in. lia. Qed.
Lemma tb_stored_in {F} {AF : Arith F} (A : tbanded F) i j : tb_stored A i j <-> tb_in A i j = true.
Proof. unfold tb_stored, tb_in. lia. Qed.
Lemma C19_bd_proof : forall (F : Type) (AF : Arith F) (A : banded F) v i j,
  bd_ok A ->
  exists A', bd_set A v i j = Some A' /\ bd_ok A' /\ same_shape A' A /\
    (bd_stored A i j -> bd_get A' i j = Some v) /\
    (forall p q, p <> i \/ q <> j -> bd_get A' p q = bd_get A p q) /\
    (~ bd_stored A i j -> A' = A).
Proof.
  intros F AF A v i j HA. destruct (bd_set_proof A v i j HA) as [A' (E & O & S & L & G)].
  exists A'. split; [auto|split; [auto|split; [auto|split; [|split]]]].
  - intros Hs. apply bd_stored_in in Hs. rewrite G, Hs. now rewrite !Z.eqb_refl.
  - intros p q Hpq. rewrite G. replace (bd_in A i j && (p =? i) && (q =? j)) with false by lia. auto.
  - intros Hs. unfold bd_set in E. destruct (bd_in A i j) eqn:Ei; [apply bd_stored_in in Ei; tauto|now injection E].
Qed.
Lemma C19_tb_proof : forall (F : Type) (AF : Arith F) (A : tbanded F) v i j,
  tb_ok A ->
  exists A', tb_set A v i j = Some A' /\ tb_ok A' /\ tb_n A' = tb_n A /\ tb_b A' = tb_b A /\
    (tb_stored A i j -> tb_get A' i j = Some v) /\
    (forall p q, p <> i \/ q <> j -> tb_get A' p q = tb_get A p q) /\
    (~ tb_stored A i j -> A' = A).
Proof.
  intros F AF A v i j HA. destruct (tb_set_proof A v i j HA) as [A' (E & O & S1 & S2 & G)].
  exists A'. split; [auto|split; [auto|split; [auto|split; [auto|split; [|split]]]]].
  - intros Hs. apply tb_stored_in in Hs. rewrite G, Hs. now rewrite !Z.eqb_refl.
  - intros p q Hpq. rewrite G. replace (tb_in A i j && (p =? i) && (q =? j)) with false by lia. auto.
  - intros Hs. unfold tb_set in E. destruct (tb_in A i j) eqn:Ei; [apply tb_stored_in in Ei; tauto|now injection E].
Qed.
Lemma C19_reads_proof : forall (F : Type) (AF : Arith F),
  (forall (A : banded F) i j, bd_ok A -> (exists v, bd_get A i j = Some v) /\ (~ bd_stored A i j -> bd_get A i j = Some zero)) /\
  (forall (A : tbanded F) i j, tb_ok A -> (exists v, tb_get A i j = Some v) /\ (~ tb_stored A i j -> tb_get A i j = Some zero)).
Proof.
  intros F AF. split; intros A i j HA; split.
  - now apply bd_get_some.
  - intros Hs. rewrite bd_stored_in in Hs. unfold bd_get. now destruct (bd_in A i j).
  - now apply tb_get_some.
  - intros Hs. rewrite tb_stored_in in Hs. unfold tb_get. now destruct (tb_in A i j).
Qed.
Lemma C19_fresh_proof : forall (F : Type) (AF : Arith F),
  (forall m n l u i j, 0 <= m -> 0 <= n -> 0 <= l + u + 1 ->
     bd_ok (calloc_banded (F:=F) m n l u) /\ bd_get (calloc_banded (F:=F) m n l u) i j = Some zero) /\
  (forall n b i j, 0 <= n -> 0 <= b ->
     tb_ok (calloc_tbanded (F:=F) n b) /\ tb_get (calloc_tbanded (F:=F) n b) i j = Some zero) /\
  (forall n b, 0 <= n -> 0 <= b ->
     exists A, create_I_tbanded (F:=F) n b = Some A /\ tb_ok A /\ tb_n A = n /\ tb_b A = b /\
       forall i j, 0 <= i < n -> 0 <= j < n -> tb_get A i j = Some (if i =? j then one else zero)).
Proof.
  intros F AF. split; [|split].
  - intros. split; [now apply calloc_bd_ok|now apply calloc_bd_get].
  - intros. split; [now apply calloc_tb_ok|now apply calloc_tb_get].
  - intros n b Hn Hb. destruct (create_I_proof (F:=F) n b Hn Hb) as [A (E & O & N & B & G)]. exists A.
    split; [auto|split; [auto|split; [auto|split; [auto|]]]]. intros i j Hi Hj. rewrite G.
    replace (0 <=? i) with true by lia. replace (i <? n) with true by lia. now rewrite !andb_true_r.
Qed.
Lemma C19_conversions_proof : forall (F : Type) (AF : Arith F),
  (forall A : tbanded F, tb_ok A -> bd_ok (tb_to_banded A) /\ forall i j, bd_get (tb_to_banded A) i j = tb_get A i j) /\
  (forall A : banded F, bd_ok A -> bd_m A = bd_n A -> 0 <= bd_u A -> bd_l A <= 0 -> 0 <= bd_l A + bd_u A + 1 ->
     exists A', banded_to_tb A = Some A' /\ tb_ok A' /\ tb_n A' = bd_n A /\ tb_b A' = bd_u A /\
       forall i j, tb_get A' i j = bd_get A i j) /\
  (forall (A : tbanded F) start stop, tb_ok A -> 0 <= start <= stop -> stop <= tb_n A ->
     tb_ok (view_tbanded A start stop) /\ tb_n (view_tbanded A start stop) = stop - start /\
     forall i j, 0 <= i < stop - start -> 0 <= j < stop - start ->
       tb_get (view_tbanded A start stop) i j = tb_get A (start + i) (start + j)).
Proof.
  intros F AF. split; [|split]; intros.
  - now apply tb_to_banded_proof.
  - now apply banded_to_tb_proof.
  - now apply view_tb_proof.
Qed.
Lemma C19_example_proof :
  let A := @calloc_banded Z Z_arith 3 4 1 2 in
  bd_ok A /\ bd_stored A 1 2 /\ ~ bd_stored A 2 0 /\ (do B <- @bd_set Z A 7 1 2; @bd_get Z Z_arith B 1 2) = Some 7.
Proof. cbv zeta. split; [|split; [|split]]; [apply calloc_bd_ok; lia|repeat split; cbn; lia|unfold bd_stored; cbn; lia|reflexivity]. Qed.

Lemma C20_scaling_proof : forall alpha (A : banded R) beta,
  bd_ok A -> bd_m A = bd_n A -> 0 <= bd_l A -> 0 <= bd_u A ->
  exists A', banded_uniform_scaling_add alpha A beta = Some A' /\ bd_ok A' /\ same_shape A' A /\
    forall i j, 0 <= i < bd_m A -> 0 <= j < bd_n A -> bd_mat A' i j = (alpha * bd_mat A i j + beta * delta i j)%R.
Proof.
  intros alpha A beta HA Hm Hl Hu. destruct (scaling_add_proof alpha A beta HA Hm Hl Hu) as [A' (E & O & S & L & G)].
  exists A'. split; [auto|split; [auto|split; [auto|]]]. intros i j Hi Hj. destruct S as (S1 & S2 & _).
  rewrite <- (bG_in A'), G, bG_in by lia. reflexivity.
Qed.
Lemma C20_trimult_proof : forall alpha (A : banded R) beta (B : banded R) l u,
  bd_ok A -> bd_ok B -> bd_m A = bd_n A -> bd_m B = bd_n B -> bd_m A = bd_m B ->
  bd_l A = 1 -> bd_u A = 1 -> -1 <= l < bd_l B -> -1 <= u < bd_u B ->
  (forall i j, 0 <= i < bd_m B -> 0 <= j < bd_n B -> i > j + l \/ j > i + u -> bd_mat B i j = 0%R) ->
  exists B', tridiagonal_banded_multiplication alpha A beta B l u = Some B' /\ bd_ok B' /\ same_shape B' B /\
    forall i j, 0 <= i < bd_m B -> 0 <= j < bd_n B ->
      bd_mat B' i j = (alpha * matmul (bd_m B) (bd_mat A) (bd_mat B) i j + beta * bd_mat B i j)%R.
Proof.
  intros alpha A beta B l u HA HB E1 E2 E3 El Eu Hl Hu HW.
  destruct (tri_mult_proof alpha A beta B l u) as [B' (E & O & S & L & W & G)]; auto.
  { intros i j Hi Hj Ho. rewrite bG_in by auto. now apply HW. }
  exists B'. split; [auto|split; [auto|split; [auto|]]]. intros i j Hi Hj. destruct S as (S1 & S2 & _).
  rewrite <- (bG_in B'), G, bG_in by lia. f_equal. f_equal. unfold matmul. apply sumZ_ext. intros k Hk. rewrite !bG_in by lia. reflexivity.
Qed.
Lemma C20_example_proof :
  let A := Banded [0; 1; 2; 3; 4; 5; 6; 7; 0]%R 3 3 1 1 in
  let C := calloc_banded (F:=R) 3 3 2 2 in
  bd_ok A /\ bd_ok C /\ bd_l A + bd_l A <= bd_l C /\ bd_u A + bd_u A <= bd_u C.
Proof. cbv zeta. split; [repeat split; cbn; lia|]. split; [apply calloc_bd_ok; lia|split; cbn; lia]. Qed.

Lemma C21_refuted_proof :
  exists A : tbanded Z, tb_ok A /\
    exists A', @realloc_tbanded Z Z_arith A (tb_b A) = Some A' /\
      @tb_get Z Z_arith A 0 0 = Some 5 /\ @tb_get Z Z_arith A' 0 0 = Some 0.
Proof.
  exists (TBanded [5; 6] 2 0). split; [repeat split; cbn; lia|]. eexists. split; [vm_compute; reflexivity|vm_compute; split; reflexivity].
Qed.

Lemma mp_rel_ext n K Rm nv t v v' w w' : (forall i, 0 <= i < n -> v i = v' i) -> (forall i, 0 <= i < n -> w i = w' i) ->
  mp_rel n K Rm nv t v w -> mp_rel n K Rm nv t v' w'.
Proof.
  intros Hv Hw. unfold mp_rel. destruct (nv <? 1); [|destruct t].
  - intros H. eapply isprod_ext; eauto.
  - intros (z & H1 & H2). exists z. split; [eapply isprod_ext; [exact Hv| |exact H1]; auto|eapply isprod_ext; [exact Hw| |exact H2]; auto].
  - intros (z & H1 & H2). exists z. split; [eapply isprod_ext; [|exact Hv|exact H1]; auto|eapply isprod_ext; [|exact Hw|exact H2]; auto].
Qed.
Lemma zget_vec_ext (x y : list R) o n : fits o n x -> zlen y = zlen x ->
  (forall i, 0 <= i < n -> vec o y i = vec o x i) -> (forall p, p < o \/ o + n <= p -> zget y p = zget x p) -> y = x.
Proof.
  intros Fx L H O. apply (acts_id o n); auto. split; [|split]; auto.
Qed.
(** two column maps that invert each other on single columns do so on matrices *)
Lemma columnwise_inverse (f g : list R -> Z -> option (list R)) n N LDB (B : list R) (P : (Z -> R) -> (Z -> R) -> Prop) :
  0 <= n -> 0 <= N -> fits_mat 0 n N LDB B ->
  (forall v v' w w', (forall i, 0 <= i < n -> v i = v' i) -> (forall i, 0 <= i < n -> w i = w' i) -> P v w -> P v' w') ->
  (forall x o, fits o n x -> exists x', f x o = Some x' /\ acts o n x x' P) ->
  (forall x o, fits o n x -> exists x', g x o = Some x' /\ acts o n x x' (fun v w => P w v)) ->
  (forall v v' w, P v w -> P v' w -> forall i, 0 <= i < n -> v i = v' i) ->
  (do C <- columnwise f B LDB N; columnwise g C LDB N) = Some B.
Proof.
  intros Hn HN HB HP Hf Hg Hinj.
  destruct (columnwise_proof f n N LDB B P) as [C [E1 (L1 & G1 & O1)]]; auto.
  rewrite E1. cbn [obind].
  assert (HC : fits_mat 0 n N LDB C) by (eapply acts_columns_fits; [split; [exact L1|split; [exact G1|exact O1]]|auto]).
  destruct (columnwise_proof g n N LDB C (fun v w => P w v)) as [D [E2 (L2 & G2 & O2)]]; auto.
  { intros v v' w w' Hv Hw Hp. eapply HP; eauto. }
  rewrite E2. f_equal. apply (acts_columns_id n N LDB); auto. split; [lia|split].
  - intros j Hj. eapply Hinj; [apply (G2 j Hj)|apply (G1 j Hj)].
  - intros p Hp. now rewrite O2, O1.
Qed.
Lemma mpsv_proof t nv K Rm x o : mp_ok nv K Rm -> fits o (tb_n Rm) x ->
  exists x', mpsv t nv K Rm x o = Some x' /\ acts o (tb_n Rm) x x' (fun v w => mp_rel (tb_n Rm) (tb_mat K) (tb_mat Rm) nv t w v).
Proof.
  intros HM Hx. pose proof HM as (HR & HD & HK). unfold mpsv, mp_rel. destruct (nv <? 1) eqn:En; [now apply tbmv_proof|].
  destruct HK as (HK & HKD & Hn); [lia|]. destruct t.
  - destruct (tbmv_proof K true x o) as [y [E1 A1]]; auto. { now rewrite Hn. } rewrite E1. cbn [obind]. rewrite Hn in A1.
    destruct (tbsv_proof Rm true y o) as [z [E2 A2]]; auto. { eapply acts_fits; eauto. }
    exists z. split; auto. eapply acts_weaken; [|exact (acts_compose _ _ _ _ _ _ _ A1 A2)]. intros v w (q & H1 & H2). exists q. auto.
  - destruct (tbsv_proof Rm false x o) as [y [E1 A1]]; auto. rewrite E1. cbn [obind].
    destruct (tbmv_proof K false y o) as [z [E2 A2]]; auto. { rewrite Hn. eapply acts_fits; eauto. } rewrite Hn in A2.
    exists z. split; auto. eapply acts_weaken; [|exact (acts_compose _ _ _ _ _ _ _ A1 A2)]. intros v w (q & H1 & H2). exists q. auto.
Qed.
Lemma mp_rel_inj_l nv K Rm t v v' w : mp_ok nv K Rm -> mp_rel (tb_n Rm) (tb_mat K) (tb_mat Rm) nv t v w ->
  mp_rel (tb_n Rm) (tb_mat K) (tb_mat Rm) nv t v' w -> forall i, 0 <= i < tb_n Rm -> v i = v' i.
Proof.
  intros (HR & HD & HK) H1 H2. unfold mp_rel in *. destruct (nv <? 1) eqn:En.
  { intros i Hi. now rewrite H1, H2. }
  destruct HK as (HK & HKD & Hn); [lia|]. destruct t.
  - destruct H1 as (z & P1 & P2). destruct H2 as (z' & P3 & P4). apply (tri_unique _ (transp (tb_mat Rm))).
    + right. apply upper_transp, tb_upper. + exact HD.
    + intros i Hi. rewrite <- P1, <- P3, P2, P4 by auto. reflexivity.
  - destruct H1 as (z & P1 & P2). destruct H2 as (z' & P3 & P4). intros i Hi. rewrite P1, P3 by auto. unfold matvec. apply sumZ_ext.
    intros k Hk. f_equal. apply (tri_unique (tb_n Rm) (tb_mat Rm)); auto.
    + left. apply tb_upper. + intros q Hq. rewrite <- P2, <- P4 by auto. reflexivity.
Qed.
Lemma mp_rel_inj_r nv K Rm t v w w' : mp_ok nv K Rm -> mp_rel (tb_n Rm) (tb_mat K) (tb_mat Rm) nv t v w ->
  mp_rel (tb_n Rm) (tb_mat K) (tb_mat Rm) nv t v w' -> forall i, 0 <= i < tb_n Rm -> w i = w' i.
Proof.
  intros (HR & HD & HK) H1 H2. unfold mp_rel in *. destruct (nv <? 1) eqn:En.
  { apply (tri_unique _ (op t (tb_mat Rm))).
    - apply op_tri. left. apply tb_upper. - now apply op_diag. - intros i Hi. rewrite <- H1, <- H2 by auto. reflexivity. }
  destruct HK as (HK & HKD & Hn); [lia|]. rewrite Hn in HKD. destruct t.
  - destruct H1 as (z & P1 & P2). destruct H2 as (z' & P3 & P4). apply (tri_unique _ (transp (tb_mat K))).
    + right. apply upper_transp, tb_upper. + exact HKD.
    + intros i Hi. rewrite <- P2, <- P4, P1, P3 by auto. reflexivity.
  - destruct H1 as (z & P1 & P2). destruct H2 as (z' & P3 & P4). intros i Hi. rewrite P2, P4 by auto. unfold matvec. apply sumZ_ext.
    intros k Hk. f_equal. apply (tri_unique (tb_n Rm) (tb_mat K)); auto.
    + left. apply tb_upper. + intros q Hq. rewrite <- P1, <- P3 by auto. reflexivity.
Qed.
Lemma C44_columnwise_proof : forall trans nv (K Rm : tbanded R) B LDB N,
  mp_ok nv K Rm -> 0 <= N -> fits_mat 0 (tb_n Rm) N LDB B ->
  (exists B', mpmm trans nv K Rm B LDB N = Some B' /\
     acts_columns (tb_n Rm) N LDB B B' (mp_rel (tb_n Rm) (tb_mat K) (tb_mat Rm) nv trans)) /\
  (do C <- mpmm trans nv K Rm B LDB N; mpsm trans nv K Rm C LDB N) = Some B /\
  (do C <- mpsm trans nv K Rm B LDB N; mpmm trans nv K Rm C LDB N) = Some B.
Proof.
  intros t nv K Rm B LDB N HM HN HB. assert (Hn : 0 <= tb_n Rm) by apply HM. split; [|split].
  - apply columnwise_proof; auto. + intros; eapply mp_rel_ext; eauto. + intros; now apply mpmv_proof.
  - apply (columnwise_inverse _ _ (tb_n Rm) N LDB B (mp_rel (tb_n Rm) (tb_mat K) (tb_mat Rm) nv t)); auto.
    + intros; eapply mp_rel_ext; eauto. + intros; now apply mpmv_proof. + intros; now apply mpsv_proof.
    + intros v v' w H1 H2. exact (mp_rel_inj_l nv K Rm t v v' w HM H1 H2).
  - apply (columnwise_inverse _ _ (tb_n Rm) N LDB B (fun v w => mp_rel (tb_n Rm) (tb_mat K) (tb_mat Rm) nv t w v)); auto.
    + intros v v' w w' Hv Hw H1. eapply mp_rel_ext; eauto. + intros; now apply mpsv_proof. + intros; now apply mpmv_proof.
    + intros v v' w H1 H2. exact (mp_rel_inj_r nv K Rm t w v v' HM H1 H2).
Qed.
Lemma C44_example_proof : mp_ok 2 (TBanded [0; 1; 1; 1; 4; 1]%R 3 1) (TBanded [0; 2; 1; 3; 4; 5]%R 3 1).
Proof.
  split; [repeat split; cbn; lia|split]. { r3; unfold tb_mat, mat, nthZ; cbn; unfold Pos.to_nat; cbn; intros HH; lra. }
  intros _. split; [repeat split; cbn; lia|split; auto]. r3; unfold tb_mat, mat, nthZ; cbn; unfold Pos.to_nat; cbn; intros HH; lra.
Qed.
Lemma C48_example_proof :
  bd_ok (Banded [0; 1; 2; 3; 4; 5; 6; 7; 0]%R 3 3 1 1) /\ strided 2 [1; 0; 2]%R 2.
Proof. split; [repeat split; cbn; lia|]. intros k Hk. replace (zlen _) with 3 by reflexivity. lia. Qed.
