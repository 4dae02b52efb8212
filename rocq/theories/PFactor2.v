(** * Proofs: LU and Cholesky reconstruct the matrix *)
From Coq Require Import ZArith List Lia Bool ZifyBool ZifyNat Reals Lra.
From Verif Require Import Arith Base BaseFacts SpecSum PSum SpecLin MBanded SpecBanded PTri MFactor PFactor.
Import ListNotations.
Open Scope Z_scope.

Section Fac.
Variables l u n len : Z.
Hypothesis Hl : 0 <= l.
Hypothesis Hu : 0 <= u.
Hypothesis Hn : 0 <= n.
Hypothesis Hlen : n * (l + u + 1) <= len.
Notation W := (dm l u n).

Lemma lu_sum (D D0 : list R) j r c : 0 <= j ->
  sumZ (j + 1) (fun k => (unit_lower (W D) r k * upper (W D) k c)%R) =
  (sumZ j (fun k => (unit_lower (W D) r k * upper (W D) k c)%R) + unit_lower (W D) r j * upper (W D) j c)%R.
Proof. intros. now rewrite sumZ_S. Qed.

Lemma lu_all D0 : zlen D0 = len ->
  exists D, for_up 0 n (fun j D =>
              let lv := Z.min (l + 1) (n - j + 1) in
              let v := u + j * (l + u + 1) in
              do D <- compute_elementary lv D v;
              for_up 1 (Z.min u (n - j - 1) + 1) (fun k D => apply_elementary lv D v (u - k + (j + k) * (l + u + 1))) D) D0 = Some D /\
    zlen D = len /\
    (nonzero_diag n (W D) -> same_matrix n n (matmul n (unit_lower (W D)) (upper (W D))) (W D0)).
Proof.
  intros H0.
  match goal with |- exists D, for_up _ _ ?b _ = _ /\ _ => 
  destruct (for_up_inv (fun j D => zlen D = len /\
    ((forall k, 0 <= k < j -> W D k k <> 0%R) ->
     forall r c, 0 <= r < n -> 0 <= c < n ->
       W D0 r c = (sumZ j (fun k => unit_lower (W D) r k * upper (W D) k c) + if ((j <=? r) && (j <=? c))%Z then W D r c else 0)%R)) 0 n b D0) as (D & E & L & V) end.
  - lia.
  - split; auto. intros _ r c Hr Hc. rewrite sumZ_0 by lia. replace ((0 <=? r) && (0 <=? c)) with true by lia. lra.
  - intros j D Hj (L & V). cbv beta zeta.
    destruct (lu_step l u n Hl Hu len Hlen D j L ltac:(lia)) as (D' & E & L' & V'). cbv zeta in E. rewrite E.
    eexists; split; [reflexivity|]. split; [exact L'|]. intros Hp r c Hr Hc.
    assert (Hpj : W D j j <> 0%R).
    { specialize (Hp j ltac:(lia)). rewrite V' in Hp by lia. rewrite Z.ltb_irrefl in Hp. exact Hp. }
    rewrite (V) by (auto; intros k Hk; specialize (Hp k ltac:(lia)); rewrite V' in Hp by lia; replace (j <? k) with false in Hp by lia; exact Hp).
    rewrite sumZ_S by lia.
    assert (Es : sumZ j (fun k => (unit_lower (W D') r k * upper (W D') k c)%R) = sumZ j (fun k => (unit_lower (W D) r k * upper (W D) k c)%R)).
    { apply sumZ_ext. intros k Hk. unfold unit_lower, upper. f_equal.
      - destruct (r =? k); auto. destruct (k <? r); auto. rewrite V' by lia. replace (k =? j) with false by lia. replace (j <? k) with false by lia. now destruct (j <? r).
      - destruct (k <=? c); auto. rewrite V' by lia. now replace (j <? k) with false by lia. }
    rewrite Es, Rplus_assoc. f_equal.
    unfold unit_lower, upper. rewrite !V' by lia. rewrite Z.ltb_irrefl, Z.eqb_refl.
    destruct (Z.eqb_spec r j) as [->|Nr].
    + rewrite !Z.leb_refl, ?Z.ltb_irrefl. replace (j + 1 <=? j) with false by lia. cbn [andb]. destruct (j <=? c); lra.
    + destruct (Z.ltb_spec j r) as [Q|Q].
      * replace (j <=? r) with true by lia. replace (j + 1 <=? r) with true by lia. cbn [andb].
        destruct (Z.eqb_spec c j) as [->|Nc].
        -- rewrite Z.leb_refl. replace (j + 1 <=? j) with false by lia. field. auto.
        -- replace (j <? c) with (j <=? c) by lia. replace (j + 1 <=? c) with (j <=? c) by lia. destruct (j <=? c); lra.
      * replace (j <=? r) with false by lia. replace (j + 1 <=? r) with false by lia. cbn [andb]. lra.
  - exists D. split; [exact E|]. split; [exact L|]. intros Hp r c Hr Hc. unfold matmul. rewrite (V Hp r c Hr Hc).
    replace ((n <=? r) && (n <=? c)) with false by lia. lra.
Qed.

(** ** Cholesky *)
Definition schur j D := (forall r c, j <= r < n -> j <= c < n -> W D r c = W D c r).
Definition quad j D x := sumZ n (fun r => sumZ n (fun c => if (j <=? r) && (j <=? c) then (x r * W D r c * x c)%R else 0%R)).
Definition pdj j D := forall x : Z -> R, (exists i, j <= i < n /\ x i <> 0%R) -> (0 < quad j D x)%R.

Definition chol_body j D :=
  let lv := Z.min (l + 1) (n - j + 1) in
  let v := u + j * (l + u + 1) in
  do D <- compute_symmetric_elementary lv D v;
  for_up 1 (Z.min u (n - j - 1) + 1) (fun k D => apply_symmetric_elementary lv D v (u - k + (j + k) * (l + u + 1))) D.

Lemma pd_pivot j D : 0 <= j < n -> pdj j D -> (0 < W D j j)%R.
Proof.
  intros Hj H. specialize (H (fun i => if i =? j then 1%R else 0%R)).
  assert (E : quad j D (fun i => if i =? j then 1%R else 0%R) = W D j j).
  { unfold quad. rewrite (sumZ_single n j); auto.
    - rewrite (sumZ_single n j); auto.
      + rewrite !Z.leb_refl, !Z.eqb_refl. cbn [andb]. lra.
      + intros i Hi Ni. replace (i =? j) with false by lia. destruct ((j <=? j) && (j <=? i)); lra.
    - intros i Hi Ni. apply sumZ_zero. intros c Hc. replace (i =? j) with false by lia. destruct ((j <=? i) && (j <=? c)); lra. }
  rewrite E in H. apply H. exists j. rewrite Z.eqb_refl. split; [lia|lra].
Qed.

Lemma pd_next j D D' : 0 <= j < n -> schur j D -> pdj j D ->
  (forall r c, j < r < n -> j < c < n -> W D' r c = (W D r c - W D r j / W D j j * W D j c)%R) ->
  pdj (j + 1) D'.
Proof.
  intros Hj Hs Hp HV x (i & Hi & Hx). pose proof (pd_pivot j D Hj Hp) as Hd.
  set (d := W D j j) in *.
  set (b := sumZ n (fun c => if j + 1 <=? c then (W D j c * x c)%R else 0%R)).
  set (t := (- b / d)%R).
  set (z := fun i => if i =? j then t else x i).
  assert (Hz : (0 < quad j D z)%R).
  { apply Hp. exists i. split; [lia|]. unfold z. replace (i =? j) with false by lia. auto. }
  assert (E : quad (j + 1) D' x = quad j D z); [|now rewrite E].
  set (q := quad (j + 1) D x).
  assert (E1 : quad j D z = (t * d * t + t * b + b * t + q)%R).
  { unfold quad.
    transitivity (sumZ n (fun r => ((if r =? j then t * d * t + t * b else 0) + (if j + 1 <=? r then x r * W D r j * t else 0) +
       (if j + 1 <=? r then sumZ n (fun c => if j + 1 <=? c then x r * W D r c * x c else 0) else 0)%R)%R)).
    - apply sumZ_ext. intros r Hr. destruct (Z.eqb_spec r j) as [->|Nr].
      + replace (j + 1 <=? j) with false by lia. rewrite !Rplus_0_r.
        rewrite (sumZ_pick n j) by lia. rewrite Z.leb_refl. cbn [andb]. unfold z at 1 2. rewrite Z.eqb_refl. f_equal.
        unfold b. rewrite <- sumZ_scal. apply sumZ_ext. intros c Hc. destruct (Z.eqb_spec c j) as [->|Nc].
        * replace (j + 1 <=? j) with false by lia. lra.
        * unfold z. rewrite Z.eqb_refl. replace (c =? j) with false by lia. replace (j + 1 <=? c) with (j <=? c) by lia.
          destruct (j <=? c); lra.
      + destruct (Z.leb_spec (j + 1) r).
        * replace (j <=? r) with true by lia. cbn [andb]. rewrite (sumZ_pick n j) by lia. rewrite Z.leb_refl.
          unfold z at 1 2. rewrite Z.eqb_refl. replace (r =? j) with false by lia. rewrite Rplus_0_l. f_equal.
          apply sumZ_ext. intros c Hc. destruct (Z.eqb_spec c j) as [->|Nc].
          -- replace (j + 1 <=? j) with false by lia. lra.
          -- unfold z. replace (r =? j) with false by lia. replace (c =? j) with false by lia.
             replace (j + 1 <=? c) with (j <=? c) by lia. destruct (j <=? c); lra.
        * replace (j <=? r) with false by lia. cbn [andb]. rewrite sumZ_zero by auto. lra.
    - rewrite sumZ_plus, sumZ_plus. f_equal; [f_equal|].
      + rewrite (sumZ_single n j) by (auto; intros; now replace (i0 =? j) with false by lia). now rewrite Z.eqb_refl.
      + rewrite Rmult_comm. unfold b. rewrite <- sumZ_scal. apply sumZ_ext. intros r Hr. destruct (Z.leb_spec (j + 1) r).
        * rewrite (Hs r j) by lia. lra.
        * lra.
      + unfold q, quad. apply sumZ_ext. intros r Hr. destruct (j + 1 <=? r); cbn [andb].
        * apply sumZ_ext. intros c Hc. destruct (j + 1 <=? c); lra.
        * now rewrite sumZ_zero. }
  assert (E2 : quad (j + 1) D' x = (q - b * b / d)%R).
  { unfold q, quad. 
    transitivity (sumZ n (fun r => (sumZ n (fun c => if ((j + 1 <=? r) && (j + 1 <=? c))%Z then x r * W D r c * x c else 0) - (if (j + 1 <=? r)%Z then W D j r * x r else 0) * (b / d))%R)).
    - apply sumZ_ext. intros r Hr. destruct (Z.leb_spec (j + 1) r); cbn [andb].
      + rewrite Rmult_comm. unfold b, Rdiv. rewrite Rmult_assoc, <- sumZ_scal_r, <- sumZ_minus. apply sumZ_ext. intros c Hc.
        destruct (Z.leb_spec (j + 1) c); [|ring]. rewrite HV by lia. fold d. rewrite (Hs r j) by lia. unfold Rdiv. ring.
      + rewrite !sumZ_zero by auto. lra.
    - rewrite sumZ_minus. f_equal. rewrite sumZ_scal_r. unfold Rdiv. fold b. ring. }
  rewrite E1, E2. unfold t. field. lra.
Qed.

Lemma chol_all D0 : zlen D0 = len -> symmetric n (W D0) ->
  exists D, for_up 0 n chol_body D0 = Some D /\ zlen D = len /\
    ((forall k, 0 <= k < n -> (0 < W D k k)%R) ->
       same_matrix n n (matmul n (transp (upper (W D))) (upper (W D))) (W D0) /\
       (forall k r, 0 <= k < r -> r < n -> (W D r k * W D k k = W D k r)%R)) /\
    (positive_definite n (W D0) -> forall k, 0 <= k < n -> (0 < W D k k)%R).
Proof.
  intros H0 Hsym.
  destruct (for_up_inv (fun j D => zlen D = len /\
    ((forall k, 0 <= k < j -> (0 < W D k k)%R) ->
     schur j D /\
     (forall k r, 0 <= k < j -> k < r < n -> (W D r k * W D k k = W D k r)%R) /\
     forall r c, 0 <= r < n -> 0 <= c < n ->
       W D0 r c = (sumZ j (fun k => upper (W D) k r * upper (W D) k c) + if ((j <=? r) && (j <=? c))%Z then W D r c else 0)%R) /\
    (positive_definite n (W D0) -> (forall k, 0 <= k < j -> (0 < W D k k)%R) /\ pdj j D)) 0 n chol_body D0) as (D & E & L & V & P).
  - lia.
  - split; auto. split.
    + intros _. split; [|split].
      * intros r c Hr Hc. apply Hsym; lia.
      * intros; lia.
      * intros r c Hr Hc. rewrite sumZ_0 by lia. replace ((0 <=? r) && (0 <=? c)) with true by lia. lra.
    + intros HP. split; [intros; lia|]. intros x (i & Hi & Hx). specialize (HP x). 
      assert (E : quad 0 D0 x = sumZ n (fun i => (x i * matvec n (W D0) x i)%R)).
      { unfold quad. apply sumZ_ext. intros r Hr. unfold matvec. rewrite <- sumZ_scal. apply sumZ_ext. intros c Hc.
        replace ((0 <=? r) && (0 <=? c)) with true by lia. ring. }
      rewrite E. apply HP. exists i. auto.
  - intros j D Hj (L & V & P).
    destruct (chol_step l u n Hl Hu len Hlen D j L ltac:(lia)) as (D' & E & L' & V'). cbv zeta in E.
    exists D'. split; [exact E|]. split; [exact L'|].
    assert (Vk : forall k, 0 <= k < j -> W D' k k = W D k k).
    { intros k Hk. rewrite V' by lia. replace (j <? k) with false by lia. now replace (k =? j) with false by lia. }
    assert (Vjj : W D' j j = sqrt (W D j j)) by (rewrite V' by lia; now rewrite Z.ltb_irrefl, Z.eqb_refl).
    assert (Vrc : forall r c, j < r < n -> j < c < n -> W D' r c = (W D r c - W D r j / W D j j * W D j c)%R).
    { intros r c Hr Hc. rewrite V' by lia. replace (j <? r) with true by lia. replace (c =? j) with false by lia. now replace (j <? c) with true by lia. }
    split.
    + intros Hp.
      assert (Hd : (0 < W D j j)%R).
      { specialize (Hp j ltac:(lia)). rewrite Vjj in Hp. destruct (Rlt_dec 0 (W D j j)); auto. rewrite sqrt_neg_0 in Hp by lra. lra. }
      destruct V as (S & T & V). { intros k Hk. rewrite <- Vk by auto. apply Hp; lia. }
      assert (Hsq : (sqrt (W D j j) * sqrt (W D j j) = W D j j)%R) by (apply sqrt_sqrt; lra).
      assert (Hs0 : (0 < sqrt (W D j j))%R) by (apply sqrt_lt_R0; auto).
      split; [|split].
      * intros r c Hr Hc. rewrite !Vrc by lia. rewrite (S r c), (S r j), (S j c) by lia. unfold Rdiv. ring.
      * intros k r Hk Hr. destruct (Z.eq_dec k j) as [->|Nk].
        -- rewrite Vjj, !V' by lia. rewrite Z.ltb_irrefl, !Z.eqb_refl. replace (j <? r) with true by lia. replace (r =? j) with false by lia.
           rewrite (S r j) by lia. rewrite <- Hsq at 1. field. lra.
        -- rewrite Vk by lia. rewrite !V' by lia. replace (j <? k) with false by lia. replace (k =? j) with false by lia.
           rewrite <- (T k r) by lia. f_equal. destruct (j <? r); auto. destruct (r =? j); auto.
      * intros r c Hr Hc. rewrite V by auto. rewrite sumZ_S by lia.
        assert (Es : sumZ j (fun k => (upper (W D') k r * upper (W D') k c)%R) = sumZ j (fun k => (upper (W D) k r * upper (W D) k c)%R)).
        { apply sumZ_ext. intros k Hk. unfold upper. f_equal.
          - destruct (k <=? r); auto. rewrite V' by lia. replace (j <? k) with false by lia. now replace (k =? j) with false by lia.
          - destruct (k <=? c); auto. rewrite V' by lia. replace (j <? k) with false by lia. now replace (k =? j) with false by lia. }
        rewrite Es, Rplus_assoc. f_equal.
        assert (Vj : forall c, j <= c < n -> W D' j c = (W D j c / sqrt (W D j j))%R).
        { intros c' Hc'. rewrite V' by lia. rewrite Z.ltb_irrefl, Z.eqb_refl. destruct (Z.eqb_spec c' j) as [->|].
          - rewrite <- Hsq at 2. field. lra.
          - now replace (j <? c') with true by lia. }
        unfold upper.
        destruct (Z.leb_spec j r), (Z.leb_spec j c); cbn [andb];
          replace ((j + 1 <=? r) && (j + 1 <=? c)) with (negb (r =? j) && negb (c =? j) && (j <=? r) && (j <=? c)) by lia.
        -- replace (j <=? r) with true by lia. replace (j <=? c) with true by lia. rewrite !andb_true_r.
           rewrite !Vj by lia.
           assert (Q : (W D j r / sqrt (W D j j) * (W D j c / sqrt (W D j j)) = W D r j / W D j j * W D j c)%R).
           { rewrite (S r j) by lia. rewrite <- Hsq at 3. field. lra. }
           rewrite Q. destruct (Z.eqb_spec r j) as [->|]; cbn [negb andb].
           ++ field. lra.
           ++ destruct (Z.eqb_spec c j) as [->|]; cbn [negb].
              ** field. lra.
              ** rewrite Vrc by lia. lra.
        -- replace (j <=? c) with false by lia. rewrite !andb_false_r. lra.
        -- replace (j <=? r) with false by lia. rewrite !andb_false_r. cbn [andb]. lra.
        -- replace (j <=? c) with false by lia. rewrite !andb_false_r. lra.
    + intros HP. destruct (P HP) as (P1 & P2). pose proof (pd_pivot j D ltac:(lia) P2) as Hd. split.
      * intros k Hk. destruct (Z.eq_dec k j) as [->|Nk].
        -- rewrite Vjj. now apply sqrt_lt_R0.
        -- rewrite Vk by lia. apply P1; lia.
      * apply (pd_next j D D'); auto; try lia. now destruct (V P1).
  - exists D. split; [exact E|]. split; [exact L|]. split.
    + intros Hp. destruct (V Hp) as (S & T & V1). split; [|intros; apply T; lia].
      intros r c Hr Hc. unfold matmul, transp. rewrite (V1 r c Hr Hc). replace ((n <=? r) && (n <=? c)) with false by lia. lra.
    + intros HP. now destruct (P HP).
Qed.
End Fac.

Lemma lufact_proof (A : banded R) : bd_ok A -> bd_m A = bd_n A -> 0 <= bd_l A -> 0 <= bd_u A ->
  exists F, banded_lufact A = Some F /\ bd_ok F /\ same_shape F A /\
    (nonzero_diag (bd_n A) (bd_mat F) ->
     same_matrix (bd_n A) (bd_n A) (matmul (bd_n A) (unit_lower (bd_mat F)) (upper (bd_mat F))) (bd_mat A)).
Proof.
  destruct A as [data m n l u]. intros (H1 & H2 & H3) Hm Hl Hu. cbn in *. subst m. unfold banded_lufact. cbn [bd_n bd_m bd_l bd_u bd_data].
  rewrite Z.eqb_refl. cbn [negb].
  destruct (lu_all l u n (zlen data) Hl Hu H1 H3 data eq_refl) as (D & E & L & V). cbv zeta in E |- *. rewrite E. cbn [obind].
  eexists; split; [reflexivity|]. split; [|split]; [|repeat split|exact V]. split; [|split]; cbn; lia.
Qed.
Lemma cholfact_proof (A : banded R) : bd_ok A -> bd_m A = bd_n A -> bd_l A = bd_u A -> 0 <= bd_u A -> symmetric (bd_n A) (bd_mat A) ->
  exists F, banded_cholfact A = Some F /\ bd_ok F /\ same_shape F A /\
    ((forall k, 0 <= k < bd_n A -> (0 < bd_mat F k k)%R) ->
       same_matrix (bd_n A) (bd_n A) (matmul (bd_n A) (transp (upper (bd_mat F))) (upper (bd_mat F))) (bd_mat A) /\
       (forall k r, 0 <= k < r -> r < bd_n A -> (bd_mat F r k * bd_mat F k k = bd_mat F k r)%R)) /\
    (positive_definite (bd_n A) (bd_mat A) -> forall k, 0 <= k < bd_n A -> (0 < bd_mat F k k)%R).
Proof.
  destruct A as [data m n l u]. intros (H1 & H2 & H3) Hm Hl Hu Hs. cbn in *. subst m l. unfold banded_cholfact. cbn [bd_n bd_m bd_l bd_u bd_data].
  rewrite !Z.eqb_refl. cbn [negb].
  destruct (chol_all u u n (zlen data) Hu Hu H1 H3 data eq_refl Hs) as (D & E & L & V). unfold chol_body in E. cbv zeta in E |- *. rewrite E. cbn [obind].
  eexists; split; [reflexivity|]. split; [|split]; [|repeat split|exact V]. split; [|split]; cbn; lia.
Qed.
