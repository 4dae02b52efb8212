(** * Proofs: factorisation theorems in the form of the property statements *)
From Coq Require Import ZArith List Lia Bool ZifyBool ZifyNat Reals Lra.
From Verif Require Import Arith Base BaseFacts SpecSum PSum SpecLin MBanded SpecBanded PTri PBand PClen MFactor PFactor PFactor2 PReflect PQR MTridiag SpecTri PTridiag.
Import ListNotations.
Open Scope Z_scope.

Lemma refl_inner n z w tau a : (tau = 0 \/ (tau * sumZ n (fun i => wof w z i * wof w z i) = 2)%R)%R ->
  (tau * sumZ n (fun i => wof w z i * refl n z w tau a i) = - (tau * sumZ n (fun i => wof w z i * a i)))%R.
Proof.
  intros H. set (s := sumZ n (fun i => (wof w z i * a i)%R)). set (q := sumZ n (fun i => (wof w z i * wof w z i)%R)) in *.
  assert (E : sumZ n (fun i => (wof w z i * refl n z w tau a i)%R) = (s - tau * s * q)%R).
  { unfold refl. fold s. rewrite (sumZ_ext n _ (fun i => (wof w z i * a i - tau * s * (wof w z i * wof w z i))%R)) by (intros; ring).
    rewrite sumZ_minus, sumZ_scal. fold s q. ring. }
  rewrite E. destruct H as [->|H]; [ring|]. replace (tau * (s - tau * s * q))%R with (tau * s - (tau * q) * (tau * s))%R by ring. rewrite H. ring.
Qed.
Lemma refl_ext0 n z w t (a b : Z -> R) k : (forall i, 0 <= i < n -> a i = b i) -> 0 <= k < n -> refl n z w t a k = refl n z w t b k.
Proof. intros H Hk. unfold refl. rewrite H by auto. do 3 f_equal. apply sumZ_ext. intros i Hi. now rewrite H. Qed.
Lemma refl_twice n z w tau a k : (tau = 0 \/ (tau * sumZ n (fun i => wof w z i * wof w z i) = 2)%R)%R ->
  refl n z w tau (refl n z w tau a) k = a k.
Proof. intros H. unfold refl at 1. rewrite refl_inner by auto. unfold refl. ring. Qed.
Lemma refl_norm n z w tau a : (tau = 0 \/ (tau * sumZ n (fun i => wof w z i * wof w z i) = 2)%R)%R ->
  sumZ n (fun i => (refl n z w tau a i * refl n z w tau a i)%R) = sumZ n (fun i => (a i * a i)%R).
Proof.
  intros H. set (s := sumZ n (fun i => (wof w z i * a i)%R)). set (q := sumZ n (fun i => (wof w z i * wof w z i)%R)) in *. unfold refl. fold s.
  rewrite (sumZ_ext n _ (fun i => (a i * a i - 2 * tau * s * (wof w z i * a i) + tau * s * tau * s * (wof w z i * wof w z i))%R)) by (intros; ring).
  rewrite sumZ_plus, sumZ_minus, !sumZ_scal. fold s q. destruct H as [->|H]; [ring|].
  replace (tau * s * tau * s * q)%R with (tau * q * (tau * s * s))%R by ring. rewrite H. ring.
Qed.

(** common proof for the two kinds of reflector *)
Lemma reflector_gen n z v D (comp : option (list R * R)) (app : (list R -> Z -> option R) -> R -> list R -> Z -> option (list R)) : 0 <= z < n ->
  fits v n D ->
  (exists D' tau, comp = Some (D', tau) /\ house n z v D D' tau) ->
  (forall getv tau A o w, 0 <= o -> o + n <= zlen A -> (forall A' i, 0 <= i < n -> getv A' i = Some (w i)) ->
     exists A', app getv tau A o = Some A' /\ zlen A' = zlen A /\
     forall p, g A' p = if (o <=? p) && (p <? o + n) then refl n z w tau (fun i => g A (o + i)%Z) (p - o) else g A p) ->
  exists D' tau, comp = Some (D', tau) /\ zlen D' = zlen D /\
    (vec v D' z * vec v D' z = sumsq v n D)%R /\
    (exists D'', app (other_v D' v) tau D v = Some D'' /\ writes v n D D'' (fun i => if i =? z then vec v D' z else 0%R)) /\
    (forall A o, fits o n A -> exists A', app (other_v D' v) tau A o = Some A' /\ sumsq o n A' = sumsq o n A /\ app (other_v D' v) tau A' o = Some A).
Proof.
  intros Hz (F0 & F1) (D' & tau & E & (L & O & T & H)) Happ. exists D', tau. split; [auto|]. split; [auto|].
  set (w := fun i => g D' (v + i)%Z) in *.
  assert (Hget : forall A' i, 0 <= i < n -> other_v D' v A' i = Some (w i)) by (intros; apply gget; lia).
  assert (N : sumsq v n D = (vec v D' z * vec v D' z)%R).
  { unfold sumsq. change (vec v D) with (fun i => g D (v + i)). cbv beta. rewrite <- (refl_norm n z w tau (fun i => g D (v + i))) by auto.
    rewrite (sumZ_single n z); auto.
    - rewrite H by auto. rewrite Z.eqb_refl. reflexivity.
    - intros i Hi Ni. rewrite H by auto. replace (i =? z) with false by lia. ring. }
  split; [auto|]. split.
  - destruct (Happ (other_v D' v) tau D v w F0 F1 Hget) as (D2 & E2 & L2 & V2). exists D2. split; auto. split; [auto|split].
    + intros i Hi. rewrite gget by lia. rewrite V2. replace ((v <=? v + i) && (v + i <? v + n)) with true by lia. replace (v + i - v) with i by lia.
      rewrite H by auto. destruct (i =? z); reflexivity.
    + intros p Hp. destruct (Z_lt_dec p 0); [now rewrite !zget_none by lia|]. destruct (Z_lt_dec p (zlen D)); [|now rewrite !zget_none by lia].
      rewrite !gget by lia. rewrite V2. now replace ((v <=? p) && (p <? v + n)) with false by lia.
  - intros A o (G0 & G1). destruct (Happ (other_v D' v) tau A o w G0 G1 Hget) as (A1 & E1 & L1 & V1). exists A1. split; auto.
    assert (V1' : forall i, 0 <= i < n -> g A1 (o + i) = refl n z w tau (fun i => g A (o + i)%Z) i).
    { intros i Hi. rewrite V1. replace ((o <=? o + i) && (o + i <? o + n)) with true by lia. now replace (o + i - o) with i by lia. }
    split.
    + unfold sumsq, vec. rewrite (sumZ_ext n _ (fun i => (refl n z w tau (fun i => g A (o + i)%Z) i * refl n z w tau (fun i => g A (o + i)%Z) i)%R)).
      * now rewrite refl_norm.
      * intros i Hi. now rewrite V1'.
    + destruct (Happ (other_v D' v) tau A1 o w G0) as (A2 & E2 & L2 & V2); [lia|exact Hget|]. rewrite E2. f_equal. apply (nthZ_ext 0%R); [lia|].
      intros p Hp. rewrite V2. destruct ((o <=? p) && (p <? o + n)) eqn:Q.
      * rewrite (refl_ext0 n z w tau _ (refl n z w tau (fun i => g A (o + i)%Z))) by (auto; lia). rewrite refl_twice by auto. f_equal. lia.
      * rewrite V1, Q. reflexivity.
Qed.

Lemma C23_reflector_proof : forall n D v, 1 <= n -> fits v n D ->
  exists D' tau, compute_reflector n D v = Some (D', tau) /\ zlen D' = zlen D /\
    (vec v D' 0 * vec v D' 0 = sumsq v n D)%R /\
    (exists D'', apply_reflector n (other_v D' v) tau D v = Some D'' /\ writes v n D D'' (fun i => if i =? 0 then vec v D' 0 else 0%R)) /\
    (forall A o, fits o n A -> exists A', apply_reflector n (other_v D' v) tau A o = Some A' /\ sumsq o n A' = sumsq o n A /\
       apply_reflector n (other_v D' v) tau A' o = Some A).
Proof.
  intros n D v Hn HF. apply (reflector_gen n 0 v D _ (apply_reflector n)); auto; try lia.
  - destruct HF. apply compute_reflector_val; auto.
  - intros. apply apply_reflector_val; auto; try lia. intros. apply H1. lia.
Qed.
Lemma C23_ql_reflector_proof : forall n D v, 1 <= n -> fits v n D ->
  exists D' tau, compute_ql_reflector n D v = Some (D', tau) /\ zlen D' = zlen D /\
    (vec v D' (n - 1) * vec v D' (n - 1) = sumsq v n D)%R /\
    (exists D'', apply_ql_reflector n (other_v D' v) tau D v = Some D'' /\ writes v n D D'' (fun i => if i =? n - 1 then vec v D' (n - 1) else 0%R)) /\
    (forall A o, fits o n A -> exists A', apply_ql_reflector n (other_v D' v) tau A o = Some A' /\ sumsq o n A' = sumsq o n A /\
       apply_ql_reflector n (other_v D' v) tau A' o = Some A).
Proof.
  intros n D v Hn HF. apply (reflector_gen n (n - 1) v D _ (apply_ql_reflector n)); auto; try lia.
  - destruct HF. apply compute_ql_reflector_val; auto.
  - intros. apply apply_ql_reflector_val; auto; try lia. intros. apply H1. lia.
Qed.

(** ** an orthogonal action is undone by its transpose and preserves the norm *)
Lemma orth_op n t Q : orthogonal n Q -> orthogonal n (op t Q).
Proof. intros (A & B). destruct t; [|split; auto]. split; cbn [op]; intros i j Hi Hj; [apply (B i j)|apply (A i j)]; auto. Qed.
Lemma matvec_mm' n Q U v i : matvec n (matmul n Q U) v i = matvec n Q (matvec n U v) i.
Proof. apply matvec_mm. Qed.
Lemma isprod_id n P Q v z w : same_matrix n n (matmul n Q P) delta -> isprod n P v z -> isprod n Q z w -> forall i, 0 <= i < n -> w i = v i.
Proof.
  intros H H1 H2 i Hi. rewrite H2 by auto.
  transitivity (matvec n Q (matvec n P v) i). { unfold matvec at 1 2. apply sumZ_ext. intros k Hk. now rewrite H1. }
  rewrite <- matvec_mm'. rewrite <- (matvec_delta n v i) by auto. unfold matvec. apply sumZ_ext. intros k Hk. now rewrite H.
Qed.
Lemma orth_norm n Q v w : orthogonal n Q -> isprod n Q v w -> sumZ n (fun i => (w i * w i)%R) = sumZ n (fun i => (v i * v i)%R).
Proof.
  intros (H & _) Hp.
  assert (B : forall i, 0 <= i < n -> matvec n (transp Q) w i = v i).
  { intros i Hi. symmetry. symmetry. apply (isprod_id n Q (transp Q) v w (matvec n (transp Q) w)); auto. intros j Hj. reflexivity. }
  transitivity (sumZ n (fun i => (w i * matvec n Q v i)%R)). { apply sumZ_ext. intros i Hi. now rewrite <- Hp. }
  unfold matvec. transitivity (sumZ n (fun i => sumZ n (fun k => (w i * (Q i k * v k))%R))). { apply sumZ_ext. intros i Hi. now rewrite sumZ_scal. }
  rewrite sumZ_swap. apply sumZ_ext. intros k Hk. rewrite <- (B k) at 2 by auto. unfold matvec, transp.
  rewrite <- sumZ_scal. apply sumZ_ext. intros i Hi. ring.
Qed.
Definition orth_action (n : Z) (f : bool -> list R -> Z -> option (list R)) (Q : Z -> Z -> R) : Prop :=
  forall t x o, fits o n x -> exists x', f t x o = Some x' /\ acts o n x x' (isprod n (op t Q)).
Lemma orth_action_inverse n f Q : orthogonal n Q -> orth_action n f Q -> forall t x o, fits o n x ->
  (do y <- f t x o; f (negb t) y o) = Some x /\ (exists y, f t x o = Some y /\ sumsq o n y = sumsq o n x).
Proof.
  intros HQ Hf t x o Hx. destruct (Hf t x o Hx) as (y & E & A). rewrite E. cbn [obind]. split.
  - destruct (Hf (negb t) y o) as (z & E2 & A2). { eapply acts_fits; eauto. } rewrite E2. f_equal.
    apply (acts_id o n); auto. eapply acts_weaken; [|eapply acts_compose; [exact A|exact A2]].
    intros v w (u & P1 & P2). apply (isprod_id n (op t Q) (op (negb t) Q) v u w); auto.
    destruct HQ as (H1 & H2). destruct t; cbn [negb op] in *; auto.
  - exists y. split; auto. destruct A as (_ & P & _). unfold sumsq. apply (orth_norm n (op t Q)); auto. now apply orth_op.
Qed.

Lemma C23_qr_proof : forall (A : banded R), bd_ok A -> 0 <= bd_l A -> 0 <= bd_u A ->
  exists Q, banded_qrfact A = Some Q /\ bd_ok (bq_factors Q) /\
    bd_m (bq_factors Q) = bd_m A /\ bd_n (bq_factors Q) = bd_n A /\
    bd_l (bq_factors Q) = bd_l A /\ bd_u (bq_factors Q) = bd_l A + bd_u A /\
    exists Qx, orthogonal (bd_m A) Qx /\
      same_matrix (bd_m A) (bd_n A) (matmul (bd_m A) Qx (upper (bd_mat (bq_factors Q)))) (bd_mat A) /\
      forall trans x o, fits o (bd_m A) x ->
        exists x', bqmv trans Q x o = Some x' /\ acts o (bd_m A) x x' (isprod (bd_m A) (op trans Qx)).
Proof.
  intros A H1 H2 H3. destruct (qrfact_proof A H1 H2 H3) as (Q & E & B & S1 & S2 & S3 & S4 & _ & Qx & O & M & X).
  exists Q. repeat (split; [assumption|]). exists Qx. auto.
Qed.
Lemma C23_ql_proof : forall (A : banded R), bd_ok A -> bd_m A = bd_n A -> 0 <= bd_l A -> 0 <= bd_u A ->
  exists Q, banded_qlfact A = Some Q /\ bd_ok (bq_factors Q) /\
    bd_m (bq_factors Q) = bd_m A /\ bd_n (bq_factors Q) = bd_n A /\
    bd_l (bq_factors Q) = bd_l A + bd_u A /\ bd_u (bq_factors Q) = bd_u A /\
    exists Qx, orthogonal (bd_n A) Qx /\
      same_matrix (bd_n A) (bd_n A) (matmul (bd_n A) Qx (lower (bd_mat (bq_factors Q)))) (bd_mat A) /\
      forall trans x o, fits o (bd_n A) x ->
        exists x', bqmv trans Q x o = Some x' /\ acts o (bd_n A) x x' (isprod (bd_n A) (op trans Qx)).
Proof.
  intros A H1 H2 H3 H4. destruct (qlfact_proof A H1 H2 H3 H4) as (Q & E & B & S1 & S2 & S3 & S4 & _ & Qx & O & M & X).
  exists Q. repeat (split; [assumption|]). exists Qx. auto.
Qed.
Lemma C23_inverse_proof : forall (A : banded R) Q trans x o, bd_ok A -> 0 <= bd_l A -> 0 <= bd_u A ->
  (banded_qrfact A = Some Q \/ (bd_m A = bd_n A /\ banded_qlfact A = Some Q)) -> fits o (bd_m A) x ->
  (do y <- bqmv trans Q x o; bqmv (negb trans) Q y o) = Some x /\
  (exists y, bqmv trans Q x o = Some y /\ sumsq o (bd_m A) y = sumsq o (bd_m A) x).
Proof.
  intros A Q t x o H1 H2 H3 [HQ|(Hmn & HQ)] Hx.
  - destruct (C23_qr_proof A H1 H2 H3) as (Q' & E & _ & _ & _ & _ & _ & Qx & O & _ & X). rewrite HQ in E. injection E as <-.
    apply (orth_action_inverse _ (fun t x o => bqmv t Q x o) Qx); auto.
  - destruct (C23_ql_proof A H1 Hmn H2 H3) as (Q' & E & _ & _ & _ & _ & _ & Qx & O & _ & X). rewrite HQ in E. injection E as <-.
    rewrite Hmn in *. apply (orth_action_inverse _ (fun t x o => bqmv t Q x o) Qx); auto.
Qed.

(** ** examples *)
Lemma sumZ2 f : sumZ 2 f = (f 0%Z + f 1%Z)%R.
Proof. change 2 with (0 + 1 + 1) at 1. rewrite !sumZ_S, sumZ_0 by lia. cbn. ring. Qed.
Ltac g2 := intros i Hi; assert (Hc : i = 0 \/ i = 1) by lia; destruct Hc as [->| ->].
Lemma C22_pd_example_proof :
  let A := Banded [0; 1; 2; 2; 5; 0]%R 2 2 1 1 in
  bd_ok A /\ bd_m A = bd_n A /\ bd_l A = bd_u A /\ symmetric (bd_n A) (bd_mat A) /\ positive_definite (bd_n A) (bd_mat A).
Proof.
  split; [repeat split; cbn; lia|]. split; [reflexivity|]. split; [reflexivity|]. split.
  - cbn [bd_n]. intros i j Hi Hj. assert (Hc : i = 0 \/ i = 1) by lia. assert (Hd : j = 0 \/ j = 1) by lia. destruct Hc as [->| ->], Hd as [->| ->]; reflexivity.
  - intros x (i & Hi & Hx). cbn [bd_n] in *. unfold matvec. rewrite !sumZ2.
    replace (bd_mat (Banded [0; 1; 2; 2; 5; 0]%R 2 2 1 1) 0 0) with 1%R by reflexivity.
    replace (bd_mat (Banded [0; 1; 2; 2; 5; 0]%R 2 2 1 1) 0 1) with 2%R by reflexivity.
    replace (bd_mat (Banded [0; 1; 2; 2; 5; 0]%R 2 2 1 1) 1 0) with 2%R by reflexivity.
    replace (bd_mat (Banded [0; 1; 2; 2; 5; 0]%R 2 2 1 1) 1 1) with 5%R by reflexivity.
    assert (Q : (0 < (x 0%Z + 2 * x 1%Z) * (x 0%Z + 2 * x 1%Z) + x 1%Z * x 1%Z)%R).
    { assert (Hc : i = 0 \/ i = 1) by lia. destruct (Req_EM_T (x 1%Z) 0) as [E|E].
      - rewrite E in *. destruct Hc as [->| ->]; [|contradiction]. replace (x 0%Z + 2 * 0)%R with (x 0%Z) by ring. pose proof (Rlt_0_sqr _ Hx). unfold Rsqr in *. lra.
      - pose proof (Rle_0_sqr (x 0%Z + 2 * x 1%Z)). pose proof (Rlt_0_sqr _ E). unfold Rsqr in *. lra. }
    lra.
Qed.
Lemma C24_pd_example_proof :
  let A := SymTri [1; 5]%R [2]%R 2 in st_ok A /\ positive_definite (st_n A) (st_mat A).
Proof.
  split; [repeat split; cbn; lia|].
  intros x (i & Hi & Hx). cbn [st_n] in *. unfold matvec. rewrite !sumZ2.
  replace (st_mat (SymTri [1; 5]%R [2]%R 2) 0 0) with 1%R by reflexivity.
  replace (st_mat (SymTri [1; 5]%R [2]%R 2) 0 1) with 2%R by reflexivity.
  replace (st_mat (SymTri [1; 5]%R [2]%R 2) 1 0) with 2%R by reflexivity.
  replace (st_mat (SymTri [1; 5]%R [2]%R 2) 1 1) with 5%R by reflexivity.
  assert (Q : (0 < (x 0%Z + 2 * x 1%Z) * (x 0%Z + 2 * x 1%Z) + x 1%Z * x 1%Z)%R).
  { assert (Hc : i = 0 \/ i = 1) by lia. destruct (Req_EM_T (x 1%Z) 0) as [E|E].
    - rewrite E in *. destruct Hc as [->| ->]; [|contradiction]. replace (x 0%Z + 2 * 0)%R with (x 0%Z) by ring. pose proof (Rlt_0_sqr _ Hx). unfold Rsqr in *. lra.
    - pose proof (Rle_0_sqr (x 0%Z + 2 * x 1%Z)). pose proof (Rlt_0_sqr _ E). unfold Rsqr in *. lra. }
  lra.
Qed.
Lemma C24_bd_example_proof :
  let B := BiDiag [1; 3]%R [2]%R 2 in bi_ok B /\ nonzero_diag (bi_n B) (bi_mat B).
Proof.
  split; [repeat split; cbn; lia|]. cbn [bi_n]. g2; intros HH; [change (1 = 0)%R in HH|change (3 = 0)%R in HH]; lra.
Qed.
Lemma C24_refuted_proof :
  exists (A : symtri R) (K : skewtri R) (x y : list R),
    st_ok A /\ kt_ok K /\ st_n A = 1 /\ kt_n K = 1 /\ zlen x = 1 /\ zlen y = 1 /\
    forall alpha beta trans, stmv alpha A x beta y = None /\ ktmv trans alpha K x beta y = None.
Proof.
  exists (SymTri [1%R] [] 1), (SkewTri [] 1), [1%R], [1%R].
  split; [repeat split; cbn; lia|]. split; [repeat split; cbn; lia|]. do 4 (split; [reflexivity|]). intros a b [|]; split; reflexivity.
Qed.
