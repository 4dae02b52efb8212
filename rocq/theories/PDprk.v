(** * Proofs: products, inverses and square roots of diagonal-plus-rank-one matrices *)
From Coq Require Import ZArith List Lia Bool ZifyBool ZifyNat Reals Lra.
From Verif Require Import Arith Base BaseFacts SpecSum PSum SpecLin PTri SpecHier PHier PHier2 MDprk SpecDprk.
Import ListNotations.
Open Scope Z_scope.

Notation nR := (nthZ 0%R).
Lemma sum_sq_val n z : 0 <= n -> n <= zlen z -> sum_sq n z = Some (sumZ n (fun i => (nR z i * nR z i)%R)).
Proof.
  intros Hn Hz. unfold sum_sq.
  match goal with |- for_up 0 n ?b ?s = _ => destruct (for_up_inv (fun k t => t = sumZ k (fun i => (nR z i * nR z i)%R)) 0 n b s) as (t & E & H); auto end.
  - intros i t Hi ->. rewrite (zget_nthZ 0%R) by lia. cbn [obind]. eexists; split; [reflexivity|]. now rewrite sumZ_S by lia.
  - now rewrite E, H.
Qed.
Lemma dotA_val n z x : 0 <= n -> n <= zlen z -> n <= zlen x -> dotA n z x = Some (sumZ n (fun i => (nR z i * nR x i)%R)).
Proof.
  intros Hn Hz Hx. unfold dotA.
  match goal with |- for_up 0 n ?b ?s = _ => destruct (for_up_inv (fun k t => t = sumZ k (fun i => (nR z i * nR x i)%R)) 0 n b s) as (t & E & H); auto end.
  - intros i t Hi ->. rewrite !(zget_nthZ 0%R) by lia. cbn [obind]. eexists; split; [reflexivity|]. now rewrite sumZ_S by lia.
  - now rewrite E, H.
Qed.
Lemma copy_val {F} {AF : Arith F} n (z : list F) : 0 <= n -> n <= zlen z ->
  exists y, copy n z = Some y /\ zlen y = n /\ forall i, 0 <= i < n -> zget y i = zget z i.
Proof.
  intros Hn Hz. unfold copy.
  match goal with |- exists y, for_up 0 n ?b ?s = _ /\ _ => destruct (for_up_inv (fun k y => zlen y = n /\ forall i, 0 <= i < k -> zget y i = zget z i) 0 n b s) as (t & E & H); auto end.
  - split; [apply zlen_zmake; lia|intros; lia].
  - intros i y Hi (L & V). destruct (zget_ex z i) as [v Ev]; [lia|]. rewrite Ev. cbn [obind]. rewrite zset_some by lia. eexists; split; [reflexivity|].
    rewrite zlen_zupd. split; auto. intros k Hk. destruct (Z.eq_dec k i) as [->|]; [now rewrite zget_zupd_same by lia|rewrite zget_zupd_other by lia; apply V; lia].
  - eauto.
Qed.
Lemma copy_nth n z y : 0 <= n -> n <= zlen z -> (forall i, 0 <= i < n -> zget y i = zget z i) -> forall i, 0 <= i < n -> nR y i = nR z i.
Proof. intros Hn Hz H i Hi. unfold nthZ. now rewrite H. Qed.

Lemma delta_sum n f i : 0 <= i < n -> sumZ n (fun k => (delta i k * f k)%R) = f i.
Proof.
  intros Hi. rewrite (sumZ_single n i) by (auto; intros k Hk Hne; unfold delta; replace (i =? k) with false by lia; lra).
  unfold delta. rewrite Z.eqb_refl. lra.
Qed.
Lemma rank1_mv n d z r (x : Z -> R) i : 0 <= i < n ->
  matvec n (fun i j => (delta i j * d i + r * z i * z j)%R) x i = (d i * x i + r * sumZ n (fun j => (z j * x j)%R) * z i)%R.
Proof.
  intros Hi. unfold matvec. rewrite (sumZ_ext n _ (fun j => (delta i j * (d i * x j) + (r * z i) * (z j * x j))%R)) by (intros; lra).
  rewrite sumZ_plus, sumZ_scal. rewrite (delta_sum n (fun j => (d i * x j)%R)) by auto. lra.
Qed.
Lemma dp_mv A x i : 0 <= i < dp_n A -> matvec (dp_n A) (dp_mat A) x i = (nR (dp_d A) i * x i + dp_rho A * sumZ (dp_n A) (fun j => (nR (dp_z A) j * x j)%R) * nR (dp_z A) i)%R.
Proof. intros Hi. apply (rank1_mv (dp_n A) (nR (dp_d A)) (nR (dp_z A)) (dp_rho A)). auto. Qed.
Lemma ip_mv A x n i : 0 <= i < n -> matvec n (ip_mat A) x i = (x i + ip_sigma A * sumZ n (fun j => (nR (ip_z A) j * x j)%R) * nR (ip_z A) i)%R.
Proof.
  intros Hi. rewrite (mv_ext n (ip_mat A) (fun i j => (delta i j * 1 + ip_sigma A * nR (ip_z A) i * nR (ip_z A) j)%R) x x) by (auto; intros; unfold ip_mat; lra).
  rewrite (rank1_mv n (fun _ => 1%R) (nR (ip_z A)) (ip_sigma A)) by auto. lra.
Qed.

Lemma drmv_proof A x : dp_ok A -> dp_n A <= zlen x ->
  exists x', drmv A x = Some x' /\ writes 0 (dp_n A) x x' (matvec (dp_n A) (dp_mat A) (vec 0 x)).
Proof.
  intros (Hn & Hd & Hz) Hx. unfold drmv. rewrite dotA_val by auto. cbn [obind].
  set (t := sumZ _ _). destruct (vec_loop (dp_n A) (fun i x => do di <- zget (dp_d A) i; do xi <- zget x i; do zi <- zget (dp_z A) i;
                         zset x i (add (mul di xi) (mul (mul t (dp_rho A)) zi))) (fun i v => (nR (dp_d A) i * v + t * dp_rho A * nR (dp_z A) i)%R) x 0) as (x' & E & W); auto.
  - split; lia.
  - intros i x1 Hi L. rewrite !(zget_nthZ 0%R) by lia. cbn [obind]. rewrite zset_some by lia. reflexivity.
  - exists x'. split; [exact E|]. eapply writes_ext; [|exact W]. intros i Hi. cbv beta. rewrite dp_mv by auto. unfold t, vec. cbn. lra.
Qed.
Lemma irmv_proof A x : ip_ok A -> ip_n A <= zlen x ->
  exists x', irmv A x = Some x' /\ writes 0 (ip_n A) x x' (matvec (ip_n A) (ip_mat A) (vec 0 x)).
Proof.
  intros (Hn & Hz) Hx. unfold irmv. rewrite dotA_val by auto. cbn [obind].
  set (t := sumZ _ _). destruct (vec_loop (ip_n A) (fun i x => do xi <- zget x i; do zi <- zget (ip_z A) i;
                         zset x i (add xi (mul (mul t (ip_sigma A)) zi))) (fun i v => (v + t * ip_sigma A * nR (ip_z A) i)%R) x 0) as (x' & E & W); auto.
  - split; lia.
  - intros i x1 Hi L. rewrite !(zget_nthZ 0%R) by lia. cbn [obind]. rewrite zset_some by lia. reflexivity.
  - exists x'. split; [exact E|]. eapply writes_ext; [|exact W]. intros i Hi. cbv beta. rewrite ip_mv by auto. unfold t, vec. cbn. lra.
Qed.

Lemma rank1_mm n d z r d' z' r' i j : 0 <= i < n -> 0 <= j < n ->
  matmul n (fun i j => (delta i j * d i + r * z i * z j)%R) (fun i j => (delta i j * d' i + r' * z' i * z' j)%R) i j =
  (delta i j * d i * d' i + r * z i * z j * d' j + d i * r' * z' i * z' j + r * r' * sumZ n (fun k => z k * z' k)%R * z i * z' j)%R.
Proof.
  intros Hi Hj. change (matmul n ?U ?V i j) with (matvec n U (fun k => V k j) i). cbv beta. rewrite (rank1_mv n d z r) by auto. cbv beta.
  rewrite (sumZ_ext n (fun k => (z k * (delta k j * d' k + r' * z' k * z' j))%R) (fun k => (delta j k * (z k * d' k) + (r' * z' j) * (z k * z' k))%R)).
  - rewrite sumZ_plus, sumZ_scal, (delta_sum n (fun k => (z k * d' k)%R)) by auto. lra.
  - intros k Hk. unfold delta. rewrite (Z.eqb_sym k j). lra.
Qed.

Section Idpr1.
Variable A : idpr1 R.
Hypothesis ok : ip_ok A.
Let n := ip_n A. Let z := nR (ip_z A). Let s := ip_sigma A.
Let w := sumZ n (fun i => (z i * z i)%R).
Lemma ip_prod (B : idpr1 R) : (forall i, 0 <= i < n -> nR (ip_z B) i = z i) -> forall i j, 0 <= i < n -> 0 <= j < n ->
  matmul n (ip_mat A) (ip_mat B) i j = (delta i j + (s + ip_sigma B + s * ip_sigma B * w) * z i * z j)%R.
Proof.
  intros HB i j Hi Hj.
  rewrite (mm_ext n (ip_mat A) (fun i j => (delta i j * 1 + s * z i * z j)%R) (ip_mat B) (fun i j => (delta i j * 1 + ip_sigma B * z i * z j)%R)).
  - rewrite (rank1_mm n (fun _ => 1%R) z s (fun _ => 1%R) z (ip_sigma B)) by auto. fold w. lra.
  - intros; unfold ip_mat, s, z. lra.
  - intros k Hk. unfold ip_mat. rewrite !HB by auto. lra.
Qed.
Lemma ip_prod_l (B : idpr1 R) : (forall i, 0 <= i < n -> nR (ip_z B) i = z i) -> forall i j, 0 <= i < n -> 0 <= j < n ->
  matmul n (ip_mat B) (ip_mat A) i j = (delta i j + (s + ip_sigma B + s * ip_sigma B * w) * z i * z j)%R.
Proof.
  intros HB i j Hi Hj.
  rewrite (mm_ext n (ip_mat B) (fun i j => (delta i j * 1 + ip_sigma B * z i * z j)%R) (ip_mat A) (fun i j => (delta i j * 1 + s * z i * z j)%R)).
  - rewrite (rank1_mm n (fun _ => 1%R) z (ip_sigma B) (fun _ => 1%R) z s) by auto. fold w. lra.
  - intros k Hk. unfold ip_mat. rewrite !HB by auto. lra.
  - intros; unfold ip_mat, s, z. lra.
Qed.
Lemma idpr1_inv_proof : (1 + s * w <> 0)%R ->
  exists B, idpr1_inv A = Some B /\ ip_ok B /\ ip_n B = n /\ forall i j, 0 <= i < n -> 0 <= j < n ->
    matmul n (ip_mat A) (ip_mat B) i j = delta i j /\ matmul n (ip_mat B) (ip_mat A) i j = delta i j.
Proof.
  intros Hs. destruct ok as (Hn & Hz). unfold idpr1_inv. destruct (copy_val (ip_n A) (ip_z A) Hn Hz) as (y & -> & Ly & Vy). cbn [obind]. rewrite sum_sq_val by auto. cbn [obind].
  eexists; split; [reflexivity|]. split; [split; cbn; lia|]. split; [reflexivity|]. intros i j Hi Hj.
  assert (HB : forall i, 0 <= i < n -> nR y i = z i) by (intros; now apply (copy_nth n (ip_z A) y Hn Hz Vy)).
  fold n z s. fold w. rewrite ip_prod, ip_prod_l by (auto; cbn; auto). cbn [ip_sigma div opp add one mul R_arith].
  assert (E : (s + - s / (1 + s * w) + s * (- s / (1 + s * w)) * w = 0)%R) by (field; auto). rewrite E. lra.
Qed.
Lemma idpr1_factorize_proof : (0 <= 1 + s * w)%R ->
  exists B, idpr1_factorize A = Some B /\ ip_ok B /\ ip_n B = n /\ (forall i j, 0 <= i < n -> 0 <= j < n ->
    matmul n (ip_mat B) (ip_mat B) i j = ip_mat A i j) /\ (forall i j, ip_mat B i j = ip_mat B j i).
Proof.
  intros Hs. destruct ok as (Hn & Hz). unfold idpr1_factorize. destruct (copy_val (ip_n A) (ip_z A) Hn Hz) as (y & -> & Ly & Vy). cbn [obind]. rewrite sum_sq_val by auto. cbn [obind].
  eexists; split; [reflexivity|]. split; [split; cbn; lia|]. split; [reflexivity|].
  assert (HB : forall i, 0 <= i < n -> nR y i = z i) by (intros; now apply (copy_nth n (ip_z A) y Hn Hz Vy)).
  split.
  - intros i j Hi Hj. fold n z s. fold w. cbn [div add one mul sqrtA R_arith]. set (q := sqrt (1 + s * w)). set (t := (s / (1 + q))%R).
    rewrite (mm_ext n _ (fun i j => (delta i j * 1 + t * z i * z j)%R) _ (fun i j => (delta i j * 1 + t * z i * z j)%R))
      by (intros; unfold ip_mat; cbn [ip_z ip_sigma]; rewrite !HB by auto; lra).
    rewrite (rank1_mm n (fun _ => 1%R) z t (fun _ => 1%R) z t) by auto. fold w. unfold ip_mat. fold s. fold (z i) (z j).
    assert (E : (t + t + t * t * w = s)%R).
    { assert (Hq : (q * q = 1 + s * w)%R) by (apply sqrt_sqrt; auto). assert (0 <= q)%R by apply sqrt_pos.
      assert (E1 : (t * (1 + q) = s)%R) by (unfold t; field; lra).
      replace (t + t + t * t * w)%R with (t * (2 + t * w))%R by lra.
      assert (E2 : ((1 + q) * (2 + t * w) = (1 + q) * (1 + q))%R).
      { replace ((1 + q) * (2 + t * w))%R with (2 + 2 * q + (t * (1 + q)) * w)%R by lra. rewrite E1. lra. }
      apply Rmult_eq_reg_l in E2; [|lra]. rewrite E2. exact E1. }
    rewrite <- E at 1. unfold z. lra.
  - intros i j. unfold ip_mat, delta. rewrite (Z.eqb_sym i j). cbn. lra.
Qed.
End Idpr1.

Section Dpr1.
Variable A : dpr1 R.
Hypothesis ok : dp_ok A.
Let n := dp_n A. Let d := nR (dp_d A). Let z := nR (dp_z A). Let r := dp_rho A.
Lemma dpr1_inv_proof : (forall i, 0 <= i < n -> d i <> 0%R) -> (1 + r * sumZ n (fun i => z i * z i / d i) <> 0)%R ->
  exists B, dpr1_inv A = Some B /\ dp_ok B /\ dp_n B = n /\ forall i j, 0 <= i < n -> 0 <= j < n ->
    matmul n (dp_mat A) (dp_mat B) i j = delta i j /\ matmul n (dp_mat B) (dp_mat A) i j = delta i j.
Proof.
  intros Hd Hs. destruct ok as (Hn & Hdl & Hz). unfold dpr1_inv. cbv zeta. change (dp_n A) with n.
  set (w := sumZ n (fun i => (z i * z i / d i)%R)) in *.
  match goal with |- context [for_up 0 n ?b ?s0] =>
    destruct (for_up_inv (fun k eys => let '(e, y, s) := eys in zlen e = n /\ zlen y = n /\ s = sumZ k (fun i => (z i * z i / d i)%R) /\
      forall i, 0 <= i < k -> nR e i = (1 / d i)%R /\ nR y i = (1 / d i * z i)%R) 0 n b s0) as (((e, y), s) & E & Le & Ly & Es & V); auto end.
  - repeat split; try (apply zlen_zmake; auto); intros; lia.
  - intros k ((e, y), s) Hk (Le & Ly & Es & V). subst s. rewrite (zget_nthZ 0%R (dp_d A)) by (unfold n in *; lia). cbn [obind].
    rewrite zset_some by lia. cbn [obind]. rewrite (zget_nthZ 0%R (dp_z A)) by (unfold n in *; lia). cbn [obind]. rewrite zget_zupd_same by lia. cbn [obind].
    rewrite zset_some by lia. cbn [obind]. rewrite zget_zupd_same by lia. cbn [obind]. eexists; split; [reflexivity|].
    cbv beta iota. rewrite !zlen_zupd. split; auto. split; auto. split.
    + rewrite sumZ_S by lia. fold (d k) (z k). cbn. field. apply Hd; lia.
    + intros i Hi. destruct (Z.eq_dec i k) as [->|].
      * rewrite !nthZ_zupd_same by lia. split; reflexivity.
      * rewrite !nthZ_zupd_other by lia. apply V. lia.
  - rewrite E. cbn [obind]. fold w in Es. subst s. eexists; split; [reflexivity|]. split; [repeat split; cbn; lia|]. split; [reflexivity|].
    intros i j Hi Hj. fold r. cbn [div opp add one mul R_arith]. set (t := (- r / (1 + r * w))%R).
    set (d' := fun i => (1 / d i)%R). set (z' := fun i => (1 / d i * z i)%R).
    assert (EB : forall i j, 0 <= i < n -> 0 <= j < n -> dp_mat (Dpr1 e y t n) i j = (delta i j * d' i + t * z' i * z' j)%R).
    { intros a b Ha Hb. unfold dp_mat. cbn [dp_d dp_z dp_rho]. destruct (V a Ha) as [-> ->]. destruct (V b Hb) as [_ ->]. reflexivity. }
    assert (Et : (r + t + r * t * w = 0)%R) by (unfold t; field; auto).
    assert (Ew : sumZ n (fun k => (z k * z' k)%R) = w) by (apply sumZ_ext; intros k Hk; unfold z'; field; apply Hd; auto).
    assert (Ew' : sumZ n (fun k => (z' k * z k)%R) = w) by (apply sumZ_ext; intros k Hk; unfold z'; field; apply Hd; auto).
    assert (Di := Hd i Hi). assert (Dj := Hd j Hj).
    split.
    + rewrite (mm_ext n _ (fun i j => (delta i j * d i + r * z i * z j)%R) _ (fun i j => (delta i j * d' i + t * z' i * z' j)%R)) by (intros; first [reflexivity|now apply EB]).
      rewrite (rank1_mm n d z r d' z' t) by auto. rewrite Ew. unfold d', z'.
      replace (delta i j * d i * (1 / d i) + r * z i * z j * (1 / d j) + d i * t * (1 / d i * z i) * (1 / d j * z j) + r * t * w * z i * (1 / d j * z j))%R
        with (delta i j + (r + t + r * t * w) * (z i * z j / d j))%R by (field; auto). rewrite Et. lra.
    + rewrite (mm_ext n _ (fun i j => (delta i j * d' i + t * z' i * z' j)%R) _ (fun i j => (delta i j * d i + r * z i * z j)%R)) by (intros; first [reflexivity|now apply EB]).
      rewrite (rank1_mm n d' z' t d z r) by auto. rewrite Ew'. unfold d', z'.
      replace (delta i j * (1 / d i) * d i + t * (1 / d i * z i) * (1 / d j * z j) * d j + 1 / d i * r * z i * z j + t * r * w * (1 / d i * z i) * z j)%R
        with (delta i j + (r + t + r * t * w) * (z i * z j / d i))%R by (field; auto). rewrite Et. lra.
Qed.
End Dpr1.
