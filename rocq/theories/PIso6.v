(** * The blocks of the exchange of the y and z axes are orthogonal matrices, transposes of each other *)
From Coq Require Import ZArith List Lia Bool Reals Lra ZifyBool ZifyNat.
From Verif Require Import Base BaseFacts Arith SpecSum PSum MRecur PRecur PRecur2 MIso SpecIso PIso PIso2 PIso3 PIso4 PIso5 PKraw PKraw2 PDual.
Import ListNotations.
Open Scope Z_scope.

(** ** entries of the arrays of the plan *)
Lemma fill_val n p (f : Z -> R) : (forall i, 0 <= i < n -> 0 <= p i < n) -> (forall i j, 0 <= i < n -> 0 <= j < n -> p i = p j -> i = j) ->
  exists a, fill n p f = Some a /\ (0 <= n -> zlen a = n) /\ forall i, 0 <= i < n -> nthZ 0%R a (p i) = f i.
Proof.
  intros Hp Hi. unfold fill. destruct (Z_lt_dec n 0) as [Hn|Hn].
  { rewrite for_up_nil by lia. eexists. split; [reflexivity|]. split; intros; lia. }
  destruct (for_up_inv (fun k (a : list R) => zlen a = n /\ forall i, 0 <= i < k -> nthZ 0%R a (p i) = f i) 0 n (fun i a => zset a (p i) (f i)) (zmake n zero)) as (a & E & L & V).
  - lia.
  - split; [apply zlen_zmake; lia|]. intros; lia.
  - intros i a H (L & V). rewrite zset_some by (rewrite L; apply Hp; lia). eexists. split; eauto. rewrite zlen_zupd. split; auto. intros j Hj.
    rewrite nthZ_zupd by (rewrite L; apply Hp; lia). destruct (p i =? p j) eqn:Q.
    + apply Z.eqb_eq, Hi in Q; try lia. now subst.
    + apply V. assert (j <> i) by (intros ->; lia). lia.
  - exists a. auto.
Qed.
Lemma symmetric_eig_val n (a b lam : list R) sg : 0 <= n -> zlen a = n -> n - 1 <= zlen b -> zlen lam = n ->
  exists E, symmetric_eig n a b lam sg = Some E /\ wf E /\ se_n E = n /\ se_sign E = sg /\
    (forall k, 1 <= k < n -> nthZ 0%R (se_A E) k = (1 / nthZ 0%R b (k - 1))%R /\ nthZ 0%R (se_B E) k = (- nthZ 0%R a k)%R) /\
    (forall k, 1 <= k < n - 1 -> nthZ 0%R (se_C E) k = (- nthZ 0%R b k)%R) /\
    (forall k, 0 <= k < n -> nthZ 0%R (se_lam E) k = nthZ 0%R lam k).
Proof.
  intros Hn La Lb Ll. unfold symmetric_eig.
  assert (Z0 : zlen (zmake n (zero : R)) = n) by (apply zlen_zmake; lia).
  assert (G : exists A B : list R, (if 1 <? n then
      do x <- zget b (n - 2); do y <- zget a (n - 1);
      do A <- zset (zmake n zero) (n - 1) (div one x); do B <- zset (zmake n zero) (n - 1) (opp y);
      Some (A, B)
    else Some (zmake n zero, zmake n zero)) = Some (A, B) /\ zlen A = n /\ zlen B = n /\
      (1 < n -> nthZ 0%R A (n - 1) = (1 / nthZ 0%R b (n - 2))%R /\ nthZ 0%R B (n - 1) = (- nthZ 0%R a (n - 1))%R)).
  { destruct (1 <? n) eqn:En.
    - rewrite (zget_nthZ zero b), (zget_nthZ zero a) by lia. cbn [obind]. rewrite !zset_some by lia. cbn [obind]. do 2 eexists. split; [reflexivity|]. rewrite !zlen_zupd. split; auto. split; auto.
      intros _. rewrite !nthZ_zupd_same by lia. split; reflexivity.
    - do 2 eexists. split; [reflexivity|]. split; auto. split; auto. intros; lia. }
  destruct G as (A & B & -> & LA & LB & V0). cbn [obind].
  match goal with |- context [for_dn ?x ?y ?f ?s] => destruct (for_dn_inv (fun i (w : list R * list R * list R) => let '(A, B, C) := w in zlen A = n /\ zlen B = n /\ zlen C = n /\
      (forall k, i < k < n -> 1 <= k -> nthZ 0%R A k = (1 / nthZ 0%R b (k - 1))%R /\ nthZ 0%R B k = (- nthZ 0%R a k)%R) /\
      (forall k, i < k < n - 1 -> nthZ 0%R C k = (- nthZ 0%R b k)%R)) (Z.max 0 x) y f s) as ([[A1 B1] C1] & E & H) end.
  - lia.
  - repeat (split; [auto; fail|]). split; [|intros; lia]. intros k Hk Hk1. replace k with (n - 1) by lia. replace (n - 1 - 1) with (n - 2) by lia. apply V0. lia.
  - intros i [[A1 B1] C1] Hi (L1 & L2 & L3 & V1 & V2). rewrite (zget_nthZ zero b), (zget_nthZ zero a), (zget_nthZ zero b) by lia. cbn [obind]. rewrite !zset_some by lia. cbn [obind]. eexists. split; [reflexivity|]. cbv beta iota. rewrite !zlen_zupd.
    repeat (split; [auto; fail|]). split.
    + intros k Hk Hk1. rewrite !nthZ_zupd by lia. destruct (i =? k) eqn:Q; [|apply V1; lia]. replace k with i by lia. split; reflexivity.
    + intros k Hk. rewrite nthZ_zupd by lia. destruct (i =? k) eqn:Q; [|apply V2; lia]. replace k with i by lia. reflexivity.
  - assert (E' : for_dn (n - 2) 1 (fun i ABC =>
      let '(A, B, C) := ABC in
      do x <- zget b (i - 1); do y <- zget a i; do z <- zget b i;
      do A <- zset A i (div one x); do B <- zset B i (opp y); do C <- zset C i (opp z);
      Some (A, B, C)) (A, B, zmake n zero) = Some (A1, B1, C1)).
    { destruct (Z_le_dec 2 n). - replace (Z.max 0 (n - 2)) with (n - 2) in E by lia. exact E.
      - revert E. unfold for_dn. replace (Z.to_nat (Z.max 0 (n - 2) - 1 + 1)) with 0%nat by lia. replace (Z.to_nat (n - 2 - 1 + 1)) with 0%nat by lia. auto. }
    rewrite E'. cbn [obind]. destruct H as (L1 & L2 & L3 & V1 & V2).
    destruct (for_up_inv (fun i (L : list R) => zlen L = n /\ forall k, 0 <= k < i -> nthZ 0%R L k = nthZ 0%R lam k) 0 n (fun i L => do x <- zget lam i; zset L i x) (zmake n zero)) as (Lm & E2 & LL & VL); auto.
    { split; auto. intros; lia. }
    { intros i L Hi (HL & VL). rewrite (zget_nthZ zero) by lia. cbn [obind]. rewrite zset_some by lia. eexists. split; eauto. rewrite zlen_zupd. split; auto. intros k Hk. rewrite nthZ_zupd by lia. destruct (i =? k) eqn:Q; [now replace k with i by lia|apply VL; lia]. }
    rewrite E2. cbn [obind]. eexists. split; [reflexivity|]. cbn [se_n se_sign se_A se_B se_C se_lam]. unfold wf. cbn [se_n se_sign se_A se_B se_C se_lam].
    split; [auto|]. split; auto. split; auto. split; [intros; apply V1; lia|]. split; [intros; apply V2; lia|]. exact VL.
Qed.

(** ** the entries as functions of the order *)
Lemma y_diag_sin l mu : 1 <= mu <= l -> y_diag l (l - mu) = ya false l mu.
Proof.
  intros H. unfold y_diag, ya, gysq2l, gysq2l2. cbn [add ofZ zero R_arith].
  replace (2 * l - (l - mu)) with (l + mu) by lia.
  destruct (Z.eq_dec mu 1) as [->|].
  - replace ((l + 2 <=? l + 1) && (l + 1 <=? 2 * l)) with false by lia. replace ((0 <=? l + 1) && (l + 1 <=? l - 1)) with false by lia. replace ((l + 1 =? l + 1) && (l - 1 =? l - 1)) with true by lia.
    replace ((2 <=? l + 1 + 2) && (l + 1 + 2 <=? l)) with false by lia. replace ((l + 3 <=? l + 1 + 2) && (l + 1 + 2 <=? 2 * l + 2)) with true by lia. change (1 =? 1) with true. cbv iota. rewrite <- plus_IZR. f_equal. ring.
  - replace ((l + 2 <=? l + mu) && (l + mu <=? 2 * l)) with true by lia. replace ((2 <=? l + mu + 2) && (l + mu + 2 <=? l)) with false by lia. replace ((l + 3 <=? l + mu + 2) && (l + mu + 2 <=? 2 * l + 2)) with true by lia.
    replace (mu =? 1) with false by lia. rewrite <- plus_IZR. f_equal. ring.
Qed.
Lemma y_diag_cos l mu : 0 <= mu <= l -> 1 <= l -> y_diag l (l + mu) = ya true l mu.
Proof.
  intros H Hl. unfold y_diag, ya, gysq2l, gysq2l2. cbn [add ofZ zero R_arith].
  replace (2 * l - (l + mu)) with (l - mu) by lia. replace ((l + 2 <=? l - mu) && (l - mu <=? 2 * l)) with false by lia.
  replace ((l + 3 <=? l - mu + 2) && (l - mu + 2 <=? 2 * l + 2)) with false by lia.
  destruct (Z.eq_dec mu 0) as [->|N0].
  - replace ((0 <=? l - 0) && (l - 0 <=? l - 1)) with false by lia. replace ((l - 0 =? l + 1) && (l + 0 =? l - 1)) with false by lia. replace ((l - 0 =? l) && (l + 0 =? l)) with true by lia.
    replace ((2 <=? l - 0 + 2) && (l - 0 + 2 <=? l)) with false by lia. change (0 =? 1) with false. cbv iota. rewrite Rplus_0_r. f_equal. ring.
  - replace ((0 <=? l - mu) && (l - mu <=? l - 1)) with true by lia. destruct (Z.eq_dec mu 1) as [->|].
    + replace ((2 <=? l - 1 + 2) && (l - 1 + 2 <=? l)) with false by lia. change (1 =? 1) with true. cbv iota. rewrite Rplus_0_r. f_equal. ring.
    + replace ((2 <=? l - mu + 2) && (l - mu + 2 <=? l)) with true by lia. replace (mu =? 1) with false by lia. rewrite <- plus_IZR. f_equal. ring.
Qed.
Lemma sq_prod a b : 0 <= a -> 0 <= b -> (sqrt (IZR a) * sqrt (IZR b) = sqrt (IZR (a * b)))%R.
Proof. intros. rewrite mult_IZR, sqrt_mult by (apply IZR_le; lia). reflexivity. Qed.
Lemma y_off_sin l mu : 1 <= mu <= l - 2 -> y_off l (l - mu - 2) = yb l mu.
Proof.
  intros H. unfold y_off, yb, gy2l, gy2l2, kB. cbn [mul ofZ sqrtA R_arith].
  replace ((l + 2 <=? 2 * l - (l - mu - 2)) && (2 * l - (l - mu - 2) <=? 2 * l)) with true by lia. replace ((2 <=? 2 * l - (l - mu - 2)) && (2 * l - (l - mu - 2) <=? l)) with false by lia.
  replace ((l + 3 <=? 2 * l - (l - mu - 2)) && (2 * l - (l - mu - 2) <=? 2 * l + 2)) with true by lia. replace (mu =? 0) with false by lia. rewrite Rmult_1_l, sq_prod by nia.
  apply (f_equal (fun t => sqrt (IZR t))). ring.
Qed.
Lemma y_off_cos l mu : 0 <= mu <= l - 2 -> y_off l (l + mu) = yb l mu.
Proof.
  intros H. unfold y_off, yb, gy2l, gy2l2, kB. cbn [mul ofZ sqrtA opp R_arith].
  replace (2 * l - (l + mu)) with (l - mu) by lia.
  replace ((l + 2 <=? l - mu) && (l - mu <=? 2 * l)) with false by lia. replace ((2 <=? l - mu) && (l - mu <=? l)) with true by lia.
  destruct (Z.eq_dec mu 0) as [->|N0].
  - replace ((0 <=? l - 0) && (l - 0 <=? l - 1)) with false by lia. replace ((l - 0 =? l + 1) && (l + 0 =? l - 1)) with false by lia. replace ((l - 0 =? l) && (l + 0 =? l)) with true by lia. change (0 =? 0) with true. cbv iota.
    replace (- sqrt (IZR (2 * (l + 1) * (l + 2))) * - sqrt (IZR ((l - 0 - 1) * (l - 0))))%R with (sqrt (IZR (2 * (l + 1) * (l + 2))) * sqrt (IZR ((l - 0 - 1) * (l - 0))))%R by ring.
    change (sqrt 2) with (sqrt (IZR 2)). rewrite !sq_prod by (apply Z.mul_nonneg_nonneg; nia) || nia.
    apply (f_equal (fun t => sqrt (IZR t))). ring.
  - replace ((0 <=? l - mu) && (l - mu <=? l - 1)) with true by lia. replace (mu =? 0) with false by lia.
    replace (- sqrt (IZR ((2 * l + 1 - (l - mu)) * (2 * l + 2 - (l - mu)))) * - sqrt (IZR ((l - mu - 1) * (l - mu))))%R with (sqrt (IZR ((2 * l + 1 - (l - mu)) * (2 * l + 2 - (l - mu)))) * sqrt (IZR ((l - mu - 1) * (l - mu))))%R by ring.
    rewrite Rmult_1_l, sq_prod by nia. apply (f_equal (fun t => sqrt (IZR t))). ring.
Qed.
Lemma z_diag_sin l nu : z_diag l (l - nu) = zv l nu.
Proof. unfold z_diag, zv. cbn [ofZ R_arith]. f_equal. ring. Qed.
Lemma z_diag_cos l nu : z_diag l (l + nu) = zv l nu.
Proof. unfold z_diag, zv. cbn [ofZ R_arith]. f_equal. ring. Qed.
