(** * Proofs: Householder reflectors on a block, and products of reflections *)
From Coq Require Import ZArith List Lia Bool ZifyBool ZifyNat Reals Lra.
From Verif Require Import Arith Base BaseFacts SpecSum PSum SpecLin MBanded SpecBanded PTri MFactor PFactor PClen.
Import ListNotations.
Open Scope Z_scope.

(** ** One reflector; the pivot is entry [z], where the stored entry stands for 1 *)
Definition wof (w : Z -> R) z k : R := if k =? z then 1%R else w k.

Lemma dot_up (f h : Z -> option R) (w a : Z -> R) lo hi s0 : lo <= hi ->
  (forall i, lo <= i < hi -> f i = Some (w i)) -> (forall i, lo <= i < hi -> h i = Some (a i)) ->
  for_up lo hi (fun i s => do x <- f i; do y <- h i; Some (add s (mul x y))) s0 = Some (s0 + sumZ (hi - lo) (fun i => w (lo + i)%Z * a (lo + i)%Z))%R.
Proof.
  intros Hlo Hf Hh.
  destruct (for_up_inv (fun i s => s = (s0 + sumZ (i - lo) (fun i => w (lo + i)%Z * a (lo + i)%Z))%R) lo hi
    (fun i s => do x <- f i; do y <- h i; Some (add s (mul x y))) s0) as (s & E & ->); auto.
  - rewrite Z.sub_diag, sumZ_0 by lia. lra.
  - intros i s Hi ->. rewrite Hf, Hh by lia. cbn [obind]. eexists; split; [reflexivity|]. cbn [add mul R_arith].
    replace (i + 1 - lo) with ((i - lo) + 1) by lia. rewrite sumZ_S by lia. replace (lo + (i - lo)) with i by lia. lra.
Qed.

(** the body of the update loop *)
Lemma refl_update n lo hi (getv : list R -> Z -> option R) (w : Z -> R) s (A : list R) o : 0 <= lo <= hi -> hi <= n -> 0 <= o -> o + n <= zlen A ->
  (forall A' i, lo <= i < hi -> zlen A' = zlen A -> (forall p, p < o \/ o + n <= p -> g A' p = g A p) -> getv A' i = Some (w i)) ->
  exists A', for_up lo hi (fun i A => do a <- zget A (o + i); do w <- getv A i; zset A (o + i) (sub a (mul w s))) A = Some A' /\
    zlen A' = zlen A /\ forall p, g A' p = if (o + lo <=? p) && (p <? o + hi) then (g A p - w (p - o)%Z * s)%R else g A p.
Proof.
  intros Hlo Hhi Ho HA Hg.
  destruct (for_up_inv (fun i A' => zlen A' = zlen A /\ forall p, g A' p = if (o + lo <=? p) && (p <? o + i) then (g A p - w (p - o)%Z * s)%R else g A p) lo hi
    (fun i A => do a <- zget A (o + i); do w <- getv A i; zset A (o + i) (sub a (mul w s))) A) as (A' & E & L & V).
  - lia.
  - split; auto. intros p. now replace ((o + lo <=? p) && (p <? o + lo)) with false by lia.
  - intros i A1 Hi (L1 & V1). rewrite gget by lia. cbn [obind]. rewrite (Hg A1 i); auto; try lia.
    2:{ intros p Hp. rewrite V1. now replace ((o + lo <=? p) && (p <? o + i)) with false by lia. }
    cbn [obind]. rewrite zset_some by lia. eexists; split; [reflexivity|]. split; [now rewrite zlen_zupd|].
    intros p. rewrite nthZ_zupd by lia. rewrite !V1. destruct (Z.eqb_spec (o + i) p).
    + subst p. replace ((o + lo <=? o + i) && (o + i <? o + i)) with false by lia.
      replace ((o + lo <=? o + i) && (o + i <? o + (i + 1))) with true by lia. now replace (o + i - o) with i by lia.
    + now replace (p <? o + (i + 1)) with (p <? o + i) by lia.
  - exists A'. auto.
Qed.

Definition refl (n z : Z) (w : Z -> R) (tau : R) (a : Z -> R) (k : Z) : R :=
  (a k - wof w z k * (tau * sumZ n (fun i => wof w z i * a i)))%R.

Lemma apply_reflector_val n getv tau (A : list R) o w : 1 <= n -> 0 <= o -> o + n <= zlen A ->
  (forall A' i, 1 <= i < n -> zlen A' = zlen A -> (forall p, p < o \/ o + n <= p -> g A' p = g A p) -> getv A' i = Some (w i)) ->
  exists A', apply_reflector n getv tau A o = Some A' /\ zlen A' = zlen A /\
    forall p, g A' p = if (o <=? p) && (p <? o + n) then refl n 0 w tau (fun i => g A (o + i)%Z) (p - o) else g A p.
Proof.
  intros Hn Ho HA Hg. unfold apply_reflector. replace (n <? 1) with false by lia. rewrite !gget by lia. cbn [obind].
  rewrite (dot_up (getv A) (fun i => zget A (o + i)) w (fun i => g A (o + i))) by (auto; intros; try apply gget; lia). cbn [obind].
  rewrite zset_some by lia. cbn [obind].
  set (s := mul _ tau). set (A1 := zupd A o _).
  assert (LA1 : zlen A1 = zlen A) by apply zlen_zupd.
  assert (Es : s = (tau * sumZ n (fun i => wof w 0 i * g A (o + i)))%R).
  { rewrite (sumZ_first n) by lia. unfold s. cbn [mul R_arith]. unfold wof at 1. rewrite Z.eqb_refl, Z.add_0_r.
    rewrite (sumZ_ext (n - 1) (fun i => (wof w 0 (1 + i)%Z * g A (o + (1 + i)%Z))%R) (fun i => (w (1 + i)%Z * g A (o + (1 + i)%Z))%R)).
    2:{ intros i Hi. unfold wof. now replace (1 + i =? 0) with false by lia. } lra. }
  destruct (refl_update n 1 n getv w s A1 o) as (A2 & E2 & L2 & V2); try lia.
  { intros A' i Hi L Hp. apply Hg; auto; try lia. intros p Hp2. rewrite Hp by auto. unfold A1. apply nthZ_zupd_other. lia. }
  rewrite E2. eexists; split; [reflexivity|]. split; [lia|]. intros p. rewrite V2.
  unfold A1. rewrite !nthZ_zupd by lia. unfold refl, wof at 1. replace (o + (p - o)) with p by lia. rewrite <- Es.
  destruct (Z.eqb_spec o p).
  - subst p. replace ((o + 1 <=? o) && (o <? o + n)) with false by lia. replace ((o <=? o) && (o <? o + n)) with true by lia.
    rewrite Z.sub_diag, Z.eqb_refl. cbn [sub R_arith]. lra.
  - replace (p - o =? 0) with false by lia. replace (o + 1 <=? p) with (o <=? p) by lia. reflexivity.
Qed.
Lemma apply_ql_reflector_val n getv tau (A : list R) o w : 1 <= n -> 0 <= o -> o + n <= zlen A ->
  (forall A' i, 0 <= i < n - 1 -> zlen A' = zlen A -> (forall p, p < o \/ o + n <= p -> g A' p = g A p) -> getv A' i = Some (w i)) ->
  exists A', apply_ql_reflector n getv tau A o = Some A' /\ zlen A' = zlen A /\
    forall p, g A' p = if (o <=? p) && (p <? o + n) then refl n (n - 1) w tau (fun i => g A (o + i)%Z) (p - o) else g A p.
Proof.
  intros Hn Ho HA Hg. unfold apply_ql_reflector. replace (n <? 1) with false by lia. rewrite !gget by lia. cbn [obind].
  rewrite (dot_up (getv A) (fun i => zget A (o + i)) w (fun i => g A (o + i))) by (auto; intros; try apply gget; lia). cbn [obind].
  rewrite zset_some by lia. cbn [obind].
  set (s := mul _ tau). set (A1 := zupd A (o + n - 1) _).
  assert (LA1 : zlen A1 = zlen A) by apply zlen_zupd.
  assert (Es : s = (tau * sumZ n (fun i => wof w (n - 1) i * g A (o + i)))%R).
  { replace n with (n - 1 + 1) at 1 by lia. rewrite (sumZ_S (n - 1)) by lia. unfold s. cbn [mul R_arith]. unfold wof at 2. rewrite Z.eqb_refl.
    rewrite Z.sub_0_r.
    rewrite (sumZ_ext (n - 1) (fun i => (wof w (n - 1) i * g A (o + i)%Z)%R) (fun i => (w (0 + i)%Z * g A (o + (0 + i))%Z)%R)).
    2:{ intros i Hi. unfold wof. now replace (i =? n - 1) with false by lia. }
    replace (o + (n - 1)) with (o + n - 1) by lia. lra. }
  destruct (refl_update n 0 (n - 1) getv w s A1 o) as (A2 & E2 & L2 & V2); try lia.
  { intros A' i Hi L Hp. apply Hg; auto; try lia. intros p Hp2. rewrite Hp by auto. unfold A1. apply nthZ_zupd_other. lia. }
  rewrite E2. eexists; split; [reflexivity|]. split; [lia|]. intros p. rewrite V2.
  unfold A1. rewrite !nthZ_zupd by lia. unfold refl, wof at 1. replace (o + (p - o)) with p by lia. rewrite <- Es.
  destruct (Z.eqb_spec (o + n - 1) p).
  - subst p. replace ((o + 0 <=? o + n - 1) && (o + n - 1 <? o + (n - 1))) with false by lia.
    replace ((o <=? o + n - 1) && (o + n - 1 <? o + n)) with true by lia.
    replace (o + n - 1 - o =? n - 1) with true by lia. cbn [sub R_arith]. lra.
  - destruct ((o <=? p) && (p <? o + n)) eqn:E.
    + replace (p - o =? n - 1) with false by lia. now replace ((o + 0 <=? p) && (p <? o + (n - 1))) with true by lia.
    + now replace ((o + 0 <=? p) && (p <? o + (n - 1))) with false by lia.
Qed.

(** the algebra of the reflector built from a vector [a] with pivot [z] *)
Lemma sumsq_zero n a : sumZ n (fun i => (a i * a i)%R) = 0%R -> forall i, 0 <= i < n -> a i = 0%R.
Proof.
  intros H i Hi. rewrite (sumZ_pick n i) in H by auto.
  assert (0 <= sumZ n (fun k => if k =? i then 0 else a k * a k))%R.
  { apply sumZ_pos. intros k Hk. destruct (k =? i); [lra|]. nra. }
  nra.
Qed.
Lemma house_algebra n z (a w : Z -> R) nu : 0 <= z < n ->
  let N := sumZ n (fun i => (a i * a i)%R) in
  (nu * nu = N)%R -> (0 <= a z * nu)%R -> N <> 0%R ->
  let s := (a z + nu)%R in
  (forall i, 0 <= i < n -> i <> z -> w i = (a i / s)%R) ->
  let tau := (s / nu)%R in
  s <> 0%R /\ (tau * sumZ n (fun i => wof w z i * wof w z i) = 2)%R /\
  forall k, 0 <= k < n -> refl n z w tau a k = if k =? z then (- nu)%R else 0%R.
Proof.
  intros Hz N HN Hs HN0 s Hw tau.
  assert (Hnu : nu <> 0%R) by (intros ->; rewrite Rmult_0_l in HN; auto).
  assert (s0 : s <> 0%R).
  { unfold s. intros Q. assert (Q2 : a z = (- nu)%R) by lra. rewrite Q2 in Hs. assert (0 < nu * nu)%R by nra. lra. }
  set (rest := sumZ n (fun i => if i =? z then 0 else a i * a i)%R).
  assert (EN : N = (a z * a z + rest)%R) by (unfold N, rest; now rewrite (sumZ_pick n z) by auto).
  assert (E1 : sumZ n (fun i => wof w z i * wof w z i)%R = (1 + rest / (s * s))%R).
  { rewrite (sumZ_pick n z) by auto. unfold wof at 1 2. rewrite Z.eqb_refl. f_equal; [lra|].
    unfold rest, Rdiv. rewrite <- sumZ_scal_r. apply sumZ_ext. intros i Hi. unfold wof. destruct (Z.eqb_spec i z); [lra|].
    rewrite Hw by auto. field. auto. }
  assert (E2 : sumZ n (fun i => wof w z i * a i)%R = (a z + rest / s)%R).
  { rewrite (sumZ_pick n z) by auto. unfold wof at 1. rewrite Z.eqb_refl. f_equal; [lra|].
    unfold rest, Rdiv. rewrite <- sumZ_scal_r. apply sumZ_ext. intros i Hi. unfold wof. destruct (Z.eqb_spec i z); [lra|].
    rewrite Hw by auto. field. auto. }
  assert (Er : rest = (nu * nu - a z * a z)%R) by lra.
  split; [exact s0|]. split.
  - rewrite E1, Er. unfold tau. apply (Rmult_eq_reg_r (nu * s)); [|apply Rmult_integral_contrapositive; auto].
    transitivity (s * s + (nu * nu - a z * a z))%R; [field; auto|unfold s; ring].
  - intros k Hk. unfold refl. rewrite E2, Er.
    assert (E3 : (tau * (a z + (nu * nu - a z * a z) / s) = s)%R).
    { unfold tau. apply (Rmult_eq_reg_r nu); auto. transitivity (s * a z + (nu * nu - a z * a z))%R; [field; auto|unfold s; ring]. }
    rewrite E3. unfold wof. destruct (Z.eqb_spec k z) as [->|].
    + unfold s; ring.
    + rewrite Hw by auto. field. auto.
Qed.

Definition copysign_val a s : (0 <= a)%R -> let nu := copysignA a s in (nu * nu = a * a)%R /\ (0 <= s * nu)%R.
Proof.
  intros Ha. unfold copysignA. cbn. unfold R_ltb. destruct (Rlt_dec s 0); split; nra.
Qed.

(** what [compute_reflector] guarantees (pivot [z]): the new block [D'] and [tau] are such
    that the reflector maps the old vector to (D'[v+z]) e_z *)
Definition house (n z v : Z) (D D' : list R) (tau : R) : Prop :=
  let w := fun i => g D' (v + i)%Z in
  zlen D' = zlen D /\ (forall p, p < v \/ v + n <= p -> g D' p = g D p) /\
  (tau = 0%R \/ (tau * sumZ n (fun i => wof w z i * wof w z i) = 2)%R) /\
  forall k, 0 <= k < n -> refl n z w tau (fun i => g D (v + i)%Z) k = if k =? z then w z else 0%R.

Lemma scale_loop lo hi (D : list R) v s : 0 <= lo <= hi -> 0 <= v -> v + hi <= zlen D ->
  exists D', for_up lo hi (fun i D => do x <- zget D (v + i); zset D (v + i) (div x s)) D = Some D' /\ zlen D' = zlen D /\
    forall p, g D' p = if (v + lo <=? p) && (p <? v + hi) then (g D p / s)%R else g D p.
Proof.
  intros Hlo Hv HD.
  destruct (for_up_inv (fun i D' => zlen D' = zlen D /\ forall p, g D' p = if (v + lo <=? p) && (p <? v + i) then (g D p / s)%R else g D p) lo hi
    (fun i D => do x <- zget D (v + i); zset D (v + i) (div x s)) D) as (D' & E & L & V).
  - lia.
  - split; auto. intros p. now replace ((v + lo <=? p) && (p <? v + lo)) with false by lia.
  - intros i A1 Hi (L1 & V1). rewrite gget by lia. cbn [obind]. rewrite zset_some by lia. eexists; split; [reflexivity|]. split; [now rewrite zlen_zupd|].
    intros p. rewrite nthZ_zupd by lia. rewrite !V1. destruct (Z.eqb_spec (v + i) p).
    + subst p. replace ((v + lo <=? v + i) && (v + i <? v + i)) with false by lia.
      now replace ((v + lo <=? v + i) && (v + i <? v + (i + 1))) with true by lia.
    + now replace (p <? v + (i + 1)) with (p <? v + i) by lia.
  - exists D'. auto.
Qed.
Lemma house_from n z v (D D1 D2 : list R) nu s :
  0 <= z < n -> 0 <= v -> v + n <= zlen D ->
  let N := sumZ n (fun i => (g D (v + i)%Z * g D (v + i)%Z)%R) in
  (nu * nu = N)%R -> (0 <= g D (v + z)%Z * nu)%R -> N <> 0%R -> s = (g D (v + z)%Z + nu)%R ->
  zlen D2 = zlen D ->
  (forall p, g D2 p = if p =? v + z then (- nu)%R else if (v <=? p) && (p <? v + n) then (g D p / s)%R else g D p) ->
  house n z v D D2 (s / nu).
Proof.
  intros Hz Hv HD N H1 H2 H3 Hs L V. unfold house. split; [exact L|split].
  - intros p Hp. rewrite V. replace (p =? v + z) with false by lia. now replace ((v <=? p) && (p <? v + n)) with false by lia.
  - destruct (house_algebra n z (fun i => g D (v + i)%Z) (fun i => g D2 (v + i)%Z) nu Hz H1 H2 H3) as (Q0 & Q1 & Q2).
    { intros i Hi Ni. rewrite V. replace (v + i =? v + z) with false by lia. replace ((v <=? v + i) && (v + i <? v + n)) with true by lia. now subst s. }
    rewrite <- Hs in *. split; [right; exact Q1|]. intros k Hk. rewrite Q2 by auto. destruct (k =? z); auto.
    rewrite V. now rewrite Z.eqb_refl.
Qed.
Lemma house_zero n z v (D : list R) : 0 <= z < n -> sumZ n (fun i => (g D (v + i)%Z * g D (v + i)%Z)%R) = 0%R -> house n z v D D 0.
Proof.
  intros Hz H. split; [auto|split; [auto|split; [auto|]]]. intros k Hk. unfold refl.
  pose proof (sumsq_zero n (fun i => g D (v + i)%Z) H k Hk) as Q. cbv beta in Q. rewrite Q.
  destruct (Z.eqb_spec k z); [subst; lra|lra].
Qed.

Lemma compute_reflector_val n D v : 1 <= n -> 0 <= v -> v + n <= zlen D ->
  exists D' tau, compute_reflector n D v = Some (D', tau) /\ house n 0 v D D' tau.
Proof.
  intros Hn Hv HD. unfold compute_reflector. replace (n <? 1) with false by lia. rewrite gget by lia. cbn [obind].
  rewrite (for_up_ext 0 n _ (fun i s => do x <- zget D (v + i); do y <- zget D (v + i); Some (add s (mul x y)))).
  2:{ intros i s Hi. rewrite gget by lia. reflexivity. }
  rewrite (dot_up (fun i => zget D (v + i)) (fun i => zget D (v + i)) (fun i => g D (v + i)%Z) (fun i => g D (v + i)%Z)) by (intros; try apply gget; lia).
  cbn [obind]. set (N := (zero + _)%R).
  assert (EN : N = sumZ n (fun i => (g D (v + i)%Z * g D (v + i)%Z)%R)) by (unfold N; cbn [zero R_arith]; rewrite Z.sub_0_r, Rplus_0_l; reflexivity).
  cbn [eqb R_arith]. unfold R_eqb. destruct (Req_EM_T N zero) as [E|E].
  - exists D, 0%R. split; [reflexivity|]. apply house_zero; [lia|]. rewrite <- EN. exact E.
  - assert (HN0 : (0 <= N)%R) by (rewrite EN; apply sumZ_pos; intros; nra).
    destruct (copysign_val (sqrt N) (g D v) (sqrt_pos N)) as (C1 & C2). cbv zeta in C1, C2. rewrite sqrt_sqrt in C1 by auto.
    change (sqrtA N) with (sqrt N) in *. set (nu := copysignA (sqrt N) (g D v)) in *. rewrite zset_some by lia. cbn [obind].
    destruct (scale_loop 1 n (zupd D v (opp nu)) v (add (g D v) nu)) as (D' & E' & L' & V'); try (rewrite ?zlen_zupd; lia).
    rewrite E'. cbn [obind]. eexists; eexists; split; [reflexivity|]. rewrite zlen_zupd in L'.
    apply (house_from n 0 v D D); auto; try lia.
    + now rewrite <- EN.
    + now rewrite Z.add_0_r.
    + rewrite <- EN. exact E.
    + now rewrite Z.add_0_r.
    + intros p. rewrite V', !nthZ_zupd by lia. rewrite Z.add_0_r, (Z.eqb_sym v p). destruct (Z.eqb_spec p v).
      * subst. now replace ((v + 1 <=? v) && (v <? v + n)) with false by lia.
      * now replace (v + 1 <=? p) with (v <=? p) by lia.
Qed.
Lemma compute_ql_reflector_val n D v : 1 <= n -> 0 <= v -> v + n <= zlen D ->
  exists D' tau, compute_ql_reflector n D v = Some (D', tau) /\ house n (n - 1) v D D' tau.
Proof.
  intros Hn Hv HD. unfold compute_ql_reflector. replace (n <? 1) with false by lia. rewrite gget by lia. cbn [obind].
  rewrite (for_up_ext 0 n _ (fun i s => do x <- zget D (v + i); do y <- zget D (v + i); Some (add s (mul x y)))).
  2:{ intros i s Hi. rewrite gget by lia. reflexivity. }
  rewrite (dot_up (fun i => zget D (v + i)) (fun i => zget D (v + i)) (fun i => g D (v + i)%Z) (fun i => g D (v + i)%Z)) by (intros; try apply gget; lia).
  cbn [obind]. set (N := (zero + _)%R).
  assert (EN : N = sumZ n (fun i => (g D (v + i)%Z * g D (v + i)%Z)%R)) by (unfold N; cbn [zero R_arith]; rewrite Z.sub_0_r, Rplus_0_l; reflexivity).
  cbn [eqb R_arith]. unfold R_eqb. destruct (Req_EM_T N zero) as [E|E].
  - exists D, 0%R. split; [reflexivity|]. apply house_zero; [lia|]. rewrite <- EN. exact E.
  - assert (HN0 : (0 <= N)%R) by (rewrite EN; apply sumZ_pos; intros; nra).
    replace (v + n - 1) with (v + (n - 1)) by lia.
    destruct (copysign_val (sqrt N) (g D (v + (n - 1))) (sqrt_pos N)) as (C1 & C2). cbv zeta in C1, C2. rewrite sqrt_sqrt in C1 by auto.
    change (sqrtA N) with (sqrt N) in *. set (nu := copysignA (sqrt N) (g D (v + (n - 1)))) in *. rewrite zset_some by lia. cbn [obind].
    destruct (scale_loop 0 (n - 1) (zupd D (v + (n - 1)) (opp nu)) v (add (g D (v + (n - 1))) nu)) as (D' & E' & L' & V'); try (rewrite ?zlen_zupd; lia).
    rewrite E'. cbn [obind]. eexists; eexists; split; [reflexivity|]. rewrite zlen_zupd in L'.
    apply (house_from n (n - 1) v D D); auto; try lia.
    + now rewrite <- EN.
    + rewrite <- EN. exact E.
    + intros p. rewrite V', !nthZ_zupd by lia. rewrite (Z.eqb_sym (v + (n - 1)) p). destruct (Z.eqb_spec p (v + (n - 1))).
      * subst. now replace ((v + 0 <=? v + (n - 1)) && (v + (n - 1) <? v + (n - 1))) with false by lia.
      * replace (v + 0 <=? p) with (v <=? p) by lia. now replace ((v <=? p) && (p <? v + (n - 1))) with ((v <=? p) && (p <? v + n)) by lia.
Qed.

(** ** Products of reflections *)
Section Prod.
Variable m : Z.
Definition Hm (w : Z -> R) (tau : R) (i j : Z) : R := (delta i j - tau * w i * w j)%R.
Definition rok (w : Z -> R) (tau : R) : Prop := tau = 0%R \/ (tau * sumZ m (fun i => w i * w i) = 2)%R.
Fixpoint Qm (w : Z -> Z -> R) (tau : Z -> R) (k : nat) : Z -> Z -> R :=
  match k with O => delta | S k' => matmul m (Qm w tau k') (Hm (w (Z.of_nat k')) (tau (Z.of_nat k'))) end.

Lemma matmul_meq2 (P Q U V : Z -> Z -> R) : (forall i k, 0 <= i < m -> 0 <= k < m -> P i k = Q i k) -> forall i j, 0 <= i < m ->
  (forall k, 0 <= k < m -> U k j = V k j) -> matmul m P U i j = matmul m Q V i j.
Proof. intros H i j Hi Hj. unfold matmul. apply sumZ_ext. intros k Hk. now rewrite H, Hj. Qed.
Lemma Hm_apply w tau U i j : 0 <= i < m -> matmul m (Hm w tau) U i j = (U i j - w i * (tau * sumZ m (fun k => w k * U k j)))%R.
Proof.
  intros Hi. rewrite <- (matmul_delta_l m U i j) by auto. unfold matmul, Hm. rewrite <- !sumZ_scal, <- sumZ_minus.
  apply sumZ_ext. intros. ring.
Qed.
Lemma Hm_invol w tau : rok w tau -> meq m (matmul m (Hm w tau) (Hm w tau)) delta.
Proof.
  intros H i j Hi Hj. rewrite Hm_apply by auto. unfold Hm at 1.
  assert (E : sumZ m (fun k => (w k * Hm w tau k j)%R) = (w j - tau * sumZ m (fun k => w k * w k) * w j)%R).
  { unfold Hm. transitivity (sumZ m (fun k => (w k * delta k j - (w k * w k) * (tau * w j))%R)); [apply sumZ_ext; intros; ring|].
    rewrite sumZ_minus, sumZ_scal_r. f_equal; [|ring].
    rewrite (sumZ_single m j) by (auto; intros k Hk Nk; unfold delta; replace (k =? j) with false by lia; lra).
    unfold delta. rewrite Z.eqb_refl. lra. }
  rewrite E. destruct H as [->|H]; [lra|]. rewrite H. ring.
Qed.
Lemma Hm_sym w tau i j : transp (Hm w tau) i j = Hm w tau i j.
Proof. unfold transp, Hm, delta. rewrite (Z.eqb_sym j i). ring. Qed.
Lemma Qm_ext w w' tau tau' k : (forall j i, 0 <= j < Z.of_nat k -> 0 <= i < m -> w j i = w' j i) -> (forall j, 0 <= j < Z.of_nat k -> tau j = tau' j) ->
  meq m (Qm w tau k) (Qm w' tau' k).
Proof.
  induction k; intros Hw Ht; cbn [Qm].
  - intros i j _ _. reflexivity.
  - apply matmul_meq.
    + apply IHk; intros; [apply Hw|apply Ht]; lia.
    + intros i j Hi Hj. unfold Hm. rewrite Hw, Hw, Ht by lia. reflexivity.
Qed.
Definition orthogonal_m (Q : Z -> Z -> R) : Prop := meq m (matmul m (transp Q) Q) delta /\ meq m (matmul m Q (transp Q)) delta.
Lemma transp_matmul U V i j : transp (matmul m U V) i j = matmul m (transp V) (transp U) i j.
Proof. unfold transp, matmul. apply sumZ_ext. intros. ring. Qed.
Lemma orth_mul U V : orthogonal_m U -> orthogonal_m V -> orthogonal_m (matmul m U V).
Proof.
  intros (U1 & U2) (V1 & V2). split; intros i j Hi Hj.
  - rewrite (matmul_meq2 _ (matmul m (transp V) (transp U)) _ (matmul m U V)) by (auto; intros; apply transp_matmul).
    rewrite matmul_assoc. rewrite <- V1 by auto. apply matmul_meq2; auto. intros k Hk. rewrite <- matmul_assoc.
    rewrite (matmul_meq2 _ delta _ V) by auto. now rewrite matmul_delta_l.
  - rewrite (matmul_meq2 _ (matmul m U V) _ (matmul m (transp V) (transp U))) by (auto; intros; apply transp_matmul).
    rewrite matmul_assoc. rewrite <- U2 by auto. apply matmul_meq2; auto. intros k Hk. rewrite <- matmul_assoc.
    rewrite (matmul_meq2 _ delta _ (transp U)) by auto. now rewrite matmul_delta_l.
Qed.
Lemma orth_delta : orthogonal_m delta.
Proof.
  split; intros i j Hi Hj.
  - rewrite matmul_delta_r by auto. unfold transp, delta. now rewrite Z.eqb_sym.
  - rewrite matmul_delta_l by auto. unfold transp, delta. now rewrite Z.eqb_sym.
Qed.
Lemma orth_Hm w tau : rok w tau -> orthogonal_m (Hm w tau).
Proof.
  intros H. pose proof (Hm_invol w tau H) as Q. split; intros i j Hi Hj; rewrite <- Q by auto; apply matmul_meq2; auto; intros; apply Hm_sym.
Qed.
Lemma Qm_orth w tau k : (forall j, 0 <= j < Z.of_nat k -> rok (w j) (tau j)) -> orthogonal_m (Qm w tau k).
Proof.
  induction k; intros H; cbn [Qm]; [apply orth_delta|]. apply orth_mul; [apply IHk; intros; apply H; lia|apply orth_Hm, H; lia].
Qed.

(** applying the reflections in turn *)
Lemma matvec_mm Q U v i : matvec m (matmul m Q U) v i = matvec m Q (matvec m U v) i.
Proof.
  unfold matvec, matmul. transitivity (sumZ m (fun k => sumZ m (fun h => (Q i h * U h k * v k)%R))).
  - apply sumZ_ext. intros. now rewrite sumZ_scal_r.
  - rewrite sumZ_swap. apply sumZ_ext. intros h Hh. rewrite <- sumZ_scal. apply sumZ_ext. intros. ring.
Qed.
Lemma matvec_ext Q v w i : (forall k, 0 <= k < m -> v k = w k) -> matvec m Q v i = matvec m Q w i.
Proof. intros H. unfold matvec. apply sumZ_ext. intros. now rewrite H. Qed.
Lemma matvec_meq P Q v i : meq m P Q -> 0 <= i < m -> matvec m P v i = matvec m Q v i.
Proof. intros H Hi. unfold matvec. apply sumZ_ext. intros. now rewrite H. Qed.
Lemma matvec_delta v i : 0 <= i < m -> matvec m delta v i = v i.
Proof.
  intros Hi. unfold matvec. rewrite (sumZ_single m i); auto.
  - unfold delta. rewrite Z.eqb_refl. lra.
  - intros k Hk Nk. unfold delta. replace (i =? k) with false by lia. lra.
Qed.
Lemma Hm_vec w tau v i : 0 <= i < m -> matvec m (Hm w tau) v i = (v i - w i * (tau * sumZ m (fun k => w k * v k)))%R.
Proof. intros Hi. apply (Hm_apply w tau (fun k _ => v k) i 0 Hi). Qed.

Variables (w : Z -> Z -> R) (tau : Z -> R) (step : Z -> list R -> option (list R)) (o p : Z).
Hypothesis Hp : 0 <= p.
Hypothesis Hstep : forall j x, 0 <= j < p -> fits o m x -> exists x', step j x = Some x' /\
  acts o m x x' (fun v v' => forall i, 0 <= i < m -> v' i = matvec m (Hm (w j) (tau j)) v i).

Lemma Q_trans x : fits o m x -> exists x', for_up 0 p step x = Some x' /\
  acts o m x x' (isprod m (transp (Qm w tau (Z.to_nat p)))).
Proof.
  intros Hx.
  destruct (for_up_inv (fun j x' => acts o m x x' (isprod m (transp (Qm w tau (Z.to_nat j))))) 0 p step x) as (x' & E & H); auto.
  - split; [auto|split; [|auto]]. intros i Hi. cbn [Z.to_nat Qm]. rewrite (matvec_meq _ delta) by (auto; intros a b Ha Hb; unfold transp, delta; now rewrite Z.eqb_sym).
    now rewrite matvec_delta.
  - intros j x1 Hj H1. destruct (Hstep j x1 ltac:(lia)) as (x2 & E2 & H2); [eapply acts_fits; eauto|].
    exists x2. split; [exact E2|]. destruct H1 as (L1 & V1 & O1), H2 as (L2 & V2 & O2). split; [congruence|split].
    + intros i Hi. rewrite V2 by auto. replace (Z.to_nat (j + 1)) with (S (Z.to_nat j)) by lia. cbn [Qm]. rewrite Z2Nat.id by lia.
      rewrite (matvec_meq (transp (matmul m (Qm w tau (Z.to_nat j)) (Hm (w j) (tau j)))) (matmul m (Hm (w j) (tau j)) (transp (Qm w tau (Z.to_nat j))))) by (auto; intros a b Ha Hb; rewrite transp_matmul; apply matmul_meq2; auto; intros; apply Hm_sym).
      rewrite matvec_mm. apply matvec_ext. exact V1.
    + intros q Hq. now rewrite O2, O1.
  - exists x'. auto.
Qed.
Lemma Q_notrans x : fits o m x -> exists x', for_dn (p - 1) 0 step x = Some x' /\
  acts o m x x' (isprod m (Qm w tau (Z.to_nat p))).
Proof.
  intros Hx.
  destruct (for_dn_inv (fun j x' => acts o m x x' (fun v v' => forall i, 0 <= i < m -> matvec m (Qm w tau (Z.to_nat (j + 1))) v' i = matvec m (Qm w tau (Z.to_nat p)) v i)) (p - 1) 0 step x) as (x' & E & H).
  - lia.
  - split; [auto|split; [|auto]]. intros i Hi. now replace (p - 1 + 1) with p by lia.
  - intros j x1 Hj H1. destruct (Hstep j x1 ltac:(lia)) as (x2 & E2 & H2); [eapply acts_fits; eauto|].
    exists x2. split; [exact E2|]. destruct H1 as (L1 & V1 & O1), H2 as (L2 & V2 & O2). split; [congruence|split].
    + intros i Hi. rewrite <- V1 by auto. replace (j - 1 + 1) with j by lia. replace (Z.to_nat (j + 1)) with (S (Z.to_nat j)) by lia. cbn [Qm].
      rewrite Z2Nat.id by lia. rewrite matvec_mm. apply matvec_ext. exact V2.
    + intros q Hq. now rewrite O2, O1.
  - exists x'. split; [exact E|]. destruct H as (L & V & O). split; [auto|split; [|auto]].
    intros i Hi. rewrite <- V by auto. cbn. now rewrite matvec_delta.
Qed.
End Prod.
