(** * Proofs: the rank-one vector recomputed from the eigenvalues *)
From Coq Require Import ZArith List Lia Bool ZifyBool ZifyNat Reals Lra.
From Verif Require Import Arith Base BaseFacts SpecSum PSum SpecLin PTri SpecHier PHier PHier2 MDprk SpecDprk PDprk PDprk2 PDprk3 PDprk4.
Import ListNotations.
Open Scope Z_scope.

Lemma prodZ_0 n f : n <= 0 -> prodZ n f = 1%R. Proof. intros. unfold prodZ. now replace (Z.to_nat n) with O by lia. Qed.
Lemma prodZ_S n f : 0 <= n -> prodZ (n + 1) f = (prodZ n f * f n)%R.
Proof. intros. unfold prodZ. replace (Z.to_nat (n + 1)) with (S (Z.to_nat n)) by lia. cbn [prodn]. now rewrite Z2Nat.id. Qed.
Lemma prodZ_ext n f g : (forall i, 0 <= i < n -> f i = g i) -> prodZ n f = prodZ n g.
Proof.
  intros H. unfold prodZ. assert (H' : forall i, 0 <= i < Z.of_nat (Z.to_nat n) -> f i = g i) by (intros; apply H; lia).
  induction (Z.to_nat n) as [|k IH]; cbn [prodn]; auto. rewrite IH by (intros; apply H'; lia). now rewrite H' by lia.
Qed.
Lemma prodZ_zero n f i : 0 <= i < n -> f i = 0%R -> prodZ n f = 0%R.
Proof.
  intros Hi E. unfold prodZ. assert (H : 0 <= i < Z.of_nat (Z.to_nat n)) by lia. clear Hi. induction (Z.to_nat n) as [|k IH]; cbn [prodn]; [lia|].
  destruct (Z.eq_dec i (Z.of_nat k)) as [->|]; [rewrite E; lra|]. rewrite IH by lia. lra.
Qed.
Lemma prodZ_pos n f : (forall i, 0 <= i < n -> (0 < f i)%R) -> (0 < prodZ n f)%R.
Proof.
  intros H. unfold prodZ. assert (H' : forall i, 0 <= i < Z.of_nat (Z.to_nat n) -> (0 < f i)%R) by (intros; apply H; lia).
  induction (Z.to_nat n) as [|k IH]; cbn [prodn]; [lra|]. apply Rmult_lt_0_compat; [apply IH; intros; apply H'; lia|apply H'; lia].
Qed.

Section Fractions.
Variables d lam : Z -> R.
Lemma loewner_S n k : 0 <= k < n -> (d n <> d k) -> loewner (n + 1) d lam k = (loewner n d lam k * (1 + (lam n - d n) / (d n - d k)))%R.
Proof.
  intros Hk Hd. unfold loewner. rewrite prodZ_S by lia. replace (n =? k) with false by lia.
  replace (1 + (lam n - d n) / (d n - d k))%R with ((lam n - d k) / (d n - d k))%R by (field; lra). ring.
Qed.
Lemma loewner_last n : 0 <= n -> loewner (n + 1) d lam n = ((lam n - d n) * prodZ n (fun i => (lam i - d n) / (d i - d n)))%R.
Proof.
  intros Hn. unfold loewner. rewrite prodZ_S by lia. rewrite Z.eqb_refl, Rmult_1_r. f_equal. apply prodZ_ext. intros i Hi. now replace (i =? n) with false by lia.
Qed.
Lemma fractions n t : 0 <= n -> (forall i j, 0 <= i < n -> 0 <= j < n -> i <> j -> d i <> d j) -> (forall i, 0 <= i < n -> d i <> t) ->
  prodZ n (fun i => ((lam i - t) / (d i - t))%R) = (1 + sumZ n (fun k => loewner n d lam k / (d k - t)))%R.
Proof.
  intros Hn. revert t. pattern n. apply natlike_ind; auto; clear n Hn.
  - intros t _ _. rewrite prodZ_0, sumZ_0 by lia. lra.
  - intros n Hn IH t Hd Ht. unfold Z.succ in *. rewrite prodZ_S, sumZ_S by lia.
    assert (Hd' : forall i j, 0 <= i < n -> 0 <= j < n -> i <> j -> d i <> d j) by (intros; apply Hd; lia).
    rewrite (IH t Hd') by (intros; apply Ht; lia). rewrite loewner_last by auto. rewrite (IH (d n) Hd') by (intros; apply Hd; lia).
    rewrite (sumZ_ext n (fun k => (loewner (n + 1) d lam k / (d k - t))%R) (fun k => (loewner n d lam k / (d k - t) + (lam n - d n) * (loewner n d lam k / (d n - d k) / (d k - t)))%R)).
    2:{ intros k Hk. rewrite loewner_S by (auto; apply Hd; lia). assert (d n - d k <> 0)%R by (apply Rminus_eq_contra, Hd; lia). assert (d k - t <> 0)%R by (apply Rminus_eq_contra, Ht; lia). field. auto. }
    rewrite sumZ_plus, sumZ_scal.
    assert (Hnt : (d n - t <> 0)%R) by (apply Rminus_eq_contra, Ht; lia).
    assert (E : sumZ n (fun k => (loewner n d lam k / (d n - d k) / (d k - t))%R) = ((sumZ n (fun k => loewner n d lam k / (d k - t)) - sumZ n (fun k => loewner n d lam k / (d k - d n))) / (d n - t) )%R).
    { unfold Rdiv at 3. rewrite <- sumZ_minus, <- sumZ_scal_r. apply sumZ_ext. intros k Hk. assert (d n - d k <> 0)%R by (apply Rminus_eq_contra, Hd; lia). assert (d k - t <> 0)%R by (apply Rminus_eq_contra, Ht; lia). field. repeat split; auto; lra. }
    rewrite E. field. auto.
Qed.
Lemma loewner_root n j : 0 <= j < n -> (forall i k, 0 <= i < n -> 0 <= k < n -> i <> k -> d i <> d k) -> (forall i, 0 <= i < n -> d i <> lam j) ->
  sumZ n (fun k => (loewner n d lam k / (d k - lam j))%R) = (-1)%R.
Proof.
  intros Hj Hd Ho. pose proof (fractions n (lam j) ltac:(lia) Hd Ho) as E. rewrite (prodZ_zero n _ j) in E; [lra|auto|]. cbv beta. rewrite Rminus_diag_eq by reflexivity. unfold Rdiv. lra.
Qed.
(** the sign under interlacing *)
Lemma loewner_pos n k : 0 <= k < n -> (forall i j, 0 <= i -> i < j -> j < n -> (d i < d j)%R) ->
  (forall i, 0 <= i < n -> (d i < lam i)%R) -> (forall i, 0 <= i -> i + 1 < n -> (lam i < d (i + 1)%Z)%R) -> (0 < loewner n d lam k)%R.
Proof.
  intros Hk Hd Hl Hu. unfold loewner. apply Rmult_lt_0_compat; [specialize (Hl k Hk); lra|]. apply prodZ_pos. intros i Hi. destruct (Z.eqb_spec i k); [lra|].
  destruct (Z_lt_dec i k).
  - pose proof (Hd i k ltac:(lia) ltac:(lia) ltac:(lia)). assert (lam i < d k)%R.
    { specialize (Hu i ltac:(lia) ltac:(lia)). destruct (Z.eq_dec (i + 1) k) as [<-|]; auto. specialize (Hd (i + 1) k ltac:(lia) ltac:(lia) ltac:(lia)). lra. }
    replace ((lam i - d k) / (d i - d k))%R with ((d k - lam i) / (d k - d i))%R by (field; lra). apply Rdiv_lt_0_compat; lra.
  - pose proof (Hd k i ltac:(lia) ltac:(lia) ltac:(lia)). specialize (Hl i Hi). apply Rdiv_lt_0_compat; lra.
Qed.
Lemma loewner_neg n k : 0 <= k < n -> (forall i j, 0 <= i -> i < j -> j < n -> (d i < d j)%R) ->
  (forall i, 0 <= i < n -> (lam i < d i)%R) -> (forall i, 0 <= i -> i + 1 < n -> (d i < lam (i + 1)%Z)%R) -> (loewner n d lam k < 0)%R.
Proof.
  intros Hk Hd Hl Hu. unfold loewner. assert (lam k < d k)%R by auto.
  enough (0 < prodZ n (fun i => if (i =? k)%Z then 1 else (lam i - d k) / (d i - d k)))%R by nra. apply prodZ_pos. intros i Hi. destruct (Z.eqb_spec i k); [lra|].
  destruct (Z_lt_dec i k).
  - pose proof (Hd i k ltac:(lia) ltac:(lia) ltac:(lia)). specialize (Hl i Hi).
    replace ((lam i - d k) / (d i - d k))%R with ((d k - lam i) / (d k - d i))%R by (field; lra). apply Rdiv_lt_0_compat; lra.
  - pose proof (Hd k i ltac:(lia) ltac:(lia) ltac:(lia)). assert (d k < lam i)%R.
    { specialize (Hu (i - 1) ltac:(lia) ltac:(lia)). replace (i - 1 + 1) with i in Hu by lia. destruct (Z.eq_dec k (i - 1)) as [->|]; auto. specialize (Hd k (i - 1) ltac:(lia) ltac:(lia) ltac:(lia)). lra. }
    apply Rdiv_lt_0_compat; lra.
Qed.
End Fractions.

Lemma copysign_sqrt w b : (0 <= w)%R -> (copysignA (sqrt w) b * copysignA (sqrt w) b = w)%R.
Proof. intros. rewrite copysign_sq. now apply sqrt_sqrt. Qed.

Section Synth.
Variables (A : dpr1 R) (lo hi : list R).
Hypothesis ok : dp_ok A.
Hypothesis Hlo : dp_n A <= zlen lo.
Hypothesis Hhi : dp_n A <= zlen hi.
Let n := dp_n A. Let d := nR (dp_d A). Let z := nR (dp_z A). Let rho := dp_rho A.
Let lam j := (nR hi j + nR lo j)%R.
Let fac k i : R := if (i =? k)%Z then 1%R else ((lam i - d k) / (d i - d k))%R.
Lemma factor_loop1 k (body : Z -> R -> option R) w : 0 <= k < n ->
  (forall i zk, 0 <= i < n -> i <> k -> body i zk = Some (zk * fac k i)%R) ->
  (do zk <- for_up 0 k body w; for_up (k + 1) n body zk) = Some (w * prodZ n (fac k))%R.
Proof.
  intros Hk Hb. destruct (for_up_inv (fun j t => t = (w * prodZ j (fac k))%R) 0 k body w) as (t & -> & ->); [lia|rewrite prodZ_0 by lia; lra| |].
  { intros i t Hi ->. rewrite Hb by lia. eexists; split; [reflexivity|]. rewrite prodZ_S by lia. ring. }
  cbn [obind]. destruct (for_up_inv (fun j t => t = (w * prodZ j (fac k))%R) (k + 1) n body (w * prodZ k (fac k))%R) as (t & -> & ->); [lia| | |reflexivity].
  - rewrite prodZ_S by lia. unfold fac at 3. rewrite Z.eqb_refl. ring.
  - intros i t Hi ->. rewrite Hb by lia. eexists; split; [reflexivity|]. rewrite prodZ_S by lia. ring.
Qed.
Lemma synthesize_vals : exists A', dpr1_synthesize A lo hi = Some A' /\ dp_d A' = dp_d A /\ dp_rho A' = rho /\ dp_n A' = n /\ zlen (dp_z A') = zlen (dp_z A) /\
  forall k, 0 <= k < n -> nR (dp_z A') k = copysignA (sqrt (loewner n d lam k / rho)) (z k).
Proof.
  destruct ok as (Hn & Hd & Hz). unfold dpr1_synthesize. cbv zeta. fold n rho.
  match goal with |- exists A', obind (for_up 0 n ?b ?s) _ = _ /\ _ => destruct (seg_loop 0 n b (fun k v => copysignA (sqrt (loewner n d lam k / rho)) v) s) as (z' & -> & L & V & O); [lia|exact Hn|exact Hz| |] end.
  - intros k z' Hk L. unfold n in *. rewrite !(zget_nthZ 0%R) by lia. cbn [obind].
    match goal with |- context [for_up 0 k ?b ?w] => pose proof (factor_loop1 k b w Hk) as E end.
    match type of E with ?P -> _ => assert (HP : P) end.
    { intros i zk Hi Hne. rewrite !(zget_nthZ 0%R) by lia. cbn [obind]. f_equal. unfold fac. replace (i =? k) with false by lia. unfold lam. cbn. f_equal. unfold Rdiv. f_equal. fold (d k). lra. }
    specialize (E HP). match goal with |- obind ?X _ = _ => destruct X as [zk|] eqn:E1; cbn [obind] in E |- *; [|discriminate] end.
    fold n in E |- *. rewrite E. cbn [obind]. rewrite zset_some by lia. do 3 f_equal. change sqrtA with sqrt. f_equal. unfold loewner. fold (fac k). cbn. unfold Rdiv, lam, d. fold rho. unfold Rdiv.
    change (prodZ n (fun i => if (i =? k)%Z then 1%R else ((nR hi i + nR lo i - nR (dp_d A) k) * / (nR (dp_d A) i - nR (dp_d A) k))%R)) with (prodZ n (fac k)). ring.
  - cbn [obind]. eexists; split; [reflexivity|]. cbn. repeat split; auto.
Qed.
End Synth.

Lemma synthesize_proof A lo hi : dp_ok A -> dp_n A <= zlen lo -> dp_n A <= zlen hi ->
  let lam := fun j => (nR hi j + nR lo j)%R in
  (forall i j, 0 <= i < dp_n A -> 0 <= j < dp_n A -> i <> j -> nR (dp_d A) i <> nR (dp_d A) j) ->
  (forall j, 0 <= j < dp_n A -> off_poles A (lam j)) -> dp_rho A <> 0%R ->
  (forall k, 0 <= k < dp_n A -> (0 <= loewner (dp_n A) (nR (dp_d A)) lam k / dp_rho A)%R) ->
  exists A', dpr1_synthesize A lo hi = Some A' /\ dp_ok A' /\ dp_d A' = dp_d A /\ dp_rho A' = dp_rho A /\ dp_n A' = dp_n A /\
    (forall k, 0 <= k < dp_n A -> (0 <= nR (dp_z A') k * nR (dp_z A) k)%R) /\
    forall j, 0 <= j < dp_n A -> pencil_root A' 0 (lam j).
Proof.
  intros ok Hlo Hhi lam Hd Ho Hr Hp. destruct (synthesize_vals A lo hi ok Hlo Hhi) as (A' & E & ED & ER & EN & L & V). exists A'. split; auto. destruct ok as (Hn & Ld & Lz).
  split; [split; [lia|]; rewrite ED, EN; split; lia|]. split; auto. split; auto. split; auto. split.
  - intros k Hk. rewrite V by auto. apply copysign_mul_pos.
  - intros j Hj. split; [|split].
    + intros i Hi. rewrite ED. rewrite EN in Hi. now apply Ho.
    + rewrite ER. lra.
    + unfold pencil_secular_function, pole_sum. rewrite ER, EN, ED. rewrite Rmult_0_l, Rminus_0_r.
      rewrite (sumZ_ext _ _ (fun k => (/ dp_rho A * (loewner (dp_n A) (nR (dp_d A)) lam k / (nR (dp_d A) k - lam j)))%R)).
      * rewrite sumZ_scal, loewner_root; [lra|auto|auto|]. intros i Hi. now apply Ho.
      * intros k Hk. rewrite V by auto. unfold lam in *. rewrite copysign_sqrt by auto. unfold Rdiv. ring.
Qed.

Section SynthDef.
Variables (A : dpr1 R) (B : idpr1 R) (lo hi : list R).
Hypothesis ok : dp_ok A.
Hypothesis okB : ip_ok B.
Hypothesis HnB : ip_n B = dp_n A.
Hypothesis Hlo : dp_n A <= zlen lo.
Hypothesis Hhi : dp_n A <= zlen hi.
Let n := dp_n A. Let d := nR (dp_d A). Let rho := dp_rho A. Let sigma := ip_sigma B.
Let lam j := (nR hi j + nR lo j)%R.
Let fac k i : R := if (i =? k)%Z then 1%R else ((lam i - d k) / (d i - d k))%R.
Let w k := (loewner n d lam k / (rho - sigma * d k))%R.
Definition upto (k : Z) (z z' : list R) : Prop := zlen z' = zlen z /\ forall p, p <> k -> zget z' p = zget z p.
Lemma factor_loop2 k (body : Z -> list R -> option (list R)) z v : 0 <= k < n -> nR z k = v ->
  (forall i z', 0 <= i < n -> i <> k -> zlen z' = zlen z -> body i z' = Some (zupd z' k (nR z' k * fac k i)%R)) -> k < zlen z ->
  exists z', (do z <- for_up 0 k body z; for_up (k + 1) n body z) = Some z' /\ upto k z z' /\ nR z' k = (v * prodZ n (fac k))%R.
Proof.
  intros Hk Ev Hb Hz.
  destruct (for_up_inv (fun j z' => upto k z z' /\ nR z' k = (v * prodZ j (fac k))%R) 0 k body z) as (z1 & -> & U1 & V1); [lia|split; [split; auto|rewrite prodZ_0 by lia; lra]| |].
  { intros i z' Hi ((L & O) & V). rewrite Hb by lia. eexists; split; [reflexivity|]. split; [split; [now rewrite zlen_zupd|]|].
    - intros p Hp. rewrite zget_zupd_other by lia. now apply O.
    - rewrite nthZ_zupd_same by lia. rewrite V, prodZ_S by lia. ring. }
  cbn [obind].
  destruct (for_up_inv (fun j z' => upto k z z' /\ nR z' k = (v * prodZ j (fac k))%R) (k + 1) n body z1) as (z2 & -> & U2 & V2); [lia| | |eauto].
  - split; auto. rewrite prodZ_S by lia. unfold fac at 2. rewrite Z.eqb_refl, V1. ring.
  - intros i z' Hi ((L & O) & V). rewrite Hb by lia. eexists; split; [reflexivity|]. split; [split; [now rewrite zlen_zupd|]|].
    + intros p Hp. rewrite zget_zupd_other by lia. now apply O.
    + rewrite nthZ_zupd_same by lia. rewrite V, prodZ_S by lia. ring.
Qed.
Lemma definite_synthesize_vals : exists A' B', definite_dpr1_synthesize A B lo hi = Some (A', B') /\
  dp_d A' = dp_d A /\ dp_rho A' = rho /\ dp_n A' = n /\ zlen (dp_z A') = zlen (dp_z A) /\
  ip_sigma B' = sigma /\ ip_n B' = ip_n B /\ zlen (ip_z B') = zlen (ip_z B) /\
  forall k, 0 <= k < n -> nR (dp_z A') k = copysignA (sqrt (w k / (1 - sigma * sumZ n w))) (nR (ip_z B) k) /\ nR (ip_z B') k = nR (dp_z A') k.
Proof.
  destruct ok as (Hn & Hd & Hz), okB as (_ & Hb). unfold definite_dpr1_synthesize. cbv zeta. fold n rho sigma.
  match goal with |- exists A' B', obind (for_up 0 n ?b ?s) _ = _ /\ _ => destruct (for_up_inv (fun k zs => zlen (fst zs) = zlen (dp_z A) /\ (forall i, 0 <= i < k -> nR (fst zs) i = w i) /\ snd zs = sumZ k w) 0 n b s) as ((z1 & zs) & -> & L1 & V1 & S1); [exact Hn| | |] end.
  { cbn. split; auto. split; [intros; lia|]. reflexivity. }
  { intros k (z1 & zs) Hk (L1 & V1 & S1). cbn [fst snd] in *. unfold n in Hk. rewrite !(zget_nthZ 0%R) by lia. cbn [obind]. rewrite zset_some by lia. cbn [obind].
    match goal with |- context [for_up 0 k ?b (zupd z1 k ?v)] => destruct (factor_loop2 k b (zupd z1 k v) v) as (z2 & E2 & (L2 & O2) & V2) end.
    - exact Hk.
    - now rewrite nthZ_zupd_same by lia.
    - intros i z' Hi Hne L. rewrite zlen_zupd in L. unfold n in Hi. rewrite !(zget_nthZ 0%R) by lia. cbn [obind]. rewrite zset_some by lia. do 2 f_equal. unfold fac. replace (i =? k) with false by lia.
      unfold lam. cbn. f_equal. unfold Rdiv. f_equal. fold (d k). lra.
    - rewrite zlen_zupd. lia.
    - match goal with |- exists s, obind ?X _ = _ /\ _ => destruct X as [zk|] eqn:E1; cbn [obind] in E2 |- *; [|discriminate] end.
      rewrite E2. cbn [obind]. rewrite zlen_zupd in L2. rewrite (zget_nthZ 0%R) by lia. cbn [obind]. eexists; split; [reflexivity|]. cbn [fst snd].
      assert (Ew : nR z2 k = w k).
      { rewrite V2. unfold w, loewner. fold (fac k). cbn [sub mul div add R_arith]. change (fun i => if (i =? k)%Z then 1%R else ((lam i - d k) / (d i - d k))%R) with (fac k).
        unfold Rdiv, lam. fold (d k). ring. }
      split; [lia|]. split.
      + intros i Hi. destruct (Z.eq_dec i k) as [->|]; auto. rewrite <- V1 by lia. apply nth_eq. rewrite O2 by lia. now rewrite zget_zupd_other by lia.
      + rewrite sumZ_S by lia. rewrite S1, Ew. reflexivity. }
  cbn [obind fst snd] in *. subst zs.
  match goal with |- exists A' B', obind (for_up 0 n ?b ?s) _ = _ /\ _ => destruct (for_up_inv (fun k zb => zlen (fst zb) = zlen (dp_z A) /\ zlen (snd zb) = zlen (ip_z B) /\
     (forall i, 0 <= i < k -> nR (fst zb) i = copysignA (sqrt (w i / (1 - sigma * sumZ n w))) (nR (ip_z B) i) /\ nR (snd zb) i = nR (fst zb) i) /\
     (forall i, k <= i < n -> nR (fst zb) i = w i /\ nR (snd zb) i = nR (ip_z B) i)) 0 n b s) as ((z3 & b3) & -> & I1 & I2 & I3 & I4); [exact Hn| | |] end.
  { cbn. split; auto. split; auto. split; [intros; lia|]. intros i Hi. split; auto. }
  { intros k (z3 & b3) Hk (I1 & I2 & I3 & I4). cbn [fst snd] in *. unfold n in Hk. rewrite !(zget_nthZ 0%R) by lia. cbn [obind]. rewrite !zset_some by lia. cbn [obind]. eexists; split; [reflexivity|]. cbn [fst snd].
    rewrite !zlen_zupd. split; auto. split; auto. destruct (I4 k ltac:(unfold n; lia)) as (W1 & W2). split.
    - intros i Hi. destruct (Z.eq_dec i k) as [->|].
      + rewrite !nthZ_zupd_same by lia. split; auto. rewrite W1, W2. reflexivity.
      + rewrite !nthZ_zupd_other by lia. apply I3. lia.
    - intros i Hi. rewrite !nthZ_zupd_other by lia. apply I4. lia. }
  cbn [obind fst snd] in *. exists (Dpr1 (dp_d A) z3 rho n), (IDpr1 b3 sigma (ip_n B)). cbn. repeat split; auto.
  - now apply I3.
  - now apply I3.
Qed.
Lemma definite_synthesize_proof :
  (forall i j, 0 <= i < n -> 0 <= j < n -> i <> j -> d i <> d j) ->
  (forall j, 0 <= j < n -> off_poles A (lam j)) -> (forall k, 0 <= k < n -> (rho - sigma * d k <> 0)%R) -> (forall j, 0 <= j < n -> (rho - sigma * lam j <> 0)%R) ->
  (1 - sigma * sumZ n w <> 0)%R -> (forall k, 0 <= k < n -> (0 <= w k / (1 - sigma * sumZ n w))%R) ->
  exists A' B', definite_dpr1_synthesize A B lo hi = Some (A', B') /\ dp_ok A' /\ ip_ok B' /\ dp_d A' = dp_d A /\ dp_rho A' = rho /\ dp_n A' = n /\ ip_n B' = n /\ ip_sigma B' = sigma /\
    (forall k, 0 <= k < n -> nR (ip_z B') k = nR (dp_z A') k /\ (0 <= nR (dp_z A') k * nR (ip_z B) k)%R) /\
    forall j, 0 <= j < n -> pencil_root A' sigma (lam j).
Proof.
  intros Hd Ho Hr Hl Hs Hp. destruct definite_synthesize_vals as (A' & B' & E & ED & ER & EN & L & ES & EB & LB & V). exists A', B'. split; auto. destruct ok as (Hn & Ld & Lz), okB as (_ & Lb).
  split; [split; [unfold n in *; lia|]; rewrite ED, EN; unfold n; split; lia|]. split; [split; lia|]. split; auto. split; auto. split; auto. split; [unfold n; lia|]. split; auto. split.
  - intros k Hk. destruct (V k Hk) as (V1 & V2). split; auto. rewrite V1. apply copysign_mul_pos.
  - intros j Hj. split; [|split].
    + intros i Hi. rewrite ED. rewrite EN in Hi. now apply Ho.
    + rewrite ER. auto.
    + unfold pencil_secular_function, pole_sum. rewrite ER, EN, ED. fold d. set (W := (1 - sigma * sumZ n w)%R) in *. set (r := (rho - sigma * lam j)%R). assert (Hr0 : (r <> 0)%R) by (apply Hl; auto).
      rewrite (sumZ_ext n _ (fun k => (/ (W * r) * (sigma * w k + loewner n d lam k / (d k - lam j)))%R)).
      * rewrite sumZ_scal, sumZ_plus, sumZ_scal, loewner_root; [|auto|auto|intros i Hi; now apply Ho].
        replace (sigma * sumZ n w + -1)%R with (- W)%R by (unfold W; ring). field. auto.
      * intros k Hk. destruct (V k Hk) as (V1 & _). rewrite V1, copysign_sqrt by auto. unfold w, r. fold W.
        assert (d k - lam j <> 0)%R by (apply Rminus_eq_contra, Ho; auto). specialize (Hr k Hk). specialize (Hl j Hj). field. auto.
Qed.
End SynthDef.
