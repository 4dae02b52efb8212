(** * Proofs: the eigensolver drivers for diagonal-plus-rank-one pencils *)
From Coq Require Import ZArith List Lia Bool ZifyBool ZifyNat Reals Lra.
From Verif Require Import Arith Base BaseFacts SpecSum PSum SpecLin PTri MSort SpecSort PPerm PSort PSortThms MHier SpecHier PHier PHier2 MDprk MDprk2 SpecDprk PDprk PDprk2 PDprk3 PDprk4 PDprk6.
Import ListNotations.
Open Scope Z_scope.

(** ** Tails *)
Lemma zlen_tailz {X} k (l : list X) : 0 <= k <= zlen l -> zlen (tailz k l) = zlen l - k.
Proof. intros H. unfold tailz, zlen in *. rewrite skipn_length. lia. Qed.
Lemma zlen_headz {X} k (l : list X) : 0 <= k <= zlen l -> zlen (headz k l) = k.
Proof. intros H. unfold headz, zlen in *. rewrite firstn_length. lia. Qed.
Lemma nth_error_skipn' {X} a i (l : list X) : nth_error (skipn a l) i = nth_error l (a + i).
Proof. revert l. induction a as [|a IH]; intros l; cbn; auto. destruct l; cbn; [now destruct i|apply IH]. Qed.
Lemma zget_tailz {X} k (l : list X) i : 0 <= k -> 0 <= i -> zget (tailz k l) i = zget l (k + i).
Proof. intros Hk Hi. unfold zget, tailz. replace (i <? 0) with false by lia. replace (k + i <? 0) with false by lia. rewrite nth_error_skipn'. f_equal. lia. Qed.
Lemma nth_error_firstn' {X} a i (l : list X) : (i < a)%nat -> nth_error (firstn a l) i = nth_error l i.
Proof. revert i l. induction a as [|a IH]; intros i l H; [lia|]. destruct l; cbn; auto. destruct i; cbn; auto. apply IH. lia. Qed.
Lemma zget_headz {X} k (l : list X) i : i < k -> zget (headz k l) i = zget l i.
Proof. intros Hk. unfold zget, headz. destruct (Z.ltb_spec i 0); auto. apply nth_error_firstn'. lia. Qed.
Lemma zget_head_app {X} k (a b : list X) i : 0 <= k <= zlen a -> zget (headz k a ++ b) i = if i <? k then zget a i else zget b (i - k).
Proof.
  intros H. pose proof (zlen_headz k a H) as L. unfold zlen in L. destruct (Z.ltb_spec i k).
  - unfold zget. destruct (Z.ltb_spec i 0); auto. rewrite nth_error_app1 by lia. apply nth_error_firstn'. lia.
  - unfold zget. replace (i <? 0) with false by lia. replace (i - k <? 0) with false by lia. rewrite nth_error_app2 by lia. f_equal. lia.
Qed.
Lemma nR_tailz k l i : 0 <= k -> 0 <= i -> nR (tailz k l) i = nR l (k + i).
Proof. intros. apply nth_eq. now apply zget_tailz. Qed.
Lemma nR_head_app k a b i : 0 <= k <= zlen a -> nR (headz k a ++ b) i = if i <? k then nR a i else nR b (i - k).
Proof. intros H. unfold nthZ. rewrite zget_head_app by auto. now destruct (i <? k). Qed.

Lemma fill_loop lo hi (g : Z -> option Z) (val : Z -> Z) (y : list Z) : 0 <= lo -> lo <= hi -> hi <= zlen y -> (forall i, lo <= i < hi -> g i = Some (val i)) ->
  exists y', for_up lo hi (fun i y => do x <- g i; zset y i x) y = Some y' /\ zlen y' = zlen y /\
    (forall i, lo <= i < hi -> nZ y' i = val i) /\ (forall i, i < lo -> nZ y' i = nZ y i).
Proof.
  intros H0 H1 H2 Hg.
  destruct (for_up_inv (fun k y' => zlen y' = zlen y /\ (forall i, lo <= i < k -> nZ y' i = val i) /\ (forall i, i < lo -> nZ y' i = nZ y i)) lo hi (fun i y => do x <- g i; zset y i x) y) as (y' & E & I); auto.
  - split; auto. split; [intros; lia|auto].
  - intros i y1 Hi (L & V & O). rewrite Hg by auto. cbn [obind]. rewrite zset_some by lia. eexists; split; [reflexivity|]. rewrite zlen_zupd. split; auto. split.
    + intros k Hk. destruct (Z.eq_dec k i) as [->|]; [now rewrite nthZ_zupd_same by lia|]. rewrite nthZ_zupd_other by lia. apply V. lia.
    + intros k Hk. rewrite nthZ_zupd_other by lia. now apply O.
  - eauto.
Qed.

(** ** Embedding and permuting eigensystems *)
Lemma perm_system n p q A A' B B' lam C W : is_perm n p -> is_perm n q ->
  (forall i k, 0 <= i < n -> 0 <= k < n -> A (nZ p i) (nZ p k) = A' i k) -> (forall i k, 0 <= i < n -> 0 <= k < n -> B (nZ p i) (nZ p k) = B' i k) ->
  (forall i j, 0 <= i < n -> 0 <= j < n -> W (nZ p i) j = C i (nZ q j)) ->
  eigensystem n n A' B' lam C -> eigensystem n n A B (fun j => lam (nZ q j)) W.
Proof.
  intros HP HQ HA HB HW (E1 & E2). pose proof (perm_surj n p HP) as SP. destruct HQ as (_ & RQ & JQ).
  assert (MV : forall U U' j i, (forall i k, 0 <= i < n -> 0 <= k < n -> U (nZ p i) (nZ p k) = U' i k) -> 0 <= i < n -> 0 <= j < n ->
     matvec n U (fun r => W r j) (nZ p i) = matvec n U' (fun r => C r (nZ q j)) i).
  { intros U U' j i HU Hi Hj. unfold matvec. rewrite <- (sum_perm n p (fun k => (U (nZ p i) k * W k j)%R) HP). apply sumZ_ext. intros k Hk. cbv beta. now rewrite HU, HW by auto. }
  split.
  - intros j Hj r Hr. destruct (SP r Hr) as (i & Hi & <-). rewrite (MV A A'), (MV B B') by auto. apply E1; auto.
  - intros j k Hj Hk. rewrite <- (sum_perm n p (fun i => (W i j * matvec n B (fun r => W r k) i)%R) HP). cbv beta.
    rewrite (sumZ_ext n _ (fun i => (C i (nZ q j) * matvec n B' (fun r => C r (nZ q k)) i)%R)) by (intros i Hi; now rewrite HW, (MV B B') by auto).
    rewrite E2 by auto. unfold delta. destruct (Z.eqb_spec (nZ q j) (nZ q k)) as [E|E], (Z.eqb_spec j k) as [E'|E']; auto; [apply JQ in E; auto; contradiction|subst; contradiction].
Qed.

Section Embed.
Variables (n iz : Z) (d z : Z -> R) (rho sigma : R) (lam : Z -> R) (V : Z -> Z -> R).
Hypothesis Hiz : 0 <= iz <= n.
Hypothesis Hz : forall i, 0 <= i < iz -> z i = 0%R.
Definition cemb i k : R := if i <? iz then delta i k else if k <? iz then 0%R else V (i - iz) (k - iz).
Definition lemb k : R := if k <? iz then d k else lam (k - iz).
Lemma embed_system : eigensystem (n - iz) (n - iz) (fun i j => (delta i j * d (iz + i)%Z + rho * z (iz + i)%Z * z (iz + j)%Z)%R) (fun i j => (delta i j * 1 + sigma * z (iz + i)%Z * z (iz + j)%Z)%R) lam V ->
  eigensystem n n (fun i j => (delta i j * d i + rho * z i * z j)%R) (fun i j => (delta i j * 1 + sigma * z i * z j)%R) lemb cemb.
Proof.
  intros (E1 & E2).
  assert (Slow : forall k, 0 <= k < iz -> sumZ n (fun i => (z i * cemb i k)%R) = 0%R).
  { intros k Hk. apply sumZ_zero. intros i Hi. unfold cemb. destruct (Z.ltb_spec i iz); [rewrite Hz by lia; lra|]. replace (k <? iz) with true by lia. lra. }
  assert (Shi : forall k, iz <= k < n -> sumZ n (fun i => (z i * cemb i k)%R) = sumZ (n - iz) (fun i => (z (iz + i)%Z * V i (k - iz))%R)).
  { intros k Hk. rewrite (sumZ_split n iz) by lia. rewrite (sumZ_zero iz) by (intros i Hi; rewrite Hz by lia; lra). rewrite Rplus_0_l. apply sumZ_ext. intros i Hi. f_equal.
    unfold cemb. replace (iz + i <? iz) with false by lia. replace (k <? iz) with false by lia. f_equal. lia. }
  split.
  - intros k Hk i Hi. rewrite (rank1_mv n d z rho), (rank1_mv n (fun _ => 1%R) z sigma) by auto. unfold lemb. destruct (Z.ltb_spec k iz).
    + rewrite Slow by lia. unfold cemb. destruct (Z.ltb_spec i iz).
      * unfold delta. destruct (Z.eqb_spec i k) as [->|]; lra.
      * replace (k <? iz) with true by lia. lra.
    + rewrite Shi by lia. destruct (Z.ltb_spec i iz).
      * rewrite (Hz i) by lia. unfold cemb. replace (i <? iz) with true by lia. unfold delta. replace (i =? k) with false by lia. lra.
      * specialize (E1 (k - iz) ltac:(lia) (i - iz) ltac:(lia)).
        rewrite (rank1_mv (n - iz) (fun i => d (iz + i)) (fun i => z (iz + i)) rho), (rank1_mv (n - iz) (fun _ => 1%R) (fun i => z (iz + i)) sigma) in E1 by lia. cbv beta in E1.
        replace (iz + (i - iz)) with i in E1 by lia. unfold cemb. replace (i <? iz) with false by lia. replace (k <? iz) with false by lia. exact E1.
  - intros j k Hj Hk.
    rewrite (sumZ_ext n _ (fun i => (cemb i j * cemb i k + (sigma * sumZ n (fun r => z r * cemb r k)) * (z i * cemb i j))%R)).
    2:{ intros i Hi. rewrite (rank1_mv n (fun _ => 1%R) z sigma) by auto. ring. }
    rewrite sumZ_plus, sumZ_scal. rewrite (sumZ_split n iz) by lia.
    destruct (Z_lt_dec k iz).
    + rewrite (Slow k) by lia. rewrite (sumZ_zero (n - iz)). 2:{ intros i Hi. unfold cemb at 2. replace (iz + i <? iz) with false by lia. replace (k <? iz) with true by lia. lra. }
      rewrite (sumZ_ext iz _ (fun i => (delta k i * delta i j)%R)). 2:{ intros i Hi. unfold cemb. replace (i <? iz) with true by lia. unfold delta. rewrite (Z.eqb_sym i k). lra. }
      rewrite (delta_sum iz (fun i => delta i j)) by lia. unfold delta. rewrite (Z.eqb_sym k j). lra.
    + rewrite (Shi k) by lia. rewrite (sumZ_zero iz). 2:{ intros i Hi. unfold cemb at 2. replace (i <? iz) with true by lia. unfold delta. replace (i =? k) with false by lia. lra. }
      destruct (Z_lt_dec j iz).
      * rewrite (Slow j) by lia. rewrite (sumZ_zero (n - iz)). 2:{ intros i Hi. unfold cemb at 1. replace (iz + i <? iz) with false by lia. replace (j <? iz) with true by lia. lra. }
        unfold delta. replace (j =? k) with false by lia. lra.
      * rewrite (Shi j) by lia. specialize (E2 (j - iz) (k - iz) ltac:(lia) ltac:(lia)).
        rewrite (sumZ_ext (n - iz) _ (fun i => (V i (j - iz) * V i (k - iz) + (sigma * sumZ (n - iz) (fun r => z (iz + r)%Z * V r (k - iz)%Z)) * (z (iz + i)%Z * V i (j - iz)%Z))%R)) in E2.
        2:{ intros i Hi. rewrite (rank1_mv (n - iz) (fun _ => 1%R) (fun i => z (iz + i)) sigma) by auto. ring. }
        rewrite sumZ_plus, sumZ_scal in E2.
        rewrite (sumZ_ext (n - iz) (fun i => (cemb (iz + i) j * cemb (iz + i) k)%R) (fun i => (V i (j - iz) * V i (k - iz))%R)).
        2:{ intros i Hi. unfold cemb. replace (iz + i <? iz) with false by lia. replace (j <? iz) with false by lia. replace (k <? iz) with false by lia. do 2 f_equal; lia. }
        rewrite Rplus_0_l. rewrite E2. unfold delta. destruct (Z.eqb_spec (j - iz) (k - iz)), (Z.eqb_spec j k); auto; lia.
Qed.
End Embed.

Definition bfun (sigma : R) (z : Z -> R) (i j : Z) : R := (delta i j * 1 + sigma * z i * z j)%R.

Section Eig.
Context {V : Type}.
Variables (definite : bool) (eps fm : R).
Variable eigvals : dpr1 R -> idpr1 R -> list R -> list R -> option (list R * list R).
Variable mkV : dpr1 R -> idpr1 R -> list R -> list R -> list R -> Z -> option V.
Variable off : Z -> Z -> Z.
Variables (A : dpr1 R) (B : idpr1 R).
Variable matV : Z -> V -> Z -> Z -> R.
Variable okV : Z -> V -> Prop.
Let n := dp_n A. Let d := nR (dp_d A). Let z := nR (dp_z A). Let rho := dp_rho A.
Let s : R := if definite then ip_sigma B else 0%R.
Hypothesis Hoff : forall iz, off iz 0 = iz.
Hypothesis Hmk : forall A2 B2 lt lot hit m, dp_ok A2 -> dp_n A2 = m -> dp_rho A2 = rho ->
  (definite = true -> ip_ok B2 /\ ip_n B2 = m /\ ip_sigma B2 = ip_sigma B /\ forall i, 0 <= i < m -> nR (ip_z B2) i = nR (dp_z A2) i) ->
  zlen lt = m -> zlen lot = m -> zlen hit = m -> (forall j, 0 <= j < m -> nR lt j = (nR hit j + nR lot j)%R) ->
  (forall j, 0 <= j < m -> pencil_root A2 s (nR hit j + nR lot j)) -> (forall j k, 0 <= j < m -> 0 <= k < m -> j <> k -> (nR hit j + nR lot j)%R <> (nR hit k + nR lot k)%R) ->
  exists Vm, mkV A2 B2 lt lot hit m = Some Vm /\ okV m Vm /\
    eigensystem m m (dp_mat A2) (bfun s (nR (dp_z A2))) (fun j => (nR hit j + nR lot j)%R) (matV m Vm).
Hypothesis ok : dp_ok A.
Hypothesis HB : definite = true -> ip_ok B /\ ip_n B = n.
Hypothesis Heps : (0 <= eps)%R.
Hypothesis Hdefl : forall i, 0 <= i < n -> (Rabs (z i) <= defl_tol definite eps A B)%R -> z i = 0%R.
Hypothesis Hdist : forall i j, 0 <= i < n -> 0 <= j < n -> i <> j -> z i <> 0%R -> z j <> 0%R -> d i <> d j.
Hypothesis Hpole : forall i, 0 <= i < n -> z i <> 0%R -> (rho - s * d i <> 0)%R.
Hypothesis Heig : forall B1, ip_sigma B1 = ip_sigma B -> exact_roots fm rho s (fun A lo hi => eigvals A B1 lo hi).

Lemma tol_nonneg : (0 <= defl_tol definite eps A B)%R.
Proof. unfold defl_tol. apply Rmult_le_pos; auto. apply Rmult_le_pos; apply sqrt_pos. Qed.

Lemma eig_proof : exists E, eig definite eps fm eigvals mkV off A B = Some E /\ dpe_ok E /\ de_num E = n /\ de_id E = 0 /\
  okV (n - de_iz E) (de_V E) /\ zlen (de_lambda E) = n /\ nondecreasing (de_lambda E) 0 (n - 1) /\
  eigensystem n n (dp_mat A) (bfun s z) (nR (de_lambda E)) (dpe_mat (matV (n - de_iz E) (de_V E)) E).
Proof.
  destruct ok as (Hn & Hd & Hz). fold n in Hn, Hd, Hz. pose proof tol_nonneg as Ht. unfold eig. cbv zeta. fold n.
  destruct (copy_val n (dp_d A) Hn Hd) as (hi0 & -> & Lh0 & Vh0). cbn [obind].
  destruct (deflate_spec definite eps A B ok HB) as (A1 & B1 & p1 & sg & tau & iz & E1 & P1 & Lp1 & Vp1 & Hiz & N1 & ok1 & R1 & D1 & Sm & Bg & Srt & Sg1 & HB1).
  fold n in E1, P1, Lp1, Vp1, Hiz, N1, D1, Sm, Bg, Srt, HB1. fold rho in R1. fold d z in D1, Sm.
  rewrite E1. cbn [obind].
  assert (HP1 : is_perm n p1) by (apply (permutes_perm n sg tau); auto).
  assert (L0 : zlen (zmake n (@zero R _)) = n) by (apply zlen_zmake; lia).
  destruct (perm_nth false (zmake n (@zero R _)) p1 n HP1 ltac:(lia)) as (lo1 & -> & _ & Ll1 & Vl1). cbn [obind].
  destruct (perm_nth false hi0 p1 n HP1 ltac:(lia)) as (hi1 & -> & _ & Lh1 & Vh1). cbn [obind].
  rewrite N1. replace (n - (n - iz)) with iz by lia.
  assert (Zlo : forall i, 0 <= i < n -> nR lo1 i = 0%R).
  { intros i Hi. rewrite Vl1 by auto. apply nthZ_zget. rewrite zget_zmake; auto. destruct HP1 as (_ & RP & _). apply RP; auto. }
  assert (Zhi : forall i, 0 <= i < n -> nR hi1 i = d (sg i)).
  { intros i Hi. rewrite Vh1 by auto. rewrite Vp1 by auto. unfold d. apply nth_eq, Vh0. destruct P1 as (_ & _ & Q & _). specialize (Q i ltac:(lia)). lia. }
  assert (Z1 : forall i, 0 <= i < n - iz -> nR (dp_z A1) i <> 0%R).
  { intros i Hi E. specialize (Bg i Hi). rewrite E, Rabs_R0 in Bg. lra. }
  assert (Hsg : forall i, 0 <= i < n -> 0 <= sg i < n) by (intros i Hi; destruct P1 as (_ & _ & Q & _); specialize (Q i ltac:(lia)); lia).
  assert (Sinj : forall i j, sg i = sg j -> i = j) by (intros i j E; destruct P1 as (_ & Q & _); apply (f_equal tau) in E; now rewrite !Q in E).
  destruct (Heig B1 Sg1 A1 (tailz iz lo1) (tailz iz hi1) ok1 R1) as (lot & hit & Ee & Llo & Lhi & Hroot & Hdis & Hbig).
  { rewrite zlen_tailz by lia. lia. } { rewrite zlen_tailz by lia. lia. }
  { rewrite N1. intros i j Hi Hij Hj. destruct (D1 i ltac:(lia)) as (Di & Zi). destruct (D1 j ltac:(lia)) as (Dj & Zj).
    pose proof (Srt i j ltac:(lia) ltac:(lia) ltac:(lia)) as Hle. assert (nR (dp_d A1) i <> nR (dp_d A1) j); [|lra].
    rewrite Di, Dj. apply Hdist; try (apply Hsg; lia).
    - intros E. apply Sinj in E. lia.
    - rewrite <- Zi. apply Z1. lia.
    - rewrite <- Zj. apply Z1. lia. }
  { rewrite N1. intros i Hi. split; [now apply Z1|]. destruct (D1 i Hi) as (Di & Zi). rewrite Di. apply Hpole; [apply Hsg; lia|]. rewrite <- Zi. now apply Z1. }
  rewrite Ee. cbn [obind].
  destruct (deflate2_spec definite fm A1 B1 lot hit ok1) as (A2 & B2 & lo2 & hi2 & p2 & sg2 & tau2 & id & E2 & P2 & Lp2 & Vp2 & Hid & N2 & ok2 & R2 & Ll2 & Lh2 & D2 & Sm2 & _ & Sg2 & HB2); auto.
  { intros Hdf. destruct (HB1 Hdf) as (X1 & X2 & _). split; auto. lia. }
  rewrite N1 in *. rewrite E2. cbn [obind].
  assert (Hsg2 : forall i, 0 <= i < n - iz -> 0 <= sg2 i < n - iz) by (intros i Hi; destruct P2 as (_ & _ & Q & _); specialize (Q i ltac:(lia)); lia).
  assert (Sinj2 : forall i j, sg2 i = sg2 j -> i = j) by (intros i j E; destruct P2 as (_ & Q & _); apply (f_equal tau2) in E; now rewrite !Q in E).
  assert (id = 0).
  { destruct (Z.eq_dec id 0) as [|N]; auto. specialize (Sm2 0 ltac:(lia)). destruct (D2 0) as (_ & _ & X & _). rewrite X in Sm2. specialize (Hbig (sg2 0) (Hsg2 0 ltac:(lia))). lra. }
  subst id.
  match goal with |- context [for_up 0 0 ?b (zmake 0 zero)] => change (for_up 0 0 b (zmake 0 zero)) with (Some (@nil R)) end. cbn [obind].
  destruct (fill_loop 0 iz (fun i => zget p1 i) sg (zmake n 0%Z)) as (pa & Epa & Lpa & Vpa & _); [lia|lia|rewrite zlen_zmake; lia| |].
  { intros i Hi. rewrite (zget_nthZ 0%Z) by lia. f_equal. apply Vp1. lia. }
  rewrite Epa. cbn [obind]. rewrite zlen_zmake in Lpa by lia.
  destruct (fill_loop iz n (fun i => do k <- zget p2 (i - iz); zget p1 (k + iz)) (fun i => sg (iz + sg2 (i - iz))) pa) as (p & Ep & Lp & Vp & Op); [lia|lia|lia| |].
  { intros i Hi. rewrite (zget_nthZ 0%Z p2) by lia. cbn [obind]. rewrite Vp2 by lia. pose proof (Hsg2 (i - iz) ltac:(lia)). rewrite (zget_nthZ 0%Z) by lia. f_equal. rewrite Vp1 by lia. f_equal. lia. }
  assert (Ep' : for_up iz n (fun (i : Z) (p : list Z) => do k <- zget p2 (i - iz); do x <- zget p1 (k + iz); zset p i x) pa = Some p).
  { rewrite <- Ep. apply for_up_ext. intros i l Hi. destruct (zget p2 (i - iz)); reflexivity. }
  rewrite Ep'. cbn [obind]. rewrite Lpa in Lp.
  assert (Lhd : forall a b : list R, zlen a = n -> zlen b = n - iz -> zlen (headz iz a ++ b) = n) by (intros a b La Lb; rewrite zlen_app, zlen_headz by lia; lia).
  match goal with |- context [for_up 0 n ?b (zmake n zero)] => destruct (seg_loop 0 n b (fun i _ => (nR (headz iz hi1 ++ hi2) i + nR (headz iz lo1 ++ lo2) i)%R) (zmake n zero)) as (lam & -> & Llam & Vlam & _) end; [lia|lia|lia| |].
  { intros i y' Hi L. rewrite !(zget_nthZ 0%R) by (rewrite Lhd by lia; lia). cbn [obind]. rewrite zset_some by lia. reflexivity. }
  cbn [obind]. rewrite Hoff. replace (n - iz - 0) with (n - iz) by lia. rewrite L0 in Llam.
  destruct (Hmk A2 B2 (tailz iz lam) (tailz iz (headz iz lo1 ++ lo2)) (tailz iz (headz iz hi1 ++ hi2)) (n - iz)) as (Vm & -> & okVm & HS); auto.
  { now rewrite R2. }
  { intros Hdf. destruct (HB2 Hdf) as (X1 & X2 & X3). split; auto. split; auto. split; auto. congruence. }
  { rewrite zlen_tailz; lia. } { rewrite zlen_tailz; rewrite Lhd; lia. } { rewrite zlen_tailz; rewrite Lhd; lia. }
  { intros j Hj. rewrite !nR_tailz by lia. apply Vlam. lia. }
  { intros j Hj. rewrite !nR_tailz, !nR_head_app by lia. replace (iz + j <? iz) with false by lia. replace (iz + j - iz) with j by lia.
    destruct (D2 j) as (_ & _ & -> & ->). specialize (Hroot (sg2 j) (Hsg2 j Hj)). destruct Hroot as (Ho & Hp0 & Hf). split; [|split].
    - intros i Hi. rewrite N2 in Hi. destruct (D2 i) as (-> & _). apply Ho. rewrite N1. apply Hsg2. auto.
    - rewrite R2. exact Hp0.
    - unfold pencil_secular_function in Hf |- *. rewrite R2. refine (eq_trans _ Hf). rewrite R1. f_equal. unfold pole_sum. rewrite N1, N2.
      rewrite <- (sum_perm (n - iz) p2 (fun i => (nR (dp_z A1) i * nR (dp_z A1) i / (nR (dp_d A1) i - (nR hit (sg2 j) + nR lot (sg2 j))))%R)) by (apply (permutes_perm (n - iz) sg2 tau2); auto; lia).
      apply sumZ_ext. intros i Hi. destruct (D2 i) as (-> & -> & _). now rewrite Vp2 by auto. }
  { intros j k Hj Hk Hne. rewrite !nR_tailz, !nR_head_app by lia. replace (iz + j <? iz) with false by lia. replace (iz + k <? iz) with false by lia. replace (iz + j - iz) with j by lia. replace (iz + k - iz) with k by lia.
    destruct (D2 j) as (_ & _ & -> & ->). destruct (D2 k) as (_ & _ & -> & ->). apply Hdis; auto. }
  cbn [obind].
  assert (LP : zlen (ztab n (fun i : Z => i)) = n) by (apply zlen_ztab; lia).
  destruct (sort_spec (@lt_ R _) lam [headz iz lo1 ++ lo2; headz iz hi1 ++ hi2] (ztab n (fun i => i)) 0 (n - 1)) as (lam' & bs & q & sg3 & tau3 & -> & P3 & RL & F3 & RQ & S3); try lia.
  { exact lt_sw. } { repeat constructor; rewrite Lhd; lia. }
  inversion F3 as [|? l3 ? k1 RL3 F3']; subst. inversion F3' as [|? h3 ? k2 RH3 F3'']; subst. inversion F3''; subst. clear F3 F3' F3''. cbn [obind].
  eexists; split; [reflexivity|]. cbn [de_num de_id de_iz de_V de_lambda].
  assert (HsgP : forall k, 0 <= k < n -> nZ p k = if k <? iz then sg k else sg (iz + sg2 (k - iz))).
  { intros k Hk. destruct (Z.ltb_spec k iz); [rewrite Op, Vpa by lia; reflexivity|apply Vp; lia]. }
  assert (HP : is_perm n p).
  { split; [lia|]. split.
    - intros i Hi. rewrite HsgP by auto. destruct (Z.ltb_spec i iz); apply Hsg; auto. specialize (Hsg2 (i - iz) ltac:(lia)). lia.
    - intros i j Hi Hj E. rewrite !HsgP in E by auto. destruct (Z.ltb_spec i iz), (Z.ltb_spec j iz); apply Sinj in E; auto.
      + specialize (Hsg2 (j - iz) ltac:(lia)). lia.
      + specialize (Hsg2 (i - iz) ltac:(lia)). lia.
      + assert (E' : sg2 (i - iz) = sg2 (j - iz)) by lia. apply Sinj2 in E'. lia. }
  assert (H3 : forall k, 0 <= k < n -> 0 <= sg3 k < n) by (intros k Hk; destruct P3 as (_ & _ & Q & _); clear - Hk Q; specialize (Q k ltac:(lia)); lia).
  assert (Lq : zlen q = n) by (destruct RQ as (X & _); clear - X LP; lia).
  assert (Ll' : zlen lam' = n) by (destruct RL as (X & _); clear - X Llam; lia).
  assert (Vq : forall k, 0 <= k < n -> nZ q k = sg3 k).
  { intros k Hk. rewrite (rear_nZ _ _ _ RQ). apply nthZ_zget. rewrite zget_ztab; auto. }
  assert (HQ : is_perm n q) by (apply (permutes_perm n sg3 tau3); auto).
  split; [unfold dpe_ok; cbn; split; [lia|]; split; [lia|]; split; [lia|]; split; [clear; lia|]; split; auto|].
  split; auto. split; auto. split; auto. split; [exact Ll'|]. split.
  { intros i j Hi Hij Hj. apply (sorted_le lam' 0 n); auto; clear - Hi Hij Hj Ll'; lia. }
  assert (ES : eigensystem n n (fun i j => (delta i j * d (nZ p i) + rho * z (nZ p i) * z (nZ p j))%R) (fun i j => (delta i j * 1 + s * z (nZ p i) * z (nZ p j))%R)
    (lemb iz (fun k => d (nZ p k)) (fun j => (nR (tailz iz (headz iz hi1 ++ hi2)) j + nR (tailz iz (headz iz lo1 ++ lo2)) j)%R)) (cemb iz (matV (n - iz) Vm))).
  { apply (embed_system n iz (fun k => d (nZ p k)) (fun k => z (nZ p k)) rho s); auto.
    - intros i Hi. cbv beta. rewrite HsgP by lia. replace (i <? iz) with true by lia. apply Hdefl; [apply Hsg; lia|]. now apply Sm.
    - assert (E' : forall i, 0 <= i < n - iz -> nR (dp_d A2) i = d (nZ p (iz + i)) /\ nR (dp_z A2) i = z (nZ p (iz + i))).
      { intros i Hi. rewrite HsgP by lia. replace (iz + i <? iz) with false by lia. replace (iz + i - iz) with i by lia. destruct (D2 i) as (-> & -> & _). apply D1. apply Hsg2. lia. }
      eapply eigensystem_ext; [| | | |exact HS]; auto.
      + intros i j Hi Hj. unfold dp_mat. rewrite R2, R1. destruct (E' i Hi) as (-> & ->). destruct (E' j Hj) as (_ & ->). reflexivity.
      + intros i j Hi Hj. unfold bfun. destruct (E' i Hi) as (_ & ->). destruct (E' j Hj) as (_ & ->). reflexivity. }
  assert (EW : eigensystem n n (dp_mat A) (bfun s z) (fun j => lemb iz (fun k => d (nZ p k)) (fun j => (nR (tailz iz (headz iz hi1 ++ hi2)) j + nR (tailz iz (headz iz lo1 ++ lo2)) j)%R) (nZ q j))
     (dpe_mat (matV (n - iz) Vm) (DpEig [] Vm lam' l3 h3 p q n iz 0))).
  { eapply (perm_system n p q); [exact HP|exact HQ| | | |exact ES].
    - intros i k Hi Hk. cbv beta. unfold dp_mat. fold d z rho. f_equal. f_equal. unfold delta. destruct HP as (_ & _ & JP). destruct (Z.eqb_spec (nZ p i) (nZ p k)) as [E|E], (Z.eqb_spec i k) as [E'|E']; auto; [apply JP in E; auto; contradiction|subst; contradiction].
    - intros i k Hi Hk. unfold bfun. f_equal. f_equal. unfold delta. destruct HP as (_ & _ & JP). destruct (Z.eqb_spec (nZ p i) (nZ p k)) as [E|E], (Z.eqb_spec i k) as [E'|E']; auto; [apply JP in E; auto; contradiction|subst; contradiction].
    - intros i j Hi Hj. unfold dpe_mat. cbn [de_num de_p de_q]. rewrite (sum_delta_perm n p i (fun i => dpe_core (matV (n - iz) Vm) (DpEig [] Vm lam' l3 h3 p q n iz 0) i (nZ q j))) by auto.
      unfold dpe_core, cemb. cbn [de_iz de_id de_v]. rewrite Z.add_0_r. destruct (i <? iz); auto. destruct (nZ q j <? iz) eqn:Eq; auto. now replace (nZ q j - iz - 0) with (nZ q j - iz) by lia. }
  eapply eigensystem_ext; [| | | |exact EW]; auto.
  intros j Hj. cbv beta. rewrite (rear_nR _ _ _ RL). rewrite Vq by auto. pose proof (H3 j Hj).
  rewrite Vlam by auto. unfold lemb. rewrite !nR_head_app by lia. destruct (Z.ltb_spec (sg3 j) iz).
  - rewrite HsgP by auto. replace (sg3 j <? iz) with true by lia. rewrite Zlo, Zhi by auto. lra.
  - rewrite !nR_tailz, !nR_head_app by lia. replace (iz + (sg3 j - iz)) with (sg3 j) by lia. replace (sg3 j <? iz) with false by lia. reflexivity.
Qed.
End Eig.
