(** * The planners fill their tables with genuine rotations (C06) *)
From Coq Require Import ZArith List Lia Bool ZifyBool ZifyNat Reals Lra.
From Verif Require Import Base BaseFacts Arith MRotations SpecRot PRotFam.
Import ListNotations.
Open Scope Z_scope.

Section Fill.
Context {F : Type} `{Arith F}.
Lemma fill_spec M cnt ix (fs fc : Z -> Z -> F) Ls s0 c0 : 0 <= M -> zlen s0 = Ls -> zlen c0 = Ls ->
  (forall l m, 0 <= m < M -> 0 <= l < cnt m -> 0 <= ix l m < Ls) ->
  (forall l m l' m', 0 <= m < M -> 0 <= l < cnt m -> 0 <= m' < M -> 0 <= l' < cnt m' ->
     ix l m = ix l' m' -> l = l' /\ m = m') ->
  exists s c, fill M cnt ix fs fc (s0, c0) = Some (s, c) /\ zlen s = Ls /\ zlen c = Ls /\
    (forall l m, 0 <= m < M -> 0 <= l < cnt m -> zget s (ix l m) = Some (fs l m) /\ zget c (ix l m) = Some (fc l m)) /\
    (forall p, (forall l m, 0 <= m < M -> 0 <= l < cnt m -> p <> ix l m) -> zget s p = zget s0 p /\ zget c p = zget c0 p).
Proof.
  intros HM Hs Hc Hb Hi. unfold fill.
  set (P := fun (m l : Z) (sc : list F * list F) => zlen (fst sc) = Ls /\ zlen (snd sc) = Ls /\
    (forall l' m', 0 <= m' < M -> 0 <= l' < cnt m' -> (m' < m \/ m' = m /\ l' < l) ->
       zget (fst sc) (ix l' m') = Some (fs l' m') /\ zget (snd sc) (ix l' m') = Some (fc l' m')) /\
    (forall p, (forall l m, 0 <= m < M -> 0 <= l < cnt m -> p <> ix l m) -> zget (fst sc) p = zget s0 p /\ zget (snd sc) p = zget c0 p)).
  destruct (for_up_inv (fun m sc => P m 0 sc) 0 M
    (fun m sc => for_up 0 (cnt m) (fun l sc => do s <- zset (fst sc) (ix l m) (fs l m);
      do c <- zset (snd sc) (ix l m) (fc l m); Some (s, c)) sc) (s0, c0)) as ([s c] & E & I).
  - lia.
  - unfold P; cbn. repeat split; auto; lia.
  - intros m sc Hm HP.
    destruct (Z_lt_dec 0 (cnt m)) as [Hcm|Hcm].
    + destruct (for_up_inv (fun l sc => P m l sc) 0 (cnt m)
        (fun l sc => do s <- zset (fst sc) (ix l m) (fs l m);
          do c <- zset (snd sc) (ix l m) (fc l m); Some (s, c)) sc) as (sc' & E & I).
      * lia.
      * exact HP.
      * intros l sc1 Hl (L1 & L2 & S1 & S2). pose proof (Hb l m Hm Hl).
        rewrite !zset_some by lia. cbn [obind]. eexists. split; [reflexivity|].
        unfold P; cbn [fst snd]. rewrite !zlen_zupd. repeat split; auto.
        -- rewrite zget_zupd by lia. destruct (Z.eqb_spec (ix l m) (ix l' m')) as [E|E].
           ++ destruct (Hi _ _ _ _ Hm Hl H1 H2 E) as [-> ->]. reflexivity.
           ++ apply S1; auto. destruct H3 as [?|[-> ?]]; [lia|]. right. split; auto.
              assert (l' <> l) by congruence. lia.
        -- rewrite zget_zupd by lia. destruct (Z.eqb_spec (ix l m) (ix l' m')) as [E|E].
           ++ destruct (Hi _ _ _ _ Hm Hl H1 H2 E) as [-> ->]. reflexivity.
           ++ apply S1; auto. destruct H3 as [?|[-> ?]]; [lia|]. right. split; auto.
              assert (l' <> l) by congruence. lia.
        -- rewrite zget_zupd by lia. destruct (Z.eqb_spec (ix l m) p); [exfalso; eapply H1; eauto; symmetry; eauto|]. now apply S2.
        -- rewrite zget_zupd by lia. destruct (Z.eqb_spec (ix l m) p); [exfalso; eapply H1; eauto; symmetry; eauto|]. now apply S2.
      * exists sc'. split; auto. destruct I as (L1 & L2 & S1 & S2). unfold P. split; [auto|]. split; [auto|]. split; [|exact S2].
        intros l' m' Hm' Hl' Ho. apply S1; auto. destruct Ho as [Ho|Ho]; [|lia]. destruct (Z.eq_dec m' m); [subst; lia|lia].
    + exists sc. split; [apply for_up_nil; lia|]. destruct HP as (L1 & L2 & S1 & S2). unfold P.
      split; [auto|]. split; [auto|]. split; [|exact S2].
      intros l' m' Hm' Hl' Ho. apply S1; auto. destruct Ho as [Ho|Ho]; [|lia]. destruct (Z.eq_dec m' m); [subst; lia|lia].
  - exists s, c. destruct I as (L1 & L2 & S1 & S2). cbn in *. split; auto. split; auto. split; auto. split; [|exact S2].
    intros l m Hm Hl. apply S1; auto; lia.
Qed.
End Fill.

Lemma sq_unit (x y d : R) : (0 <= x -> 0 <= y -> 0 < d -> x + y = d -> sq x d * sq x d + sq y d * sq y d = 1)%R.
Proof.
  intros Hx Hy Hd E. unfold sq; cbn.
  rewrite !R_sqrt.sqrt_sqrt.
  - rewrite <- E. field. lra.
  - apply Rmult_le_pos; auto. left. now apply Rinv_0_lt_compat.
  - apply Rmult_le_pos; auto. left. now apply Rinv_0_lt_compat.
Qed.

Lemma ofZ_R z : @ofZ R R_arith z = IZR z. Proof. reflexivity. Qed.
Ltac zr := cbn [add sub mul div opp ofZ one zero R_arith]; rewrite ?plus_IZR, ?mult_IZR, ?plus_IZR, ?mult_IZR, ?plus_IZR.
Ltac pos l m := 
  assert (Hl0 : (0 <= IZR l)%R) by (apply IZR_le; lia);
  assert (Hm0 : (0 <= IZR m)%R) by (apply IZR_le; lia).

Lemma len_tri n (x : R) : 0 <= n -> zlen (zmake (n * (n + 1) / 2) x) = n * (n + 1) / 2.
Proof. intros. apply zlen_zmake. apply Z.div_pos; [apply Z.mul_nonneg_nonneg; lia|lia]. Qed.

(** a triangular table *)
Lemma fill_tri n (junk : R) (nums numc den : Z -> Z -> R) : 0 <= n ->
  (forall l m, 0 <= m < n -> 0 <= l < n - m ->
     (0 <= nums l m /\ 0 <= numc l m /\ 0 < den l m /\ nums l m + numc l m = den l m)%R) ->
  exists s c, fill n (fun m => n - m) (sidx n) (fun l m => sq (nums l m) (den l m)) (fun l m => sq (numc l m) (den l m))
    (zmake (n * (n + 1) / 2) junk, zmake (n * (n + 1) / 2) junk) = Some (s, c) /\
    tri_tables (RotPlan n s c) /\ forall l m, 0 <= m -> 0 <= l -> l + m < n -> unit_pair s c (sidx n l m).
Proof.
  intros Hn HF.
  destruct (fill_spec n (fun m => n - m) (sidx n) (fun l m => sq (nums l m) (den l m)) (fun l m => sq (numc l m) (den l m))
    (n * (n + 1) / 2) (zmake (n * (n + 1) / 2) junk) (zmake (n * (n + 1) / 2) junk) Hn) as (s & c & E & L1 & L2 & V & _).
  - now apply len_tri.
  - now apply len_tri.
  - intros. apply sidx_bound; lia.
  - intros. apply sidx_inj with (n := n); auto; lia.
  - exists s, c. split; [exact E|]. split; [now repeat split|].
    intros l m Hm Hl Hlm. destruct (V l m ltac:(lia) ltac:(lia)) as [V1 V2].
    destruct (HF l m ltac:(lia) ltac:(lia)) as (P1 & P2 & P3 & P4).
    exists (sq (nums l m) (den l m)), (sq (numc l m) (den l m)). split; auto. split; auto.
    now apply sq_unit.
Qed.

Lemma rotsphere_ok n (junk : R) : 0 <= n ->
  exists RP, plan_rotsphere junk n = Some RP /\ rp_n RP = n /\ tri_tables RP /\
    forall l m, 0 <= m -> 0 <= l -> l + m < n -> unit_pair (rp_s RP) (rp_c RP) (sidx n l m).
Proof.
  intros Hn. unfold plan_rotsphere.
  destruct (fill_tri n junk (fun l m => ofZ ((l + 1) * (l + 2))) (fun l m => ofZ ((2 * m + 2) * (2 * l + 2 * m + 5)))
     (fun l m => ofZ ((l + 2 * m + 3) * (l + 2 * m + 4))) Hn) as (s & c & E & T & U).
  - intros l m Hm Hl. cbv beta; cbn [ofZ R_arith]; pos l m. repeat split.
    + apply IZR_le. apply Z.mul_nonneg_nonneg; lia.
    + apply IZR_le. apply Z.mul_nonneg_nonneg; lia.
    + apply IZR_lt. apply Z.mul_pos_pos; lia.
    + rewrite <- plus_IZR. f_equal. ring.
  - rewrite E. cbn [obind]. eexists. split; [reflexivity|]. cbn. auto.
Qed.

Lemma rottriangle_ok n (junk al be ga : R) : 0 <= n -> (-1 < al)%R -> (-1 < be)%R -> (-1 < ga)%R ->
  exists RP, plan_rottriangle junk n al be ga = Some RP /\ rp_n RP = n /\ tri_tables RP /\
    forall l m, 0 <= m -> 0 <= l -> l + m < n -> unit_pair (rp_s RP) (rp_c RP) (sidx n l m).
Proof.
  intros Hn Ha Hb Hg. unfold plan_rottriangle.
  match goal with |- context [fill _ _ _ (fun l m => sq (@?u l) (@?d l m)) (fun l' m' => sq (@?v l' m') _) _] =>
    destruct (fill_tri n junk (fun l m => u l) v d Hn) as (s & c & E & T & U) end.
  - intros l m Hm Hl. cbv beta. pos l m. zr. repeat split.
    + apply Rmult_le_pos; lra.
    + apply Rmult_le_pos; lra.
    + apply Rmult_lt_0_compat; lra.
    + ring.
  - cbv beta in E. rewrite E. cbn [obind]. eexists. split; [reflexivity|]. cbn. auto.
Qed.

Lemma rotrectdisk_ok n (junk be : R) : 0 <= n -> (-1 < be)%R ->
  exists RP, plan_rotrectdisk junk n be = Some RP /\ rp_n RP = n /\ tri_tables RP /\
    forall l m, 0 <= m -> 0 <= l -> l + m < n -> unit_pair (rp_s RP) (rp_c RP) (sidx n l m).
Proof.
  intros Hn Hb. unfold plan_rotrectdisk.
  match goal with |- context [fill _ _ _ (fun l m => sq (@?u l) (@?d l m)) (fun l' m' => sq (@?v l' m') _) _] =>
    destruct (fill_tri n junk (fun l m => u l) v d Hn) as (s & c & E & T & U) end.
  - intros l m Hm Hl. cbv beta. pos l m. zr. repeat split.
    + apply Rmult_le_pos; lra.
    + apply Rmult_le_pos; lra.
    + apply Rmult_lt_0_compat; lra.
    + ring.
  - cbv beta in E. rewrite E. cbn [obind]. eexists. split; [reflexivity|]. cbn. auto.
Qed.

Lemma rotdisk_ok n (junk al be : R) : 0 <= n -> (-1 < al)%R -> (-1 < be)%R ->
  exists RP, plan_rotdisk junk n al be = Some RP /\ rp_n RP = n /\ sq_tables RP /\
    forall l m, 0 <= m -> 0 <= l < n - (m + 1) / 2 -> unit_pair (rp_s RP) (rp_c RP) (sdidx n l m).
Proof.
  intros Hn Ha Hb. unfold plan_rotdisk.
  assert (Ln : 0 <= n * n) by (apply Z.mul_nonneg_nonneg; lia).
  destruct (Z.eq_dec n 0) as [-> | Hn0].
  { cbn. eexists. split; [reflexivity|]. cbn. split; auto. split; [repeat split; cbn; lia|]. intros; lia. }
  match goal with |- context [fill ?M ?cnt ?ix ?fs ?fc _] =>
    destruct (fill_spec M cnt ix fs fc (n * n) (zmake (n * n) junk) (zmake (n * n) junk)) as (s & c & E & L1 & L2 & V & _) end.
  - lia.
  - now apply zlen_zmake.
  - now apply zlen_zmake.
  - intros. apply sdidx_bound; lia.
  - intros. apply sdidx_inj with (n := n); auto; lia.
  - rewrite E. cbn [obind]. eexists. split; [reflexivity|]. cbn [rp_n rp_s rp_c fst snd].
    split; auto. split; [now repeat split|]. intros l m Hm Hl.
    destruct (V l m ltac:(lia) ltac:(lia)) as [V1 V2]. eexists _, _. split; [exact V1|]. split; [exact V2|].
    match goal with |- (opp (sq ?x ?d) * opp (sq ?x ?d) + sq ?y ?d * sq ?y ?d = 1)%R =>
      transitivity (sq x d * sq x d + sq y d * sq y d)%R; [cbn [opp R_arith]; ring|] end.
    pos l m. apply sq_unit; zr.
    + apply Rmult_le_pos; lra.
    + apply Rmult_le_pos; lra.
    + apply Rmult_lt_0_compat; lra.
    + ring.
Qed.

(** index facts for the square tables *)
Lemma s1idx_bound n l m : 0 <= l < n -> 0 <= m < n -> 0 <= s1idx n l m < n * n.
Proof.
  intros. unfold s1idx. assert (0 <= m * n) by (apply Z.mul_nonneg_nonneg; lia).
  assert (m * n <= (n - 1) * n) by (apply Z.mul_le_mono_nonneg_r; lia). lia.
Qed.
Lemma s1idx_inj n l m l' m' : 0 <= l < n -> 0 <= l' < n -> s1idx n l m = s1idx n l' m' -> l = l' /\ m = m'.
Proof. intros Hl Hl' E. unfold s1idx in E. assert (m = m') by nia. subst. lia. Qed.
Lemma s2idx_bound n a l j m : 0 <= l < n -> 0 <= j < a -> 0 <= m < n -> 0 <= s2idx n a l j m < a * n * n.
Proof.
  intros. unfold s2idx. assert (0 <= j * n) by (apply Z.mul_nonneg_nonneg; lia).
  assert (j * n <= (a - 1) * n) by (apply Z.mul_le_mono_nonneg_r; lia).
  assert (0 <= a * n) by (apply Z.mul_nonneg_nonneg; lia).
  assert (0 <= m * (a * n)) by (apply Z.mul_nonneg_nonneg; lia).
  assert (m * (a * n) <= (n - 1) * (a * n)) by (apply Z.mul_le_mono_nonneg_r; lia). nia.
Qed.
Lemma s2idx_inj n a l j m l' j' m' : 0 <= l < n -> 0 <= l' < n -> 0 <= j < a -> 0 <= j' < a ->
  s2idx n a l j m = s2idx n a l' j' m' -> l = l' /\ j = j' /\ m = m'.
Proof.
  intros Hl Hl' Hj Hj' E. unfold s2idx in E.
  assert (E' : l + (j + m * a) * n = l' + (j' + m' * a) * n) by nia.
  assert (l = l' /\ j + m * a = j' + m' * a) as [-> E2].
  { apply (s1idx_inj n l (j + m * a) l' (j' + m' * a)); auto. }
  assert (m = m') by nia. subst. lia.
Qed.

Lemma rotspinsphere_ok n s : 0 <= n ->
  exists P, @plan_rotspinsphere R _ n s = Some P /\ sp_n P = n /\ sp_s P = s /\
    (zlen (sp_s1 P) = n * n /\ zlen (sp_c1 P) = n * n) /\
    (zlen (sp_s2 P) = Z.abs s * n * n /\ zlen (sp_c2 P) = Z.abs s * n * n) /\
    (forall l m, 0 <= m -> 0 <= l -> l + m < n -> unit_pair (sp_s1 P) (sp_c1 P) (s1idx n l m)) /\
    (forall l j m, 0 <= m -> 0 <= j < Z.abs s -> 0 <= l -> l + j + m < n ->
       unit_pair (sp_s2 P) (sp_c2 P) (s2idx n (Z.abs s) l j m)).
Proof.
  intros Hn. unfold plan_rotspinsphere. set (a := Z.abs s). assert (Ha : 0 <= a) by lia.
  assert (Ln : 0 <= n * n) by (apply Z.mul_nonneg_nonneg; lia).
  assert (La : 0 <= a * n * n) by (apply Z.mul_nonneg_nonneg; [apply Z.mul_nonneg_nonneg|]; lia).
  match goal with |- context [obind (fill ?M ?cnt ?ix ?fs ?fc _) _] =>
    destruct (fill_spec M cnt ix fs fc (n * n) (zmake (n * n) zero) (zmake (n * n) zero)) as (s1 & c1 & E & L1 & L2 & V & _) end.
  - lia.
  - now apply zlen_zmake.
  - now apply zlen_zmake.
  - intros. apply s1idx_bound; lia.
  - intros. apply s1idx_inj with (n := n); auto; lia.
  - rewrite E. cbn [obind]. clear E.
    match goal with |- context [for_up 0 n ?b _] =>
    destruct (for_up_inv (fun m (sc : list R * list R) => zlen (fst sc) = a * n * n /\ zlen (snd sc) = a * n * n /\
      forall l j m', 0 <= m' < m -> 0 <= j < a -> 0 <= l -> l + j + m' < n ->
       unit_pair (fst sc) (snd sc) (s2idx n a l j m')) 0 n b (zmake (a * n * n) zero, zmake (a * n * n) zero)) as ([s2 c2] & E2 & M1 & M2 & V2) end.
    + lia.
    + cbn [fst snd]. rewrite zlen_zmake by auto. repeat split; auto. intros; lia.
    + intros m [s2 c2] Hm (M1 & M2 & V2). cbn [fst snd] in *.
      match goal with |- context [fill ?M ?cnt ?ix ?fs ?fc _] =>
        destruct (fill_spec M cnt ix fs fc (a * n * n) s2 c2 Ha M1 M2) as (s3 & c3 & E & L3 & L4 & V3 & V4) end.
      * intros. apply s2idx_bound; lia.
      * intros l j l' j' Hj Hl Hj' Hl' Ei. apply s2idx_inj in Ei; try lia.
      * exists (s3, c3). split; [exact E|]. cbn [fst snd]. split; auto. split; auto.
        intros l j m' Hm' Hj Hl Hs. destruct (Z.eq_dec m' m) as [-> | Ne].
        -- destruct (V3 l j ltac:(lia) ltac:(lia)) as [W1 W2]. eexists _, _. split; [exact W1|]. split; [exact W2|].
           apply sq_unit; cbn [ofZ R_arith].
           ++ apply IZR_le. apply Z.mul_nonneg_nonneg; lia.
           ++ apply IZR_le. apply Z.mul_nonneg_nonneg; lia.
           ++ apply IZR_lt. apply Z.mul_pos_pos; lia.
           ++ rewrite <- plus_IZR. f_equal. ring.
        -- destruct (V4 (s2idx n a l j m')) as [W1 W2].
           { intros l' j' Hj' Hl' Ei. apply s2idx_inj in Ei; lia. }
           unfold unit_pair. rewrite W1, W2. apply V2; auto; lia.
    + rewrite E2. cbn [obind fst snd]. eexists. split; [reflexivity|]. cbn [sp_n sp_s sp_s1 sp_c1 sp_s2 sp_c2 fst snd] in *.
      repeat split; auto.
      * intros l m Hm Hl Hlm. destruct (V l m ltac:(lia) ltac:(lia)) as [W1 W2].
        eexists _, _. split; [exact W1|]. split; [exact W2|].
        apply sq_unit; cbn [ofZ R_arith].
        -- apply IZR_le. apply Z.mul_nonneg_nonneg; lia.
        -- apply IZR_le. apply Z.mul_nonneg_nonneg; lia.
        -- apply IZR_lt. apply Z.mul_pos_pos; lia.
        -- rewrite <- plus_IZR. f_equal. ring.
      * intros l j m Hm Hj Hl Hlm. apply V2; auto; lia.
Qed.
