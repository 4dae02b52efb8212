(** * Helmholtz-Hodge: each order, and the whole decomposition *)
From Coq Require Import ZArith List Lia Bool Reals Lra ZifyBool.
From Verif Require Import Base BaseFacts Arith SpecSum PSum SpecLin MBanded SpecBanded PTri PBand MFactor PFactor2 PFactorThms PBlock MGrad SpecIso SpecGeo SpecGrad PGrad1 PGrad2 PGrad3 PGrad4 PGrad5 PGrad6 PGrad7.
Import ListNotations.
Open Scope Z_scope.

Definition hplan_ok (n : Z) (P : hh_plan (F:=R)) (m : Z) : Prop :=
  exists T Q, zget (hp_T P) (m - 1) = Some T /\ zget (hp_F P) (m - 1) = Some Q /\
    tb_ok T /\ tb_n T = n + 1 - m /\ (forall p q, 0 <= p < n + 1 - m -> 0 <= q < n + 1 - m -> tb_mat T p q = Tmat m p q) /\ solver_ok (n + 1 - m) m Q.
Lemma hplan_val junk n : 1 <= n -> exists P, plan_sph_helmholtzhodge junk n = Some P /\ zlen (hp_X P) = 2 * n + 2 /\ forall m, 1 <= m <= n -> hplan_ok n P m.
Proof.
  intros Hn. unfold plan_sph_helmholtzhodge.
  match goal with |- exists T, obind (for_up 1 _ ?b _) _ = _ /\ _ =>
  destruct (for_up_inv (fun k s => zlen (fst s) = k - 1 /\ zlen (snd s) = k - 1 /\ forall m, 1 <= m < k -> exists T Q, zget (fst s) (m - 1) = Some T /\ zget (snd s) (m - 1) = Some Q /\
    tb_ok T /\ tb_n T = n + 1 - m /\ (forall p q, 0 <= p < n + 1 - m -> 0 <= q < n + 1 - m -> tb_mat T p q = Tmat m p q) /\ solver_ok (n + 1 - m) m Q) 1 (n + 1) b ([], [])) as (st & E & L1 & L2 & W) end.
  - lia.
  - split; [reflexivity|]. split; [reflexivity|]. intros; lia.
  - intros m st Hm (L1 & L2 & W). destruct st as [Ts Fs]. cbn [fst snd] in *. destruct (sine_val n m ltac:(lia)) as (T & ET & OT & NT & VT). destruct (solver_val n m ltac:(lia)) as (A & Q & EA & EQ & HQ).
    rewrite ET. cbn [obind]. rewrite EA. cbn [obind]. rewrite EQ. cbn [obind]. exists (Ts ++ [T], Fs ++ [Q]). split; [reflexivity|]. cbn [fst snd].
    split; [unfold zlen in *; rewrite app_length; cbn; lia|]. split; [unfold zlen in *; rewrite app_length; cbn; lia|].
    intros m' Hm'. rewrite !zget_snoc, L1, L2. destruct (Z.eq_dec m' m) as [E|Hne].
    + subst m'. replace (m - 1 =? m - 1) with true by lia. exists T, Q. repeat (split; [assumption || reflexivity|]). exact HQ.
    + replace (m' - 1 =? m - 1) with false by lia. apply W. lia.
  - rewrite E. destruct st as [Ts Fs]. cbn [obind fst snd] in *. eexists. split; [reflexivity|]. cbn [hp_X]. split; [rewrite zlen_zmake; lia|]. intros m Hm. unfold hplan_ok. cbn [hp_T hp_F]. apply W. lia.
Qed.

Lemma readin_val s c1 c2 X V1 V2 N m : 1 <= m <= N -> 0 <= c1 -> 0 <= c2 -> N * c1 + N <= zlen V1 -> N * c2 + N <= zlen V2 -> 2 * (N + 1 - m) + 2 <= zlen X ->
  exists X', @hh_readin R R_arith s c1 c2 X V1 V2 N m = Some X' /\ zlen X' = zlen X /\
    (forall l, 0 <= l < N + 1 - m -> vec 0 X' (2 * l) = vec (N * c1) V1 l /\ vec 0 X' (2 * l + 1) = s (vec (N * c2) V2 l)) /\
    vec 0 X' (2 * (N + 1 - m)) = 0%R /\ vec 0 X' (2 * (N + 1 - m) + 1) = 0%R.
Proof.
  intros Hm Hc1 Hc2 HV1 HV2 HX. assert (0 <= N * c1) by nia. assert (0 <= N * c2) by nia. unfold hh_readin. set (K := N + 1 - m) in *. 
  rewrite (zget_nthZ 0%R V1 (N * c1)) by lia. cbn [obind]. rewrite zset_some by lia. cbn [obind]. rewrite (zget_nthZ 0%R V2 (N - m + N * c2)) by (unfold K in *; lia). cbn [obind]. rewrite zset_some by (rewrite zlen_zupd; unfold K in *; lia). cbn [obind].
  match goal with |- exists X', obind (for_up 0 _ ?b ?x0) _ = _ /\ _ =>
  destruct (for_up_max (fun k X' => zlen X' = zlen X /\ nthZ 0%R X' 0 = nthZ 0%R V1 (N * c1) /\ nthZ 0%R X' (2 * K - 1) = s (nthZ 0%R V2 (N - m + N * c2)) /\
    forall l, 0 <= l < k -> nthZ 0%R X' (2 * l + 1) = s (nthZ 0%R V2 (l + N * c2)) /\ nthZ 0%R X' (2 * l + 2) = nthZ 0%R V1 (l + 1 + N * c1)) 0 (N - m) b x0) as (X1 & E1 & L1 & A0 & A1 & AL) end.
  { split; [now rewrite !zlen_zupd|]. split.
    - rewrite nthZ_zupd by (rewrite zlen_zupd; unfold K in *; lia). replace (2 * N + 1 - 2 * m =? 0) with false by lia. rewrite nthZ_zupd by (unfold K in *; lia). reflexivity.
    - split; [|intros; lia]. rewrite nthZ_zupd by (rewrite zlen_zupd; unfold K in *; lia). replace (2 * N + 1 - 2 * m =? 2 * K - 1) with true by (unfold K in *; lia). reflexivity. }
  { intros l Y Hl (L & B0 & B1 & BL). rewrite (zget_nthZ 0%R V2 (l + N * c2)) by (unfold K in *; lia). cbn [obind]. rewrite zset_some by (unfold K in *; lia). cbn [obind].
    rewrite (zget_nthZ 0%R V1 (l + 1 + N * c1)) by (unfold K in *; lia). cbn [obind]. rewrite zset_some by (rewrite zlen_zupd; unfold K in *; lia). eexists. split; [reflexivity|].
    assert (V : forall p, 0 <= p -> nthZ 0%R (zupd (zupd Y (2 * l + 1) (s (nthZ 0%R V2 (l + N * c2)))) (2 * l + 2) (nthZ 0%R V1 (l + 1 + N * c1))) p =
      if 2 * l + 2 =? p then nthZ 0%R V1 (l + 1 + N * c1) else if 2 * l + 1 =? p then s (nthZ 0%R V2 (l + N * c2)) else nthZ 0%R Y p).
    { intros p Hp. rewrite nthZ_zupd by (rewrite zlen_zupd; unfold K in *; lia). rewrite nthZ_zupd by (unfold K in *; lia). reflexivity. }
    split; [now rewrite !zlen_zupd|]. split; [rewrite V by lia; replace (_ =? 0) with false by lia; replace (_ =? 0) with false by lia; exact B0|].
    split; [rewrite V by (unfold K; lia); replace (_ =? _) with false by (unfold K in *; lia); destruct (2 * l + 1 =? 2 * K - 1) eqn:E; [exfalso; unfold K in *; lia|exact B1]|].
    intros l' Hl'. rewrite !V by lia. destruct (Z.eq_dec l' l) as [E|Hne].
    - subst l'. replace (2 * l + 2 =? 2 * l + 1) with false by lia. rewrite !Z.eqb_refl. auto.
    - replace (2 * l + 2 =? 2 * l' + 1) with false by lia. replace (2 * l + 1 =? 2 * l' + 1) with false by lia. replace (2 * l + 2 =? 2 * l' + 2) with false by lia. replace (2 * l + 1 =? 2 * l' + 2) with false by lia. apply BL. lia. }
  rewrite E1. cbn [obind]. replace (Z.max 0 (N - m)) with (K - 1) in AL by (unfold K; lia).
  rewrite zset_some by (unfold K in *; lia). cbn [obind]. rewrite zset_some by (rewrite zlen_zupd; unfold K in *; lia). eexists. split; [reflexivity|]. split; [now rewrite !zlen_zupd|].
  assert (V : forall p, 0 <= p -> vec 0 (zupd (zupd X1 (2 * N + 3 - 2 * m) zero) (2 * N + 2 - 2 * m) zero) p = if 2 * K =? p then 0%R else if 2 * K + 1 =? p then 0%R else nthZ 0%R X1 p).
  { intros p Hp. unfold vec. rewrite Z.add_0_l. rewrite nthZ_zupd by (rewrite zlen_zupd; unfold K in *; lia). rewrite nthZ_zupd by (unfold K in *; lia). replace (2 * N + 2 - 2 * m) with (2 * K) by (unfold K; lia). replace (2 * N + 3 - 2 * m) with (2 * K + 1) by (unfold K; lia). reflexivity. }
  split.
  - intros l Hl. rewrite !V by lia. replace (2 * K =? 2 * l) with false by lia. replace (2 * K + 1 =? 2 * l) with false by lia. replace (2 * K =? 2 * l + 1) with false by lia. replace (2 * K + 1 =? 2 * l + 1) with false by lia. unfold vec. split.
    + destruct (Z.eq_dec l 0) as [E|Hne]; [subst l; rewrite Z.add_0_r; exact A0|]. pose proof (proj2 (AL (l - 1) ltac:(lia))) as E. replace (2 * (l - 1) + 2) with (2 * l) in E by lia. rewrite E. f_equal. lia.
    + destruct (Z.eq_dec l (K - 1)) as [E|Hne]; [subst l; replace (2 * (K - 1) + 1) with (2 * K - 1) by lia; rewrite A1; f_equal; f_equal; unfold K; lia|]. rewrite (proj1 (AL l ltac:(lia))). f_equal. f_equal. lia.
  - rewrite !V by (unfold K; lia). rewrite Z.eqb_refl. replace (2 * K =? 2 * K + 1) with false by lia. rewrite Z.eqb_refl. auto.
Qed.

Definition frame (a b : Z) (x x' : list R) : Prop := zlen x' = zlen x /\ forall p, 0 <= p -> p < a \/ b <= p -> nthZ 0%R x' p = nthZ 0%R x p.
Lemma writeout_val s c1 c2 X U1 U2 N m : 1 <= m <= N - 1 -> 0 <= c1 -> 0 <= c2 -> N * c1 + N <= zlen U1 -> N * c2 + N <= zlen U2 -> 2 * (N + 1 - m) <= zlen X ->
  exists U1' U2', @hh_writeout R s c1 c2 X U1 U2 N m = Some (U1', U2') /\
    frame (N * c1) (N * c1 + (N - m)) U1 U1' /\ frame (N * c2) (N * c2 + (N - m)) U2 U2' /\
    (forall l, 0 <= l < N - m -> vec (N * c1) U1' l = vec 0 X (2 * l) /\ vec (N * c2) U2' l = s (vec 0 X (2 * l + 1))).
Proof.
  intros Hm Hc1 Hc2 HU1 HU2 HX. assert (0 <= N * c1) by nia. assert (0 <= N * c2) by nia. unfold hh_writeout.
  rewrite (zget_nthZ 0%R X 0) by lia. cbn [obind]. rewrite zset_some by lia. cbn [obind]. rewrite (zget_nthZ 0%R X (N - m)) by lia. cbn [obind]. rewrite zset_some by lia. cbn [obind].
  match goal with |- exists U1' U2', obind (for_up 0 _ ?b ?x0) _ = _ /\ _ =>
  destruct (for_up_max (fun k st => frame (N * c1) (N * c1 + (N - m)) U1 (fst st) /\ frame (N * c2) (N * c2 + (N - m)) U2 (snd st) /\ nthZ 0%R (fst st) (N * c1) = nthZ 0%R X 0 /\
    forall l, 0 <= l < k -> nthZ 0%R (fst st) (l + 1 + N * c1) = nthZ 0%R X (2 * l + 2) /\ nthZ 0%R (snd st) (l + N * c2) = s (nthZ 0%R X (2 * l + 1))) 0 (N - 1 - m) b x0) as ([W1 W2] & E1 & (L1 & F1) & (L2 & F2) & A0 & AL) end.
  { cbn [fst snd]. split; [split; [now rewrite zlen_zupd|]; intros p Hp Hp'; rewrite nthZ_zupd by lia; replace (N * c1 =? p) with false by lia; reflexivity|].
    split; [split; [now rewrite zlen_zupd|]; intros p Hp Hp'; rewrite nthZ_zupd by lia; replace (N * c2 =? p) with false by lia; reflexivity|].
    split; [|intros; lia]. rewrite nthZ_zupd by lia. now rewrite Z.eqb_refl. }
  { intros l [Y1 Y2] Hl ((L1 & F1) & (L2 & F2) & A0 & AL). cbn [fst snd] in *.
    rewrite (zget_nthZ 0%R X (2 * l + 2)) by lia. cbn [obind]. rewrite zset_some by lia. cbn [obind]. rewrite (zget_nthZ 0%R X (2 * l + 1)) by lia. cbn [obind]. rewrite zset_some by lia. cbn [obind].
    eexists. split; [reflexivity|]. cbn [fst snd].
    split; [split; [now rewrite zlen_zupd|]; intros p Hp Hp'; rewrite nthZ_zupd by lia; replace (_ =? p) with false by lia; apply F1; lia|].
    split; [split; [now rewrite zlen_zupd|]; intros p Hp Hp'; rewrite nthZ_zupd by lia; replace (_ =? p) with false by lia; apply F2; lia|].
    split; [rewrite nthZ_zupd by lia; replace (_ =? N * c1) with false by lia; exact A0|].
    intros l' Hl'. rewrite !nthZ_zupd by lia. destruct (Z.eq_dec l' l) as [E|Hne]; [subst l'; rewrite !Z.eqb_refl; auto|].
    replace (l + 1 + N * c1 =? l' + 1 + N * c1) with false by lia. replace (l + N * c2 =? l' + N * c2) with false by lia. apply AL. lia. }
  rewrite E1. cbn [obind fst snd] in *. rewrite (zget_nthZ 0%R X (2 * N - 2 * m - 1)) by lia. cbn [obind]. rewrite zset_some by lia. cbn [obind]. eexists _, _. split; [reflexivity|].
  split; [split; assumption|]. split; [split; [now rewrite zlen_zupd|]; intros p Hp Hp'; rewrite nthZ_zupd by lia; replace (_ =? p) with false by lia; apply F2; lia|].
  replace (Z.max 0 (N - 1 - m)) with (N - 1 - m) in AL by lia. intros l Hl. unfold vec. split.
  - destruct (Z.eq_dec l 0) as [E|Hne]; [subst l; rewrite Z.add_0_r; exact A0|]. pose proof (proj1 (AL (l - 1) ltac:(lia))) as E. replace (l - 1 + 1 + N * c1) with (N * c1 + l) in E by lia. rewrite E. f_equal. lia.
  - rewrite nthZ_zupd by lia. destruct (Z.eq_dec l (N - 1 - m)) as [E|Hne].
    + subst l. replace (_ =? _) with true by lia. f_equal. f_equal. lia.
    + replace (N - 1 - m + N * c2 =? N * c2 + l) with false by lia. rewrite (Z.add_comm (N * c2) l). rewrite (proj2 (AL l ltac:(lia))). reflexivity.
Qed.

(** the field grad U1 + curl U2, order by order *)
Definition field_order (N m : Z) (U1 U2 V1 V2 : list R) : Prop :=
  isprod (N + 1 - m) (Tmat m) (vec (N * (2 * m - 1)) V1) (fun i => matvec (N + 1 - m) (Bmat m) (vec (N * (2 * m - 1)) U1) i + IZR m * vec (N * (2 * m)) U2 i)%R /\
  isprod (N + 1 - m) (Tmat m) (vec (N * (2 * m)) V1) (fun i => matvec (N + 1 - m) (Bmat m) (vec (N * (2 * m)) U1) i - IZR m * vec (N * (2 * m - 1)) U2 i)%R /\
  isprod (N + 1 - m) (Tmat m) (vec (N * (2 * m - 1)) V2) (fun i => matvec (N + 1 - m) (Bmat m) (vec (N * (2 * m - 1)) U2) i - IZR m * vec (N * (2 * m)) U1 i)%R /\
  isprod (N + 1 - m) (Tmat m) (vec (N * (2 * m)) V2) (fun i => matvec (N + 1 - m) (Bmat m) (vec (N * (2 * m)) U2) i + IZR m * vec (N * (2 * m - 1)) U1 i)%R.

Lemma two_muls N m K T x : 1 <= m -> 1 <= K <= N -> tb_ok T -> tb_n T = K -> (forall p q, 0 <= p < K -> 0 <= q < K -> tb_mat T p q = Tmat m p q) -> N * (2 * m + 1) <= zlen x ->
  exists y x', tbmv false T x (N * (2 * m - 1)) = Some y /\ tbmv false T y (N * (2 * m)) = Some x' /\ only_cols N m K x x' /\
    isprod K (Tmat m) (vec (N * (2 * m - 1)) x) (vec (N * (2 * m - 1)) x') /\ isprod K (Tmat m) (vec (N * (2 * m)) x) (vec (N * (2 * m)) x').
Proof.
  intros Hm HK OT NT VT Hl. assert (Hc : N * (2 * m) = N * (2 * m - 1) + N) by ring. assert (H0 : 0 <= N * (2 * m - 1)) by nia. assert (Hl' : N * (2 * m) + N <= zlen x) by lia.
  destruct (tbmv_proof T false x (N * (2 * m - 1)) OT) as (y & E1 & L1 & P1 & O1); [split; lia|].
  destruct (tbmv_proof T false y (N * (2 * m)) OT) as (z & E2 & L2 & P2 & O2); [split; lia|]. rewrite NT in *. cbn [op] in *.
  exists y, z. split; [exact E1|]. split; [exact E2|]. split; [split; [lia|]; intros p H1 H2; rewrite O2, O1 by lia; reflexivity|]. split.
  - eapply isprod_ext; [|intros; reflexivity| |exact P1]; [exact VT|]. intros i Hi. symmetry. apply vec_eq. apply O2. lia.
  - eapply isprod_ext; [exact VT| |intros; reflexivity|exact P2]. intros i Hi. apply vec_eq. apply O1. lia.
Qed.

Definition interleave (a b : Z -> R) (i : Z) : R := if i mod 2 =? 0 then a (i / 2) else b (i / 2).
Lemma inter_e a b l : interleave a b (2 * l) = a l.
Proof. unfold interleave. replace ((2 * l) mod 2 =? 0) with true by lia. f_equal. lia. Qed.
Lemma inter_o a b l : interleave a b (2 * l + 1) = b l.
Proof. unfold interleave. replace ((2 * l + 1) mod 2 =? 0) with false by lia. f_equal. lia. Qed.
Lemma Bmat_last m K x : 1 <= K -> x (K - 1) = 0%R -> matvec K (Bmat m) x K = 0%R.
Proof.
  intros HK Hx. unfold matvec. apply sumZ_zero. intros j Hj. unfold Bmat. destruct (Z.eqb_spec j (K - 1)) as [E|]; [subst j; rewrite Hx; ring|]. replace (j =? K + 1) with false by lia. ring.
Qed.
Lemma system m K X a b : 1 <= K -> a (K - 1) = 0%R -> b (K - 1) = 0%R ->
  (forall l, 0 <= l < K -> vec 0 X (2 * l) = (matvec K (Bmat m) a l + IZR m * b l)%R /\ vec 0 X (2 * l + 1) = (matvec K (Bmat m) b l + IZR m * a l)%R) ->
  vec 0 X (2 * K) = 0%R -> vec 0 X (2 * K + 1) = 0%R ->
  forall i, 0 <= i < 2 * K + 2 -> vec 0 X i = matvec (2 * K) (Amat m) (interleave a b) i.
Proof.
  intros HK Ha Hb H E1 E2 i Hi.
  assert (Ge : forall l, matvec K (Bmat m) (fun j => interleave a b (2 * j)) l = matvec K (Bmat m) a l) by (intros; unfold matvec; apply sumZ_ext; intros; now rewrite inter_e).
  assert (Go : forall l, matvec K (Bmat m) (fun j => interleave a b (2 * j + 1)) l = matvec K (Bmat m) b l) by (intros; unfold matvec; apply sumZ_ext; intros; now rewrite inter_o).
  destruct (Z.eq_dec (i mod 2) 0) as [Ev|Od].
  - replace i with (2 * (i / 2)) by lia. set (l := i / 2) in *. assert (0 <= l <= K) by lia. rewrite Amat_even, Ge by lia. destruct (Z.ltb_spec l K); [rewrite inter_o; apply H; lia|]. replace l with K by lia. rewrite Bmat_last, E1 by (lia || assumption). ring.
  - replace i with (2 * (i / 2) + 1) by lia. set (l := i / 2) in *. assert (0 <= l <= K) by lia. rewrite Amat_odd, Go by lia. destruct (Z.ltb_spec l K); [rewrite inter_e; apply H; lia|]. replace l with K by lia. rewrite Bmat_last, E2 by (lia || assumption). ring.
Qed.
Definition order_zero (N m : Z) (U : list R) : Prop := vec (N * (2 * m - 1)) U (N - m) = 0%R /\ vec (N * (2 * m)) U (N - m) = 0%R.
Definition order_eq (N m : Z) (U U' : list R) : Prop := forall l, 0 <= l < N - m -> vec (N * (2 * m - 1)) U' l = vec (N * (2 * m - 1)) U l /\ vec (N * (2 * m)) U' l = vec (N * (2 * m)) U l.
Lemma order_val N m P U1 U2 W1 W2 V1 V2 X : 1 <= m <= N - 1 -> hplan_ok N P m ->
  N * (2 * m + 1) <= zlen W1 -> N * (2 * m + 1) <= zlen W2 -> N * (2 * m + 1) <= zlen V1 -> N * (2 * m + 1) <= zlen V2 -> 2 * N + 2 <= zlen X ->
  order_zero N m U1 -> order_zero N m U2 -> field_order N m U1 U2 V1 V2 ->
  exists W1' W2' V1' V2' X', hh_order P N m (HHState W1 W2 V1 V2 X) = Some (HHState W1' W2' V1' V2' X') /\
    only_cols N m (N + 1 - m) V1 V1' /\ only_cols N m (N + 1 - m) V2 V2' /\ zlen X' = zlen X /\
    frame (N * (2 * m - 1)) (N * (2 * m + 1)) W1 W1' /\ frame (N * (2 * m - 1)) (N * (2 * m + 1)) W2 W2' /\ order_eq N m U1 W1' /\ order_eq N m U2 W2'.
Proof.
  intros Hm (T & Q & ET & EQ & OT & NT & VT & HQ) LW1 LW2 LV1 LV2 LX (Z1 & Z2) (Z3 & Z4) (F1 & F2 & F3 & F4). unfold hh_order. rewrite ET, EQ. cbn [obind].
  set (K := N + 1 - m) in *. assert (Hc : N * (2 * m) = N * (2 * m - 1) + N) by ring. assert (Hc' : N * (2 * m + 1) = N * (2 * m) + N) by ring. assert (H0 : 0 <= N * (2 * m - 1)) by nia.
  destruct (two_muls N m K T V1 ltac:(lia) ltac:(unfold K; lia) OT NT VT LV1) as (y1 & V1' & Ea & Eb & (La & Oa) & A1 & A2). rewrite Ea. cbn [obind]. rewrite Eb. cbn [obind].
  destruct (two_muls N m K T V2 ltac:(lia) ltac:(unfold K; lia) OT NT VT LV2) as (y2 & V2' & Ec & Ed & (Lb & Ob) & A3 & A4). rewrite Ec. cbn [obind]. rewrite Ed. cbn [obind].
  set (c1 := 2 * m - 1) in *. set (c2 := 2 * m) in *. assert (0 <= c1) by (unfold c1; lia). assert (0 <= c2) by (unfold c2; lia). replace (N - m) with (K - 1) in Z1, Z2, Z3, Z4 by (unfold K; lia).
  destruct (readin_val (fun x => x) c1 c2 X V1' V2' N m ltac:(lia) ltac:(lia) ltac:(lia) ltac:(lia) ltac:(lia) ltac:(lia)) as (X1 & E1 & L1 & R1 & R2 & R3). fold K in R1, R2, R3. rewrite E1. cbn [obind].
  destruct (HQ X1 (interleave (vec (N * c1) U1) (vec (N * c2) U2))) as (X2 & E2 & L2 & R4); [unfold K; lia| |].
  { apply system; try assumption; [unfold K; lia|]. intros l Hl. destruct (R1 l Hl) as (Q1 & Q2). rewrite Q1, Q2. rewrite (A1 l Hl), (A4 l Hl). split; [symmetry; exact (F1 l Hl)|symmetry; exact (F4 l Hl)]. }
  rewrite E2. cbn [obind].
  destruct (writeout_val (fun x => x) c1 c2 X2 W1 W2 N m ltac:(lia) ltac:(lia) ltac:(lia) ltac:(lia) ltac:(lia) ltac:(lia)) as (Y1 & Y2 & E3 & (G1 & G2) & (G3 & G4) & G5). rewrite E3. cbn [obind].
  destruct (readin_val opp c2 c1 X2 V1' V2' N m ltac:(lia) ltac:(lia) ltac:(lia) ltac:(lia) ltac:(lia) ltac:(lia)) as (X3 & E4 & L4 & S1 & S2 & S3). fold K in S1, S2, S3. rewrite E4. cbn [obind].
  destruct (HQ X3 (interleave (vec (N * c2) U1) (fun i => - vec (N * c1) U2 i)%R)) as (X4 & E5 & L5 & R5); [unfold K; lia| |].
  { apply system; try assumption; [unfold K; lia|rewrite Z3; ring|]. intros l Hl. destruct (S1 l Hl) as (Q1 & Q2). rewrite Q1, Q2. rewrite (A2 l Hl), (A3 l Hl). split.
    - rewrite <- (F2 l Hl). ring.
    - rewrite <- (F3 l Hl). cbn [opp R_arith]. replace (matvec K (Bmat m) (fun i => - vec (N * c1) U2 i)%R l) with (- matvec K (Bmat m) (vec (N * c1) U2) l)%R; [ring|].
      unfold matvec. replace (- sumZ K _)%R with (-1 * sumZ K (fun k => Bmat m l k * vec (N * c1) U2 k))%R by ring. rewrite <- sumZ_scal. apply sumZ_ext. intros; ring. }
  rewrite E5. cbn [obind].
  destruct (writeout_val opp c2 c1 X4 Y1 Y2 N m ltac:(lia) ltac:(lia) ltac:(lia) ltac:(lia) ltac:(lia) ltac:(lia)) as (W1' & W2' & E6 & (J1 & J2) & (J3 & J4) & J5). rewrite E6. cbn [obind].
  exists W1', W2', V1', V2', X4. split; [reflexivity|]. split; [split; assumption|]. split; [split; assumption|]. split; [lia|].
  split; [split; [lia|]; intros p Hp Hp'; rewrite J2, G2 by lia; reflexivity|]. split; [split; [lia|]; intros p Hp Hp'; rewrite J4, G4 by lia; reflexivity|].
  assert (HK : N - m = K - 1) by (unfold K; lia). split; intros l Hl; destruct (G5 l Hl) as (P1 & P2), (J5 l Hl) as (P3 & P4); rewrite R4 in P1, P2 by lia; rewrite R5 in P3, P4 by lia; rewrite inter_e in P1, P3; rewrite inter_o in P2, P4.
  - split; [|exact P3]. unfold vec in *. rewrite J2 by lia. exact P1.
  - change (2 * m - 1) with c1. split; [rewrite P4; cbn [opp R_arith]; ring|]. unfold vec in *. rewrite J4 by lia. exact P2.
Qed.

Lemma hzonal_val N V1 V2 W1 W2 : 1 <= N -> N <= zlen V1 -> N <= zlen V2 -> N <= zlen W1 -> N <= zlen W2 ->
  exists W1' W2', @hh_zonal R R_arith N V1 V2 W1 W2 = Some (W1', W2') /\ zlen W1' = zlen W1 /\ zlen W2' = zlen W2 /\ nthZ 0%R W1' 0 = 0%R /\ nthZ 0%R W2' 0 = 0%R /\
    forall l, 0 <= l < N - 1 -> nthZ 0%R W1' (l + 1) = (- nthZ 0 V1 l / sqrt ((IZR l + 1) * (IZR l + 2)))%R /\ nthZ 0%R W2' (l + 1) = (- nthZ 0 V2 l / sqrt ((IZR l + 1) * (IZR l + 2)))%R.
Proof.
  intros HN L1 L2 L3 L4. unfold hh_zonal. rewrite zset_some by lia. cbn [obind]. rewrite zset_some by lia. cbn [obind].
  match goal with |- exists q1 q2, for_up 0 _ ?bd ?x0 = _ /\ _ =>
  destruct (for_up_max (fun k st => zlen (fst st) = zlen W1 /\ zlen (snd st) = zlen W2 /\ nthZ 0%R (fst st) 0 = 0%R /\ nthZ 0%R (snd st) 0 = 0%R /\
    forall l, 0 <= l < k -> nthZ 0%R (fst st) (l + 1) = (- nthZ 0 V1 l / sqrt ((IZR l + 1) * (IZR l + 2)))%R /\ nthZ 0%R (snd st) (l + 1) = (- nthZ 0 V2 l / sqrt ((IZR l + 1) * (IZR l + 2)))%R) 0 (N - 1) bd x0) as ([a b] & E & La & Lb & Z1 & Z2 & W) end.
  { cbn [fst snd]. rewrite !zlen_zupd, !nthZ_zupd by lia. rewrite Z.eqb_refl. repeat split; intros; lia. }
  { intros l [a b] Hl (La & Lb & Z1 & Z2 & W). cbn [fst snd] in *. rewrite (zget_nthZ 0%R V1 l) by lia. cbn [obind]. rewrite zset_some by lia. cbn [obind]. rewrite (zget_nthZ 0%R V2 l) by lia. cbn [obind]. rewrite zset_some by lia. cbn [obind].
    eexists. split; [reflexivity|]. cbn [fst snd]. rewrite !zlen_zupd. rewrite !nthZ_zupd by lia. replace (l + 1 =? 0) with false by lia. repeat (split; [assumption|]).
    intros l' Hl'. rewrite !nthZ_zupd by lia. destruct (Z.eq_dec l' l) as [E|Hne]; [subst l'; rewrite !Z.eqb_refl; split; reflexivity|]. replace (l + 1 =? l' + 1) with false by lia. apply W. lia. }
  cbn [fst snd] in *. replace (Z.max 0 (N - 1)) with (N - 1) in W by lia. exists a, b. auto 10.
Qed.

Definition field (N h : Z) (U1 U2 V1 V2 : list R) : Prop :=
  (forall l, 0 <= l < N - 1 -> nthZ 0%R V1 l = (- sqrt ((IZR l + 1) * (IZR l + 2)) * nthZ 0 U1 (l + 1))%R /\ nthZ 0%R V2 l = (- sqrt ((IZR l + 1) * (IZR l + 2)) * nthZ 0 U2 (l + 1))%R) /\
  forall m, 1 <= m <= h -> field_order N m U1 U2 V1 V2.
Lemma vec_frame N m K V V' l o : only_cols N m K V V' -> K <= N -> 0 <= l -> N * (2 * m + 1) <= o -> vec o V' l = vec o V l.
Proof. intros (_ & H) HK Hl Ho. apply vec_eq. apply H; nia. Qed.
Lemma hh_val N h P U1 U2 W1 W2 V1 V2 : 1 <= N -> 0 <= h <= N - 1 -> zlen (hp_X P) = 2 * N + 2 -> (forall m, 1 <= m <= N -> hplan_ok N P m) ->
  zlen W1 = N * (2 * h + 1) -> zlen W2 = N * (2 * h + 1) -> zlen V1 = N * (2 * h + 1) -> zlen V2 = N * (2 * h + 1) ->
  nthZ 0%R U1 0 = 0%R -> nthZ 0%R U2 0 = 0%R -> last_zero N h U1 -> last_zero N h U2 -> field N h U1 U2 V1 V2 ->
  exists st, execute_sph_helmholtzhodge P W1 W2 V1 V2 N (2 * h + 1) = Some st /\ zlen (h_U1 st) = N * (2 * h + 1) /\ zlen (h_U2 st) = N * (2 * h + 1) /\
    (forall l, 0 <= l < N -> nthZ 0%R (h_U1 st) l = nthZ 0%R U1 l /\ nthZ 0%R (h_U2 st) l = nthZ 0%R U2 l) /\
    forall m, 1 <= m <= h -> order_eq N m U1 (h_U1 st) /\ order_eq N m U2 (h_U2 st).
Proof.
  intros HN Hh LX HP LW1 LW2 LV1 LV2 Z1 Z2 ZL1 ZL2 (HZ & HF). unfold execute_sph_helmholtzhodge. replace ((2 * h + 1) / 2) with h by lia.
  assert (HNM : N <= N * (2 * h + 1)) by nia.
  destruct (hzonal_val N V1 V2 W1 W2 HN) as (a & b & E & La & Lb & Za & Zb & Wz); try lia. rewrite E. cbn [obind].
  match goal with |- exists st, for_up 1 _ ?bd ?x0 = _ /\ _ =>
  destruct (for_up_max (fun k st => zlen (h_U1 st) = zlen W1 /\ zlen (h_U2 st) = zlen W2 /\ zlen (h_V1 st) = zlen V1 /\ zlen (h_V2 st) = zlen V2 /\ zlen (h_X st) = 2 * N + 2 /\
    (forall p, 0 <= p < N -> nthZ 0%R (h_U1 st) p = nthZ 0%R a p /\ nthZ 0%R (h_U2 st) p = nthZ 0%R b p) /\
    (forall o l, N * (2 * k - 1) <= o -> 0 <= l -> vec o (h_V1 st) l = vec o V1 l /\ vec o (h_V2 st) l = vec o V2 l) /\
    forall m, 1 <= m < k -> order_eq N m U1 (h_U1 st) /\ order_eq N m U2 (h_U2 st)) 1 (h + 1) bd x0) as (st & E2 & L1 & L2 & _ & _ & _ & Hz & _ & Hm) end.
  { cbn [h_U1 h_U2 h_V1 h_V2 h_X]. split; [exact La|]. split; [exact Lb|]. split; [reflexivity|]. split; [reflexivity|]. split; [exact LX|]. split; [auto|]. split; [auto|]. intros; lia. }
  { intros m [S1 S2 Y1 Y2 X] Hm (L1 & L2 & L3 & L4 & L5 & Hz & HV & HO). cbn [h_U1 h_U2 h_V1 h_V2 h_X] in *.
    assert (Hb : N * (2 * m + 1) <= N * (2 * h + 1)) by nia.
    destruct (order_val N m P U1 U2 S1 S2 Y1 Y2 X) as (S1' & S2' & Y1' & Y2' & X' & E3 & C1 & C2 & C3 & (C4 & C4') & (C5 & C5') & C6 & C7); try lia.
    { apply HP; lia. } { apply ZL1; lia. } { apply ZL2; lia. }
    { destruct (HF m ltac:(lia)) as (F1 & F2 & F3 & F4). split; [|split; [|split]]; (eapply isprod_ext; [intros; reflexivity| |intros; reflexivity|eassumption]); intros i Hi; symmetry; apply HV; nia. }
    rewrite E3. eexists. split; [reflexivity|]. cbn [h_U1 h_U2 h_V1 h_V2 h_X]. split; [lia|]. split; [lia|]. split; [destruct C1; lia|]. split; [destruct C2; lia|]. split; [lia|].
    split; [intros p Hp; rewrite C4', C5' by nia; apply Hz; lia|].
    split; [intros o l Ho Hl; destruct (HV o l ltac:(nia) Hl) as (q1 & q2); rewrite <- q1, <- q2; split; eapply vec_frame; eauto; nia|].
    intros m' Hm'. destruct (Z.eq_dec m' m) as [Em|Hne]; [subst m'; auto|]. destruct (HO m' ltac:(lia)) as (q1 & q2).
    split; intros l Hl; [destruct (q1 l Hl) as (r1 & r2); rewrite <- r1, <- r2; unfold vec; rewrite !C4' by nia; auto|destruct (q2 l Hl) as (r1 & r2); rewrite <- r1, <- r2; unfold vec; rewrite !C5' by nia; auto]. }
  exists st. split; [exact E2|]. split; [lia|]. split; [lia|]. split.
  - intros l Hl. destruct (Hz l Hl) as (q1 & q2). rewrite q1, q2. destruct (Z.eq_dec l 0) as [E0|Hne]; [subst l; rewrite Za, Zb, Z1, Z2; auto|].
    destruct (Wz (l - 1) ltac:(lia)) as (r1 & r2). destruct (HZ (l - 1) ltac:(lia)) as (t1 & t2). replace (l - 1 + 1) with l in * by lia. rewrite r1, r2, t1, t2.
    assert (Hs : sqrt ((IZR (l - 1) + 1) * (IZR (l - 1) + 2)) <> 0%R). { apply Rgt_not_eq, sqrt_lt_R0. pose proof (IZR_le 0 (l - 1) ltac:(lia)). nra. }
    split; field; exact Hs.
  - intros m Hm'. apply Hm. lia.
Qed.
