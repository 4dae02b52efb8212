(** * Execution of the gradient *)
From Coq Require Import ZArith List Lia Bool Reals Lra ZifyBool.
From Verif Require Import Base BaseFacts Arith SpecSum PSum SpecLin MBanded SpecBanded PTri PBand MFactor MGrad SpecIso SpecGeo SpecGrad PGrad1 PGrad2 PGrad3 PGrad4.
Import ListNotations.
Open Scope Z_scope.

Lemma zget_snoc {A} (a : list A) x i : zget (a ++ [x]) i = if i =? zlen a then Some x else zget a i.
Proof.
  unfold zget, zlen. destruct (Z.ltb_spec i 0) as [H|H]; [replace (i =? _) with false by lia; reflexivity|].
  destruct (Z.eqb_spec i (Z.of_nat (length a))) as [E|E].
  - rewrite nth_error_app2 by lia. replace (Z.to_nat i - length a)%nat with O by lia. reflexivity.
  - destruct (Z_lt_dec i (Z.of_nat (length a))); [apply nth_error_app1; lia|]. rewrite (proj2 (nth_error_None a _)) by lia. apply nth_error_None. rewrite app_length. cbn. lia.
Qed.
Definition plan_ok (n : Z) (P : gradient_plan (F:=R)) (m : Z) : Prop :=
  exists B T, zget (gp_B P) (m - 1) = Some B /\ zget (gp_T P) (m - 1) = Some T /\
    bd_ok B /\ bd_m B = n + 1 - m /\ bd_n B = n + 1 - m /\ (forall p q, 0 <= p < n + 1 - m -> 0 <= q < n + 1 - m -> bd_mat B p q = Bmat m p q) /\
    tb_ok T /\ tb_n T = n + 1 - m /\ (forall p q, 0 <= p < n + 1 - m -> 0 <= q < n + 1 - m -> tb_mat T p q = Tmat m p q).
Lemma plan_val n : 1 <= n -> exists P, @plan_sph_gradient R R_arith n = Some P /\ forall m, 1 <= m <= n -> plan_ok n P m.
Proof.
  intros Hn. unfold plan_sph_gradient.
  match goal with |- exists T, obind (for_up 1 _ ?b ?s) _ = _ /\ _ =>
  destruct (for_up_inv (fun k P => zlen (gp_B P) = k - 1 /\ zlen (gp_T P) = k - 1 /\ forall m, 1 <= m < k -> plan_ok n P m) 1 (n + 1) b s) as [P [E (L1 & L2 & H)]] end.
  - lia.
  - split; [reflexivity|]. split; [reflexivity|]. intros; lia.
  - intros m P Hm (L1 & L2 & H). destruct (deriv_val n m ltac:(lia)) as (B & EB & HB). destruct (sine_val n m ltac:(lia)) as (T & ET & HT). rewrite EB. cbn [obind]. rewrite ET. cbn [obind].
    eexists. split; [reflexivity|]. cbn [gp_B gp_T]. rewrite !zlen_app, L1, L2. split; [cbn; lia|]. split; [cbn; lia|].
    intros m' Hm'. unfold plan_ok. cbn [gp_B gp_T]. rewrite !zget_snoc, L1, L2. destruct (Z.eqb_spec (m' - 1) (m - 1)) as [Em|Em].
    + replace m' with m by lia. exists B, T. tauto.
    + apply H. lia.
  - rewrite E. exists P. split; [reflexivity|]. intros m Hm. apply H. lia.
Qed.

Lemma zget_firstn {A} (y y' : list A) k i : 0 <= k <= zlen y -> zget (firstn (Z.to_nat k) y ++ y') i = if i <? k then zget y i else zget y' (i - k).
Proof.
  intros Hk. unfold zget, zlen in *. destruct (Z.ltb_spec i 0) as [H|H]; [replace (i <? k) with true by lia; reflexivity|].
  assert (Hl : length (firstn (Z.to_nat k) y) = Z.to_nat k) by (rewrite firstn_length; lia).
  destruct (Z.ltb_spec i k).
  - rewrite nth_error_app1 by lia. transitivity (nth_error (firstn (Z.to_nat k) y ++ skipn (Z.to_nat k) y) (Z.to_nat i)); [symmetry; apply nth_error_app1; lia|now rewrite firstn_skipn].
  - rewrite nth_error_app2 by lia. rewrite Hl. replace (i - k <? 0) with false by lia. f_equal. lia.
Qed.
Lemma gbmv_at_val alpha A x ox beta y oy : bd_ok A -> fits ox (bd_n A) x -> fits oy (bd_m A) y ->
  exists y', gbmv_at alpha A x ox beta y oy = Some y' /\
    writes oy (bd_m A) y y' (fun i => (alpha * matvec (bd_n A) (bd_mat A) (vec ox x) i + beta * vec oy y i)%R).
Proof.
  intros HA (Hx1 & Hx2) (Hy1 & Hy2). unfold gbmv_at. pose proof HA as (O1 & O2 & O3).
  replace ((0 <=? ox) && (ox <=? zlen x) && (0 <=? oy) && (oy <=? zlen y)) with true by lia.
  destruct (gbmv_proof alpha A (skipn (Z.to_nat ox) x) beta (skipn (Z.to_nat oy) y) HA) as (y' & E & Lw & W & Ot).
  { rewrite zlen_skipn by lia. lia. }
  { rewrite zlen_skipn by lia. lia. }
  rewrite E. cbn [obind]. eexists. split; [reflexivity|]. rewrite zlen_skipn in Lw by lia.
  assert (Hv : forall a (z : list R) i, 0 <= a -> 0 <= i -> vec 0 (skipn (Z.to_nat a) z) i = vec a z i).
  { intros a z i Ha Hi. unfold vec, nthZ. rewrite zget_skipn by lia. replace (a + (0 + i)) with (a + i) by lia. reflexivity. }
  split; [|split].
  - rewrite zlen_app, Lw. unfold zlen in *. rewrite firstn_length. lia.
  - intros i Hi. rewrite zget_firstn by lia. replace (oy + i <? oy) with false by lia. replace (oy + i - oy) with (0 + i) by lia. rewrite W by lia. f_equal. f_equal.
    + f_equal. unfold matvec. apply sumZ_ext. intros k Hk. rewrite Hv by lia. reflexivity.
    + rewrite Hv by lia. reflexivity.
  - intros p Hp. rewrite zget_firstn by lia. destruct (Z.ltb_spec p oy); [reflexivity|]. rewrite Ot by lia. rewrite zget_skipn by lia. f_equal. lia.
Qed.
Lemma isprod_ext n U V v v' w w' : (forall p q, 0 <= p < n -> 0 <= q < n -> U p q = V p q) -> (forall i, 0 <= i < n -> v i = v' i) -> (forall i, 0 <= i < n -> w i = w' i) ->
  isprod n U v w -> isprod n V v' w'.
Proof. intros HU Hv Hw H i Hi. rewrite <- Hw, H by lia. unfold matvec. apply sumZ_ext. intros k Hk. rewrite HU, Hv by lia. reflexivity. Qed.

(** [x'] differs from [x] only in the first [K] entries of the two columns of order [m] *)
Definition only_cols (N m K : Z) (x x' : list R) : Prop :=
  zlen x' = zlen x /\ forall p, ~ (N * (2 * m - 1) <= p < N * (2 * m - 1) + K) -> ~ (N * (2 * m) <= p < N * (2 * m) + K) -> zget x' p = zget x p.
Lemma vec_eq o (x x' : list R) i : zget x' (o + i) = zget x (o + i) -> vec o x' i = vec o x i.
Proof. intros E. unfold vec, nthZ. now rewrite E. Qed.
Lemma vec_Some o (x : list R) i v : zget x (o + i) = Some v -> vec o x i = v.
Proof. intros E. unfold vec, nthZ. now rewrite E. Qed.

(** two solves in the two columns of order m *)
Lemma two_solves N m K T x : 1 <= m -> 1 <= K <= N -> tb_ok T -> tb_n T = K -> (forall p q, 0 <= p < K -> 0 <= q < K -> tb_mat T p q = Tmat m p q) -> N * (2 * m + 1) <= zlen x ->
  exists x', (do y <- tbsv false T x (N * (2 * m - 1)); tbsv false T y (N * (2 * m))) = Some x' /\ only_cols N m K x x' /\
    isprod K (Tmat m) (vec (N * (2 * m - 1)) x') (vec (N * (2 * m - 1)) x) /\ isprod K (Tmat m) (vec (N * (2 * m)) x') (vec (N * (2 * m)) x).
Proof.
  intros Hm HK HT HN HM Hl. assert (Hc : N * (2 * m) = N * (2 * m - 1) + N) by ring. assert (H0 : 0 <= N * (2 * m - 1)) by nia. assert (Hl' : N * (2 * m) + N <= zlen x) by lia.
  set (c1 := N * (2 * m - 1)) in *. set (c2 := N * (2 * m)) in *.
  assert (ND : nonzero_diag (tb_n T) (tb_mat T)) by (intros i Hi; rewrite HN in Hi; rewrite HM by lia; apply (Tmat_diag m K); lia).
  destruct (tbsv_proof T false x c1 HT ND) as (y & E1 & L1 & P1 & O1); [rewrite HN; split; lia|]. rewrite E1. cbn [obind].
  destruct (tbsv_proof T false y c2 HT ND) as (z & E2 & L2 & P2 & O2); [rewrite HN; split; lia|]. rewrite E2. rewrite HN in *. cbn [op] in P1, P2.
  exists z. split; [reflexivity|]. split; [|split].
  - split; [lia|]. intros p H1 H2. rewrite O2, O1 by lia. reflexivity.
  - eapply isprod_ext; [exact HM| |intros; reflexivity|exact P1]. intros i Hi. symmetry. apply vec_eq. apply O2. lia.
  - eapply isprod_ext; [exact HM|intros; reflexivity| |exact P2]. intros i Hi. apply vec_eq. apply O1. lia.
Qed.
Lemma grad_theta_val n P m U Ut : 1 <= m <= n -> plan_ok n P m -> n * (2 * m + 1) <= zlen U -> n * (2 * m + 1) <= zlen Ut ->
  exists Ut', grad_theta P U n m Ut = Some Ut' /\ only_cols n m (n + 1 - m) Ut Ut' /\
    isprod (n + 1 - m) (Tmat m) (vec (n * (2 * m - 1)) Ut') (matvec (n + 1 - m) (Bmat m) (vec (n * (2 * m - 1)) U)) /\
    isprod (n + 1 - m) (Tmat m) (vec (n * (2 * m)) Ut') (matvec (n + 1 - m) (Bmat m) (vec (n * (2 * m)) U)).
Proof.
  intros Hm (B & T & EB & ET & OB & MB & NB & VB & OT & NT & VT) HU HUt. unfold grad_theta. rewrite EB, ET. cbn [obind]. set (K := n + 1 - m) in *.
  assert (Hc : n * (2 * m) = n * (2 * m - 1) + n) by ring. assert (H0 : 0 <= n * (2 * m - 1)) by nia. assert (Hl' : n * (2 * m) + n <= zlen U) by lia. assert (Hl2 : n * (2 * m) + n <= zlen Ut) by lia.
  destruct (gbmv_at_val one B U (n * (2 * m - 1)) zero Ut (n * (2 * m - 1)) OB) as (y1 & E1 & L1 & W1 & O1); [split; lia|split; lia|]. rewrite E1. cbn [obind].
  destruct (gbmv_at_val one B U (n * (2 * m)) zero y1 (n * (2 * m)) OB) as (y2 & E2 & L2 & W2 & O2); [split; lia|split; lia|]. rewrite E2. cbn [obind].
  rewrite MB in *. rewrite NB in *.
  destruct (two_solves n m K T y2 ltac:(lia) ltac:(unfold K; lia) OT NT VT ltac:(lia)) as (z & E3 & (L3 & O3) & P3 & P4). rewrite E3. exists z. split; [reflexivity|].
  assert (HB : forall o i, 0 <= i < K -> (one * matvec K (bd_mat B) (vec o U) i)%R = matvec K (Bmat m) (vec o U) i).
  { intros o i Hi. cbn [one R_arith]. rewrite Rmult_1_l. unfold matvec. apply sumZ_ext. intros k Hk. rewrite VB by lia. reflexivity. }
  split; [split; [lia|]; intros p H1 H2; rewrite O3 by lia; rewrite O2, O1 by lia; reflexivity|]. split.
  - eapply isprod_ext; [intros; reflexivity|intros; reflexivity| |exact P3]. intros i Hi. rewrite <- HB by lia. apply vec_Some. rewrite O2 by lia. rewrite W1 by lia. f_equal. cbn [zero R_arith]. ring.
  - eapply isprod_ext; [intros; reflexivity|intros; reflexivity| |exact P4]. intros i Hi. rewrite <- HB by lia. apply vec_Some. rewrite W2 by lia. f_equal. cbn [zero R_arith]. ring.
Qed.
Lemma grad_phi_val n P m U Up : 1 <= m <= n -> plan_ok n P m -> n * (2 * m + 1) <= zlen U -> n * (2 * m + 1) <= zlen Up ->
  exists Up', grad_phi P U n m Up = Some Up' /\ only_cols n m (n + 1 - m) Up Up' /\
    isprod (n + 1 - m) (Tmat m) (vec (n * (2 * m - 1)) Up') (fun i => - IZR m * vec (n * (2 * m)) U i)%R /\
    isprod (n + 1 - m) (Tmat m) (vec (n * (2 * m)) Up') (fun i => IZR m * vec (n * (2 * m - 1)) U i)%R.
Proof.
  intros Hm (B & T & EB & ET & OB & MB & NB & VB & OT & NT & VT) HU HUp. unfold grad_phi. rewrite ET. cbn [obind]. set (K := n + 1 - m) in *.
  assert (Hc : n * (2 * m) = n * (2 * m - 1) + n) by ring. assert (H0 : 0 <= n * (2 * m - 1)) by nia. assert (Hl' : n * (2 * m) + n <= zlen U) by lia. assert (Hl2 : n * (2 * m) + n <= zlen Up) by lia.
  set (c1 := n * (2 * m - 1)) in *. set (c2 := n * (2 * m)) in *.
  match goal with |- exists Up', obind (for_up 0 K ?b Up) _ = _ /\ _ =>
  destruct (for_up_inv (fun k y => zlen y = zlen Up /\ (forall i, 0 <= i < k -> zget y (c1 + i) = Some (- IZR m * vec c2 U i)%R /\ zget y (c2 + i) = Some (IZR m * vec c1 U i)%R) /\
    (forall p, ~ (c1 <= p < c1 + k) -> ~ (c2 <= p < c2 + k) -> zget y p = zget Up p)) 0 K b Up) as (y & E & L & W & O) end.
  - unfold K; lia.
  - split; [reflexivity|]. split; [intros; lia|]. intros; reflexivity.
  - intros l y Hl (L & W & O). rewrite (zget_nthZ 0%R U (l + c2)) by (unfold K in *; lia). cbn [obind]. rewrite zset_some by (unfold K in *; lia). cbn [obind].
    rewrite (zget_nthZ 0%R U (l + c1)) by (unfold K in *; lia). cbn [obind]. rewrite zset_some by (rewrite zlen_zupd; unfold K in *; lia).
    eexists. split; [reflexivity|]. split; [now rewrite !zlen_zupd|]. split.
    + intros i Hi. rewrite (zget_zupd _ _ _ (c1 + i)) by (rewrite zlen_zupd; unfold K in *; lia). rewrite (zget_zupd _ _ _ (c2 + i)) by (rewrite zlen_zupd; unfold K in *; lia).
      replace (l + c2 =? c1 + i) with false by (unfold K in *; lia). rewrite !zget_zupd by (unfold K in *; lia).
      replace (l + c1 =? c2 + i) with false by (unfold K in *; lia).
      destruct (Z.eq_dec i l) as [->|Hne].
      * replace (l + c1 =? c1 + l) with true by lia. replace (l + c2 =? c2 + l) with true by lia. unfold vec. rewrite (Z.add_comm c1), (Z.add_comm c2). cbn [mul ofZ R_arith]. rewrite opp_IZR. auto.
      * replace (l + c1 =? c1 + i) with false by lia. replace (l + c2 =? c2 + i) with false by lia. apply W. lia.
    + intros p H1 H2. rewrite !zget_zupd_other by lia. apply O; lia.
  - rewrite E. cbn [obind].
    destruct (two_solves n m K T y ltac:(lia) ltac:(unfold K; lia) OT NT VT ltac:(lia)) as (z & E3 & (L3 & O3) & P3 & P4). fold c1 c2 in E3, P3, P4, O3. rewrite E3. exists z. split; [reflexivity|].
     split; [split; [lia|]; intros p H1 H2; fold c1 c2 in H1, H2; rewrite O3 by lia; apply O; lia|]. split.
    + eapply isprod_ext; [intros; reflexivity|intros; reflexivity| |exact P3]. intros i Hi. apply vec_Some. apply W. lia.
    + eapply isprod_ext; [intros; reflexivity|intros; reflexivity| |exact P4]. intros i Hi. apply vec_Some. apply W. lia.
Qed.
Lemma grad_zonal_val U N Ut Up : 1 <= N -> N <= zlen U -> N <= zlen Ut -> N <= zlen Up ->
  exists Ut' Up', @grad_zonal R R_arith U N Ut Up = Some (Ut', Up') /\ zlen Ut' = zlen Ut /\ zlen Up' = zlen Up /\
    (forall l, 0 <= l < N - 1 -> nthZ 0%R Ut' l = (- sqrt ((IZR l + 1) * (IZR l + 2)) * nthZ 0 U (l + 1))%R) /\ nthZ 0%R Ut' (N - 1) = 0%R /\
    (forall l, 0 <= l < N -> nthZ 0%R Up' l = 0%R) /\
    (forall p, N <= p -> zget Ut' p = zget Ut p /\ zget Up' p = zget Up p).
Proof.
  intros HN HU HUt HUp. unfold grad_zonal.
  match goal with |- exists a b, obind (for_up 0 _ ?bd _) _ = _ /\ _ =>
  destruct (for_up_inv (fun k '(a, b) => zlen a = zlen Ut /\ zlen b = zlen Up /\ (forall l, 0 <= l < k -> nthZ 0%R a l = (- sqrt ((IZR l + 1) * (IZR l + 2)) * nthZ 0 U (l + 1))%R /\ nthZ 0%R b l = 0%R) /\
    (forall p, N <= p -> zget a p = zget Ut p /\ zget b p = zget Up p)) 0 (N - 1) bd (Ut, Up)) as [[a b] [E (La & Lb & W & O)]] end.
  - lia.
  - repeat split; intros; lia.
  - intros l [a b] Hl (La & Lb & W & O). rewrite (zget_nthZ 0%R U) by lia. cbn [obind]. rewrite zset_some by lia. cbn [obind]. rewrite zset_some by lia. cbn [obind].
    eexists. split; [reflexivity|]. cbn beta iota. rewrite !zlen_zupd. split; [lia|]. split; [lia|]. split.
    + intros i Hi. rewrite !nthZ_zupd by lia. destruct (Z.eqb_spec l i) as [->|]; [split; reflexivity|apply W; lia].
    + intros p Hp. rewrite !zget_zupd_other by lia. apply O. lia.
  - rewrite E. cbn [obind]. rewrite zset_some by lia. cbn [obind]. rewrite zset_some by lia. cbn [obind]. eexists _, _. split; [reflexivity|]. rewrite !zlen_zupd. split; [lia|]. split; [lia|].
    split; [intros l Hl; rewrite nthZ_zupd_other by lia; apply W; lia|]. split; [rewrite nthZ_zupd_same by lia; reflexivity|].
    split; [intros l Hl; rewrite nthZ_zupd by lia; destruct (Z.eqb_spec (N - 1) l); [reflexivity|apply W; lia]|].
    intros p Hp. rewrite !zget_zupd_other by lia. apply O. lia.
Qed.

(** the coefficients that the gradient returns *)
Definition graded (N h : Z) (U Ut Up : list R) : Prop :=
  (forall l, 0 <= l < N - 1 -> nthZ 0%R Ut l = (- sqrt ((IZR l + 1) * (IZR l + 2)) * nthZ 0 U (l + 1))%R) /\ nthZ 0%R Ut (N - 1) = 0%R /\
  (forall l, 0 <= l < N -> nthZ 0%R Up l = 0%R) /\
  forall m, 1 <= m <= h ->
    isprod (N + 1 - m) (Tmat m) (vec (N * (2 * m - 1)) Ut) (matvec (N + 1 - m) (Bmat m) (vec (N * (2 * m - 1)) U)) /\
    isprod (N + 1 - m) (Tmat m) (vec (N * (2 * m)) Ut) (matvec (N + 1 - m) (Bmat m) (vec (N * (2 * m)) U)) /\
    isprod (N + 1 - m) (Tmat m) (vec (N * (2 * m - 1)) Up) (fun i => - IZR m * vec (N * (2 * m)) U i)%R /\
    isprod (N + 1 - m) (Tmat m) (vec (N * (2 * m)) Up) (fun i => IZR m * vec (N * (2 * m - 1)) U i)%R.

Lemma cols_loop (body : Z -> list R -> option (list R)) (Q1 Q2 : Z -> (Z -> R) -> Prop) N h x :
  0 <= h <= N -> N * (2 * h + 1) <= zlen x ->
  (forall m v w, 1 <= m <= h -> (forall i, 0 <= i < N + 1 - m -> v i = w i) -> Q1 m v -> Q1 m w) ->
  (forall m v w, 1 <= m <= h -> (forall i, 0 <= i < N + 1 - m -> v i = w i) -> Q2 m v -> Q2 m w) ->
  (forall m y, 1 <= m <= h -> zlen y = zlen x -> exists y', body m y = Some y' /\ only_cols N m (N + 1 - m) y y' /\ Q1 m (vec (N * (2 * m - 1)) y') /\ Q2 m (vec (N * (2 * m)) y')) ->
  exists x', for_up 1 (h + 1) body x = Some x' /\ zlen x' = zlen x /\ (forall p, p < N -> zget x' p = zget x p) /\
    (forall m, 1 <= m <= h -> Q1 m (vec (N * (2 * m - 1)) x') /\ Q2 m (vec (N * (2 * m)) x')).
Proof.
  intros Hh Hl X1 X2 Hb.
  destruct (for_up_inv (fun k y => zlen y = zlen x /\ (forall p, p < N -> zget y p = zget x p) /\ forall m, 1 <= m < k -> Q1 m (vec (N * (2 * m - 1)) y) /\ Q2 m (vec (N * (2 * m)) y)) 1 (h + 1) body x) as (x' & E & L & O & W).
  - lia.
  - split; [reflexivity|]. split; [auto|]. intros; lia.
  - intros k y Hk (L & O & W). destruct (Hb k y ltac:(lia) L) as (y' & E & (L' & O') & A1 & A2). exists y'. split; [exact E|]. split; [lia|]. split.
    + intros p Hp. rewrite O' by nia. apply O. lia.
    + intros m Hm. destruct (Z.eq_dec m k) as [->|]; [auto|]. destruct (W m ltac:(lia)) as (B1 & B2).
      split; [eapply X1; [|intros i Hi; symmetry; apply vec_eq|exact B1]|eapply X2; [|intros i Hi; symmetry; apply vec_eq|exact B2]]; try lia; apply O'; nia.
  - exists x'. split; [exact E|]. split; [exact L|]. split; [exact O|]. intros m Hm. apply W. lia.
Qed.
Lemma gradient_graded N h U Ut Up : 1 <= N -> 0 <= h <= N -> N * (2 * h + 1) <= zlen U -> N * (2 * h + 1) <= zlen Ut -> N * (2 * h + 1) <= zlen Up ->
  forall P, (forall m, 1 <= m <= N -> plan_ok N P m) ->
  exists Ut' Up', execute_sph_gradient P U Ut Up N (2 * h + 1) = Some (Ut', Up') /\ zlen Ut' = zlen Ut /\ zlen Up' = zlen Up /\ graded N h U Ut' Up'.
Proof.
  intros HN Hh HU HUt HUp P HP. unfold execute_sph_gradient. replace ((2 * h + 1) / 2) with h by lia.
  destruct (grad_zonal_val U N Ut Up) as (a & b & E & La & Lb & W1 & W2 & W3 & O); try nia. rewrite E. cbn [obind].
  set (QA := fun m o v => isprod (N + 1 - m) (Tmat m) v (matvec (N + 1 - m) (Bmat m) (vec o U))).
  destruct (cols_loop (grad_theta P U N) (fun m v => QA m (N * (2 * m - 1)) v) (fun m v => QA m (N * (2 * m)) v) N h a) as (a' & Ea & La' & Oa & Va).
  { lia. } { lia. }
  { intros m v w Hm Hvw H. eapply isprod_ext; [intros; reflexivity|exact Hvw|intros; reflexivity|exact H]. }
  { intros m v w Hm Hvw H. eapply isprod_ext; [intros; reflexivity|exact Hvw|intros; reflexivity|exact H]. }
  { intros m y Hm Ly. destruct (grad_theta_val N P m U y ltac:(lia) ltac:(apply HP; lia) ltac:(nia) ltac:(nia)) as (y' & Ey & Oy & A1 & A2). exists y'. auto. }
  rewrite Ea. cbn [obind].
  destruct (cols_loop (grad_phi P U N) (fun m v => isprod (N + 1 - m) (Tmat m) v (fun i => - IZR m * vec (N * (2 * m)) U i)%R) (fun m v => isprod (N + 1 - m) (Tmat m) v (fun i => IZR m * vec (N * (2 * m - 1)) U i)%R) N h b) as (b' & Eb & Lb' & Ob & Vb).
  { lia. } { lia. }
  { intros m v w Hm Hvw H. eapply isprod_ext; [intros; reflexivity|exact Hvw|intros; reflexivity|exact H]. }
  { intros m v w Hm Hvw H. eapply isprod_ext; [intros; reflexivity|exact Hvw|intros; reflexivity|exact H]. }
  { intros m y Hm Ly. destruct (grad_phi_val N P m U y ltac:(lia) ltac:(apply HP; lia) ltac:(nia) ltac:(nia)) as (y' & Ey & Oy & A1 & A2). exists y'. auto. }
  rewrite Eb. cbn [obind]. exists a', b'. split; [reflexivity|]. split; [lia|]. split; [lia|].
  assert (Ta : forall p, p < N -> nthZ 0%R a' p = nthZ 0%R a p) by (intros p Hp; unfold nthZ; now rewrite Oa).
  assert (Tb : forall p, p < N -> nthZ 0%R b' p = nthZ 0%R b p) by (intros p Hp; unfold nthZ; now rewrite Ob).
  split; [intros l Hl; rewrite Ta by lia; apply W1; lia|]. split; [rewrite Ta by lia; exact W2|]. split; [intros l Hl; rewrite Tb by lia; apply W3; lia|].
  intros m Hm. destruct (Va m Hm), (Vb m Hm). auto.
Qed.
