(** * Chebyshev normalisation *)
From Coq Require Import ZArith List Lia Bool ZifyBool ZifyNat Reals Lra.
From Verif Require Import Base BaseFacts Arith PPermute MDrivers SpecRot SpecDrivers PDrivers.
Import ListNotations.
Open Scope Z_scope.

Section Pw.
Context {F : Type} `{Arith F}.
(** every entry [p] is replaced by [f p] of it *)
Definition pw (f : Z -> F -> F) (A A' : list F) : Prop :=
  zlen A' = zlen A /\ forall p, zget A' p = option_map (f p) (zget A p).
Lemma pw_id A : pw (fun _ x => x) A A.
Proof. split; auto. intros p. now destruct (zget A p). Qed.
Lemma pw_seq f g A B C : pw f A B -> pw g B C -> pw (fun p x => g p (f p x)) A C.
Proof. intros [L1 H1] [L2 H2]. split; [lia|]. intros p. rewrite H2, H1. now destruct (zget A p). Qed.
Lemma pw_ext f g A A' : (forall p x, 0 <= p < zlen A -> f p x = g p x) -> pw f A A' -> pw g A A'.
Proof.
  intros E [L X]. split; auto. intros p. rewrite X. destruct (zget A p) eqn:Q; auto. cbn. f_equal. apply E. now apply zget_range in Q.
Qed.
Lemma pw_scale v A o : 0 <= o < zlen A -> exists A', scale_at v A o = Some A' /\ pw (fun p x => if p =? o then mul x v else x) A A'.
Proof.
  intros Ho. unfold scale_at. destruct (zget_ex A o Ho) as [x E]. rewrite E. cbn [obind].
  rewrite zset_some by lia. eexists. split; [reflexivity|]. split. { apply zlen_zupd. }
  intros p. destruct (Z.eq_dec p o) as [->|Ne].
  - rewrite zget_zupd_same by lia. rewrite E. cbn. now rewrite Z.eqb_refl.
  - rewrite zget_zupd_other by auto. replace (p =? o) with false by lia. now destruct (zget A p).
Qed.
Lemma pw_range v o n A (at_ : Z -> Z) : 0 <= o -> 0 <= n -> o + n <= zlen A -> (forall i, at_ i = o + i) ->
  exists A', for_up 0 n (fun i A => scale_at v A (at_ i)) A = Some A' /\
    pw (fun p x => if (o <=? p) && (p <? o + n) then mul x v else x) A A'.
Proof.
  intros Ho Hn Hl Ha.
  destruct (for_up_inv (fun k B => pw (fun p x => if (o <=? p) && (p <? o + k) then mul x v else x) A B) 0 n
    (fun i A => scale_at v A (at_ i)) A Hn) as (A' & E & P).
  - eapply pw_ext; [|apply pw_id]. intros p x Hp. cbv beta. now replace ((o <=? p) && (p <? o + 0)) with false by lia.
  - intros k B Hk PB. destruct (pw_scale v B (at_ k)) as (B' & E & P'). { destruct PB. rewrite Ha. lia. }
    exists B'. split; auto. eapply pw_ext; [|apply (pw_seq _ _ _ _ _ PB P')]. intros p x Hp. cbv beta. rewrite Ha.
    destruct (p =? o + k) eqn:C.
    + replace ((o <=? p) && (p <? o + k)) with false by lia. now replace ((o <=? p) && (p <? o + (k + 1))) with true by lia.
    + now replace ((o <=? p) && (p <? o + (k + 1))) with ((o <=? p) && (p <? o + k)) by lia.
  - eauto.
Qed.
(** a loop over consecutive blocks of [W] entries *)
Lemma pw_blocks g W n base A body : 0 <= n -> 0 <= W -> 0 <= base -> base + n * W <= zlen A ->
  (forall j B, 0 <= j < n -> zlen B = zlen A -> exists B', body j B = Some B' /\
     pw (fun p x => if (base + j * W <=? p) && (p <? base + j * W + W) then g p x else x) B B') ->
  exists A', for_up 0 n body A = Some A' /\ pw (fun p x => if (base <=? p) && (p <? base + n * W) then g p x else x) A A'.
Proof.
  intros Hn HW Hb Hl HB.
  destruct (for_up_inv (fun k B => pw (fun p x => if (base <=? p) && (p <? base + k * W) then g p x else x) A B) 0 n body A Hn) as (A' & E & P).
  - eapply pw_ext; [|apply pw_id]. intros p x Hp. cbv beta. now replace ((base <=? p) && (p <? base + 0 * W)) with false by lia.
  - intros k B Hk PB. destruct (HB k B Hk) as (B' & E & P'). { apply PB. }
    exists B'. split; auto. eapply pw_ext; [|apply (pw_seq _ _ _ _ _ PB P')]. intros p x Hp. cbv beta.
    replace (base + (k + 1) * W) with (base + k * W + W) by ring. pose proof (Z.mul_nonneg_nonneg k W).
    set (kW := k * W) in *. clearbody kW.
    destruct ((base + kW <=? p) && (p <? base + kW + W)) eqn:C.
    + replace ((base <=? p) && (p <? base + kW)) with false by lia. now replace ((base <=? p) && (p <? base + kW + W)) with true by lia.
    + now replace ((base <=? p) && (p <? base + kW + W)) with ((base <=? p) && (p <? base + kW)) by lia.
  - eauto.
Qed.

Variables (s q : F).
Definition mz (c : bool) (x : F) : F := if c then mul x s else x.

Lemma cheb_col N o A (at_ : Z -> Z) : 0 < N -> 0 <= o -> o + N <= zlen A -> (forall i, at_ i = o + i) ->
  exists A', (do A <- scale_at s A o; for_up 0 N (fun i A => scale_at q A (at_ i)) A) = Some A' /\
    pw (fun p x => if (o <=? p) && (p <? o + N) then mul (mz (p =? o) x) q else x) A A'.
Proof.
  intros HN Ho Hl Ha. destruct (pw_scale s A o ltac:(lia)) as (A1 & E1 & P1). rewrite E1. cbn [obind].
  destruct (pw_range q o N A1 at_) as (A2 & E2 & P2); auto; try lia. { destruct P1; lia. }
  exists A2. split; auto. eapply pw_ext; [|apply (pw_seq _ _ _ _ _ P1 P2)]. intros p x Hp. cbv beta. unfold mz.
  destruct ((o <=? p) && (p <? o + N)) eqn:C; auto. now replace (p =? o) with false by lia.
Qed.

Lemma cheb2 N M A : 1 <= N -> 1 <= M -> zlen A = N * M -> exists A', chebyshev_normalization_2d s q N M A = Some A' /\ zlen A' = zlen A /\
  forall i j, 0 <= i < N -> 0 <= j < M ->
    zget A' (i + j * N) = option_map (fun x => mul (mz (i =? 0) (mz (j =? 0) x)) q) (zget A (i + j * N)).
Proof.
  intros HN HM LA. unfold chebyshev_normalization_2d.
  assert (HNM : N <= N * M). { rewrite <- (Z.mul_1_r N) at 1. apply Z.mul_le_mono_nonneg_l; lia. }
  destruct (pw_range s 0 N A (fun i => i)) as (A1 & E1 & P1); auto; try lia. cbv beta in E1. rewrite E1. cbn [obind].
  destruct (pw_blocks (fun p x => mul (mz (p mod N =? 0) x) q) N M 0 A1
    (fun j A => do A <- scale_at s A (j * N); for_up 0 N (fun i A => scale_at q A (i + j * N)) A)) as (A2 & E2 & P2); try lia.
  { destruct P1; lia. }
  { intros j B Hj LB. destruct P1 as [L1 _].
    pose proof (mul_lt_le j M N). pose proof (Z.mul_nonneg_nonneg j N).
    destruct (cheb_col N (j * N) B (fun i => i + j * N)) as (B' & E & P); try lia.
    exists B'. split; auto. eapply pw_ext; [|exact P]. intros p x Hp. cbv beta. rewrite Z.add_0_l.
    destruct ((j * N <=? p) && (p <? j * N + N)) eqn:C; auto.
    replace (p mod N =? 0) with (p =? j * N); auto.
    replace p with (p - j * N + j * N) at 2 by lia. rewrite Z.mod_add by lia. rewrite Z.mod_small by lia. lia. }
  rewrite E2. exists A2. split; auto. pose proof (pw_seq _ _ _ _ _ P1 P2) as [L P]. split; auto.
  intros i j Hi Hj. rewrite P. pose proof (mul_lt_le j M N). pose proof (Z.mul_nonneg_nonneg j N).
  replace ((0 <=? i + j * N) && (i + j * N <? 0 + M * N)) with true by lia.
  rewrite Z.mod_add, Z.mod_small by lia.
  replace ((0 <=? i + j * N) && (i + j * N <? 0 + N)) with (j =? 0); auto.
  destruct (Z.eq_dec j 0) as [->|]; [lia|]. pose proof (mul_lt_le 0 j N). lia.
Qed.

Lemma cheb3 N L M A : 1 <= N -> 1 <= L -> 1 <= M -> zlen A = N * L * M ->
  exists A', chebyshev_normalization_3d s q N L M A = Some A' /\ zlen A' = zlen A /\
  forall i j k, 0 <= i < N -> 0 <= j < L -> 0 <= k < M ->
    zget A' (i + (j + k * L) * N) =
    option_map (fun x => mul (mz (i =? 0) (mz (j =? 0) (mz (k =? 0) x))) q) (zget A (i + (j + k * L) * N)).
Proof.
  intros HN HL HM LA. unfold chebyshev_normalization_3d.
  remember (N * L) as W eqn:DW. assert (HW : N <= W) by (rewrite DW; rewrite <- (Z.mul_1_r N) at 1; apply Z.mul_le_mono_nonneg_l; lia).
  assert (HWM : W <= W * M). { rewrite <- (Z.mul_1_r W) at 1. apply Z.mul_le_mono_nonneg_l; lia. }
  destruct (pw_blocks (fun p x => mul x s) N L 0 A (fun j A => for_up 0 N (fun i A => scale_at s A (i + j * N)) A)) as (A1 & E1 & P1); try lia.
  { intros j B Hj LB. pose proof (mul_lt_le j L N). pose proof (Z.mul_nonneg_nonneg j N).
    apply (pw_range s (0 + j * N) N B (fun i => i + j * N)); lia. }
  rewrite E1. cbn [obind]. pose proof (proj1 P1) as L1.
  destruct (pw_blocks (fun p x => mul (mz (p mod N =? 0) (mz (p mod W <? N) x)) q) W M 0 A1 (fun k A =>
    do A <- for_up 0 N (fun i A => scale_at s A (i + k * L * N)) A;
    for_up 0 L (fun j A =>
      do A <- scale_at s A ((j + k * L) * N);
      for_up 0 N (fun i A => scale_at q A (i + (j + k * L) * N)) A) A)) as (A2 & E2 & P2); try lia.
  { intros k B Hk LB. pose proof (mul_lt_le k M W). pose proof (Z.mul_nonneg_nonneg k W).
    destruct (pw_range s (k * W) N B (fun i => i + k * L * N)) as (B1 & F1 & Q1); try lia.
    rewrite F1. cbn [obind]. pose proof (proj1 Q1) as M1.
    destruct (pw_blocks (fun p x => mul (mz (p mod N =? 0) x) q) N L (k * W) B1 (fun j A =>
      do A <- scale_at s A ((j + k * L) * N);
      for_up 0 N (fun i A => scale_at q A (i + (j + k * L) * N)) A)) as (B2 & F2 & Q2); try (lia).
    { intros j C Hj LC. pose proof (mul_lt_le j L N). pose proof (Z.mul_nonneg_nonneg j N).
      replace ((j + k * L) * N) with (k * W + j * N) by (rewrite DW; ring).
      destruct (cheb_col N (k * W + j * N) C (fun i => i + (k * W + j * N))) as (C' & E & P); try (lia).
      exists C'. split; auto. eapply pw_ext; [|exact P]. intros p x Hp. cbv beta.
      destruct ((k * W + j * N <=? p) && (p <? k * W + j * N + N)) eqn:Cc; auto.
      replace (p mod N =? 0) with (p =? k * W + j * N); auto.
      replace p with (p - (k * W + j * N) + (k * L + j) * N) at 2 by (rewrite DW; ring). rewrite Z.mod_add by lia.
      rewrite Z.mod_small by lia. lia. }
    exists B2. split; auto. eapply pw_ext; [|apply (pw_seq _ _ _ _ _ Q1 Q2)]. intros p x Hp. cbv beta.
    replace (k * W + L * N) with (k * W + W) by (rewrite DW; ring). rewrite Z.add_0_l.
    destruct ((k * W <=? p) && (p <? k * W + W)) eqn:Cc.
    - replace (p mod W <? N) with ((k * W <=? p) && (p <? k * W + N)); auto.
      replace p with (p - k * W + k * W) at 3 by lia. rewrite Z.mod_add by lia. rewrite Z.mod_small by lia. lia.
    - now replace ((k * W <=? p) && (p <? k * W + N)) with false by lia. }
  rewrite E2. exists A2. split; auto. pose proof (pw_seq _ _ _ _ _ P1 P2) as [LL P]. split; auto.
  intros i j k Hi Hj Hk. rewrite P.
  pose proof (mul_lt_le j L N). pose proof (Z.mul_nonneg_nonneg j N).
  pose proof (mul_lt_le k M W). pose proof (Z.mul_nonneg_nonneg k W).
  assert (EP : i + (j + k * L) * N = i + j * N + k * W) by (rewrite DW; ring).
  assert (EM : (i + (j + k * L) * N) mod N = i) by (rewrite Z.mod_add, Z.mod_small by lia; auto).
  assert (EW : (i + (j + k * L) * N) mod W = i + j * N) by (rewrite EP, Z.mod_add, Z.mod_small by (lia); auto).
  rewrite EM, EW, EP.
  replace ((0 <=? i + j * N + k * W) && (i + j * N + k * W <? 0 + M * W)) with true by (lia).
  replace (i + j * N <? N) with (j =? 0) by (destruct (Z.eq_dec j 0) as [->|]; [lia|pose proof (mul_lt_le 0 j N); lia]).
  replace ((0 <=? i + j * N + k * W) && (i + j * N + k * W <? 0 + L * N)) with (k =? 0); auto.
  destruct (Z.eq_dec k 0) as [->|]; [lia|pose proof (mul_lt_le 0 k W); lia].
Qed.
End Pw.

(** normalisation and its transpose undo each other *)
Lemma cheb2_inv s s' q q' N M A : 1 <= N -> 1 <= M -> zlen A = N * M -> (s * s' = 1)%R -> (q * q' = 1)%R ->
  exists B, chebyshev_normalization_2d s q N M A = Some B /\ chebyshev_normalization_2d s' q' N M B = Some A.
Proof.
  intros HN HM LA Hs Hq.
  destruct (cheb2 s q N M A) as (B & E & L & P); auto. destruct (cheb2 s' q' N M B) as (C & E2 & L2 & P2); auto; [lia|].
  exists B. split; auto. rewrite E2. f_equal. apply (zget_ext_in _ _ (eq_trans L2 L)). intros p Hp.
  destruct (pos_split N M p) as (i & j & Hi & Hj & ->); try lia. rewrite P2, P by auto.
  destruct (zget_ex A (i + j * N) ltac:(lia)) as [x ->]. cbn [option_map]. f_equal. unfold mz. cbn.
  destruct (i =? 0), (j =? 0).
  - replace (x * s * s * q * s' * s' * q')%R with (x * (s * s') * (s * s') * (q * q'))%R by ring. rewrite Hs, Hq. ring.
  - replace (x * s * q * s' * q')%R with (x * (s * s') * (q * q'))%R by ring. rewrite Hs, Hq. ring.
  - replace (x * s * q * s' * q')%R with (x * (s * s') * (q * q'))%R by ring. rewrite Hs, Hq. ring.
  - replace (x * q * q')%R with (x * (q * q'))%R by ring. rewrite Hq. ring.
Qed.
Lemma cheb3_inv s s' q q' N L M A : 1 <= N -> 1 <= L -> 1 <= M -> zlen A = N * L * M -> (s * s' = 1)%R -> (q * q' = 1)%R ->
  exists B, chebyshev_normalization_3d s q N L M A = Some B /\ chebyshev_normalization_3d s' q' N L M B = Some A.
Proof.
  intros HN HL HM LA Hs Hq.
  destruct (cheb3 s q N L M A) as (B & E & Ln & P); auto. destruct (cheb3 s' q' N L M B) as (C & E2 & L2 & P2); auto; [lia|].
  exists B. split; auto. rewrite E2. f_equal. apply (zget_ext_in _ _ (eq_trans L2 Ln)). intros p Hp.
  assert (0 < N * L) by (apply Z.mul_pos_pos; lia).
  destruct (pos_split (N * L) M p) as (r & k & Hr & Hk & ->); try lia.
  destruct (pos_split N L r) as (i & j & Hi & Hj & ->); try lia.
  replace (i + j * N + k * (N * L)) with (i + (j + k * L) * N) in * by ring. rewrite P2, P by auto.
  destruct (zget_ex A (i + (j + k * L) * N) ltac:(lia)) as [x ->]. cbn [option_map]. f_equal. unfold mz. cbn.
  assert (X : forall x, (x * s * s' = x)%R) by (intros y; rewrite Rmult_assoc, Hs; ring).
  assert (Y : forall x, (x * q * q' = x)%R) by (intros y; rewrite Rmult_assoc, Hq; ring).
  destruct (i =? 0), (j =? 0), (k =? 0); rewrite <- (Y x) at 2;
    repeat match goal with |- context[(?a * s * q)%R] => replace (a * s * q)%R with (a * q * s)%R by ring end;
    rewrite ?X; try ring; rewrite <- (X x) at 2; try ring; rewrite <- (X x) at 2; try ring; rewrite <- (X x) at 2; ring.
Qed.
