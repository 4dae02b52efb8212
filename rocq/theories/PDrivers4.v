(** * Drivers undo each other and keep the norm of the whole coefficient array *)
From Coq Require Import ZArith List Lia Bool ZifyBool ZifyNat Reals Lra.
From Verif Require Import Base BaseFacts Arith SpecSum PSum MPermute PPermute MRotations SpecRot PRot PRotBlock PRotKernels
  PRotFam PRotInv PRotMore PRotThms MDrivers SpecDrivers PDrivers PDrivers2 PDrivers3.
Import ListNotations.
Open Scope Z_scope.

(** ** Programs that work inside a region *)
Section Local.
Context {F : Type}.
Variable Len : Z.
Definition local (X : Z -> Prop) (b : list F -> option (list F)) : Prop :=
  (forall p, X p \/ ~ X p) /\
  forall A, zlen A = Len -> exists A', b A = Some A' /\ zlen A' = Len /\
    (forall p, ~ X p -> zget A' p = zget A p) /\
    (forall B B', zlen B = Len -> (forall p, X p -> zget B p = zget A p) -> b B = Some B' ->
       forall p, X p -> zget B' p = zget A' p).

Lemma local_ret (X : Z -> Prop) : (forall p, X p \/ ~ X p) -> local X (fun A => Some A).
Proof. intros D. split; auto. intros A LA. exists A. split; auto. split; auto. split; auto. intros B B' LB E [= <-]. auto. Qed.

Lemma local_seq X b c : local X b -> local X c -> local X (fun A => do A <- b A; c A).
Proof.
  intros [D Hb] [_ Hc]. split; auto. intros A LA.
  destruct (Hb A LA) as (A1 & E1 & L1 & O1 & I1). destruct (Hc A1 L1) as (A2 & E2 & L2 & O2 & I2).
  exists A2. rewrite E1. cbn [obind]. split; auto. split; auto. split.
  - intros p Hp. rewrite O2, O1; auto.
  - intros B B' LB EB E. destruct (Hb B LB) as (B1 & F1 & M1 & _ & _). rewrite F1 in E. cbn [obind] in E.
    apply (I2 B1 B'); auto. intros p Hp. apply (I1 B B1); auto.
Qed.

Lemma local_mono (X Y : Z -> Prop) b : (forall p, Y p \/ ~ Y p) -> (forall p, X p -> Y p) -> local X b -> local Y b.
Proof.
  intros DY S [D Hb]. split; auto. intros A LA. destruct (Hb A LA) as (A1 & E1 & L1 & O1 & I1).
  exists A1. split; auto. split; auto. split.
  - intros p Hp. apply O1. intros Q. apply Hp. auto.
  - intros B B' LB EB E p Hp. destruct (D p) as [Q|Q].
    + apply (I1 B B'); auto.
    + rewrite O1 by auto. destruct (Hb B LB) as (B1 & F1 & _ & O2 & _). rewrite E in F1. injection F1 as <-.
      rewrite O2 by auto. auto.
Qed.

Lemma local_up (X : Z -> Prop) lo hi b : (forall p, X p \/ ~ X p) -> (forall m, lo <= m < hi -> local X (b m)) -> local X (for_up lo hi b).
Proof.
  intros D H. unfold for_up. set (k := Z.to_nat (hi - lo)).
  assert (forall j : nat, (j < k)%nat -> local X (b (lo + Z.of_nat j))) as H' by (intros; apply H; lia).
  clearbody k. clear H. induction k as [|k IH]; cbn [itero]. { now apply local_ret. }
  apply (local_seq X (itero k (fun i => b (lo + Z.of_nat i))) (b (lo + Z.of_nat k))).
  - apply IH. intros; apply H'; lia.
  - apply H'; lia.
Qed.

Lemma local_ext X b c : (forall A, b A = c A) -> local X b -> local X c.
Proof.
  intros E [D Hb]. split; auto. intros A LA. destruct (Hb A LA) as (A1 & E1 & L1 & O1 & I1).
  exists A1. rewrite <- E. repeat split; auto. intros B B'. rewrite <- E. apply I1.
Qed.

(** a loop of local bodies on disjoint regions *)
Section Loop.
Variables (lo hi : Z) (X : Z -> Z -> Prop) (b : Z -> list F -> option (list F)).
Hypothesis Hlo : lo <= hi.
Hypothesis HB : forall m, lo <= m < hi -> local (X m) (b m).
Hypothesis HX : forall m m' p, lo <= m < hi -> lo <= m' < hi -> m <> m' -> X m p -> ~ X m' p.

Lemma loop_local A : zlen A = Len -> exists A', for_up lo hi b A = Some A' /\ zlen A' = Len /\
  (forall p, (forall m, lo <= m < hi -> ~ X m p) -> zget A' p = zget A p) /\
  (forall m B, lo <= m < hi -> b m A = Some B -> forall p, X m p -> zget A' p = zget B p).
Proof.
  intros LA.
  destruct (for_up_inv (fun k C => zlen C = Len /\
     (forall p, (forall m, lo <= m < k -> ~ X m p) -> zget C p = zget A p) /\
     (forall m B, lo <= m < k -> b m A = Some B -> forall p, X m p -> zget C p = zget B p)) lo hi b A Hlo) as (A' & E & L & O & I).
  - split; [auto|]. split; [auto|]. intros; lia.
  - intros k C Hk (LC & OC & IC).
    destruct (HB k Hk) as [D H1]. destruct (H1 C LC) as (C' & E & L & O & I).
    exists C'. split; auto. split; auto. split.
    + intros p Hp. rewrite O by (apply Hp; lia). apply OC. intros; apply Hp; lia.
    + intros m B Hm EB p Hp. destruct (Z.eq_dec m k) as [->|N].
      * symmetry. apply (I A B); auto. intros q Hq. symmetry. apply OC. intros m' Hm' Hq'.
        apply (HX k m' q); auto; lia.
      * rewrite O. { apply (IC m B); auto; lia. } apply (HX m k); auto; lia.
  - exists A'. auto.
Qed.
End Loop.

Definition inv_all (b c : list F -> option (list F)) : Prop :=
  forall A, zlen A = Len -> exists B, b A = Some B /\ zlen B = Len /\ c B = Some A.

Lemma inv_seq b b' c c' : inv_all b b' -> inv_all c c' -> inv_all (fun A => do A <- b A; c A) (fun A => do A <- c' A; b' A).
Proof.
  intros Hb Hc A LA. destruct (Hb A LA) as (B & E & L & E'). destruct (Hc B L) as (C & G & M & G').
  exists C. rewrite E. cbn [obind]. rewrite G'. auto.
Qed.

Lemma inv_loop lo hi (X : Z -> Z -> Prop) b c : lo <= hi ->
  (forall m, lo <= m < hi -> local (X m) (b m)) -> (forall m, lo <= m < hi -> local (X m) (c m)) ->
  (forall m m' p, lo <= m < hi -> lo <= m' < hi -> m <> m' -> X m p -> ~ X m' p) ->
  (forall m, lo <= m < hi -> inv_all (b m) (c m)) ->
  inv_all (for_up lo hi b) (for_up lo hi c).
Proof.
  intros Hlo HB HC HX HI A LA.
  destruct (loop_local lo hi X b Hlo HB HX A LA) as (A' & E & L & O & I).
  destruct (loop_local lo hi X c Hlo HC HX A' L) as (A2 & E2 & L2 & O2 & I2).
  exists A'. split; auto. split; auto. rewrite E2. f_equal.
  apply zget_ext. intros p.
  assert (K : (exists m, lo <= m < hi /\ X m p) \/ (forall m, lo <= m < hi -> ~ X m p)).
  { clear - HB Hlo. set (k := Z.to_nat (hi - lo)).
    assert (H : (exists m, lo <= m < lo + Z.of_nat k /\ X m p) \/ (forall m, lo <= m < lo + Z.of_nat k -> ~ X m p)).
    { assert (Hk : lo + Z.of_nat k <= hi) by lia. clearbody k. induction k as [|k IH]. { right. intros; lia. }
      destruct IH as [(m & Hm & Q)|IH]; [lia|left; exists m; split; auto; lia|].
      destruct (HB (lo + Z.of_nat k) ltac:(lia)) as [D _]. destruct (D p) as [Q|Q].
      - left. exists (lo + Z.of_nat k). split; auto. lia.
      - right. intros m Hm. destruct (Z.eq_dec m (lo + Z.of_nat k)) as [->|]; auto. apply IH. lia. }
    replace (lo + Z.of_nat k) with hi in H by lia. exact H. }
  destruct K as [(m & Hm & Q)|K]; [|now rewrite O2, O].
  destruct (HI m Hm A LA) as (B & EB & LB & EB').
  destruct (HC m Hm) as [D HC']. destruct (HC' A' L) as (A3 & E3 & L3 & O3 & I3).
  rewrite (I2 m A3 Hm E3 p Q). symmetry. apply (I3 B A); auto.
  intros q Hq. symmetry. now apply (I m B Hm EB q).
Qed.
End Local.

(** ** A column kernel works inside its columns *)
Section RealLocal.
Context {F : Type} `{Arith F}.
Lemma foot_dec oA S n W : 0 <= W <= S -> forall p, foot oA S n W p \/ ~ foot oA S n W p.
Proof.
  intros HW p. destruct (Z.eq_dec S 0) as [->|HS].
  { right. intros (r & i & _ & Hi & _). lia. }
  destruct (Z_le_dec 0 (p - oA)) as [H1|H1].
  - pose proof (Z.div_mod (p - oA) S HS). pose proof (Z.mod_pos_bound (p - oA) S ltac:(lia)).
    pose proof (Z.div_pos (p - oA) S ltac:(lia) ltac:(lia)).
    destruct (Z_lt_dec ((p - oA) / S) n) as [Q3|Q3]; [destruct (Z_lt_dec ((p - oA) mod S) W) as [Q4|Q4]|].
    + left. exists ((p - oA) / S), ((p - oA) mod S). unfold addr. split; [lia|]. split; [lia|]. lia.
    + right. intros (r & i & Hr & Hi & E). unfold addr in E. apply Q4.
      replace (p - oA) with (i + r * S) by lia. rewrite Z.mod_add by lia. rewrite Z.mod_small; lia.
    + right. intros (r & i & Hr & Hi & E). unfold addr in E. apply Q3.
      replace (p - oA) with (i + r * S) by lia. rewrite Z.div_add by lia. rewrite Z.div_small; lia.
  - right. intros (r & i & Hr & Hi & E). unfold addr in E.
    pose proof (Z.mul_nonneg_nonneg r S ltac:(lia) ltac:(lia)). lia.
Qed.

Lemma real_local Len oA S n W p ops : 0 <= W <= S ->
  (forall A : list F, zlen A = Len -> columns_fit A oA S n W) ->
  (forall A0, real (minv oA S n W A0) (mview oA S n) W p ops) -> local Len (foot oA S n W) p.
Proof.
  intros HW Ft HR. split. { now apply foot_dec. }
  intros A LA. destruct (HR A A) as (A' & E & (L & _ & O) & V). { apply minv_refl. intros r i. apply (Ft A LA). }
  exists A'. split; auto. split; [lia|]. split; auto.
  intros B B' LB EB EB' q Hq.
  destruct (HR B B) as (B2 & E2 & (L2 & _ & O2) & V2). { apply minv_refl. intros r i. apply (Ft B LB). }
  rewrite EB' in E2. injection E2 as <-.
  destruct Hq as (r & i & Hr & Hi & ->).
  pose proof (Ft A LA r i Hr Hi) as Q. fold (addr oA S r i) in Q.
  rewrite !(zget_nthZ zero) by lia. f_equal.
  specialize (V i r Hi). specialize (V2 i r Hi). unfold mview at 1 in V. unfold mview at 1 in V2.
  replace ((0 <=? r) && (r <? n)) with true in * by lia. rewrite V, V2. apply run_ext. intros x.
  unfold mview. destruct ((0 <=? x) && (x <? n)) eqn:Ex; auto. unfold nthZ. rewrite EB; auto.
  exists x, i. repeat split; auto; lia.
Qed.

Lemma foot_contig oA S n p : 0 <= S -> foot oA S n S p -> oA <= p < oA + n * S.
Proof.
  intros HS (r & i & Hr & Hi & ->). unfold addr. pose proof (mul_lt_le r n S).
  pose proof (Z.mul_nonneg_nonneg r S). lia.
Qed.
End RealLocal.

(** ** Norm of the whole array *)
Lemma sumsq_sum n A oA S : sumsq n A oA S = sumZ n (fun r => (nthZ 0 A (oA + r * S) * nthZ 0 A (oA + r * S))%R).
Proof. unfold sumsq, sumZ. induction (Z.to_nat n); cbn [sumsq_n sumn]; auto. now rewrite IHn0. Qed.
Lemma sumZ_block n S f : 0 <= n -> 0 <= S -> sumZ (n * S) f = sumZ n (fun r => sumZ S (fun i => f (r * S + i))).
Proof.
  intros Hn HS. pattern n. apply natlike_ind; [reflexivity| |exact Hn].
  - intros x Hx IH. unfold Z.succ. rewrite Z.mul_add_distr_r, Z.mul_1_l, sumZ_app by (try apply Z.mul_nonneg_nonneg; lia).
    rewrite sumZ_S by lia. now rewrite IH.
Qed.
Lemma iso_frob (p : list R -> option (list R)) A oA S n : 0 <= n -> 0 <= S -> 0 <= oA -> oA + n * S <= zlen A ->
  isometry_on_columns p A oA S n S -> exists B, p A = Some B /\ zlen B = zlen A /\ frobenius2 B = frobenius2 A.
Proof.
  intros Hn HS Ho Hl (B & E & (L & O) & N). exists B. split; auto. split; auto.
  unfold frobenius2. rewrite !sumsq_sum, L.
  assert (HnS : 0 <= n * S) by (apply Z.mul_nonneg_nonneg; lia).
  assert (X : forall C, zlen C = zlen A -> sumZ (zlen A) (fun r => (nthZ 0 C (0 + r * 1) * nthZ 0 C (0 + r * 1))%R) =
    (sumZ oA (fun r => (nthZ 0 C r * nthZ 0 C r)%R) + sumZ S (fun i => sumsq n C (oA + i) S) +
     sumZ (zlen A - oA - n * S) (fun r => (nthZ 0 C (oA + n * S + r) * nthZ 0 C (oA + n * S + r))%R))%R).
  { intros C LC. rewrite (sumZ_split (zlen A) (oA + n * S)) by lia. rewrite sumZ_app by lia. f_equal; [f_equal|].
    - apply sumZ_ext. intros i Hi. do 2 f_equal; lia.
    - rewrite sumZ_block by lia. rewrite sumZ_swap. apply sumZ_ext. intros i Hi. rewrite sumsq_sum. apply sumZ_ext.
      intros r Hr. do 2 f_equal; lia.
    - replace (zlen A - (oA + n * S)) with (zlen A - oA - n * S) by lia. apply sumZ_ext. intros r Hr. do 2 f_equal; lia. }
  rewrite !X by lia. f_equal; [f_equal|].
  - apply sumZ_ext. intros r Hr. unfold nthZ. rewrite O; auto. intros r' i' Hr' Hi'.
    pose proof (Z.mul_nonneg_nonneg r' S). lia.
  - apply sumZ_ext. intros i Hi. now apply N.
  - apply sumZ_ext. intros r Hr. unfold nthZ. rewrite O; auto. intros r' i' Hr' Hi'.
    pose proof (mul_lt_le r' n S). lia.
Qed.

Definition keeps (Len : Z) (b : list R -> option (list R)) : Prop :=
  forall A, zlen A = Len -> exists B, b A = Some B /\ zlen B = Len /\ frobenius2 B = frobenius2 A.
Lemma keeps_seq Len b c : keeps Len b -> keeps Len c -> keeps Len (fun A => do A <- b A; c A).
Proof.
  intros Hb Hc A LA. destruct (Hb A LA) as (B & E & L & N). destruct (Hc B L) as (C & E' & L' & N').
  exists C. rewrite E. cbn [obind]. repeat split; auto. congruence.
Qed.
Lemma keeps_up Len lo hi b : (forall m, lo <= m < hi -> keeps Len (b m)) -> keeps Len (for_up lo hi b).
Proof.
  intros H A LA. destruct (Z_le_dec lo hi) as [Hl|Hl].
  - destruct (for_up_inv (fun _ C => zlen C = Len /\ frobenius2 C = frobenius2 A) lo hi b A Hl) as (B & E & L & N); eauto.
    intros m C Hm (LC & NC). destruct (H m Hm C LC) as (D & E & L & N). exists D. repeat split; auto. congruence.
  - unfold for_up. replace (Z.to_nat (hi - lo)) with O by lia. exists A. auto.
Qed.

(** ** Pairs of programs that undo each other inside a region *)
Section Good.
Variable Len : Z.
Definition good_pair (X : Z -> Prop) (b c : list R -> option (list R)) : Prop :=
  local Len X b /\ local Len X c /\ inv_all Len b c /\ inv_all Len c b /\ keeps Len b /\ keeps Len c.

Lemma good_final X b c A : good_pair X b c -> zlen A = Len ->
  mutually_inverse_on b c A /\ keeps_frobenius b A /\ keeps_frobenius c A.
Proof.
  intros (_ & _ & I1 & I2 & K1 & K2) LA. split; [|split].
  - split; [destruct (I1 A LA) as (B & E & _ & G)|destruct (I2 A LA) as (B & E & _ & G)]; eauto.
  - destruct (K1 A LA) as (B & E & L & N). exists B. rewrite L, N. auto.
  - destruct (K2 A LA) as (B & E & L & N). exists B. rewrite L, N. auto.
Qed.
Lemma good_mono (X Y : Z -> Prop) b c : (forall p, Y p \/ ~ Y p) -> (forall p, X p -> Y p) -> good_pair X b c -> good_pair Y b c.
Proof.
  intros D S (L1 & L2 & I1 & I2 & K1 & K2). repeat (split; auto); apply (local_mono Len X Y); auto.
Qed.
Lemma good_sym X b c : good_pair X b c -> good_pair X c b.
Proof. unfold good_pair. tauto. Qed.
(** one after the other, undone in reverse order *)
Lemma good_seq X b c b' c' : good_pair X b c -> good_pair X b' c' ->
  good_pair X (fun A => do A <- b A; b' A) (fun A => do A <- c' A; c A).
Proof.
  intros (L1 & L2 & I1 & I2 & K1 & K2) (M1 & M2 & J1 & J2 & Q1 & Q2).
  split; [now apply local_seq|]. split; [now apply local_seq|].
  split; [now apply (inv_seq Len b c b' c')|]. split; [now apply (inv_seq Len c' b' c b)|]. split; now apply keeps_seq.
Qed.
(** a loop over disjoint regions, undone by the loop in the same order *)
Lemma good_loop lo hi (X : Z -> Z -> Prop) (Y : Z -> Prop) b c : lo <= hi ->
  (forall p, Y p \/ ~ Y p) -> (forall m p, lo <= m < hi -> X m p -> Y p) ->
  (forall m m' p, lo <= m < hi -> lo <= m' < hi -> m <> m' -> X m p -> ~ X m' p) ->
  (forall m, lo <= m < hi -> good_pair (X m) (b m) (c m)) ->
  good_pair Y (for_up lo hi b) (for_up lo hi c).
Proof.
  intros Hl D S HX HG.
  assert (H1 : forall m, lo <= m < hi -> local Len (X m) (b m)) by (intros m Hm; apply (HG m Hm)).
  assert (H2 : forall m, lo <= m < hi -> local Len (X m) (c m)) by (intros m Hm; apply (HG m Hm)).
  split. { apply local_up; auto. intros m Hm. apply (local_mono Len (X m) Y); eauto. }
  split. { apply local_up; auto. intros m Hm. apply (local_mono Len (X m) Y); eauto. }
  split. { apply (inv_loop Len lo hi X); auto. intros m Hm. apply (HG m Hm). }
  split. { apply (inv_loop Len lo hi X); auto. intros m Hm. apply (HG m Hm). }
  split; apply keeps_up; intros m Hm; apply (HG m Hm).
Qed.
Lemma good_ret (X : Z -> Prop) : (forall p, X p \/ ~ X p) -> good_pair X (fun A => Some A) (fun A => Some A).
Proof.
  intros D. split; [now apply local_ret|]. split; [now apply local_ret|].
  unfold inv_all, keeps. repeat split; intros A LA; exists A; auto.
Qed.
Lemma good_empty (X : Z -> Prop) lo hi b c : (forall p, X p \/ ~ X p) -> hi <= lo -> good_pair X (for_up lo hi b) (for_up lo hi c).
Proof.
  intros D Hl. unfold for_up. replace (Z.to_nat (hi - lo)) with O by lia. now apply good_ret.
Qed.
(** two disjoint regions *)
Lemma good_ext X b c b' c' : (forall A, b A = b' A) -> (forall A, c A = c' A) -> good_pair X b c -> good_pair X b' c'.
Proof.
  intros E1 E2 (L1 & L2 & I1 & I2 & K1 & K2).
  split; [now apply (local_ext Len X b b')|]. split; [now apply (local_ext Len X c c')|].
  split. { intros A LA. destruct (I1 A LA) as (B & E & L & G). exists B. now rewrite <- E1, <- E2. }
  split. { intros A LA. destruct (I2 A LA) as (B & E & L & G). exists B. now rewrite <- E1, <- E2. }
  split; intros A LA; rewrite <- ?E1, <- ?E2; auto.
Qed.
Lemma good_par (X1 X2 Y : Z -> Prop) b1 c1 b2 c2 : (forall p, Y p \/ ~ Y p) -> (forall p, X1 p -> Y p) -> (forall p, X2 p -> Y p) ->
  (forall p, X1 p -> ~ X2 p) -> good_pair X1 b1 c1 -> good_pair X2 b2 c2 ->
  good_pair Y (fun A => do A <- b1 A; b2 A) (fun A => do A <- c1 A; c2 A).
Proof.
  intros D S1 S2 N G1 G2.
  apply (good_ext Y (for_up 0 2 (fun m => if m =? 0 then b1 else b2)) (for_up 0 2 (fun m => if m =? 0 then c1 else c2))).
  - intros A. reflexivity. - intros A. reflexivity.
  - apply (good_loop 0 2 (fun m => if m =? 0 then X1 else X2)); auto; try lia.
    + intros m p Hm. destruct (m =? 0); auto.
    + intros m m' p Hm Hm' Q. destruct (m =? 0) eqn:E1, (m' =? 0) eqn:E2; try lia; auto. intros X Y'. apply (N p); auto.
    + intros m Hm. destruct (m =? 0); auto.
Qed.
End Good.

(** ** Kernel pairs *)
Definition interval (lo hi p : Z) : Prop := lo <= p < hi.
Lemma interval_dec lo hi p : interval lo hi p \/ ~ interval lo hi p. Proof. unfold interval. lia. Qed.

Lemma kernel_good Len oA S n (b c : list R -> option (list R)) ob oc : 0 <= n -> 0 <= S -> 0 <= oA -> oA + n * S <= Len ->
  (forall A0, real (minv oA S n S A0) (mview oA S n) S b ob) -> (forall A0, real (minv oA S n S A0) (mview oA S n) S c oc) ->
  (forall A, columns_fit A oA S n S -> mutually_inverse_on b c A) ->
  (forall A, columns_fit A oA S n S -> isometry_on_columns b A oA S n S /\ isometry_on_columns c A oA S n S) ->
  good_pair Len (interval oA (oA + n * S)) b c.
Proof.
  intros Hn HS Ho HL Rb Rc HI HN.
  assert (Ft : forall A : list R, zlen A = Len -> columns_fit A oA S n S).
  { intros A LA r i Hr Hi. pose proof (mul_lt_le r n S). pose proof (Z.mul_nonneg_nonneg r S). lia. }
  assert (M : forall p ops, (forall A0, real (minv oA S n S A0) (mview oA S n) S p ops) -> local Len (interval oA (oA + n * S)) p).
  { intros p ops Hp. apply (local_mono Len (foot oA S n S)). - apply interval_dec.
    - intros q Hq. apply foot_contig in Hq; auto. - apply (real_local Len oA S n S p ops); auto; lia. }
  split; [eauto|]. split; [eauto|].
  assert (K1 : keeps Len b). { intros A LA. destruct (HN A (Ft A LA)) as [N1 _].
    destruct (iso_frob b A oA S n) as (B & E & L & N); auto; try lia. exists B. rewrite L. auto. }
  assert (K2 : keeps Len c). { intros A LA. destruct (HN A (Ft A LA)) as [_ N1].
    destruct (iso_frob c A oA S n) as (B & E & L & N); auto; try lia. exists B. rewrite L. auto. }
  split. { intros A LA. destruct (HI A (Ft A LA)) as [(B & E & G) _]. destruct (K1 A LA) as (B' & E' & L & _).
    rewrite E in E'. injection E' as <-. eauto. }
  split; auto. intros A LA. destruct (HI A (Ft A LA)) as [_ (B & E & G)]. destruct (K2 A LA) as (B' & E' & L & _).
    rewrite E in E'. injection E' as <-. eauto.
Qed.

(** a pair of column kernels *)
Definition good_kernels (N : Z) (P : Z -> Z -> Prop) (k k' : kern R) : Prop :=
  forall Len oA m1 m2, P m1 m2 -> 0 <= oA -> oA + N <= Len ->
    good_pair Len (interval oA (oA + N)) (fun A => k m1 m2 A oA 1) (fun A => k' m1 m2 A oA 1).

Section Kernels.
Variable RP : rotplan R.
Let N := rp_n RP.
Lemma acts1 k opf : acts_on_column N k opf -> forall oA m1 m2, 0 <= m1 <= m2 ->
  forall A0 : list R, real (minv oA 1 N 1 A0) (mview oA 1 N) 1 (fun A => k m1 m2 A oA 1) (fun _ => opf m1 m2).
Proof. intros H oA m1 m2 Hm A0. apply H; auto. Qed.
Lemma gk_sph : tri_tables RP -> unit_tri RP ->
  good_kernels N (fun m1 m2 => 0 <= m1 <= m2 /\ (m2 - m1) mod 2 = 0) (kernel_sph_hi2lo givens RP) (kernel_sph_lo2hi givens_t RP).
Proof.
  intros HT HU Len oA m1 m2 [Hm Hp] Ho HL. assert (0 <= N) by (destruct HT; auto).
  rewrite <- (Z.mul_1_r N) at 1.
  apply (kernel_good Len oA 1 N _ _ (fun _ => SD givens RP m1 m2) (fun _ => SU givens_t RP m1 m2)); auto; try lia.
  - apply (acts1 _ (SD givens RP)); auto. now apply col_sphD.
  - apply (acts1 _ (SU givens_t RP)); auto. now apply col_sphU.
  - intros A Ft. apply sph_inverse; auto; lia.
  - intros A Ft. apply sph_norm; auto; lia.
Qed.
Lemma gk_tri : tri_tables RP -> unit_tri RP ->
  good_kernels N (fun m1 m2 => 0 <= m1 <= m2) (kernel_tri_hi2lo givens RP) (kernel_tri_lo2hi givens_t RP).
Proof.
  intros HT HU Len oA m1 m2 Hm Ho HL. assert (0 <= N) by (destruct HT; auto).
  rewrite <- (Z.mul_1_r N) at 1.
  apply (kernel_good Len oA 1 N _ _ (fun _ => TD givens RP m1 m2) (fun _ => TU givens_t RP m1 m2)); auto; try lia.
  - apply (acts1 _ (TD givens RP)); auto. now apply col_triD.
  - apply (acts1 _ (TU givens_t RP)); auto. now apply col_triU.
  - intros A Ft. apply tri_inverse; auto; lia.
  - intros A Ft. apply tri_norm; auto; lia.
Qed.
Lemma gk_disk : sq_tables RP -> unit_sq RP ->
  good_kernels N (fun m1 m2 => 0 <= m1 <= m2 /\ (m2 - m1) mod 2 = 0) (kernel_disk_hi2lo givens RP) (kernel_disk_lo2hi givens_t RP).
Proof.
  intros HT HU Len oA m1 m2 [Hm Hp] Ho HL. assert (0 <= N) by (destruct HT; auto).
  rewrite <- (Z.mul_1_r N) at 1.
  apply (kernel_good Len oA 1 N _ _ (fun _ => KD givens RP m1 m2) (fun _ => KU givens_t RP m1 m2)); auto; try lia.
  - apply (acts1 _ (KD givens RP)); auto. now apply col_diskD.
  - apply (acts1 _ (KU givens_t RP)); auto. now apply col_diskU.
  - intros A Ft. apply disk_inverse; auto; lia.
  - intros A Ft. apply disk_norm; auto; lia.
Qed.
Lemma gk_tet Len L m oA : tri_tables RP -> unit_tri RP -> 0 <= L <= N -> 0 <= m -> 0 <= oA -> oA + L * N <= Len ->
  good_pair Len (interval oA (oA + L * N)) (fun A => kernel_tet_hi2lo givens RP L m A oA) (fun A => kernel_tet_lo2hi givens_t RP L m A oA).
Proof.
  intros HT HU HL Hm Ho Hl. assert (0 <= N) by (destruct HT; auto).
  apply (kernel_good Len oA N L _ _ (fun _ => LD givens RP L m) (fun _ => LU givens_t RP L m)); auto; try lia.
  - intros A0. now apply real_tet_hi2lo.
  - intros A0. now apply real_tet_lo2hi.
  - intros A Ft. now apply tet_inverse.
  - intros A Ft. now apply tet_norm.
Qed.
End Kernels.
Lemma gk_spin (P : spinplan R) Len m oA : spin_tables P -> unit_spin P -> 0 <= oA -> oA + sp_n P * 2 <= Len ->
  good_pair Len (interval oA (oA + sp_n P * 2)) (fun A => kernel_spinsph_hi2lo givens givens_t apply_rotc P m A oA 1)
    (fun A => kernel_spinsph_lo2hi givens givens_t apply_rotc P m A oA 1).
Proof.
  intros HT HU Ho Hl. destruct HT as (T0 & T1 & T2).
  eapply (kernel_good Len oA 2 (sp_n P)); auto; try lia.
  - intros A0. apply (real_spin_hi2lo givens givens_t apply_rotc P T0 T1 T2 oA 1). intros; now apply real_apply_rotc.
  - intros A0. apply (real_spin_lo2hi givens givens_t apply_rotc P T0 T1 T2 oA 1). intros; now apply real_apply_rotc.
  - intros A Ft. apply spin_inverse; auto; [repeat split; tauto|lia].
  - intros A Ft. apply spin_norm; auto; [repeat split; tauto|lia].
Qed.

(** ** Drivers *)
Lemma mod2_le m : 0 <= m -> 0 <= m mod 2 <= m /\ (m - m mod 2) mod 2 = 0. Proof. lia. Qed.
Section Cols.
Variables (N M : Z).
Hypothesis HN : 0 <= N.
Hypothesis HM : 0 <= M.
Lemma col_in c : 0 <= c < M -> N * c + N <= N * M /\ 0 <= N * c.
Proof. intros. pose proof (mul_lt_le c M N). pose proof (Z.mul_nonneg_nonneg N c). lia. Qed.
Lemma col_disj c c' p : c < c' -> interval (N * c) (N * c + N) p -> interval (N * c') (N * c' + N) p -> False.
Proof. unfold interval. intros. pose proof (mul_lt_le c c' N). lia. Qed.
Lemma col_disj' c c' p : c <> c' -> interval (N * c) (N * c + N) p -> interval (N * c') (N * c' + N) p -> False.
Proof. intros. destruct (Z_lt_dec c c'); [apply (col_disj c c' p)|apply (col_disj c' c p)]; auto; lia. Qed.

(** pairs of columns, offset by [d] *)
Lemma good_sph_gen d k k' lo hi P : good_kernels N P k k' -> (forall m, lo <= m < hi -> P (m mod 2) m) -> lo <= hi ->
  0 <= 2 * lo - 1 + d -> 2 * (hi - 1) + d < M ->
  good_pair (N * M) (interval 0 (N * M))
    (for_up lo hi (fun m A => do A <- k (m mod 2) m A (N * (2 * m - 1 + d)) 1; k (m mod 2) m A (N * (2 * m + d)) 1))
    (for_up lo hi (fun m A => do A <- k' (m mod 2) m A (N * (2 * m - 1 + d)) 1; k' (m mod 2) m A (N * (2 * m + d)) 1)).
Proof.
  intros HK HP Hl H0 H1.
  apply (good_loop (N * M) lo hi (fun m => interval (N * (2 * m - 1 + d)) (N * (2 * m + d) + N))); auto using interval_dec.
  - intros m p Hm. pose proof (col_in (2 * m - 1 + d) ltac:(lia)). pose proof (col_in (2 * m + d) ltac:(lia)). unfold interval. lia.
  - intros m m' p Hm Hm' Ne. unfold interval. intros Q1 Q2.
    pose proof (mul_lt_le (2 * m + d) (2 * m' - 1 + d) N). pose proof (mul_lt_le (2 * m' + d) (2 * m - 1 + d) N). lia.
  - intros m Hm. pose proof (col_in (2 * m - 1 + d) ltac:(lia)). pose proof (col_in (2 * m + d) ltac:(lia)).
    apply (good_par _ (interval (N * (2 * m - 1 + d)) (N * (2 * m - 1 + d) + N)) (interval (N * (2 * m + d)) (N * (2 * m + d) + N))); auto using interval_dec.
    + intros p. unfold interval. lia.
    + intros p. unfold interval. lia.
    + intros p Q1 Q2. apply (col_disj' (2 * m - 1 + d) (2 * m + d) p); auto. lia.
    + apply HK; auto; lia.
    + apply HK; auto; lia.
Qed.
Lemma good_sph k k' P : good_kernels N P k k' -> (forall m, 0 <= m -> P (m mod 2) m) -> M mod 2 = 1 ->
  good_pair (N * M) (interval 0 (N * M)) (execute_sph_default k N M) (execute_sph_default k' N M).
Proof.
  intros HK HP Ho. unfold execute_sph_default. destruct (Z_le_dec 2 (M / 2 + 1)) as [H2|H2].
  - eapply good_ext; [..|apply (good_sph_gen 0 k k' 2 (M / 2 + 1) P); auto; try lia].
    + intros A. apply for_up_ext. intros m A0 Hm. unfold sph_body. now rewrite !Z.add_0_r.
    + intros A. apply for_up_ext. intros m A0 Hm. unfold sph_body. now rewrite !Z.add_0_r.
    + intros; apply HP; lia.
  - now apply good_empty; try lia; auto using interval_dec.
Qed.
Lemma good_sphv k k' P : good_kernels N P k k' -> (forall m, 0 <= m -> P (m mod 2) m) -> M mod 2 = 1 ->
  good_pair (N * M) (interval 0 (N * M)) (execute_sphv_default k N M) (execute_sphv_default k' N M).
Proof.
  intros HK HP Ho. unfold execute_sphv_default. destruct (Z_le_dec 2 (M / 2 - 1 + 1)) as [H2|H2].
  - eapply good_ext; [..|apply (good_sph_gen 2 k k' 2 (M / 2 - 1 + 1) P); auto; try lia].
    + intros A. apply for_up_ext. intros m A0 Hm. now replace (2 * m - 1 + 2) with (2 * m + 1) by lia.
    + intros A. apply for_up_ext. intros m A0 Hm. now replace (2 * m - 1 + 2) with (2 * m + 1) by lia.
    + intros; apply HP; lia.
  - now apply good_empty; try lia; auto using interval_dec.
Qed.
Lemma good_cols lo hi f k k' P : good_kernels N P k k' -> (forall m, lo <= m < hi -> P (f m) m) -> 0 <= lo -> hi <= M ->
  good_pair (N * M) (interval 0 (N * M)) (for_up lo hi (fun m A => k (f m) m A (N * m) 1)) (for_up lo hi (fun m A => k' (f m) m A (N * m) 1)).
Proof.
  intros HK HP H0 H1. destruct (Z_le_dec lo hi) as [Hl|Hl].
  - apply (good_loop (N * M) lo hi (fun m => interval (N * m) (N * m + N))); auto using interval_dec.
    + intros m p Hm. pose proof (col_in m ltac:(lia)). unfold interval. lia.
    + intros m m' p Hm Hm' Ne Q1 Q2. apply (col_disj' m m' p); auto.
    + intros m Hm. pose proof (col_in m ltac:(lia)). apply HK; auto; lia.
  - now apply good_empty; try lia; auto using interval_dec.
Qed.
Lemma good_tri k k' P : good_kernels N P k k' -> (forall m, 0 <= m -> P 0 m) ->
  good_pair (N * M) (interval 0 (N * M)) (execute_tri_default k N M) (execute_tri_default k' N M).
Proof. intros HK HP. apply (good_cols 1 M (fun _ => 0) k k' P); auto; try lia. intros; apply HP; lia. Qed.
Lemma good_rectdisk k k' P : good_kernels N P k k' -> (forall m, 0 <= m -> P (m mod 2) m) ->
  good_pair (N * M) (interval 0 (N * M)) (execute_rectdisk_default k N M) (execute_rectdisk_default k' N M).
Proof. intros HK HP. apply (good_cols 2 M (fun m => m mod 2) k k' P); auto; try lia. intros; apply HP; lia. Qed.
End Cols.

Lemma good_tet N L M k k' (kt kt' : Z -> Z -> list R -> Z -> option (list R)) P : 0 <= N -> 0 <= L -> 0 <= M ->
  good_kernels N P k k' -> (forall m, 0 <= m -> P 0 m) ->
  (forall Len m oA, 0 <= m -> 0 <= oA -> oA + L * N <= Len -> good_pair Len (interval oA (oA + L * N)) (fun A => kt L m A oA) (fun A => kt' L m A oA)) ->
  good_pair (N * L * M) (interval 0 (N * L * M)) (execute_tet_hi2lo k kt N L M) (execute_tet_lo2hi k' kt' N L M).
Proof.
  intros HN HL HM HK HP HT. pose proof (Z.mul_nonneg_nonneg N L HN HL) as HNL.
  apply (good_loop (N * L * M) 0 M (fun m => interval (N * L * m) (N * L * m + N * L))); auto using interval_dec.
  - intros m p Hm. pose proof (col_in (N * L) M HNL m ltac:(lia)). unfold interval. lia.
  - intros m m' p Hm Hm' Ne Q1 Q2. apply (col_disj' (N * L) HNL m m' p); auto.
  - intros m Hm. pose proof (col_in (N * L) M HNL m ltac:(lia)) as [C1 C2].
    unfold tet_hi2lo_body, tet_lo2hi_body.
    apply (good_seq (N * L * M) _
      (for_up 0 (L - m) (fun l A => k 0 (l + m) A (N * (l + L * m)) 1)) (for_up 0 (L - m) (fun l A => k' 0 (l + m) A (N * (l + L * m)) 1))
      (fun A => kt L m A (N * L * m)) (fun A => kt' L m A (N * L * m))).
    + destruct (Z_le_dec 0 (L - m)) as [Hl|Hl]; [|apply good_empty; try lia; auto using interval_dec].
      assert (IN : forall l, 0 <= l < L - m -> N * L * m <= N * (l + L * m) /\ N * (l + L * m) + N <= N * L * m + N * L).
      { intros l Hl'. pose proof (col_in N L HN l ltac:(lia)). lia. }
      apply (good_loop _ 0 (L - m) (fun l => interval (N * (l + L * m)) (N * (l + L * m) + N))); auto using interval_dec; try lia.
      * intros l p Hl'. specialize (IN l Hl'). unfold interval. lia.
      * intros l l' p Hl' Hl'' Ne Q1 Q2. apply (col_disj' N HN (l + L * m) (l' + L * m) p); auto. lia.
      * intros l Hl'. specialize (IN l Hl'). apply HK; [apply HP; lia|lia|lia].
    + replace (N * L * m + N * L) with (N * L * m + L * N) by lia. apply HT; lia.
Qed.

Lemma good_spin N M (k k' : Z -> list R -> Z -> Z -> option (list R)) : 0 <= N -> 0 <= M -> M mod 2 = 1 ->
  (forall Len m oA, 0 <= oA -> oA + N * 2 <= Len -> good_pair Len (interval oA (oA + N * 2)) (fun A => k m A oA 1) (fun A => k' m A oA 1)) ->
  good_pair (2 * N * M) (interval 0 (2 * N * M)) (execute_spinsph_default k N M) (execute_spinsph_default k' N M).
Proof.
  intros HN HM Ho HK. unfold execute_spinsph_default.
  assert (H2N : 0 <= 2 * N) by lia.
  assert (IN : forall c, 0 <= c < M -> 0 <= 2 * (N * c) /\ 2 * (N * c) + N * 2 <= 2 * N * M).
  { intros c Hc. pose proof (col_in (2 * N) M H2N c Hc). lia. }
  apply (good_par _ (interval 0 (0 + N * 2)) (interval (0 + N * 2) (2 * N * M)) _
    (fun A => k 0 A 0 1) (fun A => k' 0 A 0 1)); auto using interval_dec.
  - intros p. specialize (IN 0 ltac:(lia)). unfold interval. lia.
  - intros p. unfold interval. lia.
  - intros p. unfold interval. lia.
  - specialize (IN 0 ltac:(lia)). apply HK; lia.
  - apply (good_loop _ 1 (M / 2 + 1) (fun m => interval (2 * (N * (2 * m - 1))) (2 * (N * (2 * m)) + N * 2))); auto using interval_dec; try lia.
    + intros m p Hm. pose proof (IN (2 * m) ltac:(lia)). pose proof (mul_lt_le 0 (2 * m - 1) (N * 2)). unfold interval. lia.
    + intros m m' p Hm Hm' Ne. unfold interval. intros Q1 Q2.
      pose proof (mul_lt_le (2 * m) (2 * m' - 1) (2 * N)). pose proof (mul_lt_le (2 * m') (2 * m - 1) (2 * N)). lia.
    + intros m Hm. pose proof (IN (2 * m) ltac:(lia)). pose proof (IN (2 * m - 1) ltac:(lia)).
      unfold spin_body.
      apply (good_par _ (interval (2 * (N * (2 * m - 1))) (2 * (N * (2 * m - 1)) + N * 2)) (interval (2 * (N * (2 * m))) (2 * (N * (2 * m)) + N * 2)) _
        (fun A => k (- m) A (2 * (N * (2 * m - 1))) 1) (fun A => k' (- m) A (2 * (N * (2 * m - 1))) 1)); auto using interval_dec.
      * intros p. unfold interval. lia.
      * intros p. unfold interval. lia.
      * intros p. unfold interval. lia.
      * apply HK; lia.
      * apply HK; lia.
Qed.

(** ** The statements *)
Section Final.
Variables (RP : rotplan R) (M : Z) (A : list R).
Let N := rp_n RP.
Hypothesis HM : 0 <= M.
Hypothesis LA : zlen A = N * M.
Lemma C13_sph : tri_tables RP -> unit_tri RP -> M mod 2 = 1 ->
  let p := execute_sph_default (kernel_sph_hi2lo givens RP) N M in let q := execute_sph_default (kernel_sph_lo2hi givens_t RP) N M in
  mutually_inverse_on p q A /\ keeps_frobenius p A /\ keeps_frobenius q A.
Proof.
  intros HT HU Ho. apply (good_final (N * M) (interval 0 (N * M))); auto.
  eapply good_sph; auto. - destruct HT; auto. - now apply gk_sph. - apply mod2_le.
Qed.
Lemma C13_sphv : tri_tables RP -> unit_tri RP -> M mod 2 = 1 ->
  let p := execute_sphv_default (kernel_sph_hi2lo givens RP) N M in let q := execute_sphv_default (kernel_sph_lo2hi givens_t RP) N M in
  mutually_inverse_on p q A /\ keeps_frobenius p A /\ keeps_frobenius q A.
Proof.
  intros HT HU Ho. apply (good_final (N * M) (interval 0 (N * M))); auto.
  eapply good_sphv; auto. - destruct HT; auto. - now apply gk_sph. - apply mod2_le.
Qed.
Lemma C13_disk : sq_tables RP -> unit_sq RP -> M mod 2 = 1 ->
  let p := execute_sph_default (kernel_disk_hi2lo givens RP) N M in let q := execute_sph_default (kernel_disk_lo2hi givens_t RP) N M in
  mutually_inverse_on p q A /\ keeps_frobenius p A /\ keeps_frobenius q A.
Proof.
  intros HT HU Ho. apply (good_final (N * M) (interval 0 (N * M))); auto.
  eapply good_sph; auto. - destruct HT; auto. - now apply gk_disk. - apply mod2_le.
Qed.
Lemma C13_tri : tri_tables RP -> unit_tri RP ->
  let p := execute_tri_default (kernel_tri_hi2lo givens RP) N M in let q := execute_tri_default (kernel_tri_lo2hi givens_t RP) N M in
  mutually_inverse_on p q A /\ keeps_frobenius p A /\ keeps_frobenius q A.
Proof.
  intros HT HU. apply (good_final (N * M) (interval 0 (N * M))); auto.
  eapply good_tri; auto. - destruct HT; auto. - now apply gk_tri. - intros; cbn; lia.
Qed.
Lemma C13_rectdisk : tri_tables RP -> unit_tri RP ->
  let p := execute_rectdisk_default (kernel_sph_hi2lo givens RP) N M in let q := execute_rectdisk_default (kernel_sph_lo2hi givens_t RP) N M in
  mutually_inverse_on p q A /\ keeps_frobenius p A /\ keeps_frobenius q A.
Proof.
  intros HT HU. apply (good_final (N * M) (interval 0 (N * M))); auto.
  eapply good_rectdisk; auto. - destruct HT; auto. - now apply gk_sph. - apply mod2_le.
Qed.
End Final.
Lemma C13_tet (RP1 RP2 : rotplan R) L M A : tri_tables RP1 -> unit_tri RP1 -> tri_tables RP2 -> unit_tri RP2 ->
  rp_n RP2 = rp_n RP1 -> 0 <= L <= rp_n RP1 -> 0 <= M -> zlen A = rp_n RP1 * L * M ->
  let p := execute_tet_hi2lo (kernel_tri_hi2lo givens RP1) (kernel_tet_hi2lo givens RP2) (rp_n RP1) L M in
  let q := execute_tet_lo2hi (kernel_tri_lo2hi givens_t RP1) (kernel_tet_lo2hi givens_t RP2) (rp_n RP1) L M in
  mutually_inverse_on p q A /\ keeps_frobenius p A /\ keeps_frobenius q A.
Proof.
  intros T1 U1 T2 U2 EN HL HM LA. eapply good_final; [|exact LA].
  eapply good_tet; auto; try lia.
  - now apply gk_tri. - intros; cbn; lia.
  - intros. rewrite <- EN in *. apply gk_tet; auto.
Qed.
Lemma C13_spin (P : spinplan R) M A : spin_tables P -> unit_spin P -> 0 <= M -> M mod 2 = 1 -> zlen A = 2 * sp_n P * M ->
  let p := execute_spinsph_default (kernel_spinsph_hi2lo givens givens_t apply_rotc P) (sp_n P) M in
  let q := execute_spinsph_default (kernel_spinsph_lo2hi givens givens_t apply_rotc P) (sp_n P) M in
  mutually_inverse_on p q A /\ keeps_frobenius p A /\ keeps_frobenius q A.
Proof.
  intros T U HM Ho LA. eapply good_final; [|exact LA]. apply good_spin; auto.
  - destruct T; auto.
  - intros. now apply gk_spin.
Qed.
