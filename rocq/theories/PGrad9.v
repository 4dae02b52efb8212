(** * Helmholtz-Hodge: theorem forms *)
From Coq Require Import ZArith List Lia Bool Reals Lra ZifyBool.
From Verif Require Import Base BaseFacts Arith SpecSum PSum SpecLin MBanded SpecBanded PTri PBand MFactor PBlock3 MGrad SpecIso SpecGeo SpecGrad PGrad1 PGrad2 PGrad3 PGrad4 PGrad5 PGrad6 PGrad7 PGrad8.
Import ListNotations.
Open Scope Z_scope.

Lemma isprod_plus n U v w v' w' : isprod n U v w -> isprod n U v' w' -> isprod n U (fun i => v i + v' i)%R (fun i => w i + w' i)%R.
Proof. intros H H' i Hi. rewrite (H i Hi), (H' i Hi). unfold matvec. rewrite <- sumZ_plus. apply sumZ_ext. intros; ring. Qed.
Lemma isprod_opp n U v w : isprod n U v w -> isprod n U (fun i => - v i)%R (fun i => - w i)%R.
Proof. intros H i Hi. rewrite (H i Hi). unfold matvec. replace (- sumZ n _)%R with (-1 * sumZ n (fun k => U i k * v k))%R by ring. rewrite <- sumZ_scal. apply sumZ_ext. intros; ring. Qed.

Lemma C62_recovers_proof junk N M U1 U2 A1 A2 B1 B2 W1 W2 : 1 <= N -> Z.odd M = true -> 0 <= M / 2 <= N - 1 ->
  zlen U1 = N * M -> zlen U2 = N * M -> zlen A1 = N * M -> zlen A2 = N * M -> zlen B1 = N * M -> zlen B2 = N * M -> zlen W1 = N * M -> zlen W2 = N * M ->
  degrees_up_to N M U1 -> degrees_up_to N M U2 -> nthZ 0%R U1 0 = 0%R -> nthZ 0%R U2 0 = 0%R ->
  exists P G1 G2 C1 C2 H, plan_sph_gradient N = Some P /\ execute_sph_gradient P U1 A1 A2 N M = Some (G1, G2) /\ execute_sph_curl P U2 B1 B2 N M = Some (C1, C2) /\ plan_sph_helmholtzhodge junk N = Some H /\
    forall V1 V2, zlen V1 = N * M -> zlen V2 = N * M -> (forall p, 0 <= p < N * M -> nthZ 0%R V1 p = (nthZ 0 G1 p + nthZ 0 C1 p)%R /\ nthZ 0%R V2 p = (nthZ 0 G2 p + nthZ 0 C2 p)%R) ->
    exists st, execute_sph_helmholtzhodge H W1 W2 V1 V2 N M = Some st /\ zlen (h_U1 st) = N * M /\ zlen (h_U2 st) = N * M /\
      forall i q, 0 <= i -> 0 <= q < M -> i + (q + 1) / 2 < N -> nthZ 0%R (h_U1 st) (i + N * q) = nthZ 0%R U1 (i + N * q) /\ nthZ 0%R (h_U2 st) (i + N * q) = nthZ 0%R U2 (i + N * q).
Proof.
  intros HN HM Hh L1 L2 L3 L4 L5 L6 L7 L8 D1 D2 Z1 Z2. apply odd_half in HM. set (h := M / 2) in *. clearbody h. subst M.
  destruct (plan_val N HN) as (P & EP & HP).
  destruct (gradient_graded N h U1 A1 A2 HN ltac:(lia) ltac:(lia) ltac:(lia) ltac:(lia) P HP) as (G1 & G2 & EG & LG1 & LG2 & (Ga & Gb & Gc & Gd)).
  destruct (gradient_graded N h U2 B2 B1 HN ltac:(lia) ltac:(lia) ltac:(lia) ltac:(lia) P HP) as (K2 & K1 & EK & LK2 & LK1 & (Ka & Kb & Kc & Kd)).
  destruct (curl_val P N (2 * h + 1) U2 B1 B2 K1 K2 ltac:(lia) ltac:(nia) EK) as (C1 & EC & LC1 & HC1).
  destruct (hplan_val junk N HN) as (H & EH & LH & HH).
  exists P, G1, G2, C1, K2, H. split; [exact EP|]. split; [exact EG|]. split; [exact EC|]. split; [exact EH|]. intros V1 V2 LV1 LV2 HV.
  assert (HNM : N <= N * (2 * h + 1)) by nia.
  assert (E1 : forall p, 0 <= p < N * (2 * h + 1) -> nthZ 0%R V1 p = (nthZ 0 G1 p - nthZ 0 K1 p)%R) by (intros p Hp; rewrite (proj1 (HV p Hp)), HC1 by lia; ring).
  assert (E2 : forall p, 0 <= p < N * (2 * h + 1) -> nthZ 0%R V2 p = (nthZ 0 G2 p + nthZ 0 K2 p)%R) by (intros p Hp; apply HV; lia).
  assert (HF : field N h U1 U2 V1 V2).
  { split.
    - intros l Hl. rewrite E1, E2 by lia. rewrite Ga, Gc, Ka, Kc by lia. split; ring.
    - intros m Hm. assert (Hb : N * (2 * m) + N <= N * (2 * h + 1)) by nia. assert (Hb0 : 0 <= N * (2 * m - 1)) by nia. assert (Hb1 : N * (2 * m) = N * (2 * m - 1) + N) by ring.
      destruct (Gd m Hm) as (a1 & a2 & a3 & a4), (Kd m Hm) as (b1 & b2 & b3 & b4).
      split; [|split; [|split]].
      + eapply isprod_ext; [intros; reflexivity| | |apply (isprod_plus _ _ _ _ _ _ a1 (isprod_opp _ _ _ _ b3))]; intros i Hi; cbv beta; [unfold vec; rewrite E1 by lia; ring|ring].
      + eapply isprod_ext; [intros; reflexivity| | |apply (isprod_plus _ _ _ _ _ _ a2 (isprod_opp _ _ _ _ b4))]; intros i Hi; cbv beta; [unfold vec; rewrite E1 by lia; ring|ring].
      + eapply isprod_ext; [intros; reflexivity| | |apply (isprod_plus _ _ _ _ _ _ a3 b1)]; intros i Hi; cbv beta; [unfold vec; rewrite E2 by lia; ring|ring].
      + eapply isprod_ext; [intros; reflexivity| | |apply (isprod_plus _ _ _ _ _ _ a4 b2)]; intros i Hi; cbv beta; [unfold vec; rewrite E2 by lia; ring|ring]. }
  destruct (hh_val N h H U1 U2 W1 W2 V1 V2 HN ltac:(lia) LH HH L7 L8 LV1 LV2 Z1 Z2 (degrees_last N _ h U1 eq_refl HN ltac:(lia) D1) (degrees_last N _ h U2 eq_refl HN ltac:(lia) D2) HF) as (st & ES & Ls1 & Ls2 & Hz & Ho).
  exists st. split; [exact ES|]. split; [exact Ls1|]. split; [exact Ls2|]. intros i q Hi Hq Hd.
  destruct (Z.eq_dec q 0) as [E0|Hq0]; [subst q; replace (i + N * 0) with i by ring; apply Hz; lia|].
  set (m := (q + 1) / 2) in *. assert (Hm : 1 <= m <= h) by lia. destruct (Ho m Hm) as (o1 & o2). destruct (o1 i ltac:(lia)) as (r1 & r2), (o2 i ltac:(lia)) as (r3 & r4).
  unfold vec in *. rewrite !(Z.add_comm i). destruct (Z.eq_dec (q mod 2) 0) as [Ev|Od].
  - replace q with (2 * m) by lia. auto.
  - replace q with (2 * m - 1) by lia. auto.
Qed.

(** one more order than there are degrees: the last entry is read before the start of the workspace *)
Lemma obind_none {A B} (e : option A) (f : A -> option B) : (forall a, f a = None) -> obind e f = None.
Proof. destruct e; cbn [obind]; auto. Qed.
Lemma C62_wide_refuted_proof (P : hh_plan (F:=R)) U1 U2 V1 V2 N M : 1 <= N <= M / 2 -> execute_sph_helmholtzhodge P U1 U2 V1 V2 N M = None.
Proof.
  intros H. unfold execute_sph_helmholtzhodge. apply obind_none. intros [W1 W2]. apply (for_up_none 1 (M / 2 + 1) N); [lia|]. intros [a b c d X]. unfold hh_order.
  assert (E : forall s c1 c2 X (U1 U2 : list R), hh_writeout s c1 c2 X U1 U2 N N = None).
  { intros. unfold hh_writeout. repeat (apply obind_none; intros). match goal with p : (list R * list R)%type |- _ => destruct p end. replace (2 * N - 2 * N - 1) with (-1) by lia. reflexivity. }
  do 7 (apply obind_none; intros). apply obind_none; intros. rewrite E. reflexivity.
Qed.
