(** * Loops and sequences of int expressions: termination, safety, reachable overflow *)
From Coq Require Import ZArith List Lia Bool String ZifyBool ZifyNat.
From Verif Require Import Base MInt.
Import ListNotations.
Open Scope Z_scope.

Lemma chk_in z : int_min <= z <= int_max -> chk z = Some z.
Proof. intros H. unfold chk. destruct ((int_min <=? z) && (z <=? int_max)) eqn:E; [reflexivity|lia]. Qed.
Lemma chk_out z : z < int_min \/ int_max < z -> chk z = None.
Proof. intros H. unfold chk. destruct ((int_min <=? z) && (z <=? int_max)) eqn:E; [lia|reflexivity]. Qed.
Lemma chk_some z v : chk z = Some v -> v = z /\ int_min <= z <= int_max.
Proof. unfold chk. destruct ((int_min <=? z) && (z <=? int_max)) eqn:E; [|discriminate]. intros H. injection H as <-. lia. Qed.
Lemma rounds_Z : Z.of_nat rounds = 2 ^ 32.
Proof. unfold rounds. apply Z2Nat.id. discriminate. Qed.
Global Opaque rounds.
Lemma ev_range e a v : ev e a = Some v -> int_min <= v <= int_max.
Proof.
  revert v. induction a as [z|x|a IHa b IHb|a IHa b IHb|a IHa b IHb|a IHa b IHb|a IHa b IHb|a IHa|a IHa b IHb]; intros w; cbn [ev].
  - intros H. apply chk_some in H. lia.
  - intros H. apply chk_some in H. lia.
  - destruct (ev e a); [|discriminate]. destruct (ev e b); [|discriminate]. cbn. intros H. apply chk_some in H. lia.
  - destruct (ev e a); [|discriminate]. destruct (ev e b); [|discriminate]. cbn. intros H. apply chk_some in H. lia.
  - destruct (ev e a); [|discriminate]. destruct (ev e b); [|discriminate]. cbn. intros H. apply chk_some in H as [-> H]. exact H.
  - destruct (ev e a); [|discriminate]. destruct (ev e b) as [q|]; [|discriminate]. cbn. destruct (q =? 0); [discriminate|]. intros H. apply chk_some in H as [-> H]. exact H.
  - destruct (ev e a) as [p|]; [|discriminate]. destruct (ev e b) as [q|]; [|discriminate]. cbn. destruct (q =? 0); [discriminate|]. destruct (chk (p ÷ q)); [|discriminate]. cbn. intros H. apply chk_some in H as [-> H]. exact H.
  - destruct (ev e a); [|discriminate]. cbn. intros H. apply chk_some in H as [-> H]. exact H.
  - destruct (ev e a) as [p|]; [|discriminate]. destruct (ev e b) as [q|]; [|discriminate]. cbn. intros H. injection H as <-. specialize (IHa _ eq_refl). specialize (IHb _ eq_refl). lia.
Qed.

(** no loop with a step other than zero is endless *)
Fixpoint stepping (c : cmd) : Prop :=
  match c with Use _ => True | Seq c d => stepping c /\ stepping d | For _ _ _ _ st b => st <> 0 /\ stepping b | Call _ b => stepping b end.
Lemma loop_ends body x c b st e : st <> 0 -> (forall e', body e' <> Endless) -> forall r v, int_min <= v <= int_max ->
  (if 0 <? st then int_max - v + 1 <= Z.of_nat r else v - int_min + 1 <= Z.of_nat r) -> loop r body x c b st e v <> Endless.
Proof.
  intros H0 HB r. induction r as [|r IH]; intros v Hv Hr. { change (Z.of_nat 0) with 0 in Hr. destruct (0 <? st); lia. }
  cbn [loop]. destruct (ev (upd e x v) b) as [w|]; [|discriminate]. destruct (holds c v w); [|discriminate]. specialize (HB (upd e x v)). destruct (body (upd e x v)); [|discriminate|exact HB].
  destruct (chk (v + st)) as [v'|] eqn:E; [|discriminate]. apply chk_some in E as [-> E]. apply IH; auto. destruct (0 <? st) eqn:S0; lia.
Qed.
Lemma exec_ends c : stepping c -> forall e, exec c e <> Endless.
Proof.
  induction c as [a|c IHc d IHd|x a c b st body IH|ps body IH]; cbn [stepping exec]; intros W e.
  - destruct (ev e a); discriminate.
  - destruct W as [W1 W2]. specialize (IHc W1 e). destruct (exec c e); [apply IHd; auto|discriminate|exact IHc].
  - destruct W as [W1 W2]. destruct (ev e a) as [v|] eqn:E; [|discriminate]. assert (RV := ev_range _ _ _ E). apply loop_ends; auto. rewrite rounds_Z. unfold int_min, int_max in *. destruct (0 <? st); lia.
  - destruct (args e ps); [apply IH; auto|discriminate].
Qed.
Lemma exec_done c e : stepping c -> exec c e <> Overflow -> exec c e = Done.
Proof. intros W H. assert (X := exec_ends c W e). destruct (exec c e); congruence. Qed.
Lemma exec_overflow c e : stepping c -> exec c e <> Done -> exec c e = Overflow.
Proof. intros W H. assert (X := exec_ends c W e). destruct (exec c e); congruence. Qed.

(** ** safety *)
Lemma loop_safe body x c b st e (inv : Z -> Prop) :
  (forall v, inv v -> exists w, ev (upd e x v) b = Some w /\ (holds c v w = true -> body (upd e x v) <> Overflow /\ int_min <= v + st <= int_max /\ inv (v + st))) ->
  forall r v, inv v -> loop r body x c b st e v <> Overflow.
Proof.
  intros H r. induction r as [|r IH]; intros v Hv; cbn [loop]; [discriminate|]. destruct (H v Hv) as (w & -> & K). destruct (holds c v w); [|discriminate].
  destruct (K eq_refl) as (B & RR & I). destruct (body (upd e x v)); [|congruence|discriminate]. rewrite chk_in by auto. now apply IH.
Qed.
Lemma for_up x a c b st body e v0 w w' : 0 < st -> ev e a = Some v0 -> (forall v, v0 <= v <= Z.max v0 (w' + st - 1) -> ev (upd e x v) b = Some w) -> (forall v, holds c v w = (v <? w')) -> int_min <= v0 -> w' + st - 1 <= int_max ->
  (forall v, v0 <= v < w' -> exec body (upd e x v) <> Overflow) -> exec (For x a c b st body) e <> Overflow.
Proof.
  intros S0 Ea Eb Hc H1 H2 HB. cbn [exec]. rewrite Ea. apply (loop_safe _ _ _ _ _ _ (fun v => v0 <= v <= Z.max v0 (w' + st - 1))); [|lia].
  intros v Hv. exists w. split; [apply Eb; lia|]. rewrite Hc. intros L. split; [apply HB; lia|]. lia.
Qed.
Lemma for_down x a b st body e v0 w : st < 0 -> ev e a = Some v0 -> (forall v, Z.min v0 (w + st) <= v <= v0 -> ev (upd e x v) b = Some w) -> v0 <= int_max -> int_min <= w + st ->
  (forall v, w <= v <= v0 -> exec body (upd e x v) <> Overflow) -> exec (For x a Ge b st body) e <> Overflow.
Proof.
  intros S0 Ea Eb H1 H2 HB. cbn [exec]. rewrite Ea. apply (loop_safe _ _ _ _ _ _ (fun v => Z.min v0 (w + st) <= v <= v0)); [|lia].
  intros v Hv. exists w. split; [apply Eb; lia|]. cbn [holds]. intros L. split; [apply HB; lia|]. lia.
Qed.
Lemma seq_safe cs e : (forall c, In c cs -> exec c e <> Overflow) -> exec (seq cs) e <> Overflow.
Proof.
  unfold seq. induction cs as [|c cs IH]; intros H; cbn [fold_right exec]. { cbn. discriminate. }
  assert (H1 := H c (or_introl eq_refl)). destruct (exec c e); [apply IH; intros; apply H; now right|congruence|discriminate].
Qed.
Lemma use_safe a e v : ev e a = Some v -> exec (Use a) e <> Overflow.
Proof. intros H. cbn. rewrite H. discriminate. Qed.
Lemma uses_safe es e : (forall a, In a es -> exists v, ev e a = Some v) -> exec (uses es) e <> Overflow.
Proof. intros H. apply seq_safe. intros c Hc. apply in_map_iff in Hc as (a & <- & Ha). destruct (H a Ha) as (v & E). now apply (use_safe _ _ v). Qed.

(** ** reachable overflow *)
Lemma seq_hits cs c e : In c cs -> exec c e <> Done -> exec (seq cs) e <> Done.
Proof.
  unfold seq. induction cs as [|c' cs IH]; intros HI H; [contradiction|]. cbn [fold_right exec]. destruct HI as [->|HI]; [destruct (exec c e); congruence|]. destruct (exec c' e); [now apply IH|discriminate|discriminate].
Qed.
Lemma use_hits a e : ev e a = None -> exec (Use a) e <> Done.
Proof. intros H. cbn. rewrite H. discriminate. Qed.
Lemma uses_hits es a e : In a es -> ev e a = None -> exec (uses es) e <> Done.
Proof. intros HI H. apply (seq_hits _ (Use a)); [now apply in_map|now apply use_hits]. Qed.
Lemma loop_hits body x c b st e : forall k r v,
  (forall i w, 0 <= i <= Z.of_nat k -> ev (upd e x (v + i * st)) b = Some w -> holds c (v + i * st) w = true) ->
  body (upd e x (v + Z.of_nat k * st)) <> Done -> loop r body x c b st e v <> Done.
Proof.
  induction k as [|k IH]; intros r v HC HB; (destruct r as [|r]; [discriminate|]); cbn [loop].
  - replace (v + Z.of_nat 0 * st) with v in HB by lia. destruct (ev (upd e x v) b) as [w|] eqn:E; [|discriminate]. assert (H := HC 0 w ltac:(lia)). replace (v + 0 * st) with v in H by lia. rewrite (H E). destruct (body (upd e x v)); congruence.
  - destruct (ev (upd e x v) b) as [w|] eqn:E; [|discriminate]. assert (H := HC 0 w ltac:(lia)). replace (v + 0 * st) with v in H by lia. rewrite (H E). destruct (body (upd e x v)); [|discriminate|discriminate].
    destruct (chk (v + st)) as [v'|] eqn:EC; [|discriminate]. apply chk_some in EC as [-> _]. apply IH.
    + intros i w' Hi EW. replace (v + st + i * st) with (v + (i + 1) * st) in * by ring. apply HC; [lia|exact EW].
    + replace (v + st + Z.of_nat k * st) with (v + Z.of_nat (Datatypes.S k) * st) by lia. exact HB.
Qed.
Lemma for_hits x a c b st body e i : 0 <= i -> (forall v0 k w, ev e a = Some v0 -> 0 <= k <= i -> ev (upd e x (v0 + k * st)) b = Some w -> holds c (v0 + k * st) w = true) ->
  (forall v0, ev e a = Some v0 -> exec body (upd e x (v0 + i * st)) <> Done) -> exec (For x a c b st body) e <> Done.
Proof.
  intros Hi HC HB. cbn [exec]. destruct (ev e a) as [v0|] eqn:E; [|discriminate]. apply (loop_hits _ _ _ _ _ _ (Z.to_nat i)).
  - intros k w Hk EW. apply (HC v0 k w eq_refl); [lia|exact EW].
  - rewrite Z2Nat.id by lia. now apply HB.
Qed.
Lemma for_hits' x a c b st body e v0 w i : 0 <= i -> ev e a = Some v0 -> (forall k, 0 <= k <= i -> ev (upd e x (v0 + k * st)) b = Some w) ->
  (forall k, 0 <= k <= i -> holds c (v0 + k * st) w = true) -> exec body (upd e x (v0 + i * st)) <> Done -> exec (For x a c b st body) e <> Done.
Proof.
  intros Hi Ea Eb Hc HB. apply (for_hits _ _ _ _ _ _ _ i); auto.
  - intros v1 k w1 E1 Hk E2. rewrite Ea in E1. injection E1 as <-. rewrite Eb in E2 by auto. injection E2 as <-. now apply Hc.
  - intros v1 E1. rewrite Ea in E1. injection E1 as <-. exact HB.
Qed.
