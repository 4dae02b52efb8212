(** * Parallel regions: generic theory *)
From Coq Require Import ZArith List Lia Bool ZifyBool ZifyNat Permutation.
From Verif Require Import Base BaseFacts Arith MDrivers MSched.
Import ListNotations.
Open Scope Z_scope.

Section G.
Context {F : Type}.
Notation mem := (list F).

(** reads only inside [R], writes only inside [W], whatever is loaded *)
Fixpoint within {T} (R W : Z -> Prop) (p : prog F T) : Prop :=
  match p with
  | Ret _ => True
  | Fault => True
  | Load a k => R a /\ forall v, within R W (k v)
  | Store a v k => W a /\ within R W k
  end.
Lemma within_mono {T} (R W R' W' : Z -> Prop) (p : prog F T) :
  (forall a, R a -> R' a) -> (forall a, W a -> W' a) -> within R W p -> within R' W' p.
Proof. intros HR HW. induction p; cbn; intuition. Qed.
Lemma within_bind {T U} R W (p : prog F T) (f : T -> prog F U) :
  within R W p -> (forall x, within R W (f x)) -> within R W (pbind p f).
Proof. intros Hp Hf. induction p; cbn in *; intuition. Qed.
Lemma within_iter {S} R W n (f : nat -> S -> prog F S) s :
  (forall k s, (k < n)%nat -> within R W (f k s)) -> within R W (piter n f s).
Proof.
  revert s. induction n; cbn; intros s H; [exact I|].
  apply within_bind; [apply IHn; auto | intros; apply H; lia].
Qed.
Lemma within_up {S} R W lo hi (f : Z -> S -> prog F S) s :
  (forall i s, lo <= i < hi -> within R W (f i s)) -> within R W (pfor_up lo hi f s).
Proof. intros H. apply within_iter. intros. apply H. lia. Qed.
Lemma within_dn {S} R W hi lo (f : Z -> S -> prog F S) s :
  (forall i s, lo <= i <= hi -> within R W (f i s)) -> within R W (pfor_dn hi lo f s).
Proof. intros H. apply within_iter. intros. apply H. lia. Qed.
Lemma within_upst {S} R W lo hi st (f : Z -> S -> prog F S) s : 0 < st ->
  (forall i s, lo <= i < hi -> within R W (f i s)) -> within R W (pfor_upst lo hi st f s).
Proof.
  intros Hst H. apply within_iter. intros k s' Hk. apply H.
  pose proof (Z.div_mod (hi - lo + st - 1) st). pose proof (Z.mod_pos_bound (hi - lo + st - 1) st).
  set (q := (hi - lo + st - 1) / st) in *.
  assert (Z.of_nat k + 1 <= q) by lia. nia.
Qed.
Lemma within_dnst {S} R W hi lo st (f : Z -> S -> prog F S) s : 0 < st ->
  (forall i s, lo <= i <= hi -> within R W (f i s)) -> within R W (pfor_dnst hi lo st f s).
Proof.
  intros Hst H. apply within_iter. intros k s' Hk. apply H.
  pose proof (Z.div_mod (hi - lo + st) st). pose proof (Z.mod_pos_bound (hi - lo + st) st).
  set (q := (hi - lo + st) / st) in *.
  assert (Z.of_nat k + 1 <= q) by lia. nia.
Qed.
Lemma within_lift {T} R W (o : option T) : within R W (plift o).
Proof. destruct o; exact I. Qed.

(** ** running alone *)
Lemma exec_bind {T U} (p : prog F T) (f : T -> prog F U) A :
  exec (pbind p f) A = do r <- exec p A; exec (f (fst r)) (snd r).
Proof.
  revert A. induction p; intros A; cbn; auto.
  - destruct (zget A a); cbn; auto.
  - destruct (zset A a v); cbn; auto.
Qed.
Lemma exec_len {T} (p : prog F T) A x A' : exec p A = Some (x, A') -> zlen A' = zlen A.
Proof.
  revert A. induction p; intros A; cbn; intros E.
  - now injection E as <- <-.
  - discriminate.
  - destruct (zget A a); cbn in E; [eauto|discriminate].
  - destruct (zset A a v) eqn:E1; cbn in E; [|discriminate].
    apply zset_inv in E1. destruct E1 as [? ->]. apply IHp in E. rewrite E. apply zlen_zupd.
Qed.
Lemma exec_unchanged {T} R W (p : prog F T) A x A' a :
  within R W p -> ~ W a -> exec p A = Some (x, A') -> zget A' a = zget A a.
Proof.
  revert A. induction p; intros A; cbn; intros Hw Ha E.
  - now injection E as <- <-.
  - discriminate.
  - destruct (zget A a0); cbn in E; [|discriminate]. eapply H; eauto. apply Hw.
  - destruct (zset A a0 v) eqn:E1; cbn in E; [|discriminate].
    apply zset_inv in E1. destruct E1 as [? ->]. rewrite (IHp _ (proj2 Hw) Ha E).
    apply zget_zupd_other. intros ->. tauto.
Qed.
Lemma zset_comm (A : mem) a b u v : a <> b ->
  (do A <- zset A a u; zset A b v) = (do A <- zset A b v; zset A a u).
Proof.
  intros Hab. destruct (zset A a u) eqn:E1; destruct (zset A b v) eqn:E2; cbn.
  - apply zset_inv in E1. apply zset_inv in E2. destruct E1 as [H1 ->]. destruct E2 as [H2 ->].
    rewrite !zset_some by (rewrite zlen_zupd; lia). f_equal. apply zget_ext. intros i.
    destruct (Z.eq_dec i a) as [->|Ha].
    + rewrite (zget_zupd_other _ b _ a) by auto. rewrite !zget_zupd_same; auto; rewrite ?zlen_zupd; auto.
    + rewrite (zget_zupd_other _ a _ i) by auto. destruct (Z.eq_dec i b) as [->|Hb].
      * rewrite !zget_zupd_same; auto; rewrite ?zlen_zupd; auto.
      * rewrite !zget_zupd_other by auto. reflexivity.
  - apply zset_inv in E1. destruct E1 as [H1 ->]. unfold zset in *. rewrite zlen_zupd.
    destruct ((0 <=? b) && (b <? zlen A)); [discriminate|reflexivity].
  - apply zset_inv in E2. destruct E2 as [H1 ->]. unfold zset in *. rewrite zlen_zupd.
    destruct ((0 <=? a) && (a <? zlen A)); [discriminate|reflexivity].
  - reflexivity.
Qed.
(** a store outside the footprint commutes with the program *)
Lemma exec_frame {T} R W (p : prog F T) A a v :
  within R W p -> ~ R a -> ~ W a ->
  (do A <- zset A a v; exec p A) = (do r <- exec p A; do A <- zset (snd r) a v; Some (fst r, A)).
Proof.
  revert A. induction p; intros A Hw HR HW; cbn in *.
  - now destruct (zset A a v).
  - now destruct (zset A a v).
  - destruct Hw as [H1 H2]. assert (a <> a0) by (intros ->; tauto).
    destruct (zget A a0) eqn:E0; cbn.
    + rewrite <- (H f A (H2 f) HR HW). destruct (zset A a v) eqn:E; cbn; auto.
      apply zset_inv in E. destruct E as [? ->]. rewrite zget_zupd_other by auto. now rewrite E0.
    + destruct (zset A a v) eqn:E; cbn; auto.
      apply zset_inv in E. destruct E as [? ->]. rewrite zget_zupd_other by auto. now rewrite E0.
  - destruct Hw as [H1 H2]. assert (Hn : a <> a0) by (intros ->; tauto).
    pose proof (zset_comm A a a0 v v0 Hn) as HC.
    destruct (zset A a0 v0) as [A2|] eqn:E0; cbn in *.
    + rewrite <- (IHp A2 H2 HR HW). destruct (zset A a v); cbn in *.
      * now rewrite HC.
      * now rewrite <- HC.
    + destruct (zset A a v); cbn in *; auto. now rewrite HC.
Qed.

(** ** conflict-free programs commute *)
Definition apart (R1 W1 R2 W2 : Z -> Prop) : Prop :=
  forall a, (W1 a -> ~ R2 a /\ ~ W2 a) /\ (W2 a -> ~ R1 a /\ ~ W1 a).
Definition run (p : prog F unit) (A : mem) : option mem := do r <- exec p A; Some (snd r).
Lemma run_bind (p q : prog F unit) A : run (pdo _ <- p; q) A = do A <- run p A; run q A.
Proof. unfold run. rewrite exec_bind. now destruct (exec p A) as [[]|]. Qed.
Lemma run_commute R1 W1 R2 W2 (p q : prog F unit) A :
  within R1 W1 p -> within R2 W2 q -> apart R1 W1 R2 W2 ->
  (do A <- run p A; run q A) = (do A <- run q A; run p A).
Proof.
  intros Hp Hq Ha. unfold run.
  enough (G : (do r <- exec p A; exec q (snd r)) = (do r <- exec q A; exec p (snd r))).
  { transitivity (do r <- (do r <- exec p A; exec q (snd r)); Some (snd r)).
    - now destruct (exec p A) as [[[] ?]|].
    - rewrite G. now destruct (exec q A) as [[[] ?]|]. }
  revert A Hp. induction p; intros A Hp; cbn in *.
  - destruct x. now destruct (exec q A) as [[[] ?]|].
  - now destruct (exec q A).
  - destruct (zget A a) eqn:E; cbn.
    + rewrite H by apply Hp. destruct (exec q A) as [[[] A1]|] eqn:Eq; cbn; auto.
      rewrite (exec_unchanged _ _ _ _ _ _ a Hq) by (eauto; intros G; pose proof (Ha a); tauto). now rewrite E.
    + destruct (exec q A) as [[[] A1]|] eqn:Eq; cbn; auto.
      rewrite (exec_unchanged _ _ _ _ _ _ a Hq) by (eauto; intros G; pose proof (Ha a); tauto). now rewrite E.
  - pose proof (exec_frame _ _ q A a v Hq) as HF.
    assert (HR : ~ R2 a) by (apply (Ha a); apply Hp). assert (HW : ~ W2 a) by (apply (Ha a); apply Hp).
    specialize (HF HR HW).
    destruct (zset A a v) as [A2|] eqn:E; cbn in *.
    + rewrite IHp by apply Hp. rewrite HF. destruct (exec q A) as [[[] A1]|]; cbn; auto.
      destruct (zset A1 a v); cbn; auto.
    + destruct (exec q A) as [[[] A1]|] eqn:Eq; cbn in *; auto.
      destruct (zset A1 a v); cbn in *; auto; discriminate.
Qed.

(** ** pools *)
Fixpoint seqrun (ps : pool F) (A : mem) : option mem :=
  match ps with [] => Some A | p :: r => do A <- run p A; seqrun r A end.
Lemma seqrun_app l r A : seqrun (l ++ r) A = do A <- seqrun l A; seqrun r A.
Proof. revert A. induction l; intros A; cbn; auto. destruct (run a A); cbn; auto. Qed.

(** every thread [i] stays in its footprint and the footprints are pairwise apart *)
Definition free (fR fW : nat -> Z -> Prop) (b : nat) (ps : pool F) : Prop :=
  forall i p, nth_error ps i = Some p -> within (fR (b + i)%nat) (fW (b + i)%nat) p.
Definition all_apart (n : nat) (fR fW : nat -> Z -> Prop) : Prop :=
  forall i j, (i < n)%nat -> (j < n)%nat -> i <> j -> apart (fR i) (fW i) (fR j) (fW j).

Lemma seq_unchanged fR fW ps b A A' a :
  free fR fW b ps -> (forall i, (i < length ps)%nat -> ~ fW (b + i)%nat a) ->
  seqrun ps A = Some A' -> zget A' a = zget A a.
Proof.
  revert b A. induction ps; intros b A Hf Ha E; cbn in *; [now injection E as ->|].
  unfold run in E. destruct (exec a0 A) as [[[] A1]|] eqn:E1; cbn in E; [|discriminate].
  transitivity (zget A1 a).
  - eapply (IHps (S b)); eauto.
    + intros i p Hi. specialize (Hf (S i) p Hi). now rewrite Nat.add_succ_r in Hf.
    + intros i Hi. specialize (Ha (S i)). rewrite Nat.add_succ_r in Ha. apply Ha. lia.
  - eapply exec_unchanged; [apply (Hf O); reflexivity | | eauto]. apply Ha. lia.
Qed.
Lemma seq_frame fR fW ps b A a v :
  free fR fW b ps -> (forall i, (i < length ps)%nat -> ~ fR (b + i)%nat a /\ ~ fW (b + i)%nat a) ->
  (do A <- zset A a v; seqrun ps A) = (do A <- seqrun ps A; zset A a v).
Proof.
  revert b A. induction ps; intros b A Hf Ha; cbn.
  - now destruct (zset A a v).
  - pose proof (exec_frame _ _ a0 A a v (Hf O a0 eq_refl)) as HF.
    assert (H0 : (0 < length (a0 :: ps))%nat) by (cbn; lia).
    specialize (HF (proj1 (Ha O H0)) (proj2 (Ha O H0))).
    assert (IH : forall A, (do A <- zset A a v; seqrun ps A) = (do A <- seqrun ps A; zset A a v)).
    { intros. apply (IHps (S b)).
      - intros i p Hi. specialize (Hf (S i) p Hi). now rewrite Nat.add_succ_r in Hf.
      - intros i Hi. specialize (Ha (S i)). rewrite Nat.add_succ_r in Ha. apply Ha. cbn; lia. }
    unfold run. destruct (zset A a v) as [A2|]; cbn in *.
    + rewrite HF. destruct (exec a0 A) as [[[] A1]|]; cbn; auto. rewrite <- IH.
      destruct (zset A1 a v); cbn; auto.
    + destruct (exec a0 A) as [[[] A1]|]; cbn in *; auto. rewrite <- IH.
      destruct (zset A1 a v); cbn; auto; discriminate.
Qed.

Lemma free_split fR fW b l p r :
  free fR fW b (l ++ p :: r) -> free fR fW b l /\ within (fR (b + length l)%nat) (fW (b + length l)%nat) p.
Proof.
  intros H. split.
  - intros i q Hi. apply H. rewrite nth_error_app1; auto.
    apply nth_error_Some. rewrite Hi. discriminate.
  - apply H. rewrite nth_error_app2 by lia. now rewrite Nat.sub_diag.
Qed.
Lemma free_replace fR fW b l p p' r :
  free fR fW b (l ++ p :: r) -> within (fR (b + length l)%nat) (fW (b + length l)%nat) p' ->
  free fR fW b (l ++ p' :: r).
Proof.
  intros H Hp i q Hi. destruct (Nat.eq_dec i (length l)) as [->|Hn].
  - rewrite nth_error_app2, Nat.sub_diag in Hi by lia. cbn in Hi. injection Hi as <-. exact Hp.
  - apply H. destruct (Nat.lt_ge_cases i (length l)).
    + rewrite nth_error_app1 in * by lia. auto.
    + rewrite nth_error_app2 in * by lia. destruct (i - length l)%nat eqn:E; [lia|]. exact Hi.
Qed.

Lemma step_keeps fR fW l p r A p' A' :
  free fR fW 0 (l ++ p :: r) -> all_apart (length (l ++ p :: r)) fR fW ->
  tstep p A = Some (p', A') ->
  free fR fW 0 (l ++ p' :: r) /\ seqrun (l ++ p :: r) A = seqrun (l ++ p' :: r) A'.
Proof.
  intros Hf Ha Et. destruct (free_split _ _ _ _ _ _ Hf) as [Hl Hp].
  assert (HA : forall i, (i < length l)%nat -> apart (fR i) (fW i) (fR (length l)) (fW (length l))).
  { intros i Hi. apply Ha; rewrite ?app_length; cbn; lia. }
  destruct p; cbn in Et, Hp; try discriminate.
  - destruct (zget A a) eqn:E; cbn in Et; [|discriminate]. injection Et as <- <-.
    split; [eapply free_replace; eauto; apply Hp|].
    rewrite !seqrun_app. destruct (seqrun l A) as [A1|] eqn:E1; cbn; auto.
    unfold run. cbn. rewrite (seq_unchanged fR fW l 0 A A1 a) by
      (auto; intros i Hi G; pose proof (HA i Hi a); cbn in *; tauto).
    now rewrite E.
  - destruct (zset A a v) as [A2|] eqn:E; cbn in Et; [|discriminate]. injection Et as <- <-.
    split; [eapply free_replace; eauto; apply Hp|].
    rewrite !seqrun_app.
    pose proof (seq_frame fR fW l 0 A a v Hl) as HF. rewrite E in HF. cbn [obind] in HF.
    rewrite HF by (intros i Hi; cbn; split; intros G; pose proof (HA i Hi a); tauto).
    destruct (seqrun l A) as [A1|] eqn:E1; cbn; auto. unfold run. cbn.
    destruct (zset A1 a v); cbn; auto.
Qed.

Lemma steps_keep fR fW s t :
  psteps s t -> free fR fW 0 (fst s) -> all_apart (length (fst s)) fR fW ->
  free fR fW 0 (fst t) /\ length (fst t) = length (fst s) /\ seqrun (fst s) (snd s) = seqrun (fst t) (snd t).
Proof.
  induction 1; intros Hf Ha; auto.
  destruct H as [l p r A p' A' Et]. cbn [fst snd] in *.
  destruct (step_keeps _ _ _ _ _ _ _ _ Hf Ha Et) as [H1 H2].
  assert (HL : length (l ++ p' :: r) = length (l ++ p :: r)) by (rewrite !app_length; reflexivity).
  rewrite <- HL in Ha. destruct (IHpsteps H1 Ha) as (G1 & G2 & G3).
  split; [exact G1|split; [congruence|congruence]].
Qed.
Lemma seqrun_finished ps (A : mem) : finished ps -> seqrun ps A = Some A.
Proof.
  induction ps; cbn; intros H; auto. rewrite (H a) by (left; auto). cbn. apply IHps.
  intros q Hq. apply H. now right.
Qed.
Lemma no_fault fR fW ps (A A' : mem) p :
  free fR fW 0 ps -> all_apart (length ps) fR fW -> seqrun ps A = Some A' ->
  In p ps -> p <> Ret tt -> exists s, tstep p A = Some s.
Proof.
  intros Hf Ha E Hin Hn. apply in_split in Hin. destruct Hin as (l & r & ->).
  destruct (free_split _ _ _ _ _ _ Hf) as [Hl Hp].
  assert (HA : forall i, (i < length l)%nat -> apart (fR i) (fW i) (fR (length l)) (fW (length l))).
  { intros i Hi. apply Ha; rewrite ?app_length; cbn; lia. }
  rewrite seqrun_app in E. destruct (seqrun l A) as [A1|] eqn:E1; cbn in E; [|discriminate].
  destruct p; cbn in *.
  - destruct x. congruence.
  - discriminate.
  - unfold run in E. cbn in E. rewrite (seq_unchanged fR fW l 0 A A1 a) in E by
      (auto; intros i Hi G; pose proof (HA i Hi a); cbn in *; tauto).
    destruct (zget A a); cbn in *; [eauto|discriminate].
  - unfold run in E. cbn in E.
    pose proof (seq_frame fR fW l 0 A a v Hl) as HF. rewrite E1 in HF. cbn [obind] in HF.
    destruct (zset A a v); cbn in *; [eauto|].
    rewrite <- HF in E by (intros i Hi; cbn; split; intros G; pose proof (HA i Hi a); tauto). discriminate.
Qed.

(** ** termination *)
Inductive sub : thread F -> thread F -> Prop :=
| sub_load a k v : sub (k v) (Load a k)
| sub_store a v k : sub k (Store a v k).
Lemma sub_wf p : Acc sub p.
Proof. induction p; constructor; intros q Hq; inversion Hq; subst; auto. Qed.
Inductive sub1 : pool F -> pool F -> Prop :=
| Sub1 l p r p' : sub p' p -> sub1 (l ++ p' :: r) (l ++ p :: r).
Lemma sub1_cons ps : Acc sub1 ps -> forall p, Acc sub1 (p :: ps).
Proof.
  induction 1 as [ps H IH]. intros p. induction (sub_wf p) as [p Hp IHp].
  constructor. intros qs Hq. inversion Hq as [l a r a' Ha E1 E2]; subst.
  destruct l as [|b l]; cbn in *; injection E2 as ? ?; subst.
  - apply IHp. exact Ha.
  - apply IH. constructor. exact Ha.
Qed.
Lemma sub1_wf ps : Acc sub1 ps.
Proof.
  induction ps; [|apply sub1_cons; auto].
  constructor. intros qs H. inversion H as [l a r a' Ha E1 E2]. destruct l; discriminate.
Qed.
Lemma pstep_sub1 s t : pstep s t -> sub1 (fst t) (fst s).
Proof.
  destruct 1 as [l p r A p' A' E]. cbn. constructor.
  destruct p; cbn in E; try discriminate.
  - destruct (zget A a); cbn in E; [|discriminate]. injection E as <- <-. constructor.
  - destruct (zset A a v); cbn in E; [|discriminate]. injection E as <- <-. constructor.
Qed.
Lemma no_infinite (s : pool F * mem) :
  ~ exists f : nat -> pool F * mem, f O = s /\ forall i, pstep (f i) (f (S i)).
Proof.
  intros (f & H0 & Hf). subst s.
  enough (G : forall ps, Acc sub1 ps -> forall i, fst (f i) = ps -> False) by (exact (G _ (sub1_wf _) O eq_refl)).
  induction 1 as [ps H IH]. intros i Hi. refine (IH (fst (f (S i))) _ (S i) eq_refl).
  rewrite <- Hi. apply pstep_sub1. apply Hf.
Qed.

(** ** loops *)
Definition seqbody (body : Z -> thread F) (its : list Z) (A : mem) : option mem :=
  fold_left (fun o i => do A <- o; run (body i) A) its (Some A).
Lemma fold_none (body : Z -> thread F) its :
  fold_left (fun o i => do A <- o; run (body i) A) its None = None.
Proof. induction its; cbn; auto. Qed.
Lemma seqbody_cons body i its A : seqbody body (i :: its) A = do A <- run (body i) A; seqbody body its A.
Proof. unfold seqbody. cbn. destruct (run (body i) A); cbn; auto. apply fold_none. Qed.
Lemma seqbody_app body l r A : seqbody body (l ++ r) A = do A <- seqbody body l A; seqbody body r A.
Proof.
  revert A. induction l; intros A; cbn [app]; [reflexivity|]. rewrite !seqbody_cons.
  destruct (run (body a) A); cbn; auto.
Qed.
Lemma run_seq_iters body its A : run (seq_iters body its) A = seqbody body its A.
Proof.
  revert A. induction its; intros A; [reflexivity|]. rewrite seqbody_cons. cbn [seq_iters fold_right].
  fold (seq_iters body its). rewrite run_bind. destruct (run (body a) A); cbn; auto.
Qed.
Lemma seqrun_region body assign A : seqrun (region body assign) A = seqbody body (concat assign) A.
Proof.
  revert A. induction assign; intros A; [reflexivity|]. cbn [region map concat seqrun].
  rewrite seqbody_app, run_seq_iters. destruct (seqbody body a A); cbn; auto.
Qed.
Lemma seqbody_perm (R W : Z -> Z -> Prop) body l r A :
  (forall i, In i l -> within (R i) (W i) (body i)) -> NoDup l ->
  (forall i j, In i l -> In j l -> i <> j -> apart (R i) (W i) (R j) (W j)) ->
  Permutation l r -> seqbody body l A = seqbody body r A.
Proof.
  intros Hw Hn Ha Hp. revert A Hw Hn Ha. induction Hp; intros A Hw Hn Ha.
  - reflexivity.
  - rewrite !seqbody_cons. destruct (run (body x) A); cbn; auto. apply IHHp.
    + intros; apply Hw; now right.
    + now inversion Hn.
    + intros; apply Ha; auto; now right.
  - rewrite !seqbody_cons.
    assert (G : (do A <- run (body y) A; run (body x) A) = (do A <- run (body x) A; run (body y) A)).
    { eapply run_commute; [apply Hw; left; auto | apply Hw; right; left; auto |].
      apply Ha; [left; auto | right; left; auto |]. intros ->. inversion Hn; subst. cbn in *; tauto. }
    destruct (run (body y) A) as [A1|] eqn:E1; destruct (run (body x) A) as [A2|] eqn:E2; cbn [obind] in *;
      rewrite ?seqbody_cons.
    + destruct (run (body x) A1) eqn:E3; cbn [obind]; destruct (run (body y) A2) eqn:E4; cbn [obind]; congruence.
    + now rewrite G.
    + now rewrite <- G.
    + reflexivity.
  - rewrite IHHp1 by auto. apply IHHp2.
    + intros i Hi. apply Hw. eapply Permutation_in; [apply Permutation_sym|]; eauto.
    + eapply Permutation_NoDup; eauto.
    + apply Permutation_sym in Hp1. intros i j Hi Hj. apply Ha; eapply Permutation_in; eauto.
Qed.
Lemma within_seq_iters (R W : Z -> Prop) body its :
  (forall i, In i its -> within R W (body i)) -> within R W (seq_iters body its).
Proof.
  induction its; cbn; intros H; [exact I|]. fold (seq_iters body its).
  apply within_bind; auto.
Qed.
Lemma nodup_concat_disj (ls : list (list Z)) i j a b x :
  NoDup (concat ls) -> nth_error ls i = Some a -> nth_error ls j = Some b -> i <> j ->
  In x a -> In x b -> False.
Proof.
  revert i j. induction ls; intros i j Hn Hi Hj Hij Ha Hb; [destruct i; discriminate|].
  cbn in Hn.
  assert (Hd : forall y, In y a0 -> In y (concat ls) -> False).
  { clear - Hn. induction a0; intros y Hy Hy'; cbn in *; [tauto|]. inversion Hn; subst.
    destruct Hy as [->|Hy]; [apply H1; apply in_or_app; auto | eapply IHa0; eauto]. }
  destruct i, j; cbn in *.
  - lia.
  - injection Hi as ->. eapply Hd; eauto. apply in_concat. exists b. split; auto. eapply nth_error_In; eauto.
  - injection Hj as ->. eapply Hd; eauto. apply in_concat. exists a. split; auto. eapply nth_error_In; eauto.
  - eapply (IHls i j); eauto. clear - Hn. induction a0; cbn in *; auto. inversion Hn; auto.
Qed.

Theorem region_safe (R W : Z -> Z -> Prop) body its assign A A' :
  (forall i, In i its -> within (R i) (W i) (body i)) -> NoDup its ->
  (forall i j, In i its -> In j its -> i <> j -> apart (R i) (W i) (R j) (W j)) ->
  Permutation (concat assign) its -> seqbody body its A = Some A' ->
  let ps := region body assign in
  exists fR fW, free fR fW 0 ps /\ all_apart (length ps) fR fW /\ seqrun ps A = Some A'.
Proof.
  intros Hw Hn Ha Hp E ps.
  set (U := fun (X : Z -> Z -> Prop) t a => exists i, In i (nth t assign []) /\ X i a).
  exists (U R), (U W).
  assert (HnC : NoDup (concat assign)) by (eapply Permutation_NoDup; [apply Permutation_sym|]; eauto).
  assert (Hin : forall t i, In i (nth t assign []) -> In i its).
  { intros t i Hi. eapply Permutation_in; eauto. destruct (Nat.lt_ge_cases t (length assign)).
    - apply in_concat. eexists. split; [|exact Hi]. now apply nth_In.
    - rewrite nth_overflow in Hi by lia. destruct Hi. }
  split; [|split].
  - intros t p Ht. unfold ps, region in Ht. rewrite nth_error_map in Ht.
    destruct (nth_error assign t) as [l|] eqn:El; [|discriminate]. injection Ht as <-. cbn [Nat.add].
    apply within_seq_iters. intros i Hi.
    assert (Hl : nth t assign [] = l) by (now apply nth_error_nth).
    eapply within_mono; [| |apply Hw; eapply Hin with (t := t); rewrite Hl; eauto];
      intros a G; exists i; rewrite Hl; auto.
  - intros t u Ht Hu Hne. unfold ps, region in *. rewrite map_length in *.
    assert (Hd : forall i j, In i (nth t assign []) -> In j (nth u assign []) -> i <> j).
    { intros i j Hi Hj ->.
      exact (nodup_concat_disj assign t u _ _ j HnC (nth_error_nth' _ [] Ht) (nth_error_nth' _ [] Hu) Hne Hi Hj). }
    intros a. split; intros (i & Hi & Gi); split; intros (j & Hj & Gj).
    + specialize (Ha i j (Hin _ _ Hi) (Hin _ _ Hj) (Hd _ _ Hi Hj) a). tauto.
    + specialize (Ha i j (Hin _ _ Hi) (Hin _ _ Hj) (Hd _ _ Hi Hj) a). tauto.
    + specialize (Ha j i (Hin _ _ Hj) (Hin _ _ Hi) (Hd _ _ Hj Hi) a). tauto.
    + specialize (Ha j i (Hin _ _ Hj) (Hin _ _ Hi) (Hd _ _ Hj Hi) a). tauto.
  - unfold ps. rewrite seqrun_region. rewrite <- E. eapply seqbody_perm; eauto.
    + intros i Hi. apply Hw. eapply Permutation_in; eauto.
    + intros i j Hi Hj. apply Ha; eapply Permutation_in; eauto.
Qed.

(** ** relation with the loops of Base *)
Lemma seqbody_iter body n g A :
  seqbody body (map g (seq 0 n)) A = itero n (fun k A => run (body (g k)) A) A.
Proof.
  induction n; [reflexivity|]. rewrite seq_S, map_app, seqbody_app, IHn. cbn [map itero Nat.add].
  destruct (itero n (fun k A => run (body (g k)) A) A); cbn [obind]; [|reflexivity].
  rewrite seqbody_cons. cbn. now destruct (run (body (g n)) l).
Qed.
Lemma seqbody_up body lo hi A :
  seqbody body (loop_iterations lo hi 1) A = for_up lo hi (fun i A => run (body i) A) A.
Proof.
  unfold loop_iterations. rewrite seqbody_iter. unfold for_up.
  replace ((hi - lo + 1 - 1) / 1) with (hi - lo) by (rewrite Z.div_1_r; lia).
  apply itero_ext. intros. now rewrite Z.mul_1_r.
Qed.
Lemma seqbody_upst body lo hi st A :
  seqbody body (loop_iterations lo hi st) A = for_upst lo hi st (fun i A => run (body i) A) A.
Proof. unfold loop_iterations. rewrite seqbody_iter. reflexivity. Qed.
Lemma in_loop lo hi st i : 0 < st -> In i (loop_iterations lo hi st) <->
  (lo <= i < hi /\ exists k, i = lo + k * st).
Proof.
  intros Hst. unfold loop_iterations. rewrite in_map_iff.
  pose proof (Z.div_mod (hi - lo + st - 1) st). pose proof (Z.mod_pos_bound (hi - lo + st - 1) st).
  set (q := (hi - lo + st - 1) / st) in *.
  split.
  - intros (k & <- & Hk). apply in_seq in Hk. assert (Z.of_nat k + 1 <= q) by lia.
    split; [nia|]. exists (Z.of_nat k). lia.
  - intros (Hi & k & ->). exists (Z.to_nat k).
    assert (0 <= k) by nia. split; [lia|]. apply in_seq. assert (k < q) by nia. lia.
Qed.
Lemma nodup_arith (n : nat) lo st : st <> 0 -> NoDup (map (fun k => lo + Z.of_nat k * st) (seq 0 n)).
Proof.
  intros Hst. apply FinFun.Injective_map_NoDup; [|apply seq_NoDup].
  intros a b Hab. assert (Z.of_nat a = Z.of_nat b) by nia. lia.
Qed.
Lemma nodup_loop lo hi st : 0 < st -> NoDup (loop_iterations lo hi st).
Proof. intros. apply nodup_arith. lia. Qed.
End G.

(** the strided partition used by the drivers is a schedule *)
Lemma in_thread lo hi st T t i : 0 < st -> 0 < T -> 0 <= t < T ->
  In i (thread_iterations lo hi st T t) <-> (lo <= i < hi /\ exists k, i = lo + (t + k * T) * st /\ 0 <= k).
Proof.
  intros Hst HT Ht. unfold thread_iterations. rewrite in_map_iff.
  assert (Hs : 0 < st * T) by nia.
  remember (hi - (lo + st * t)) as w eqn:Hw.
  pose proof (Z.div_mod (w + st * T - 1) (st * T)). pose proof (Z.mod_pos_bound (w + st * T - 1) (st * T)).
  remember (st * T) as sT eqn:HsT.
  remember ((w + sT - 1) / sT) as q eqn:Hq.
  assert (st * t >= 0) by nia.
  split.
  - intros (k & <- & Hk). apply in_seq in Hk. assert (Z.of_nat k + 1 <= q) by lia.
    split; [nia|]. exists (Z.of_nat k). split; [subst sT; ring|lia].
  - intros (Hi & k & -> & Hk). exists (Z.to_nat k).
    split; [rewrite Z2Nat.id by lia; subst sT; ring|]. apply in_seq.
    assert ((t + k * T) * st = st * t + k * sT) by (subst sT; ring).
    assert (k < q) by nia. lia.
Qed.
Lemma nodup_concat_intro (ls : list (list Z)) :
  (forall l, In l ls -> NoDup l) ->
  (forall i j a b x, nth_error ls i = Some a -> nth_error ls j = Some b -> i <> j -> In x a -> In x b -> False) ->
  NoDup (concat ls).
Proof.
  induction ls; cbn; intros H1 H2; [constructor|].
  assert (Ha : NoDup a) by auto. assert (Hd : forall x, In x a -> In x (concat ls) -> False).
  { intros x Hx Hc. apply in_concat in Hc. destruct Hc as (b & Hb & Hxb).
    apply In_nth_error in Hb. destruct Hb as (j & Hj). eapply (H2 O (S j)); cbn; eauto. }
  assert (Hc : NoDup (concat ls)).
  { apply IHls; auto. intros i j b c x Hi Hj Hij. eapply (H2 (S i) (S j)); cbn; eauto. }
  clear - Ha Hd Hc. induction a; cbn; auto. inversion Ha; subst. constructor.
  - intros G. apply in_app_or in G. destruct G; [auto | eapply Hd; eauto; left; auto].
  - apply IHa; auto. intros. eapply Hd; eauto. now right.
Qed.
Theorem strided_is_schedule lo hi st T : 0 < st -> 0 < T ->
  Permutation (concat (map (fun t => thread_iterations lo hi st T (Z.of_nat t)) (seq 0 (Z.to_nat T))))
              (loop_iterations lo hi st).
Proof.
  intros Hst HT. apply NoDup_Permutation.
  - apply nodup_concat_intro.
    + intros l Hl. apply in_map_iff in Hl. destruct Hl as (t & <- & _). apply nodup_arith. nia.
    + intros i j a b x Hi Hj Hij Ha Hb. rewrite nth_error_map in Hi, Hj.
      destruct (nth_error (seq 0 (Z.to_nat T)) i) as [t|] eqn:Et; [|discriminate].
      destruct (nth_error (seq 0 (Z.to_nat T)) j) as [u|] eqn:Eu; [|discriminate].
      assert (Ht : t = i /\ (i < Z.to_nat T)%nat).
      { assert (Hl : (i < length (seq 0 (Z.to_nat T)))%nat) by (apply nth_error_Some; congruence).
        rewrite seq_length in Hl. split; auto. apply (nth_error_nth _ _ O) in Et.
        rewrite seq_nth in Et by auto. lia. }
      assert (Hu : u = j /\ (j < Z.to_nat T)%nat).
      { assert (Hl : (j < length (seq 0 (Z.to_nat T)))%nat) by (apply nth_error_Some; congruence).
        rewrite seq_length in Hl. split; auto. apply (nth_error_nth _ _ O) in Eu.
        rewrite seq_nth in Eu by auto. lia. }
      destruct Ht as [-> Ht]. destruct Hu as [-> Hu]. injection Hi as <-. injection Hj as <-.
      apply in_thread in Ha; try lia. apply in_thread in Hb; try lia.
      destruct Ha as (_ & k & -> & _). destruct Hb as (_ & k' & E & _).
      assert (G : Z.of_nat i + k * T = Z.of_nat j + k' * T) by nia.
      apply Hij. assert (Z.of_nat i = Z.of_nat j); [|lia].
      rewrite <- (Z.mod_small (Z.of_nat i) T), <- (Z.mod_small (Z.of_nat j) T) by lia.
      rewrite <- (Z_mod_plus_full (Z.of_nat i) k T), G. apply Z_mod_plus_full.
  - now apply nodup_loop.
  - intros x. rewrite in_concat, in_loop by auto. split.
    + intros (l & Hl & Hx). apply in_map_iff in Hl. destruct Hl as (t & <- & Ht). apply in_seq in Ht.
      apply in_thread in Hx; try lia. destruct Hx as (Hx & k & -> & _). split; eauto.
    + intros (Hx & k & ->). assert (0 <= k) by nia.
      pose proof (Z.div_mod k T). pose proof (Z.mod_pos_bound k T).
      exists (thread_iterations lo hi st T (Z.of_nat (Z.to_nat (k mod T)))). split.
      * apply in_map_iff. exists (Z.to_nat (k mod T)). split; auto. apply in_seq. lia.
      * apply in_thread; try lia. split; auto. exists (k / T). split; [|apply Z.div_pos; lia].
        rewrite Z2Nat.id by lia. f_equal. f_equal. lia.
Qed.
