(** * Sequences of plane rotations: semantics of the kernels as lists of operations *)
From Coq Require Import ZArith List Lia Bool ZifyBool ZifyNat.
From Verif Require Import Base BaseFacts Arith MPermute PPermute MRotations.
Import ListNotations.
Open Scope Z_scope.

(** ** Operations on a column *)
Section Ops.
Context {F : Type}.

(** an operation replaces the entries [x] and [y] by [f (entry x) (entry y)] *)
Record op := mkop { ox : Z; oy : Z; of_ : F -> F -> F * F }.

Definition app1 (o : op) (g : Z -> F) : Z -> F := fun r =>
  if r =? oy o then snd (of_ o (g (ox o)) (g (oy o)))
  else if r =? ox o then fst (of_ o (g (ox o)) (g (oy o))) else g r.
Fixpoint run (l : list op) (g : Z -> F) : Z -> F :=
  match l with [] => g | o :: l => run l (app1 o g) end.

Lemma app1_ext o g h : (forall r, g r = h r) -> forall r, app1 o g r = app1 o h r.
Proof. intros H r. unfold app1. now rewrite !H. Qed.
Lemma run_ext l : forall g h, (forall r, g r = h r) -> forall r, run l g r = run l h r.
Proof. induction l as [|o l IH]; intros g h H r; cbn; auto. apply IH. now apply app1_ext. Qed.
Lemma run_app l1 l2 g : run (l1 ++ l2) g = run l2 (run l1 g).
Proof. revert g; induction l1; intros; cbn; auto. Qed.

Definition equiv (l1 l2 : list op) := forall g r, run l1 g r = run l2 g r.
Lemma equiv_refl l : equiv l l. Proof. intros g r; auto. Qed.
Lemma equiv_sym l1 l2 : equiv l1 l2 -> equiv l2 l1. Proof. intros H g r. now rewrite H. Qed.
Lemma equiv_trans l1 l2 l3 : equiv l1 l2 -> equiv l2 l3 -> equiv l1 l3.
Proof. intros H1 H2 g r. now rewrite H1. Qed.
Lemma equiv_eq l1 l2 : l1 = l2 -> equiv l1 l2. Proof. intros ->. apply equiv_refl. Qed.
Lemma equiv_app l1 l2 l1' l2' : equiv l1 l1' -> equiv l2 l2' -> equiv (l1 ++ l2) (l1' ++ l2').
Proof.
  intros H1 H2 g r. rewrite !run_app, H2. apply run_ext. intros. apply H1.
Qed.

(** operations on disjoint pairs of entries commute *)
Definition indep (o p : op) :=
  ox o <> ox p /\ ox o <> oy p /\ oy o <> ox p /\ oy o <> oy p.
Lemma app1_comm o p g r : indep o p -> app1 p (app1 o g) r = app1 o (app1 p g) r.
Proof.
  intros (A & B & C & D). unfold app1.
  repeat match goal with |- context [ ?a =? ?b ] =>
    first [ replace (a =? b) with false by lia | replace (a =? b) with true by lia ] end.
  destruct (Z.eqb_spec r (oy p)), (Z.eqb_spec r (ox p)), (Z.eqb_spec r (oy o)), (Z.eqb_spec r (ox o));
    try lia; auto.
Qed.
Definition indeps (l1 l2 : list op) := forall o p, In o l1 -> In p l2 -> indep o p.
Lemma equiv_cons o l1 l2 : equiv l1 l2 -> equiv (o :: l1) (o :: l2).
Proof. intros H g r. cbn. apply H. Qed.
Lemma swap1 o l : (forall p, In p l -> indep o p) -> equiv (o :: l) (l ++ [o]).
Proof.
  induction l as [|p l IH]; intros H. { apply equiv_refl. }
  apply equiv_trans with (p :: o :: l).
  - intros g r. cbn. apply run_ext. intros. apply app1_comm. apply H; now left.
  - cbn. apply equiv_cons. apply IH. intros; apply H; now right.
Qed.
Lemma swaps l1 l2 : indeps l1 l2 -> equiv (l1 ++ l2) (l2 ++ l1).
Proof.
  revert l2; induction l1 as [|o l1 IH]; intros l2 H.
  - rewrite app_nil_r. apply equiv_refl.
  - cbn. apply equiv_trans with (o :: l2 ++ l1).
    + apply equiv_cons. apply IH. intros a b Ha Hb; apply H; auto; now right.
    + replace (l2 ++ o :: l1) with ((l2 ++ [o]) ++ l1) by (rewrite <- app_assoc; auto).
      apply (equiv_app (o :: l2) l1 (l2 ++ [o]) l1); [|apply equiv_refl].
      apply swap1. intros p Hp. apply H; auto; now left.
Qed.

(** [cat n f = f 0 ++ f 1 ++ ... ++ f (n-1)] *)
Fixpoint cat (n : nat) (f : nat -> list op) : list op :=
  match n with O => [] | S n => cat n f ++ f n end.
Lemma cat_ext n f g : (forall k, (k < n)%nat -> f k = g k) -> cat n f = cat n g.
Proof. induction n; cbn; auto. intros H. rewrite IHn, H by auto. auto. Qed.
Lemma cat_equiv n f g : (forall k, (k < n)%nat -> equiv (f k) (g k)) -> equiv (cat n f) (cat n g).
Proof.
  induction n; cbn; intros H. { apply equiv_refl. }
  apply equiv_app; [apply IHn; intros|]; apply H; lia.
Qed.
Lemma In_cat n f o : In o (cat n f) <-> exists k, (k < n)%nat /\ In o (f k).
Proof.
  induction n; cbn.
  - split; [tauto|intros (k & Hk & _); lia].
  - rewrite in_app_iff, IHn. split.
    + intros [(k & Hk & Ho)|Ho]; [exists k|exists n]; split; auto; lia.
    + intros (k & Hk & Ho). destruct (Nat.eq_dec k n); [subst; auto|left; exists k; split; auto; lia].
Qed.
Lemma cat_first n f : cat (S n) f = f O ++ cat n (fun k => f (S k)).
Proof.
  induction n. { cbn. now rewrite app_nil_r. }
  change (cat (S (S n)) f) with (cat (S n) f ++ f (S n)). rewrite IHn. cbn [cat].
  now rewrite app_assoc.
Qed.
Lemma cat_plus a b f : cat (a + b) f = cat a f ++ cat b (fun k => f (a + k)%nat).
Proof.
  induction b. { rewrite Nat.add_0_r. cbn. now rewrite app_nil_r. }
  rewrite Nat.add_succ_r. cbn [cat]. rewrite IHb. now rewrite app_assoc.
Qed.
Lemma cat_nil n : cat n (fun _ => []) = [].
Proof. induction n; cbn; auto. now rewrite IHn. Qed.

(** moving one more chunk row past the earlier columns *)
Lemma cat_zip n (f g : nat -> list op) :
  (forall a a', (a < a')%nat -> (a' < n)%nat -> indeps (g a) (f a')) ->
  equiv (cat n (fun a => f a ++ g a)) (cat n f ++ cat n g).
Proof.
  induction n as [|n IH]; intros H; cbn. { apply equiv_refl. }
  apply equiv_trans with ((cat n f ++ cat n g) ++ (f n ++ g n)).
  { apply equiv_app; [|apply equiv_refl]. apply IH. intros; apply H; lia. }
  rewrite <- !app_assoc. apply equiv_app; [apply equiv_refl|].
  rewrite !app_assoc. apply equiv_app; [|apply equiv_refl].
  apply swaps. intros o p Ho Hp. apply In_cat in Ho as (a & Ha & Ho).
  apply (H a n); auto.
Qed.
(** column by column = chunk row by chunk row *)
Lemma transpose n u (X : nat -> nat -> list op) :
  (forall a a' c c', (a < a')%nat -> (a' < n)%nat -> (c' < c)%nat -> (c < u)%nat ->
     indeps (X a c) (X a' c')) ->
  equiv (cat n (fun a => cat u (X a))) (cat u (fun c => cat n (fun a => X a c))).
Proof.
  induction u as [|u IH]; intros H; cbn [cat].
  { rewrite cat_nil. apply equiv_refl. }
  apply equiv_trans with (cat n (fun a => cat u (X a)) ++ cat n (fun a => X a u)).
  - apply (cat_zip n (fun a => cat u (X a)) (fun a => X a u)).
    intros a a' Ha Ha' o p Ho Hp. apply In_cat in Hp as (c' & Hc' & Hp).
    apply (H a a' u c'); auto.
  - apply equiv_app; [|apply equiv_refl]. apply IH. intros; apply H; lia.
Qed.

Lemma rev_cat n f : rev (cat n f) = cat n (fun k => rev (f (n - 1 - k)%nat)).
Proof.
  induction n. { reflexivity. }
  change (cat (S n) f) with (cat n f ++ f n). rewrite rev_app_distr, IHn.
  rewrite (cat_first n (fun k => rev (f (S n - 1 - k)%nat))).
  f_equal. { f_equal. f_equal. lia. } apply cat_ext. intros k Hk. do 2 f_equal. lia.
Qed.

(** loops over integers *)
Definition ups (lo hi : Z) (f : Z -> list op) := cat (Z.to_nat (hi - lo)) (fun k => f (lo + Z.of_nat k)).
Definition dns (hi lo : Z) (f : Z -> list op) := cat (Z.to_nat (hi - lo + 1)) (fun k => f (hi - Z.of_nat k)).
Definition upsst (lo hi st : Z) (f : Z -> list op) :=
  cat (Z.to_nat ((hi - lo + st - 1) / st)) (fun k => f (lo + Z.of_nat k * st)).
Definition dnsst (hi lo st : Z) (f : Z -> list op) :=
  cat (Z.to_nat ((hi - lo + st) / st)) (fun k => f (hi - Z.of_nat k * st)).

Lemma ups_split lo mid hi f : lo <= mid <= hi -> ups lo hi f = ups lo mid f ++ ups mid hi f.
Proof.
  intros H. unfold ups.
  replace (Z.to_nat (hi - lo)) with (Z.to_nat (mid - lo) + Z.to_nat (hi - mid))%nat by lia.
  rewrite cat_plus. f_equal. apply cat_ext. intros. f_equal. lia.
Qed.
Lemma dns_split hi mid lo f : lo - 1 <= mid <= hi -> dns hi lo f = dns hi (mid + 1) f ++ dns mid lo f.
Proof.
  intros H. unfold dns.
  replace (Z.to_nat (hi - lo + 1)) with (Z.to_nat (hi - (mid+1) + 1) + Z.to_nat (mid - lo + 1))%nat by lia.
  rewrite cat_plus. f_equal. apply cat_ext. intros. f_equal. lia.
Qed.
Lemma ups_nil lo hi f : hi <= lo -> ups lo hi f = [].
Proof. intros. unfold ups. now replace (Z.to_nat (hi - lo)) with O by lia. Qed.
Lemma dns_nil hi lo f : hi < lo -> dns hi lo f = [].
Proof. intros. unfold dns. now replace (Z.to_nat (hi - lo + 1)) with O by lia. Qed.
Lemma In_ups lo hi f o : In o (ups lo hi f) <-> exists k, lo <= k < hi /\ In o (f k).
Proof.
  unfold ups. rewrite In_cat. split.
  - intros (k & Hk & Ho). exists (lo + Z.of_nat k). split; auto; lia.
  - intros (k & Hk & Ho). exists (Z.to_nat (k - lo)). split; [lia|].
    now replace (lo + Z.of_nat (Z.to_nat (k - lo))) with k by lia.
Qed.
Lemma In_dns hi lo f o : In o (dns hi lo f) <-> exists k, lo <= k <= hi /\ In o (f k).
Proof.
  unfold dns. rewrite In_cat. split.
  - intros (k & Hk & Ho). exists (hi - Z.of_nat k). split; auto; lia.
  - intros (k & Hk & Ho). exists (Z.to_nat (hi - k)). split; [lia|].
    now replace (hi - Z.of_nat (Z.to_nat (hi - k))) with k by lia.
Qed.
Lemma ups_ext lo hi f g : (forall k, lo <= k < hi -> f k = g k) -> ups lo hi f = ups lo hi g.
Proof. intros. unfold ups. apply cat_ext. intros. apply H. lia. Qed.
Lemma dns_ext hi lo f g : (forall k, lo <= k <= hi -> f k = g k) -> dns hi lo f = dns hi lo g.
Proof. intros. unfold dns. apply cat_ext. intros. apply H. lia. Qed.
Lemma ups_equiv lo hi f g : (forall k, lo <= k < hi -> equiv (f k) (g k)) -> equiv (ups lo hi f) (ups lo hi g).
Proof. intros. unfold ups. apply cat_equiv. intros. apply H. lia. Qed.

Lemma rev_dns hi lo f : rev (dns hi lo f) = ups lo (hi + 1) (fun k => rev (f k)).
Proof.
  unfold dns, ups. rewrite rev_cat.
  replace (Z.to_nat (hi - lo + 1)) with (Z.to_nat (hi + 1 - lo)) by lia.
  apply cat_ext. intros k Hk. do 2 f_equal. lia.
Qed.
(** the stepped downward loop starting at [lo + (cnt-1) st] *)
Lemma dnsst_cnt hi lo st f c : 0 < st -> 0 <= c -> c * st <= hi - lo + st < (c + 1) * st ->
  dnsst hi lo st f = cat (Z.to_nat c) (fun k => f (hi - Z.of_nat k * st)).
Proof.
  intros H Hc0 Hc. unfold dnsst.
  replace ((hi - lo + st) / st) with c; auto.
  apply (Z.div_unique_pos _ _ _ (hi - lo + st - c * st)); lia.
Qed.
Lemma upsst_cnt lo hi st f c : 0 < st -> 0 <= c -> c * st <= hi - lo + st - 1 < (c + 1) * st ->
  upsst lo hi st f = cat (Z.to_nat c) (fun k => f (lo + Z.of_nat k * st)).
Proof.
  intros H Hc0 Hc. unfold upsst.
  replace ((hi - lo + st - 1) / st) with c; auto.
  apply (Z.div_unique_pos _ _ _ (hi - lo + st - 1 - c * st)); lia.
Qed.
End Ops.
Arguments op : clear implicits.

(** ** Programs that realise operations on each lane of an abstract state *)
Section Real.
Context {F St : Type}.
Variables (inv : St -> Prop) (view : St -> Z -> Z -> F) (W : Z).

Definition real (prog : St -> option St) (ops : Z -> list (op F)) :=
  forall st, inv st -> exists st', prog st = Some st' /\ inv st' /\
    forall i r, 0 <= i < W -> view st' i r = run (ops i) (view st i) r.

Lemma real_ret : real (fun st => Some st) (fun _ => []).
Proof. intros st H. exists st. auto. Qed.
Lemma real_seq p1 p2 o1 o2 : real p1 o1 -> real p2 o2 ->
  real (fun st => do st <- p1 st; p2 st) (fun i => o1 i ++ o2 i).
Proof.
  intros H1 H2 st Hi. destruct (H1 st Hi) as (s1 & E1 & I1 & V1).
  destruct (H2 s1 I1) as (s2 & E2 & I2 & V2).
  exists s2. rewrite E1. split; [exact E2|]. split; auto.
  intros i r Hr. rewrite V2, run_app by auto. apply run_ext. auto.
Qed.
Lemma real_equiv p o o' : real p o -> (forall i, 0 <= i < W -> equiv (o i) (o' i)) -> real p o'.
Proof.
  intros H E st Hi. destruct (H st Hi) as (s & P & I & V). exists s. split; [|split]; auto.
  intros i r Hr. rewrite V by auto. now apply E.
Qed.
Lemma real_prog p p' o : real p o -> (forall st, inv st -> p' st = p st) -> real p' o.
Proof.
  intros H E st Hi. destruct (H st Hi) as (s & P & I & V). exists s. rewrite E by auto. auto.
Qed.
Lemma real_itero n f (o : nat -> Z -> list (op F)) :
  (forall k, (k < n)%nat -> real (f k) (o k)) ->
  real (itero n f) (fun i => cat n (fun k => o k i)).
Proof.
  induction n as [|n IH]; intros H; cbn [itero cat]. { apply real_ret. }
  apply (real_seq (itero n f) (f n) (fun i => cat n (fun k => o k i)) (o n)); auto.
Qed.
Lemma real_up lo hi f (o : Z -> Z -> list (op F)) :
  (forall k, lo <= k < hi -> real (f k) (o k)) ->
  real (for_up lo hi f) (fun i => ups lo hi (fun k => o k i)).
Proof.
  intros H. unfold for_up, ups.
  apply (real_itero _ (fun k => f (lo + Z.of_nat k)) (fun k i => o (lo + Z.of_nat k) i)).
  intros. apply H. lia.
Qed.
Lemma real_dn hi lo f (o : Z -> Z -> list (op F)) :
  (forall k, lo <= k <= hi -> real (f k) (o k)) ->
  real (for_dn hi lo f) (fun i => dns hi lo (fun k => o k i)).
Proof.
  intros H. unfold for_dn, dns.
  apply (real_itero _ (fun k => f (hi - Z.of_nat k)) (fun k i => o (hi - Z.of_nat k) i)).
  intros. apply H. lia.
Qed.
Lemma real_upst lo hi st f (o : Z -> Z -> list (op F)) :
  0 < st ->
  (forall c k, 0 <= c -> k = lo + c * st -> lo <= k < hi -> real (f k) (o k)) ->
  real (for_upst lo hi st f) (fun i => upsst lo hi st (fun k => o k i)).
Proof.
  intros Hst H. unfold for_upst, upsst.
  apply (real_itero _ (fun k => f (lo + Z.of_nat k * st)) (fun k i => o (lo + Z.of_nat k * st) i)).
  intros k Hk. apply (H (Z.of_nat k)); auto; try lia.
  assert ((Z.of_nat k + 1) * st <= hi - lo + st - 1); [|lia].
  apply Z.le_trans with ((hi - lo + st - 1) / st * st).
  - apply Z.mul_le_mono_nonneg_r; lia.
  - rewrite Z.mul_comm. apply Z.mul_div_le; lia.
Qed.
Lemma real_dnst hi lo st f (o : Z -> Z -> list (op F)) :
  0 < st ->
  (forall c k, 0 <= c -> k = hi - c * st -> lo <= k <= hi -> real (f k) (o k)) ->
  real (for_dnst hi lo st f) (fun i => dnsst hi lo st (fun k => o k i)).
Proof.
  intros Hst H. unfold for_dnst, dnsst.
  apply (real_itero _ (fun k => f (hi - Z.of_nat k * st)) (fun k i => o (hi - Z.of_nat k * st) i)).
  intros k Hk. apply (H (Z.of_nat k)); auto; try lia.
  assert ((Z.of_nat k + 1) * st <= hi - lo + st); [|lia].
  apply Z.le_trans with ((hi - lo + st) / st * st).
  - apply Z.mul_le_mono_nonneg_r; lia.
  - rewrite Z.mul_comm. apply Z.mul_div_le; lia.
Qed.
End Real.

(** ** Lanes of an array: entry [r] of lane [i] is at [oA + r S + i] *)
Section Mem.
Context {F : Type} `{Arith F}.
Variables (oA S n W : Z).
Hypothesis HW : 0 <= W <= S.

Definition addr (r i : Z) := oA + r * S + i.
Definition mview (A : list F) (i r : Z) : F :=
  if (0 <=? r) && (r <? n) then nthZ zero A (addr r i) else zero.
Definition foot (p : Z) := exists r i, 0 <= r < n /\ 0 <= i < W /\ p = addr r i.
Definition fits (A : list F) := forall r i, 0 <= r < n -> 0 <= i < W -> 0 <= addr r i < zlen A.
Definition minv (A0 A : list F) :=
  zlen A = zlen A0 /\ fits A0 /\ forall p, ~ foot p -> zget A p = zget A0 p.

Lemma addr_inj r i r' i' : 0 <= i < W -> 0 <= i' < W -> addr r i = addr r' i' -> r = r' /\ i = i'.
Proof.
  unfold addr. intros. assert (r = r'); [|subst; split; lia].
  assert (i = i' /\ r = r') as [_ ?]; auto. apply (idx2_inj i r i' r' S); lia.
Qed.
Lemma minv_refl A : fits A -> minv A A. Proof. intros. split; [|split]; auto. Qed.
Lemma minv_fits A0 A : minv A0 A -> fits A.
Proof. intros (L & Ft & _) r i Hr Hi. rewrite L. now apply Ft. Qed.

(** two states with the same views and the same outside are equal *)
Lemma minv_ext A0 A B : minv A0 A -> minv A0 B ->
  (forall i r, 0 <= i < W -> mview A i r = mview B i r) -> A = B.
Proof.
  intros (LA & Ft & OA) (LB & _ & OB) V. apply (nthZ_ext zero); [congruence|].
  intros p Hp.
  assert (D : foot p \/ ~ foot p).
  { set (q := p - oA). destruct (Z_le_dec 0 q) as [Hq|Hq].
    - destruct (Z.eq_dec S 0) as [HS|HS].
      { right. intros (r & i & ? & ? & ?). lia. }
      pose proof (Z.div_mod q S HS) as E. pose proof (Z.mod_pos_bound q S ltac:(lia)) as Bm.
      assert (Hqd : 0 <= q / S) by (apply Z.div_pos; lia).
      destruct (Z_lt_dec (q / S) n) as [H1|H1]; [destruct (Z_lt_dec (q mod S) W) as [H2|H2]|].
      + left. exists (q / S), (q mod S). repeat split; try lia. unfold addr. subst q. lia.
      + right. intros (r & i & Hr & Hi & ->). apply H2. unfold addr in q. subst q.
        replace (oA + r * S + i - oA) with (i + r * S) by lia.
        rewrite Z_mod_plus_full, Z.mod_small; lia.
      + right. intros (r & i & Hr & Hi & ->). apply H1. unfold addr in q. subst q.
        replace (oA + r * S + i - oA) with (i + r * S) by lia.
        rewrite Z_div_plus by lia. rewrite Z.div_small; lia.
    - right. intros (r & i & Hr & Hi & ->). unfold addr in q. subst q.
      assert (0 <= r * S) by (apply Z.mul_nonneg_nonneg; lia). lia. }
  destruct D as [(r & i & Hr & Hi & ->)|D].
  - specialize (V i r Hi). unfold mview in V.
    now replace ((0 <=? r) && (r <? n)) with true in V by lia.
  - unfold nthZ. now rewrite OA, OB.
Qed.

(** one scalar operation on lane [ln] *)
Definition only (ln : Z) (l : list (op F)) (i : Z) : list (op F) := if i =? ln then l else [].

Lemma real_apply_rot A0 rot s c x y ln :
  0 <= ln < W -> 0 <= x < n -> 0 <= y < n -> x <> y ->
  real (minv A0) mview W
    (fun A => apply_rot rot s c A (oA + ln + x * S) (oA + ln + y * S))
    (only ln [mkop x y (rot s c)]).
Proof.
  intros Hln Hx Hy Hxy A (L & Ft & O).
  pose proof (Ft x ln Hx Hln) as Bx. pose proof (Ft y ln Hy Hln) as By.
  replace (oA + ln + x * S) with (addr x ln) by (unfold addr; lia).
  replace (oA + ln + y * S) with (addr y ln) by (unfold addr; lia).
  unfold apply_rot. rewrite !(zget_nthZ zero) by lia. cbn [obind].
  rewrite zset_some by lia. cbn [obind]. rewrite zset_some by (rewrite zlen_zupd; lia).
  eexists; split; [reflexivity|]. split; [split; [|split]|]; auto.
  - rewrite !zlen_zupd; auto.
  - intros p Hp. rewrite !zget_zupd_other; auto; intros <-; apply Hp.
    + exists x, ln; auto. + exists y, ln; auto.
  - intros i r Hi. unfold mview at 1, only.
    assert (V : forall q, 0 <= q < n -> mview A ln q = nthZ zero A (addr q ln)).
    { intros q Hq. unfold mview. now replace ((0 <=? q) && (q <? n)) with true by lia. }
    destruct ((0 <=? r) && (r <? n)) eqn:E.
    + assert (Hr : 0 <= r < n) by lia. rewrite !nthZ_zupd by (rewrite ?zlen_zupd; lia).
      destruct (Z.eqb_spec (addr y ln) (addr r i)) as [E1|E1].
      { apply addr_inj in E1 as [-> ->]; auto. rewrite Z.eqb_refl. cbn. unfold app1; cbn.
        rewrite Z.eqb_refl, !V by lia. auto. }
      destruct (Z.eqb_spec (addr x ln) (addr r i)) as [E2|E2].
      { apply addr_inj in E2 as [-> ->]; auto. rewrite Z.eqb_refl. cbn. unfold app1; cbn.
        replace (r =? y) with false by lia. rewrite Z.eqb_refl, !V by lia. auto. }
      destruct (Z.eqb_spec i ln); subst; cbn.
      * unfold app1; cbn. destruct (Z.eqb_spec r y); [subst; lia|].
        destruct (Z.eqb_spec r x); [subst; lia|]. rewrite V by lia. auto.
      * unfold mview. now rewrite E.
    + destruct (Z.eqb_spec i ln); subst; cbn; unfold app1; cbn.
      * replace (r =? y) with false by lia. replace (r =? x) with false by lia.
        unfold mview. now rewrite E.
      * unfold mview. now rewrite E.
Qed.

(** ** Vectors *)
Variable VS : nat.
Hypothesis HVS : W = Z.of_nat VS.

Lemma zget_vrot1 rot s c (x y : list F) k : length x = VS -> length y = VS -> 0 <= k < W ->
  zget (vrot1 rot s c x y) k = Some (fst (rot s c (nthZ zero x k) (nthZ zero y k))).
Proof.
  intros Hx Hy Hk. pose proof (zget_nthZ zero x k ltac:(unfold zlen; lia)) as Ex.
  pose proof (zget_nthZ zero y k ltac:(unfold zlen; lia)) as Ey.
  unfold vrot1. unfold zget in *. replace (k <? 0) with false in * by lia.
  rewrite nth_error_map. revert Ex Ey. generalize (Z.to_nat k) as m.
  generalize (nthZ zero x k) (nthZ zero y k). clear.
  revert y; induction x as [|a x IH]; intros [|b y] p q [|m] E1 E2; cbn in *; try discriminate; try congruence.
  apply IH; auto.
Qed.
Lemma zget_vrot2 rot s c (x y : list F) k : length x = VS -> length y = VS -> 0 <= k < W ->
  zget (vrot2 rot s c x y) k = Some (snd (rot s c (nthZ zero x k) (nthZ zero y k))).
Proof.
  intros Hx Hy Hk. pose proof (zget_nthZ zero x k ltac:(unfold zlen; lia)) as Ex.
  pose proof (zget_nthZ zero y k ltac:(unfold zlen; lia)) as Ey.
  unfold vrot2. unfold zget in *. replace (k <? 0) with false in * by lia.
  rewrite nth_error_map. revert Ex Ey. generalize (Z.to_nat k) as m.
  generalize (nthZ zero x k) (nthZ zero y k). clear.
  revert y; induction x as [|a x IH]; intros [|b y] p q [|m] E1 E2; cbn in *; try discriminate; try congruence.
  apply IH; auto.
Qed.
Lemma length_vrot1 rot s c (x y : list F) : length x = VS -> length y = VS -> length (vrot1 rot s c x y) = VS.
Proof. intros. unfold vrot1. rewrite map_length, combine_length. lia. Qed.
Lemma length_vrot2 rot s c (x y : list F) : length x = VS -> length y = VS -> length (vrot2 rot s c x y) = VS.
Proof. intros. unfold vrot2. rewrite map_length, combine_length. lia. Qed.

(** loading and storing the row [r] of all lanes *)
Lemma load_row A0 A r : minv A0 A -> 0 <= r < n ->
  exists v, vload VS A (oA + r * S) = Some v /\ length v = VS /\
    forall i, 0 <= i < W -> nthZ zero v i = mview A i r.
Proof.
  intros Hi Hr. pose proof (minv_fits _ _ Hi) as Ft.
  destruct (Nat.eq_dec VS 0) as [E0|E0].
  { exists []. rewrite E0. repeat split; auto. intros; lia. }
  pose proof (Ft r 0 Hr ltac:(lia)). pose proof (Ft r (W - 1) Hr ltac:(lia)). unfold addr in *.
  destruct (vload_spec VS A (oA + r * S)) as (v & E & L & G); try lia.
  exists v. repeat split; auto. intros i Hi'. unfold mview.
  replace ((0 <=? r) && (r <? n)) with true by lia. unfold nthZ. rewrite G by lia. reflexivity.
Qed.
Lemma store_row A0 A r v : minv A0 A -> 0 <= r < n -> length v = VS ->
  exists A', vstore A (oA + r * S) v = Some A' /\ minv A0 A' /\
    forall i q, 0 <= i < W -> mview A' i q = if q =? r then nthZ zero v i else mview A i q.
Proof.
  intros Hi Hr Hv. pose proof (minv_fits _ _ Hi) as Ft.
  destruct (Nat.eq_dec VS 0) as [E0|E0].
  { destruct v; [|cbn in Hv; lia]. exists A. split; [reflexivity|]. split; [exact Hi|]. intros; lia. }
  pose proof (Ft r 0 Hr ltac:(lia)). pose proof (Ft r (W - 1) Hr ltac:(lia)). unfold addr in *.
  assert (Lv : zlen v = W) by (unfold zlen; lia).
  destruct (vstore_spec v A (oA + r * S)) as (A' & E & L & G); try lia.
  exists A'. split; auto. split.
  - destruct Hi as (L0 & F0 & O). split; [|split]; auto; try congruence.
    intros p Hp. rewrite G. destruct ((oA + r * S <=? p) && (p <? oA + r * S + zlen v)) eqn:E1; auto.
    exfalso. apply Hp. exists r, (p - (oA + r * S)). unfold addr. repeat split; try lia.
  - intros i q Hi'. unfold mview. destruct ((0 <=? q) && (q <? n)) eqn:Eq.
    + unfold nthZ. rewrite G. rewrite Lv. destruct (Z.eqb_spec q r).
      * subst. unfold addr. replace ((oA + r * S <=? oA + r * S + i) && (oA + r * S + i <? oA + r * S + W)) with true by lia.
        now replace (oA + r * S + i - (oA + r * S)) with i by lia.
      * destruct ((oA + r * S <=? addr q i) && (addr q i <? oA + r * S + W)) eqn:E1; auto.
        exfalso. destruct (addr_inj q i r (addr q i - (oA + r * S))); unfold addr in *; lia.
    + destruct (Z.eqb_spec q r); [lia|]. reflexivity.
Qed.

Lemma real_vapply_rot A0 rot s c x y :
  0 <= x < n -> 0 <= y < n -> x <> y ->
  real (minv A0) mview W
    (fun A => vapply_rot rot VS s c A (oA + x * S) (oA + y * S))
    (fun _ => [mkop x y (rot s c)]).
Proof.
  intros Hx Hy Hxy A Hi. unfold vapply_rot.
  destruct (load_row A0 A x Hi Hx) as (vx & Ex & Lx & Vx). rewrite Ex. cbn [obind].
  destruct (load_row A0 A y Hi Hy) as (vy & Ey & Ly & Vy). rewrite Ey. cbn [obind].
  destruct (store_row A0 A x (vrot1 rot s c vx vy) Hi Hx) as (A1 & E1 & I1 & V1); [now apply length_vrot1|].
  rewrite E1. cbn [obind].
  destruct (store_row A0 A1 y (vrot2 rot s c vx vy) I1 Hy) as (A2 & E2 & I2 & V2); [now apply length_vrot2|].
  exists A2. split; auto. split; auto.
  intros i r Hir. rewrite V2, V1 by auto. cbn. unfold app1; cbn.
  rewrite !(nthZ_zget _ _ _ _ (zget_vrot1 rot s c vx vy i Lx Ly Hir)).
  rewrite !(nthZ_zget _ _ _ _ (zget_vrot2 rot s c vx vy i Lx Ly Hir)).
  now rewrite Vx, Vy.
Qed.

(** ** Register blocks *)
Variable K : Z.
Hypothesis HK : 0 <= K.
Definition rinv (X : list (list F)) :=
  zlen X = K /\ forall l, 0 <= l < K -> exists v, zget X l = Some v /\ length v = VS.
Definition rview (X : list (list F)) (i r : Z) : F :=
  if (0 <=? r) && (r <? K) then nthZ zero (nthZ [] X r) i else zero.

Lemma real_reg_rot rot s c x y :
  0 <= x < K -> 0 <= y < K -> x <> y ->
  real rinv rview W (fun X => reg_rot rot s c X x y) (fun _ => [mkop x y (rot s c)]).
Proof.
  intros Hx Hy Hxy X (L & G). unfold reg_rot.
  destruct (G x Hx) as (vx & Ex & Lx). destruct (G y Hy) as (vy & Ey & Ly).
  rewrite Ex, Ey. cbn [obind]. rewrite zset_some by lia. cbn [obind].
  rewrite zset_some by (rewrite zlen_zupd; lia). eexists; split; [reflexivity|]. split; [split|].
  - now rewrite !zlen_zupd.
  - intros l Hl. rewrite !zget_zupd by (rewrite ?zlen_zupd; lia).
    destruct (y =? l). { eexists; split; [reflexivity|]. now apply length_vrot2. }
    destruct (x =? l). { eexists; split; [reflexivity|]. now apply length_vrot1. } auto.
  - intros i r Hir. unfold rview at 1. cbn. unfold app1; cbn.
    assert (Rx : rview X i x = nthZ zero vx i).
    { unfold rview. replace ((0 <=? x) && (x <? K)) with true by lia. now rewrite (nthZ_zget [] _ _ _ Ex). }
    assert (Ry : rview X i y = nthZ zero vy i).
    { unfold rview. replace ((0 <=? y) && (y <? K)) with true by lia. now rewrite (nthZ_zget [] _ _ _ Ey). }
    rewrite Rx, Ry. rewrite !nthZ_zupd by (rewrite ?zlen_zupd; lia).
    destruct ((0 <=? r) && (r <? K)) eqn:Er.
    + rewrite (Z.eqb_sym r y), (Z.eqb_sym r x).
      destruct (y =? r). { now rewrite (nthZ_zget _ _ _ _ (zget_vrot2 rot s c vx vy i Lx Ly Hir)). }
      destruct (x =? r). { now rewrite (nthZ_zget _ _ _ _ (zget_vrot1 rot s c vx vy i Lx Ly Hir)). }
      unfold rview. now rewrite Er.
    + replace (r =? y) with false by lia. replace (r =? x) with false by lia. unfold rview. now rewrite Er.
Qed.

Definition shift (b : Z) (o : op F) : op F := mkop (b + ox o) (b + oy o) (of_ o).
Definition opsin (l : list (op F)) := forall o, In o l -> 0 <= ox o < K /\ 0 <= oy o < K.

Lemma run_shift b l : forall g r, run (map (shift b) l) g (b + r) = run l (fun r => g (b + r)) r.
Proof.
  induction l as [|o l IH]; intros g r; cbn; auto. rewrite IH. apply run_ext.
  intros q. unfold app1; cbn.
  destruct (Z.eqb_spec (b + q) (b + oy o)), (Z.eqb_spec q (oy o)); try lia; auto.
  destruct (Z.eqb_spec (b + q) (b + ox o)), (Z.eqb_spec q (ox o)); try lia; auto.
Qed.
Lemma run_shift_out b l : opsin l -> forall g r, ~ (b <= r < b + K) -> run (map (shift b) l) g r = g r.
Proof.
  intros HO. induction l as [|o l IH]; intros g r Hr; cbn; auto.
  rewrite IH by (auto; intros p Hp; apply HO; now right).
  destruct (HO o (or_introl eq_refl)). unfold app1; cbn.
  replace (r =? b + oy o) with false by lia. now replace (r =? b + ox o) with false by lia.
Qed.
Lemma run_ext_in l : opsin l -> forall g h, (forall r, 0 <= r < K -> g r = h r) ->
  forall r, 0 <= r < K -> run l g r = run l h r.
Proof.
  intros HO. induction l as [|o l IH]; intros g h E r Hr; cbn; auto.
  apply IH; auto. { intros p Hp; apply HO; now right. }
  destruct (HO o (or_introl eq_refl)). intros q Hq. unfold app1. now rewrite !E.
Qed.

Lemma load_block_spec A0 A b : minv A0 A -> 0 <= b -> b + K <= n ->
  exists X, load_block VS K A oA S b = Some X /\ rinv X /\
    forall i r, 0 <= i < W -> 0 <= r < K -> rview X i r = mview A i (b + r).
Proof.
  intros Hi Hb HbK. unfold load_block.
  destruct (for_up_inv (fun k X => zlen X = K /\
     forall l, 0 <= l < k -> exists v, zget X l = Some v /\ length v = VS /\
        forall i, 0 <= i < W -> nthZ zero v i = mview A i (b + l))
     0 K (fun l X => do v <- vload VS A (oA + (b + l) * S); zset X l v) (zmake K []))
    as (X & E & L & G).
  - lia.
  - split; [apply zlen_zmake; lia|]. intros; lia.
  - intros k X Hk (L & G). destruct (load_row A0 A (b + k) Hi ltac:(lia)) as (v & Ev & Lv & Gv).
    rewrite Ev. cbn [obind]. rewrite zset_some by lia. eexists; split; [reflexivity|].
    split; [now rewrite zlen_zupd|]. intros l Hl. rewrite zget_zupd by lia.
    destruct (Z.eqb_spec k l); [subst; eauto|apply G; lia].
  - exists X. split; auto. split.
    + split; auto. intros l Hl. destruct (G l Hl) as (v & ? & ? & _); eauto.
    + intros i r Hi' Hr. destruct (G r Hr) as (v & Ev & Lv & Gv). unfold rview.
      replace ((0 <=? r) && (r <? K)) with true by lia. rewrite (nthZ_zget [] _ _ _ Ev). auto.
Qed.
Lemma store_block_spec A0 A X b : minv A0 A -> rinv X -> 0 <= b -> b + K <= n ->
  exists A', store_block K X A oA S b = Some A' /\ minv A0 A' /\
    forall i r, 0 <= i < W ->
      mview A' i r = if (b <=? r) && (r <? b + K) then rview X i (r - b) else mview A i r.
Proof.
  intros Hi (LX & GX) Hb HbK. unfold store_block.
  destruct (for_up_inv (fun k A1 => minv A0 A1 /\
     forall i r, 0 <= i < W ->
       mview A1 i r = if (b <=? r) && (r <? b + k) then rview X i (r - b) else mview A i r)
     0 K (fun l A => do v <- zget X l; vstore A (oA + (b + l) * S) v) A)
    as (A' & E & I1 & G); [lia| | |eauto].
  - split; auto. intros i r Hi'. now replace ((b <=? r) && (r <? b + 0)) with false by lia.
  - intros k A1 Hk (I1 & G1). destruct (GX k Hk) as (v & Ev & Lv). rewrite Ev. cbn [obind].
    destruct (store_row A0 A1 (b + k) v I1 ltac:(lia) Lv) as (A2 & E2 & I2 & G2).
    exists A2. split; auto. split; auto. intros i r Hi'. rewrite G2, G1 by auto.
    destruct (Z.eqb_spec r (b + k)).
    + subst r. replace ((b <=? b + k) && (b + k <? b + (k + 1))) with true by lia.
      unfold rview. replace (b + k - b) with k by lia.
      replace ((0 <=? k) && (k <? K)) with true by lia. now rewrite (nthZ_zget [] _ _ _ Ev).
    + replace (r <? b + (k + 1)) with (r <? b + k) by lia. reflexivity.
Qed.
Lemma real_block A0 b p ops : 0 <= b -> b + K <= n ->
  real rinv rview W p ops -> (forall i, 0 <= i < W -> opsin (ops i)) ->
  real (minv A0) mview W
    (fun A => do X <- load_block VS K A oA S b; do X <- p X; store_block K X A oA S b)
    (fun i => map (shift b) (ops i)).
Proof.
  intros Hb HbK Hp HO A Hi.
  destruct (load_block_spec A0 A b Hi Hb HbK) as (X & E1 & RI & V1). rewrite E1. cbn [obind].
  destruct (Hp X RI) as (X' & E2 & RI' & V2). rewrite E2. cbn [obind].
  destruct (store_block_spec A0 A X' b Hi RI' Hb HbK) as (A' & E3 & I' & V3). exists A'.
  split; auto. split; auto. intros i r Hi'. rewrite V3 by auto.
  destruct ((b <=? r) && (r <? b + K)) eqn:E.
  - rewrite V2 by auto. replace r with (b + (r - b)) at 2 by lia. rewrite run_shift.
    apply run_ext_in; [now apply HO| |lia]. intros q Hq. now apply V1.
  - rewrite run_shift_out; auto. lia.
Qed.
End Mem.
