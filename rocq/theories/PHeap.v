(** * Triples that count the live blocks *)
From Coq Require Import ZArith List Lia Bool ZifyBool ZifyNat.
From Verif Require Import SpecHeap MHeap.
Import ListNotations.
Open Scope Z_scope.
Open Scope prog_scope.

Definition cnt (l : list Z) (x : Z) : Z := Z.of_nat (count_occ Z.eq_dec l x).
Definition sgl (p x : Z) : nat := if Z.eq_dec p x then 1%nat else 0%nat.
Definition blk (p x : Z) : nat := if Z.eq_dec p NULL then 0%nat else sgl p x.

Definition hoareG {A G : Type} (P : Z -> Z) (c : prog A) (phi : A -> G -> Prop) (Q : A -> G -> Z -> Z) : Prop :=
  forall h, wf h -> (forall x, P x <= cnt (live h) x) ->
  exists v h' g, c h = Some (v, h') /\ wf h' /\ phi v g /\ forall x, cnt (live h') x = cnt (live h) x - P x + Q v g x.
Definition hoare {A : Type} (P : Z -> Z) (c : prog A) (phi : A -> Prop) (Q : A -> Z -> Z) : Prop :=
  hoareG (G := unit) P c (fun v _ => phi v) (fun v _ => Q v).

Lemma hoareG_bind : forall A B Gm G (Pm : Z -> Z) (m : prog A) (pm : A -> Gm -> Prop) Qm (P : Z -> Z) (f : A -> prog B) (phi : B -> G -> Prop) Q,
  hoareG Pm m pm Qm -> (forall x, Pm x <= P x) ->
  (forall v g, pm v g -> hoareG (fun x => P x - Pm x + Qm v g x) (f v) phi Q) ->
  hoareG P (bind m f) phi Q.
Proof.
  intros A B Gm G Pm m pm Qm P f phi Q Hm HP Hf h Hw Hh.
  destruct (Hm h Hw) as (v & h1 & g & E1 & W1 & F1 & C1).
  { intro x. specialize (HP x). specialize (Hh x). lia. }
  destruct (Hf v g F1 h1 W1) as (w & h2 & g2 & E2 & W2 & F2 & C2).
  { intro x. specialize (HP x). specialize (Hh x). rewrite C1. lia. }
  exists w, h2, g2. unfold bind. rewrite E1. split; [exact E2|]. split; [exact W2|]. split; [exact F2|].
  intro x. rewrite C2, C1. specialize (Hh x). lia.
Qed.
Lemma hoare_bind : forall A B G (Pm : Z -> Z) (m : prog A) (pm : A -> Prop) Qm (P : Z -> Z) (f : A -> prog B) (phi : B -> G -> Prop) Q,
  hoare Pm m pm Qm -> (forall x, Pm x <= P x) ->
  (forall v, pm v -> hoareG (fun x => P x - Pm x + Qm v x) (f v) phi Q) ->
  hoareG P (bind m f) phi Q.
Proof. intros A B G Pm m pm Qm P f phi Q Hm HP Hf. eapply hoareG_bind; [exact Hm|exact HP|]. intros v g. apply Hf. Qed.
Lemma hoareG_ret : forall A G (g : G) (v : A) P (phi : A -> G -> Prop) Q,
  phi v g -> (forall x, Q v g x = P x) -> hoareG P (ret v) phi Q.
Proof. intros A G g v P phi Q F E h Hw Hh. exists v, h, g. split; [reflexivity|]. split; [exact Hw|]. split; [exact F|]. intro x. rewrite E. lia. Qed.
Lemma hoare_ret : forall A (v : A) P (phi : A -> Prop) Q,
  phi v -> (forall x, Q v x = P x) -> hoareG P (ret v) (fun v (_ : unit) => phi v) (fun v _ => Q v).
Proof. intros A v P phi Q F E. apply (hoareG_ret _ _ tt); auto. Qed.
Lemma hoareG_weaken : forall A G (P P' : Z -> Z) (c : prog A) (phi phi' : A -> G -> Prop) Q Q',
  hoareG P c phi Q -> (forall x, P x <= P' x) ->
  (forall v g, phi v g -> phi' v g /\ forall x, Q' v g x = P' x - P x + Q v g x) -> hoareG P' c phi' Q'.
Proof.
  intros A G P P' c phi phi' Q Q' H HP HQ h Hw Hh.
  destruct (H h Hw) as (v & h1 & g & E1 & W1 & F1 & C1).
  { intro x. specialize (HP x). specialize (Hh x). lia. }
  destruct (HQ v g F1) as [F2 HQ2]. exists v, h1, g. split; [exact E1|]. split; [exact W1|]. split; [exact F2|].
  intro x. rewrite C1, HQ2. lia.
Qed.
Lemma hoare_weaken : forall A (P P' : Z -> Z) (c : prog A) (phi phi' : A -> Prop) Q Q',
  hoare P c phi Q -> (forall x, P x <= P' x) ->
  (forall v, phi v -> phi' v /\ forall x, Q' v x = P' x - P x + Q v x) -> hoare P' c phi' Q'.
Proof. intros A P P' c phi phi' Q Q' H HP HQ. eapply hoareG_weaken; [exact H|exact HP|]. intros v g. apply HQ. Qed.

(** ** counts *)
Lemma cnt_cons : forall p l x, cnt (p :: l) x = Z.of_nat (sgl p x) + cnt l x.
Proof. intros. unfold cnt, sgl. cbn [count_occ]. destruct (Z.eq_dec p x); lia. Qed.
Lemma cnt_nonneg : forall l x, 0 <= cnt l x.
Proof. intros. unfold cnt. lia. Qed.
Lemma cnt_In : forall l x, In x l <-> 0 < cnt l x.
Proof. intros. unfold cnt. rewrite (count_occ_In Z.eq_dec). lia. Qed.
Lemma cnt_NoDup : forall l, NoDup l <-> forall x, cnt l x <= 1.
Proof.
  intros. rewrite (NoDup_count_occ Z.eq_dec). unfold cnt. split; intros H x; specialize (H x); lia.
Qed.
Lemma cnt_remove : forall p l x, NoDup l -> In p l -> cnt (remove Z.eq_dec p l) x = cnt l x - Z.of_nat (sgl p x).
Proof.
  intros p l x HN Hp. unfold sgl. destruct (Z.eq_dec p x) as [->|Hne].
  - assert (E1 : cnt l x = 1). { apply cnt_In in Hp. pose proof (proj1 (cnt_NoDup l) HN x). lia. }
    assert (E2 : cnt (remove Z.eq_dec x l) x = 0).
    { pose proof (cnt_nonneg (remove Z.eq_dec x l) x). destruct (Z.eq_dec (cnt (remove Z.eq_dec x l) x) 0); [assumption|].
      assert (In x (remove Z.eq_dec x l)) by (apply cnt_In; lia). exfalso. apply (remove_In Z.eq_dec l x). assumption. }
    lia.
  - rewrite Z.sub_0_r. clear HN Hp. induction l as [|a l IH]; [reflexivity|]. cbn [remove].
    destruct (Z.eq_dec p a) as [->|Ha].
    + rewrite cnt_cons. unfold sgl. destruct (Z.eq_dec a x); [lia|]. rewrite IH. lia.
    + rewrite !cnt_cons, IH. lia.
Qed.
Lemma inb_In : forall p l, inb p l = true <-> In p l.
Proof.
  intros. unfold inb. rewrite existsb_exists. split.
  - intros (y & Hy & E). apply Z.eqb_eq in E. subst. assumption.
  - intro H. exists p. split; [assumption|apply Z.eqb_refl].
Qed.
Lemma blk_nn : forall p, p <> NULL -> forall x, blk p x = sgl p x.
Proof. intros p H x. unfold blk. destruct (Z.eq_dec p NULL); [contradiction|reflexivity]. Qed.
Lemma sgl_self : forall p, sgl p p = 1%nat.
Proof. intro p. unfold sgl. destruct (Z.eq_dec p p); congruence. Qed.
Lemma cnt_app : forall l1 l2 x, cnt (l1 ++ l2) x = cnt l1 x + cnt l2 x.
Proof. intros. unfold cnt. rewrite count_occ_app. lia. Qed.

(** ** primitives *)
Lemma wf_malloc : forall h, wf h ->
  wf (Heap (next h + 1) (next h :: live h) (clock h) (ints h) (trees h)).
Proof.
  intros h (H1 & H2 & H3). unfold wf. cbn. split; [lia|]. split.
  - constructor; [|assumption]. intro H. specialize (H3 _ H). lia.
  - intros p [<-|H]; [lia|]. specialize (H3 _ H). lia.
Qed.
Lemma sp_malloc_nn : forall k, 0 <= k -> hoare (fun _ => 0) (malloc k) (fun p => p <> NULL) (fun p x => Z.of_nat (sgl p x)).
Proof.
  intros k Hk h Hw _. unfold malloc. replace (k <? 0) with false by lia.
  exists (next h), (Heap (next h + 1) (next h :: live h) (clock h) (ints h) (trees h)), tt.
  split; [reflexivity|]. split; [apply wf_malloc; assumption|]. split.
  - destruct Hw as (H1 & _). unfold NULL. lia.
  - intro x. cbn [live]. rewrite cnt_cons. lia.
Qed.
Lemma sp_malloc : forall k, hoare (fun _ => 0) (malloc k) (fun _ => True) (fun p x => Z.of_nat (blk p x)).
Proof.
  intros k. destruct (Z.ltb_spec k 0) as [Hk|Hk].
  - intros h Hw _. unfold malloc. replace (k <? 0) with true by lia. exists NULL, h, tt. split; [reflexivity|]. split; [exact Hw|]. split; [trivial|].
    intro x. unfold blk. destruct (Z.eq_dec NULL NULL); [lia|congruence].
  - eapply hoare_weaken; [apply (sp_malloc_nn k Hk)|intro; lia|]. intros v Hv. split; [trivial|]. intro x. rewrite (blk_nn _ Hv). lia.
Qed.
Lemma sp_new : hoare (fun _ => 0) new (fun p => p <> NULL) (fun p x => Z.of_nat (sgl p x)).
Proof. apply sp_malloc_nn. lia. Qed.
Lemma wf_remove : forall h p, wf h -> wf (Heap (next h) (remove Z.eq_dec p (live h)) (clock h) (ints h) (trees h)).
Proof.
  intros h p (H1 & H2 & H3). unfold wf. cbn. split; [assumption|]. split.
  - clear H3. induction H2 as [|a l Ha Hl IH]; [constructor|]. cbn. destruct (Z.eq_dec p a); [assumption|].
    constructor; [|assumption]. intro H. apply in_remove in H. tauto.
  - intros q Hq. apply in_remove in Hq. apply H3. tauto.
Qed.
Lemma sp_free_sgl : forall p, hoare (fun x => Z.of_nat (sgl p x)) (free p) (fun _ => True) (fun _ _ => 0).
Proof.
  intros p h Hw Hh. assert (Hp : In p (live h)). { apply cnt_In. specialize (Hh p). rewrite sgl_self in Hh. lia. }
  assert (p <> NULL). { destruct Hw as (_ & _ & H3). specialize (H3 _ Hp). unfold NULL. lia. }
  unfold free. replace (p =? NULL) with false by (unfold NULL in *; lia). rewrite (proj2 (inb_In _ _) Hp).
  eexists tt, _, tt. split; [reflexivity|]. split; [apply wf_remove; assumption|]. split; [trivial|].
  intro x. cbn [live]. rewrite cnt_remove; [lia|apply Hw|assumption].
Qed.
Lemma sp_free : forall p, hoare (fun x => Z.of_nat (blk p x)) (free p) (fun _ => True) (fun _ _ => 0).
Proof.
  intros p. destruct (Z.eq_dec p NULL) as [->|Hp].
  - intros h Hw _. exists tt, h, tt. split; [reflexivity|]. split; [exact Hw|]. split; [trivial|].
    intro x. unfold blk. destruct (Z.eq_dec NULL NULL); [lia|congruence].
  - eapply hoare_weaken; [apply sp_free_sgl|intro x; rewrite (blk_nn _ Hp); lia|].
    intros v _. split; [trivial|]. intro x. rewrite (blk_nn _ Hp). lia.
Qed.
Lemma hoare_use : forall A G s P (f : unit -> prog A) (phi : A -> G -> Prop) Q,
  (forall x, Z.of_nat (sgl s x) <= P x) -> hoareG P (f tt) phi Q -> hoareG P (bind (use s) f) phi Q.
Proof.
  intros A G s P f phi Q Hs Hf h Hw Hh.
  assert (Hp : In s (live h)). { apply cnt_In. specialize (Hh s). specialize (Hs s). rewrite sgl_self in Hs. lia. }
  unfold bind, use. rewrite (proj2 (inb_In _ _) Hp). apply Hf; assumption.
Qed.
Lemma sp_use : forall s, hoare (fun x => Z.of_nat (sgl s x)) (use s) (fun _ => True) (fun _ x => Z.of_nat (sgl s x)).
Proof.
  intros s h Hw Hh. assert (Hp : In s (live h)). { apply cnt_In. specialize (Hh s). rewrite sgl_self in Hh. lia. }
  unfold use. rewrite (proj2 (inb_In _ _) Hp). exists tt, h, tt. split; [reflexivity|]. split; [exact Hw|]. split; [trivial|]. intro x. lia.
Qed.
Lemma sp_pick : hoare (fun _ => 0) pick (fun _ => True) (fun _ _ => 0).
Proof. intros h Hw _. unfold pick. eexists _, _, tt. split; [reflexivity|]. split; [exact Hw|]. split; [trivial|]. intro x. cbn [live]. lia. Qed.
Lemma sp_pick_shape : hoare (fun _ => 0) pick_shape (fun _ => True) (fun _ _ => 0).
Proof. intros h Hw _. unfold pick_shape. eexists _, _, tt. split; [reflexivity|]. split; [exact Hw|]. split; [trivial|]. intro x. cbn [live]. lia. Qed.

(** ** loops *)
Fixpoint lsum {A : Type} (own : A -> Z -> nat) (l : list A) (x : Z) : nat :=
  match l with [] => 0%nat | a :: l => (own a x + lsum own l x)%nat end.
Lemma sp_tabulate_n : forall A (f : Z -> prog A) (I : Z -> nat) (phi : A -> Prop) (own : A -> Z -> nat) n lo,
  (forall i, lo <= i < lo + Z.of_nat n -> hoare (fun x => Z.of_nat (I x)) (f i) phi (fun v x => Z.of_nat (I x) + Z.of_nat (own v x))) ->
  hoare (fun x => Z.of_nat (I x)) (tabulate_n f lo n) (fun l => length l = n /\ Forall phi l) (fun l x => Z.of_nat (I x) + Z.of_nat (lsum own l x)).
Proof.
  intros A f I phi own. induction n as [|n IH]; intros lo H; cbn [tabulate_n].
  - apply hoare_ret; [auto|intro x; cbn; lia].
  - eapply hoare_bind; [apply H; lia|intro; lia|]. intros a Ha. cbv beta.
    eapply hoare_bind; [apply (IH (lo + 1)); intros i Hi; apply H; lia|intro x; cbv beta; lia|]. intros l [Hl1 Hl2]. cbv beta.
    apply hoare_ret; [split; [cbn; lia|constructor; assumption]|intro x; cbn [lsum]; lia].
Qed.
Lemma sp_tabulate : forall A (f : Z -> prog A) (I : Z -> nat) (phi : A -> Prop) (own : A -> Z -> nat) lo hi,
  (forall i, lo <= i < hi -> hoare (fun x => Z.of_nat (I x)) (f i) phi (fun v x => Z.of_nat (I x) + Z.of_nat (own v x))) ->
  hoare (fun x => Z.of_nat (I x)) (tabulate lo hi f) (fun l => length l = Z.to_nat (hi - lo) /\ Forall phi l) (fun l x => Z.of_nat (I x) + Z.of_nat (lsum own l x)).
Proof. intros. apply sp_tabulate_n. intros i Hi. apply H. lia. Qed.
Lemma sp_each : forall A (f : A -> prog unit) (I : Z -> nat) (phi : A -> Prop) (own : A -> Z -> nat) n l,
  (forall a, phi a -> hoare (fun x => Z.of_nat (I x) + Z.of_nat (own a x)) (f a) (fun _ => True) (fun _ x => Z.of_nat (I x))) ->
  length l = Z.to_nat n -> Forall phi l ->
  hoare (fun x => Z.of_nat (I x) + Z.of_nat (lsum own l x)) (each n f l) (fun _ => True) (fun _ x => Z.of_nat (I x)).
Proof.
  intros A f I phi own n l H. unfold each. intro Hn. rewrite <- Hn. clear Hn n. induction l as [|a l IH]; intro HF; cbn [length each_n].
  - apply hoare_ret; [auto|intro x; cbn; lia].
  - inversion HF; subst. eapply hoare_bind; [apply H; assumption|intro x; cbn [lsum]; lia|]. intros u _. cbv beta.
    eapply hoare_weaken; [apply IH; assumption|intro x; cbn [lsum]; lia|]. intros v _. split; [trivial|]. intro x. cbn [lsum]. lia.
Qed.

(** ** from triples to lifecycles *)
Lemma lifecycle_of : forall A (create : prog A) destroy (phi : A -> Prop) (own : A -> Z -> nat),
  hoare (fun _ => 0) create phi (fun v x => Z.of_nat (own v x)) ->
  (forall v, phi v -> hoare (fun x => Z.of_nat (own v x)) (destroy v) (fun _ => True) (fun _ _ => 0)) ->
  lifecycle create destroy.
Proof.
  intros A create destroy phi own Hc Hd h Hw.
  destruct (Hc h Hw) as (P & h1 & _ & E1 & W1 & F1 & C1). { intro x. apply cnt_nonneg. }
  assert (Hle : forall x, cnt (live h) x + Z.of_nat (own P x) <= 1).
  { intro x. destruct W1 as (_ & N1 & _). pose proof (proj1 (cnt_NoDup _) N1 x). rewrite C1 in H. lia. }
  set (B := filter (fun x => (0 <? own P x)%nat) (live h1)).
  assert (HB : forall x, In x B <-> (0 < own P x)%nat).
  { intro x. unfold B. rewrite filter_In, cnt_In, C1. pose proof (cnt_nonneg (live h) x). rewrite Nat.ltb_lt. lia. }
  exists P, h1, B. split; [exact E1|]. split.
  - split; [exact W1|]. split; [apply NoDup_filter; apply W1|]. split.
    + intros p Hp Hq. apply HB in Hp. apply cnt_In in Hq. specialize (Hle p). lia.
    + intro p. rewrite HB, !cnt_In, C1. pose proof (cnt_nonneg (live h) p). lia.
  - intros h' W' HB'.
    destruct (Hd P F1 h' W') as ([] & h2 & _ & E2 & W2 & _ & C2).
    { intro x. destruct (Nat.ltb_spec 0 (own P x)) as [H|H].
      - apply HB in H. apply HB' in H. apply cnt_In in H. specialize (Hle x). pose proof (cnt_nonneg (live h) x). lia.
      - pose proof (cnt_nonneg (live h') x). lia. }
    exists h2. split; [exact E2|]. split; [exact W2|]. split; [exact HB'|].
    intro p. rewrite HB, !cnt_In, C2. specialize (Hle p). pose proof (cnt_nonneg (live h) p).
    destruct W' as (_ & N' & _). pose proof (proj1 (cnt_NoDup _) N' p).
    destruct (Nat.ltb_spec 0 (own P p)) as [Hp|Hp]; [|lia].
    pose proof (HB' p (proj2 (HB p) Hp)) as Hi. apply cnt_In in Hi. lia.
Qed.
Lemma hoare_leak : forall A (f : prog A) (k : list Z -> Prop),
  hoareG (fun _ => 0) f (fun _ l => k l) (fun _ l x => cnt l x) ->
  forall h, wf h -> exists v h2 B, f h = Some (v, h2) /\ grows h h2 B /\ k B.
Proof.
  intros A f k Hf h Hw. destruct (Hf h Hw) as (v & h1 & l & E1 & W1 & F1 & C1). { intro x. apply cnt_nonneg. }
  assert (Hle : forall x, cnt (live h) x + cnt l x <= 1).
  { intro x. destruct W1 as (_ & N1 & _). pose proof (proj1 (cnt_NoDup _) N1 x). rewrite C1 in H. lia. }
  exists v, h1, l. split; [exact E1|]. split; [|exact F1].
  split; [exact W1|]. split.
  { apply cnt_NoDup. intro x. specialize (Hle x). pose proof (cnt_nonneg (live h) x). lia. }
  split.
  - intros p Hp Hq. apply cnt_In in Hp. apply cnt_In in Hq. specialize (Hle p). lia.
  - intro p. rewrite !cnt_In, C1. pose proof (cnt_nonneg (live h) p). pose proof (cnt_nonneg l p). lia.
Qed.
Lemma leaks_of : forall A (create : prog A) destroy (phi : A -> list Z -> Prop) (own : A -> Z -> nat) k,
  hoareG (fun _ => 0) create (fun v l => phi v l /\ Z.of_nat (length l) = k) (fun v l x => Z.of_nat (own v x) + cnt l x) ->
  (forall v l, phi v l -> hoare (fun x => Z.of_nat (own v x)) (destroy v) (fun _ => True) (fun _ _ => 0)) ->
  leaks k create destroy.
Proof.
  intros A create destroy phi own k Hc Hd h Hw.
  assert (HL : hoareG (fun _ => 0) (P <- create;; destroy P) (fun _ l => Z.of_nat (length l) = k) (fun _ l x => cnt l x)).
  { eapply hoareG_bind; [exact Hc|intro; lia|]. intros v l [F Hl]. cbv beta.
    intros h1 W1 H1. destruct (Hd v l F h1 W1) as (u & h2 & _ & E2 & W2 & _ & C2).
    { intro x. specialize (H1 x). pose proof (cnt_nonneg l x). lia. }
    exists u, h2, l. split; [exact E2|]. split; [exact W2|]. split; [exact Hl|]. intro x. rewrite C2. lia. }
  destruct (hoare_leak _ _ _ HL h Hw) as ([] & h2 & B & E & HG & HK).
  unfold bind in E. destruct (create h) as [[P h1]|] eqn:E1; [|discriminate].
  exists P, h1, h2, B. auto.
Qed.
Lemma clean_of : forall A (f : prog A) phi, hoare (fun _ => 0) f phi (fun _ _ => 0) -> clean f.
Proof.
  intros A f phi Hf h Hw. destruct (Hf h Hw) as (v & h1 & _ & E1 & W1 & _ & C1). { intro x. apply cnt_nonneg. }
  exists v, h1. split; [exact E1|]. split; [exact W1|]. split; [constructor|]. split; [intros p []|].
  intro p. rewrite !cnt_In, C1. change (cnt [] p) with 0. lia.
Qed.
