(** * Rotations with s^2 + c^2 = 1 are inverted and preserve the sum of squares *)
From Coq Require Import ZArith List Lia Bool ZifyBool ZifyNat Reals Lra.
From Verif Require Import Base BaseFacts Arith MPermute PPermute MRotations SpecRot PRot PRotBlock PRotKernels PRotFam.
Import ListNotations.
Open Scope Z_scope.

Section Inv.
Context {F : Type}.
(** [p] undoes [o] *)
Definition undoes (p o : op F) :=
  ox p = ox o /\ oy p = oy o /\ ox o <> oy o /\
  forall a b, of_ p (fst (of_ o a b)) (snd (of_ o a b)) = (a, b).
Lemma undo1 p o g r : undoes p o -> app1 p (app1 o g) r = g r.
Proof.
  intros (E1 & E2 & N & U). unfold app1. rewrite E1, E2.
  rewrite !Z.eqb_refl. replace (ox o =? oy o) with false by lia.
  rewrite U. cbn. destruct (Z.eqb_spec r (oy o)); [now subst|]. destruct (Z.eqb_spec r (ox o)); now subst.
Qed.
Lemma undo_list l l' : Forall2 (fun o p => undoes p o) l l' -> forall g r, run (rev l') (run l g) r = g r.
Proof.
  induction 1 as [|o p l l' Hop Hl IH]; intros g r; cbn [run rev]; auto.
  rewrite run_app. cbn [run]. rewrite (app1_ext p _ (app1 o g)); [now apply undo1|].
  intros q. apply IH.
Qed.
Lemma Forall2_cat (R : op F -> op F -> Prop) n f g :
  (forall k, (k < n)%nat -> Forall2 R (f k) (g k)) -> Forall2 R (cat n f) (cat n g).
Proof.
  induction n; cbn; intros H; auto. apply Forall2_app; auto.
Qed.
Lemma Forall2_opsD (R : op F -> op F -> Prop) d st top fn fn' m1 m2 : 0 < st -> 0 <= m1 ->
  (forall row col, 0 <= col < m2 -> 0 <= row <= top col -> R (opRC d fn row col) (opRC d fn' row col)) ->
  Forall2 R (opsD d st top fn m1 m2) (opsD d st top fn' m1 m2).
Proof.
  intros Hst Hm HR. unfold opsD, dnsst. apply Forall2_cat. intros k Hk. unfold colD, dns.
  apply Forall2_cat. intros l Hl. constructor; [|constructor]. apply HR; [|lia].
  assert (0 <= Z.of_nat k * st) by (apply Z.mul_nonneg_nonneg; lia). split; [|lia].
  assert ((Z.of_nat k + 1) * st <= m2 - st - m1 + st); [|lia].
  apply Z.le_trans with ((m2 - st - m1 + st) / st * st).
  - apply Z.mul_le_mono_nonneg_r; lia.
  - rewrite Z.mul_comm. apply Z.mul_div_le; lia.
Qed.
Lemma Forall2_flip (R : op F -> op F -> Prop) l l' : Forall2 R l l' -> Forall2 (fun a b => R b a) l' l.
Proof. induction 1; constructor; auto. Qed.
End Inv.

Lemma Forall2_rev {A B} (R : A -> B -> Prop) l l' : Forall2 R l l' -> Forall2 R (rev l) (rev l').
Proof. induction 1; cbn; auto. apply Forall2_app; auto. Qed.

(** composition of two realised programs *)
Lemma real_then {F St} inv view W p q o1 o2 (st : St) :
  @real F St inv view W p o1 -> real inv view W q o2 -> inv st ->
  exists s1 s2, p st = Some s1 /\ q s1 = Some s2 /\ inv s1 /\ inv s2 /\
    forall i r, 0 <= i < W -> view s2 i r = run (o2 i) (run (o1 i) (view st i)) r.
Proof.
  intros H1 H2 Hi. destruct (H1 st Hi) as (s1 & E1 & I1 & V1). destruct (H2 s1 I1) as (s2 & E2 & I2 & V2).
  exists s1, s2. repeat split; auto. intros i r Hr. rewrite V2 by auto. apply run_ext. auto.
Qed.

Section RInv.
Open Scope R_scope.
Lemma givens_undo s c a b : s * s + c * c = 1 ->
  givens_t s c (fst (givens s c a b)) (snd (givens s c a b)) = (a, b).
Proof.
  intros E. unfold givens, givens_t; cbn. f_equal.
  - replace (c * (c * a + s * b) - s * (c * b - s * a)) with ((s*s + c*c) * a) by ring. rewrite E; ring.
  - replace (c * (c * b - s * a) + s * (c * a + s * b)) with ((s*s + c*c) * b) by ring. rewrite E; ring.
Qed.
Lemma givens_undo' s c a b : s * s + c * c = 1 ->
  givens s c (fst (givens_t s c a b)) (snd (givens_t s c a b)) = (a, b).
Proof.
  intros E. unfold givens, givens_t; cbn. f_equal.
  - replace (c * (c * a - s * b) + s * (c * b + s * a)) with ((s*s + c*c) * a) by ring. rewrite E; ring.
  - replace (c * (c * b + s * a) - s * (c * a - s * b)) with ((s*s + c*c) * b) by ring. rewrite E; ring.
Qed.
Lemma givens_norm s c a b : s * s + c * c = 1 ->
  fst (givens s c a b) * fst (givens s c a b) + snd (givens s c a b) * snd (givens s c a b) = a * a + b * b.
Proof.
  intros E. unfold givens; cbn.
  replace (a * a + b * b) with ((s*s + c*c) * (a*a + b*b)) by (rewrite E; ring). ring.
Qed.
Lemma givens_t_norm s c a b : s * s + c * c = 1 ->
  fst (givens_t s c a b) * fst (givens_t s c a b) + snd (givens_t s c a b) * snd (givens_t s c a b) = a * a + b * b.
Proof.
  intros E. unfold givens_t; cbn.
  replace (a * a + b * b) with ((s*s + c*c) * (a*a + b*b)) by (rewrite E; ring). ring.
Qed.

(** sums of squares of a function *)
Fixpoint ssq (k : nat) (g : Z -> R) : R :=
  match k with O => 0 | S k' => ssq k' g + g (Z.of_nat k') * g (Z.of_nat k') end.
Lemma ssq_ext k g h : (forall r, (0 <= r < Z.of_nat k)%Z -> g r = h r) -> ssq k g = ssq k h.
Proof.
  induction k; cbn [ssq]; intros E; auto. rewrite IHk, E by (intros; try apply E; lia). auto.
Qed.
Lemma ssq_upd k g x v : (0 <= x < Z.of_nat k)%Z ->
  ssq k (fun r => if (r =? x)%Z then v else g r) = ssq k g - g x * g x + v * v.
Proof.
  induction k; cbn [ssq]; intros Hx; [lia|].
  destruct (Z.eqb_spec (Z.of_nat k) x) as [E|E].
  - rewrite (ssq_ext k _ g). { subst x. ring. } intros r Hr. now replace (r =? x)%Z with false by lia.
  - rewrite IHk by lia. ring.
Qed.
Definition isometric (o : op R) :=
  forall a b, fst (of_ o a b) * fst (of_ o a b) + snd (of_ o a b) * snd (of_ o a b) = a * a + b * b.
Lemma ssq_app1 k o g : (0 <= ox o < Z.of_nat k)%Z -> (0 <= oy o < Z.of_nat k)%Z -> ox o <> oy o -> isometric o ->
  ssq k (app1 o g) = ssq k g.
Proof.
  intros Hx Hy Hne Hi. unfold app1.
  rewrite (ssq_upd k (fun r => if (r =? ox o)%Z then fst (of_ o (g (ox o)) (g (oy o))) else g r)) by auto.
  rewrite ssq_upd by auto. replace (oy o =? ox o)%Z with false by lia.
  pose proof (Hi (g (ox o)) (g (oy o))). lra.
Qed.
Lemma ssq_run k l : (forall o, In o l -> (0 <= ox o < Z.of_nat k)%Z /\ (0 <= oy o < Z.of_nat k)%Z /\ ox o <> oy o /\ isometric o) ->
  forall g, ssq k (run l g) = ssq k g.
Proof.
  induction l as [|o l IH]; intros H g; cbn [run]; auto.
  rewrite IH by (intros; apply H; now right). destruct (H o (or_introl eq_refl)) as (A & B & C & D).
  now apply ssq_app1.
Qed.
Lemma sumsq_ssq k A oA S : sumsq_n k A oA S = ssq k (fun r => nthZ 0 A (oA + r * S)).
Proof. induction k; cbn [sumsq_n ssq]; auto. now rewrite IHk. Qed.
End RInv.

Lemma In_opsD {F} d st top (fn : Z -> Z -> F -> F -> F * F) m1 m2 o : 0 < st -> 0 <= m1 ->
  In o (opsD d st top fn m1 m2) -> exists row col, 0 <= col < m2 /\ 0 <= row <= top col /\ o = opRC d fn row col.
Proof.
  intros Hst Hm Ho. unfold opsD, dnsst in Ho. apply In_cat in Ho as (k & Hk & Ho).
  unfold colD in Ho. apply In_dns in Ho as (l & Hl & [<-|[]]).
  exists l, (m2 - st - Z.of_nat k * st). split; [|split; [lia|reflexivity]].
  assert (0 <= Z.of_nat k * st) by (apply Z.mul_nonneg_nonneg; lia). split; [|lia].
  assert ((Z.of_nat k + 1) * st <= m2 - st - m1 + st); [|lia].
  apply Z.le_trans with ((m2 - st - m1 + st) / st * st).
  - apply Z.mul_le_mono_nonneg_r; lia.
  - rewrite Z.mul_comm. apply Z.mul_div_le; lia.
Qed.
Lemma In_opsU {F} d st top (fn : Z -> Z -> F -> F -> F * F) m1 m2 o : 0 < st -> 0 <= m1 ->
  In o (opsU d st top fn m1 m2) -> exists row col, 0 <= col < m2 /\ 0 <= row <= top col /\ o = opRC d fn row col.
Proof.
  intros Hst Hm Ho. unfold opsU, upsst in Ho. apply In_cat in Ho as (k & Hk & Ho).
  unfold colU in Ho. apply In_ups in Ho as (l & Hl & [<-|[]]).
  exists l, (m1 + Z.of_nat k * st). assert (0 <= Z.of_nat k * st) by (apply Z.mul_nonneg_nonneg; lia).
  assert (Z.of_nat k * st < m2 - m1).
  { assert ((Z.of_nat k + 1) * st <= m2 - m1 + st - 1); [|lia].
    apply Z.le_trans with ((m2 - m1 + st - 1) / st * st).
    - apply Z.mul_le_mono_nonneg_r; lia.
    - rewrite Z.mul_comm. apply Z.mul_div_le; lia. }
  split; [lia|]. split; [lia|reflexivity].
Qed.

(** ** Generic consequences: any realised program *)
Section Any.
Variables (oA S n W : Z).
Hypothesis HW : 0 <= W <= S.
Section AnyF.
Context {F : Type} `{Arith F}.
Notation mreal A0 := (real (minv oA S n W A0) (mview oA S n) W).
Lemma roundtrip_gen (A : list F) p q ops1 ops2 :
  columns_fit A oA S n W -> mreal A p ops1 -> mreal A q ops2 ->
  (forall i, 0 <= i < W -> exists l', Forall2 (fun o p => undoes p o) (ops1 i) l' /\ ops2 i = rev l') ->
  exists B, p A = Some B /\ q B = Some A.
Proof.
  intros Ft Hp Hq Ho. assert (I : minv oA S n W A A) by (apply minv_refl; exact Ft).
  destruct (real_then _ _ _ p q ops1 ops2 A Hp Hq I) as (B & C & E1 & E2 & I1 & I2 & V).
  exists B. split; auto. rewrite E2. f_equal. apply (minv_ext oA S n W HW A); auto.
  intros i r Hi. rewrite V by auto. destruct (Ho i Hi) as (l' & Hl & ->). now apply undo_list.
Qed.
Lemma frame_gen (A : list F) p ops : columns_fit A oA S n W -> mreal A p ops ->
  exists B, p A = Some B /\ only_columns_changed A B oA S n W.
Proof.
  intros Ft Hp. assert (I : minv oA S n W A A) by (apply minv_refl; exact Ft).
  destruct (Hp A I) as (B & E1 & I1 & V). exists B. split; auto.
  destruct I1 as (L & _ & O). split; auto. intros p' Hp'. apply O.
  intros (r & i & Hr & Hi & E). apply (Hp' r i Hr Hi). exact E.
Qed.
End AnyF.
Lemma norm_gen (A : list R) p ops : 0 <= n ->
  columns_fit A oA S n W -> real (minv oA S n W A) (mview oA S n) W p ops ->
  (forall i o, 0 <= i < W -> In o (ops i) -> 0 <= ox o < n /\ 0 <= oy o < n /\ ox o <> oy o /\ isometric o) ->
  exists B, p A = Some B /\ only_columns_changed A B oA S n W /\
    forall i, 0 <= i < W -> sumsq n B (oA + i) S = sumsq n A (oA + i) S.
Proof.
  intros Hn Ft Hp Ho. destruct (frame_gen A p ops Ft Hp) as (B & E1 & Fr). exists B. split; auto. split; auto.
  assert (I : minv oA S n W A A) by (apply minv_refl; exact Ft).
  destruct (Hp A I) as (B' & E1' & I1 & V). rewrite E1 in E1'. injection E1' as <-.
  intros i Hi. unfold sumsq. rewrite !sumsq_ssq.
  assert (X : forall C, ssq (Z.to_nat n) (fun r => nthZ 0%R C (oA + i + r * S)) = ssq (Z.to_nat n) (mview oA S n C i)).
  { intros C. apply ssq_ext. intros r Hr. unfold mview, addr.
    replace ((0 <=? r) && (r <? n)) with true by lia. cbn. f_equal. lia. }
  rewrite !X. rewrite (ssq_ext _ (mview oA S n B i) (run (ops i) (mview oA S n A i))).
  - apply ssq_run. intros o Hoi. rewrite Z2Nat.id by lia. now apply (Ho i).
  - intros r Hr. now apply V.
Qed.
End Any.

(** ** Generic consequences for a column (one lane, W = 1) *)
Section Col.
Variables (RP : rotplan R) (oA S : Z).
Hypothesis HS : 1 <= S.
Variables (n d st : Z) (top : Z -> Z) (ix : Z -> Z -> Z).
Hypothesis Hd : 0 < d.
Hypothesis Hst : 0 < st.
Hypothesis Hstep : forall j a, 0 <= a -> 0 <= j - st * a -> top (j - st * a) = top j + d * a.
Hypothesis Htop : forall j, 0 <= j -> top j + d < n.
Hypothesis HU : forall row col, 0 <= col -> 0 <= row <= top col -> unit_pair (rp_s RP) (rp_c RP) (ix row col).

Lemma unit_sc row col : 0 <= col -> 0 <= row <= top col ->
  (fst (sc RP ix row col) * fst (sc RP ix row col) + snd (sc RP ix row col) * snd (sc RP ix row col) = 1)%R.
Proof.
  intros Hc Hr. destruct (HU row col Hc Hr) as (x & y & Ex & Ey & E). unfold sc; cbn.
  now rewrite (nthZ_zget _ _ _ _ Ex), (nthZ_zget _ _ _ _ Ey).
Qed.
Lemma undo_opsD m1 m2 : 0 <= m1 ->
  Forall2 (fun o p => undoes p o) (opsD d st top (fnRC givens RP ix) m1 m2) (opsD d st top (fnRC givens_t RP ix) m1 m2).
Proof.
  intros. apply Forall2_opsD; auto. intros row col Hc Hr. unfold undoes, opRC, fnRC; cbn.
  repeat split; try lia. intros. apply givens_undo, unit_sc; lia.
Qed.
Lemma undo_opsD' m1 m2 : 0 <= m1 ->
  Forall2 (fun o p => undoes p o) (opsD d st top (fnRC givens_t RP ix) m1 m2) (opsD d st top (fnRC givens RP ix) m1 m2).
Proof.
  intros. apply Forall2_opsD; auto. intros row col Hc Hr. unfold undoes, opRC, fnRC; cbn.
  repeat split; try lia. intros. apply givens_undo', unit_sc; lia.
Qed.
(** lanes [W]: round trips *)
Variable W : Z.
Hypothesis HW : 0 <= W <= S.
Notation mreal A0 := (real (minv oA S n W A0) (mview oA S n) W).

Lemma roundtrip_DU A p q m1 ops1 ops2 :
  columns_fit A oA S n W ->
  mreal A p ops1 -> mreal A q ops2 ->
  (forall i, 0 <= i < W -> exists m2', 0 <= m1 <= m2' /\ (m2' - m1) mod st = 0 /\
      ops1 i = opsD d st top (fnRC givens RP ix) m1 m2' /\ ops2 i = opsU d st top (fnRC givens_t RP ix) m1 m2') ->
  exists B, p A = Some B /\ q B = Some A.
Proof.
  intros Ft Hp Hq Ho. assert (I : minv oA S n W A A) by (apply minv_refl; exact Ft).
  destruct (real_then _ _ _ p q ops1 ops2 A Hp Hq I) as (B & C & E1 & E2 & I1 & I2 & V).
  exists B. split; auto. rewrite E2. f_equal. apply (minv_ext oA S n W HW A); auto.
  intros i r Hi. rewrite V by auto. destruct (Ho i Hi) as (m2' & Hm & Hp2 & -> & ->).
  rewrite (opsU_rev _ _ _ _ Hst Hstep) by (auto; lia). apply undo_list. apply undo_opsD. lia.
Qed.
Lemma roundtrip_UD A p q m1 ops1 ops2 :
  columns_fit A oA S n W ->
  mreal A p ops1 -> mreal A q ops2 ->
  (forall i, 0 <= i < W -> exists m2', 0 <= m1 <= m2' /\ (m2' - m1) mod st = 0 /\
      ops1 i = opsU d st top (fnRC givens_t RP ix) m1 m2' /\ ops2 i = opsD d st top (fnRC givens RP ix) m1 m2') ->
  exists B, p A = Some B /\ q B = Some A.
Proof.
  intros Ft Hp Hq Ho. assert (I : minv oA S n W A A) by (apply minv_refl; exact Ft).
  destruct (real_then _ _ _ p q ops1 ops2 A Hp Hq I) as (B & C & E1 & E2 & I1 & I2 & V).
  exists B. split; auto. rewrite E2. f_equal. apply (minv_ext oA S n W HW A); auto.
  intros i r Hi. rewrite V by auto. destruct (Ho i Hi) as (m2' & Hm & Hp2 & -> & ->).
  rewrite (opsU_rev _ _ _ _ Hst Hstep) by (auto; lia).
  rewrite <- (rev_involutive (opsD d st top (fnRC givens RP ix) m1 m2')). apply undo_list.
  apply Forall2_rev. apply undo_opsD'. lia.
Qed.
(** norms and frame *)
Lemma norm_frame A p ops :
  columns_fit A oA S n W -> mreal A p ops -> 0 <= n ->
  (forall i o, 0 <= i < W -> In o (ops i) ->
     exists row col, 0 <= col /\ 0 <= row <= top col /\
       (o = opRC d (fnRC givens RP ix) row col \/ o = opRC d (fnRC givens_t RP ix) row col)) ->
  exists B, p A = Some B /\ only_columns_changed A B oA S n W /\
    forall i, 0 <= i < W -> sumsq n B (oA + i) S = sumsq n A (oA + i) S.
Proof.
  intros Ft Hp Hn Ho. assert (I : minv oA S n W A A) by (apply minv_refl; exact Ft).
  destruct (Hp A I) as (B & E1 & I1 & V). exists B. split; auto. split.
  - destruct I1 as (L & _ & O). split; auto. intros p' Hp'. apply O.
    intros (r & i & Hr & Hi & E). apply (Hp' r i Hr Hi). exact E.
  - intros i Hi. unfold sumsq. rewrite !sumsq_ssq.
    assert (X : forall C, ssq (Z.to_nat n) (fun r => nthZ 0%R C (oA + i + r * S)) = ssq (Z.to_nat n) (mview oA S n C i)).
    { intros C. apply ssq_ext. intros r Hr. unfold mview, addr.
      replace ((0 <=? r) && (r <? n)) with true by lia. cbn. f_equal. lia. }
    rewrite !X. rewrite (ssq_ext _ (mview oA S n B i) (run (ops i) (mview oA S n A i))).
    + apply ssq_run. intros o Hoi. destruct (Ho i o Hi Hoi) as (row & col & Hc & Hr & E).
      pose proof (Htop col Hc). rewrite Z2Nat.id by lia.
      destruct E as [-> | ->]; unfold opRC; cbn; repeat split; try lia; unfold isometric, fnRC; cbn; intros.
      * now apply givens_norm, unit_sc.
      * now apply givens_t_norm, unit_sc.
    + intros r Hr. now apply V.
Qed.
End Col.
