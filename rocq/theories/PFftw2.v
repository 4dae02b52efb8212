(** Programs on N by M arrays as kernels: composition, adjoints, inverses; scalings *)
From Coq Require Import ZArith List Lia Bool Reals Lra ZifyBool ZifyNat.
From Verif Require Import Base Arith BaseFacts SpecSum PSum SpecLin PTri MHarmonic SpecHarm PDrivers4 PHarm PHarm2 MFftw SpecFftw PTrig PFftw.
Open Scope Z_scope.

Section Kern.
Variables (N M : Z).
Hypotheses (HN : 0 <= N) (HM : 0 <= M).
Notation ev := (evaluates N M).

Lemma in_grid k j : 0 <= k < N -> 0 <= j < M -> 0 <= k + j * N < N * M.
Proof. intros Hk Hj. pose proof (idx2 k j N M Hk Hj). lia. Qed.
Lemma grid_ext X Y : zlen X = N * M -> zlen Y = N * M -> (forall k j, 0 <= k < N -> 0 <= j < M -> nthZ 0%R X (k + j * N) = nthZ 0%R Y (k + j * N)) -> X = Y.
Proof.
  intros LX LY H. apply (nthZ_ext 0%R); [congruence|]. intros p Hp. destruct (pos1 N M p) as (i & z & Hi & Hz & ->); [auto|lia|now apply H].
Qed.
Lemma dot_grid X Y : zlen X = N * M -> dot X Y = sumZ M (fun j => sumZ N (fun k => (nthZ 0 X (k + j * N) * nthZ 0 Y (k + j * N))%R)).
Proof. intros L. unfold dot. rewrite L, Z.mul_comm, sumZ_block by auto. apply sumZ_ext. intros j Hj. apply sumZ_ext. intros k Hk. now rewrite (Z.add_comm k). Qed.
Lemma ev_ext A B p : (forall l z k j, 0 <= l < N -> 0 <= z < M -> 0 <= k < N -> 0 <= j < M -> A l z k j = B l z k j) -> ev A p -> ev B p.
Proof.
  intros E H X L. destruct (H X L) as (X' & E1 & L1 & V). exists X'. split; auto. split; auto. intros k j Hk Hj. rewrite V by auto.
  apply sumZ_ext. intros z Hz. apply sumZ_ext. intros l Hl. now rewrite E.
Qed.
Lemma ev_prog A p q : (forall X, p X = q X) -> ev A p -> ev A q.
Proof. intros E H X L. destruct (H X L) as (X' & E1 & V). exists X'. rewrite <- E. auto. Qed.
Lemma ev_adjoint A B p q : (forall l z k j, 0 <= l < N -> 0 <= z < M -> 0 <= k < N -> 0 <= j < M -> B k j l z = A l z k j) ->
  ev A p -> ev B q -> adjoint (N * M) p q.
Proof.
  intros E Hp Hq X Y LX LY. destruct (Hp X LX) as (X' & E1 & L1 & V1). destruct (Hq Y LY) as (Y' & E2 & L2 & V2).
  exists X', Y'. repeat split; auto. rewrite !dot_grid by auto.
  rewrite (sumZ_ext M _ (fun j => sumZ N (fun k => sumZ M (fun z => sumZ N (fun l => (A l z k j * nthZ 0 X (l + z * N) * nthZ 0 Y (k + j * N))%R))))).
  2: { intros j Hj. apply sumZ_ext. intros k Hk. rewrite V1 by auto. rewrite <- sumZ_scal_r. apply sumZ_ext. intros z Hz. rewrite <- sumZ_scal_r. apply sumZ_ext. auto. }
  rewrite (sumZ_ext M (fun j => sumZ N (fun k => (nthZ 0 X (k + j * N) * nthZ 0 Y' (k + j * N))%R)) (fun z => sumZ N (fun l => sumZ M (fun j => sumZ N (fun k => (A l z k j * nthZ 0 X (l + z * N) * nthZ 0 Y (k + j * N))%R))))).
  2: { intros z Hz. apply sumZ_ext. intros l Hl. rewrite V2 by auto. rewrite <- sumZ_scal. apply sumZ_ext. intros j Hj. rewrite <- sumZ_scal. apply sumZ_ext.
       intros k Hk. rewrite E by auto. ring. }
  rewrite (sumZ_ext M _ (fun j => sumZ M (fun z => sumZ N (fun k => sumZ N (fun l => (A l z k j * nthZ 0 X (l + z * N) * nthZ 0 Y (k + j * N))%R))))).
  2: { intros j Hj. apply sumZ_swap. }
  rewrite sumZ_swap. apply sumZ_ext. intros z Hz.
  rewrite (sumZ_ext M _ (fun j => sumZ N (fun l => sumZ N (fun k => (A l z k j * nthZ 0 X (l + z * N) * nthZ 0 Y (k + j * N))%R)))).
  2: { intros j Hj. apply sumZ_swap. }
  apply sumZ_swap.
Qed.
Lemma ev_cancel A B p q : (forall l z l' z', 0 <= l < N -> 0 <= z < M -> 0 <= l' < N -> 0 <= z' < M ->
    sumZ M (fun j => sumZ N (fun k => (B k j l' z' * A l z k j)%R)) = (delta l' l * delta z' z)%R) ->
  ev A p -> ev B q -> forall X, zlen X = N * M -> exists X', p X = Some X' /\ zlen X' = N * M /\ q X' = Some X.
Proof.
  intros E Hp Hq X LX. destruct (Hp X LX) as (X' & E1 & L1 & V1). destruct (Hq X' L1) as (Y & E2 & L2 & V2).
  exists X'. repeat split; auto. rewrite E2. f_equal. apply grid_ext; auto. intros l' z' Hl' Hz'. rewrite V2 by auto.
  rewrite (sumZ_ext M _ (fun j => sumZ M (fun z => sumZ N (fun l => (sumZ N (fun k => B k j l' z' * A l z k j) * nthZ 0 X (l + z * N))%R)))).
  2: { intros j Hj. rewrite (sumZ_ext N _ (fun k => sumZ M (fun z => sumZ N (fun l => (B k j l' z' * A l z k j * nthZ 0 X (l + z * N))%R)))).
       2: { intros k Hk. rewrite V1 by auto. rewrite <- sumZ_scal. apply sumZ_ext. intros z Hz. rewrite <- sumZ_scal. apply sumZ_ext. intros; ring. }
       rewrite sumZ_swap. apply sumZ_ext. intros z Hz. rewrite sumZ_swap. apply sumZ_ext. intros l Hl. now rewrite sumZ_scal_r. }
  rewrite sumZ_swap.
  rewrite (sumZ_ext M _ (fun z => sumZ N (fun l => (delta l' l * delta z' z * nthZ 0 X (l + z * N))%R))).
  2: { intros z Hz. rewrite sumZ_swap. apply sumZ_ext. intros l Hl. rewrite sumZ_scal_r. now rewrite E. }
  rewrite (sumZ_single M z'); auto.
  - rewrite (sumZ_single N l'); auto.
    + unfold delta. rewrite !Z.eqb_refl. ring.
    + intros l Hl Hn. unfold delta. replace (l' =? l) with false by lia. ring.
  - intros z Hz Hn. apply sumZ_zero. intros l Hl. unfold delta. replace (z' =? z) with false by lia. ring.
Qed.
Lemma ev_inverse A B p q :
  (forall l z l' z', 0 <= l < N -> 0 <= z < M -> 0 <= l' < N -> 0 <= z' < M -> sumZ M (fun j => sumZ N (fun k => (B k j l' z' * A l z k j)%R)) = (delta l' l * delta z' z)%R) ->
  (forall l z l' z', 0 <= l < N -> 0 <= z < M -> 0 <= l' < N -> 0 <= z' < M -> sumZ M (fun j => sumZ N (fun k => (A k j l' z' * B l z k j)%R)) = (delta l' l * delta z' z)%R) ->
  ev A p -> ev B q -> inverse (N * M) p q.
Proof. intros E1 E2 Hp Hq X LX. split; [apply (ev_cancel A B p q)|apply (ev_cancel B A q p)]; auto. Qed.

(** a product along the columns, then one along the rows, and the other way round *)
Definition cols (P : Z -> Z -> Z -> R) := is_mode 1 N M P.
Definition rows (Q : Z -> Z -> R) := is_mode N M 1 (fun _ => Q).
Lemma cols_val P p X : cols P p -> zlen X = N * M -> exists X', p X = Some X' /\ zlen X' = N * M /\
  forall z i, 0 <= z < M -> 0 <= i < N -> nthZ 0%R X' (i + z * N) = sumZ N (fun k => (P z i k * nthZ 0 X (k + z * N))%R).
Proof.
  intros H L. destruct (H X) as (X' & E & L1 & L2 & V); [lia|]. exists X'. split; auto. split; [lia|]. intros z i Hz Hi.
  specialize (V 0 i z). unfold entry in V.
  replace (i + z * N) with (0 + 1 * (i + N * z)) by lia. rewrite V by lia. apply sumZ_ext. intros k Hk. do 2 f_equal. lia.
Qed.
Lemma rows_val Q p X : rows Q p -> zlen X = N * M -> exists X', p X = Some X' /\ zlen X' = N * M /\
  forall i j, 0 <= i < N -> 0 <= j < M -> nthZ 0%R X' (i + j * N) = sumZ M (fun k => (Q j k * nthZ 0 X (i + k * N))%R).
Proof.
  intros H L. destruct (H X) as (X' & E & L1 & L2 & V); [lia|]. exists X'. split; auto. split; [lia|]. intros i j Hi Hj.
  specialize (V i j 0). unfold entry in V. replace (i + j * N) with (i + N * (j + M * 0)) by lia. rewrite V by lia. apply sumZ_ext. intros k Hk. do 2 f_equal. lia.
Qed.
Lemma cols_intro P p : (forall X, zlen X = N * M -> exists X', p X = Some X' /\ zlen X' = N * M /\
  forall z i, 0 <= z < M -> 0 <= i < N -> nthZ 0%R X' (i + z * N) = sumZ N (fun k => (P z i k * nthZ 0 X (k + z * N))%R)) -> cols P p.
Proof.
  intros H X L. destruct (H X) as (X' & E & L1 & V); [lia|]. exists X'. split; auto. split; [lia|]. split; [lia|].
  intros x i z Hx Hi Hz. unfold entry. replace (x + 1 * (i + N * z)) with (i + z * N) by lia. rewrite V by auto.
  apply sumZ_ext. intros k Hk. do 2 f_equal. lia.
Qed.
Lemma rows_intro Q p : (forall X, zlen X = N * M -> exists X', p X = Some X' /\ zlen X' = N * M /\
  forall i j, 0 <= i < N -> 0 <= j < M -> nthZ 0%R X' (i + j * N) = sumZ M (fun k => (Q j k * nthZ 0 X (i + k * N))%R)) -> rows Q p.
Proof.
  intros H X L. destruct (H X) as (X' & E & L1 & V); [lia|]. exists X'. split; auto. split; [lia|]. split; [lia|].
  intros x i z Hx Hi Hz. unfold entry. replace (x + N * (i + M * z)) with (x + i * N) by (assert (z = 0) by lia; subst z; ring). rewrite V by auto.
  apply sumZ_ext. intros k Hk. do 2 f_equal. assert (z = 0) by lia; subst z; ring.
Qed.
Lemma cols_rows P Q p q : cols P p -> rows Q q -> ev (fun l z k j => (P z k l * Q j z)%R) (fun X => do X <- p X; q X).
Proof.
  intros Hp Hq X L. destruct (cols_val P p X Hp L) as (X1 & E1 & L1 & V1). destruct (rows_val Q q X1 Hq L1) as (X2 & E2 & L2 & V2).
  exists X2. rewrite E1. cbn [obind]. split; auto. split; auto. intros k j Hk Hj. rewrite V2 by auto. apply sumZ_ext. intros z Hz.
  rewrite V1 by auto. rewrite <- sumZ_scal. apply sumZ_ext. intros; ring.
Qed.
Lemma rows_cols P Q p q : rows Q p -> cols P q -> ev (fun l z k j => (Q j z * P j k l)%R) (fun X => do X <- p X; q X).
Proof.
  intros Hp Hq X L. destruct (rows_val Q p X Hp L) as (X1 & E1 & L1 & V1). destruct (cols_val P q X1 Hq L1) as (X2 & E2 & L2 & V2).
  exists X2. rewrite E1. cbn [obind]. split; auto. split; auto. intros k j Hk Hj. rewrite V2 by auto.
  rewrite (sumZ_ext N _ (fun l => sumZ M (fun z => (Q j z * P j k l * nthZ 0 X (l + z * N))%R))).
  2: { intros l Hl. rewrite V1 by auto. rewrite <- sumZ_scal. apply sumZ_ext. intros; ring. }
  apply sumZ_swap.
Qed.
Lemma cols_ext P P' p : (forall z i k, 0 <= z < M -> 0 <= i < N -> 0 <= k < N -> P z i k = P' z i k) -> cols P p -> cols P' p.
Proof. intros. eapply is_mode_ext; eauto. Qed.
Lemma rows_ext Q Q' p : (forall i k, 0 <= i < M -> 0 <= k < M -> Q i k = Q' i k) -> rows Q p -> rows Q' p.
Proof. intros E H. apply (is_mode_ext N M 1 (fun _ => Q)); auto. Qed.
Lemma cols_prog P p q : (forall X, p X = q X) -> cols P p -> cols P q.
Proof. intros E H X L. destruct (H X L) as (X' & E1 & V). exists X'. rewrite <- E. auto. Qed.
Lemma rows_prog P p q : (forall X, p X = q X) -> rows P p -> rows P q.
Proof. intros E H X L. destruct (H X L) as (X' & E1 & V). exists X'. rewrite <- E. auto. Qed.

(** ** entrywise scalings *)
Definition sc (w : Z -> Z -> R) (p : list R -> option (list R)) : Prop :=
  forall X, zlen X = N * M -> exists X', p X = Some X' /\ zlen X' = N * M /\
    forall z r, 0 <= z < M -> 0 <= r < N -> nthZ 0%R X' (r + z * N) = (w z r * nthZ 0 X (r + z * N))%R.
Lemma sc_ext w w' p : (forall z r, 0 <= z < M -> 0 <= r < N -> w z r = w' z r) -> sc w p -> sc w' p.
Proof. intros E H X L. destruct (H X L) as (X' & E1 & L1 & V). exists X'. repeat split; auto. intros. rewrite V, E; auto. Qed.
Lemma sc_prog w p q : (forall X, p X = q X) -> sc w p -> sc w q.
Proof. intros E H X L. destruct (H X L) as (X' & E1 & V). exists X'. rewrite <- E. auto. Qed.
Lemma sc_id : sc (fun _ _ => 1%R) (fun X => Some X).
Proof. intros X L. exists X. repeat split; auto. intros. ring. Qed.
Lemma sc_seq w w' p q : sc w p -> sc w' q -> sc (fun z r => (w z r * w' z r)%R) (fun X => do X <- p X; q X).
Proof.
  intros Hp Hq X L. destruct (Hp X L) as (X1 & E1 & L1 & V1). destruct (Hq X1 L1) as (X2 & E2 & L2 & V2).
  exists X2. rewrite E1. cbn [obind]. repeat split; auto. intros. rewrite V2, V1 by auto. ring.
Qed.
Definition pt (z0 r0 : Z) (c : R) (z r : Z) : R := if (z =? z0) && (r =? r0) then c else 1%R.
Lemma sc_upd c i z0 r0 p : 0 <= z0 < M -> 0 <= r0 < N -> i = r0 + z0 * N ->
  (forall X, p X = do x <- zget X i; zset X i (c * x)%R) -> sc (pt z0 r0 c) p.
Proof.
  intros Hz Hr -> Ep X L. pose proof (in_grid r0 z0 Hr Hz) as B. rewrite Ep, (zget_nthZ 0%R) by lia. cbn [obind].
  rewrite zset_some by lia. eexists. split; [reflexivity|]. rewrite zlen_zupd. split; auto. intros z r Hz' Hr'. unfold pt.
  destruct (Z.eqb_spec z z0), (Z.eqb_spec r r0); cbn [andb].
  - subst. rewrite nthZ_zupd_same by lia. reflexivity.
  - subst. rewrite nthZ_zupd_other by lia. ring.
  - subst. rewrite nthZ_zupd_other. { ring. } intros E. apply idx2_inj in E; auto. lia.
  - rewrite nthZ_zupd_other. { ring. } intros E. apply idx2_inj in E; auto. lia.
Qed.
Lemma sc_at c i z0 r0 : 0 <= z0 < M -> 0 <= r0 < N -> i = r0 + z0 * N -> sc (pt z0 r0 c) (mulat c i).
Proof. intros. apply (sc_upd c i z0 r0); auto. intros X. unfold mulat. destruct (zget X i); cbn [obind]; auto. f_equal. cbn. ring. Qed.
Lemma sc_divat c i z0 r0 : 0 <= z0 < M -> 0 <= r0 < N -> i = r0 + z0 * N -> sc (pt z0 r0 (/ c)%R) (divat c i).
Proof. intros. apply (sc_upd (/ c)%R i z0 r0); auto. intros X. unfold divat. destruct (zget X i); cbn [obind]; auto. f_equal. cbn. unfold Rdiv. ring. Qed.
Lemma sc_for lo hi (f : Z -> Z -> Z -> R) (G : Z -> Z -> Z -> R) body : lo <= hi ->
  (forall t, lo <= t < hi -> sc (f t) (body t)) -> (forall z r, 0 <= z < M -> 0 <= r < N -> G lo z r = 1%R) ->
  (forall t z r, lo <= t < hi -> 0 <= z < M -> 0 <= r < N -> G (t + 1) z r = (G t z r * f t z r)%R) -> sc (G hi) (for_up lo hi body).
Proof.
  intros Hl Hb H0 HS X L.
  destruct (for_up_inv (fun t X' => zlen X' = N * M /\ forall z r, 0 <= z < M -> 0 <= r < N -> nthZ 0%R X' (r + z * N) = (G t z r * nthZ 0 X (r + z * N))%R) lo hi body X) as (X' & E & L1 & V); auto.
  - split; auto. intros. rewrite H0 by auto. ring.
  - intros t X1 Ht (L1 & V1). destruct (Hb t Ht X1 L1) as (X2 & E2 & L2 & V2). exists X2. split; auto. split; auto.
    intros. rewrite V2, V1, HS by auto. ring.
  - exists X'. auto.
Qed.
Lemma sc_forst lo hi st (f : Z -> Z -> Z -> R) (G : Z -> Z -> Z -> R) body w : 0 < st ->
  (forall k t, 0 <= k -> t = lo + k * st -> t < hi -> sc (f t) (body t)) -> (forall z r, 0 <= z < M -> 0 <= r < N -> G lo z r = 1%R) ->
  (forall k t z r, 0 <= k -> t = lo + k * st -> t < hi -> 0 <= z < M -> 0 <= r < N -> G (t + st) z r = (G t z r * f t z r)%R) ->
  (forall t z r, hi <= t -> lo <= t -> 0 <= z < M -> 0 <= r < N -> G t z r = w z r) -> sc w (for_upst lo hi st body).
Proof.
  intros Hst Hb H0 HS HW X L.
  destruct (for_upst_inv (fun t X' => zlen X' = N * M /\ forall z r, 0 <= z < M -> 0 <= r < N -> nthZ 0%R X' (r + z * N) = (G t z r * nthZ 0 X (r + z * N))%R) lo hi st body X) as (X' & E & L1 & V); auto.
  - split; auto. intros. rewrite H0 by auto. ring.
  - intros k t X1 Hk Et Ht (L1 & V1). assert (Ht' : t < hi) by lia. destruct (Hb k t Hk Et Ht' X1 L1) as (X2 & E2 & L2 & V2). exists X2. split; auto. split; auto.
    intros. rewrite V2, V1, (HS k) by auto. ring.
  - exists X'. split; auto. split; auto. intros z r Hz Hr. rewrite V by auto. f_equal.
    destruct (Z_le_dec lo hi).
    + destruct (end_upst_spec lo hi st) as (k & Hk & Ee & He); auto. apply HW; auto; lia.
    + rewrite end_upst_nil by lia. apply HW; auto; lia.
Qed.
(** scaling before or after a product *)
Lemma sc_cols w P p q : sc w p -> cols P q -> cols (fun z i k => (P z i k * w z k)%R) (fun X => do X <- p X; q X).
Proof.
  intros Hp Hq. apply cols_intro. intros X L. destruct (Hp X L) as (X1 & E1 & L1 & V1). destruct (cols_val P q X1 Hq L1) as (X2 & E2 & L2 & V2).
  exists X2. rewrite E1. cbn [obind]. repeat split; auto. intros. rewrite V2 by auto. apply sumZ_ext. intros. rewrite V1 by auto. ring.
Qed.
Lemma cols_sc w P p q : cols P p -> sc w q -> cols (fun z i k => (w z i * P z i k)%R) (fun X => do X <- p X; q X).
Proof.
  intros Hp Hq. apply cols_intro. intros X L. destruct (cols_val P p X Hp L) as (X1 & E1 & L1 & V1). destruct (Hq X1 L1) as (X2 & E2 & L2 & V2).
  exists X2. rewrite E1. cbn [obind]. repeat split; auto. intros. rewrite V2, V1 by auto. rewrite <- sumZ_scal. apply sumZ_ext. intros; ring.
Qed.
End Kern.
