(** Data layouts of src/fftw.c: data_r2c, data_c2r, colswap, colswap_t *)
From Coq Require Import ZArith List Lia Bool Reals Lra ZifyBool ZifyNat.
From Verif Require Import Base Arith BaseFacts SpecSum PSum SpecLin MFftw.
Open Scope Z_scope.

Section Gen.
Context {F : Type} {AF : Arith F}.

(** copy loops *)
Lemma scatter lo hi (src dst : Z -> Z) (g : F -> F) (X Y : list F) : lo <= hi ->
  (forall i, lo <= i < hi -> 0 <= src i < zlen X) -> (forall i, lo <= i < hi -> 0 <= dst i < zlen Y) ->
  (forall i i', lo <= i < hi -> lo <= i' < hi -> dst i = dst i' -> i = i') ->
  exists Y', for_up lo hi (fun i Y => do x <- zget X (src i); zset Y (dst i) (g x)) Y = Some Y' /\ zlen Y' = zlen Y /\
    (forall i x, lo <= i < hi -> zget X (src i) = Some x -> zget Y' (dst i) = Some (g x)) /\
    (forall p, (forall i, lo <= i < hi -> p <> dst i) -> zget Y' p = zget Y p).
Proof.
  intros Hl HS HD HI.
  destruct (for_up_inv (fun t Y' => zlen Y' = zlen Y /\ (forall i x, lo <= i < t -> zget X (src i) = Some x -> zget Y' (dst i) = Some (g x)) /\
    (forall p, (forall i, lo <= i < t -> p <> dst i) -> zget Y' p = zget Y p)) lo hi (fun i Y => do x <- zget X (src i); zset Y (dst i) (g x)) Y) as (Y' & E & H); auto.
  - split; auto. split; auto. intros. lia.
  - intros t Y1 Ht (L & V & K). destruct (zget_ex X (src t) (HS t Ht)) as (x & Ex). rewrite Ex. cbn [obind].
    rewrite zset_some by (rewrite L; auto). eexists. split; [reflexivity|]. rewrite zlen_zupd. split; [auto|]. split.
    + intros i y Hi Ey. destruct (Z.eq_dec i t) as [->|Nt].
      * rewrite zget_zupd_same by (rewrite L; auto). congruence.
      * rewrite zget_zupd_other. { apply V; auto; lia. } intros Q. apply Nt. apply HI; auto; lia.
    + intros p Hp. rewrite zget_zupd_other. { apply K. intros. apply Hp. lia. } intros Q. apply (Hp t); lia.
  - exists Y'. split; auto.
Qed.
(** two copy loops per turn of an outer loop: the entries written at turn [j] *)
Lemma scatter2 lo hi N (src1 dst1 src2 dst2 : Z -> Z -> Z) (g1 g2 : F -> F) (X Y : list F) : lo <= hi -> 0 <= N ->
  (forall j i, lo <= j < hi -> 0 <= i < N -> 0 <= src1 j i < zlen X) -> (forall j i, lo <= j < hi -> 0 <= i < N -> 0 <= src2 j i < zlen X) ->
  (forall j i, lo <= j < hi -> 0 <= i < N -> 0 <= dst1 j i < zlen Y) -> (forall j i, lo <= j < hi -> 0 <= i < N -> 0 <= dst2 j i < zlen Y) ->
  (forall j i j' i', lo <= j < hi -> 0 <= i < N -> lo <= j' < hi -> 0 <= i' < N -> dst1 j i = dst1 j' i' -> j = j' /\ i = i') ->
  (forall j i j' i', lo <= j < hi -> 0 <= i < N -> lo <= j' < hi -> 0 <= i' < N -> dst2 j i = dst2 j' i' -> j = j' /\ i = i') ->
  (forall j i j' i', lo <= j < hi -> 0 <= i < N -> lo <= j' < hi -> 0 <= i' < N -> dst1 j i <> dst2 j' i') ->
  exists Y', for_up lo hi (fun j Y => do Y <- for_up 0 N (fun i Y => do x <- zget X (src1 j i); zset Y (dst1 j i) (g1 x)) Y;
      for_up 0 N (fun i Y => do x <- zget X (src2 j i); zset Y (dst2 j i) (g2 x)) Y) Y = Some Y' /\ zlen Y' = zlen Y /\
    (forall j i x, lo <= j < hi -> 0 <= i < N -> zget X (src1 j i) = Some x -> zget Y' (dst1 j i) = Some (g1 x)) /\
    (forall j i x, lo <= j < hi -> 0 <= i < N -> zget X (src2 j i) = Some x -> zget Y' (dst2 j i) = Some (g2 x)) /\
    (forall p, (forall j i, lo <= j < hi -> 0 <= i < N -> p <> dst1 j i /\ p <> dst2 j i) -> zget Y' p = zget Y p).
Proof.
  intros Hl HN HS1 HS2 HD1 HD2 HI1 HI2 HI12.
  destruct (for_up_inv (fun t Y' => zlen Y' = zlen Y /\
    (forall j i x, lo <= j < t -> 0 <= i < N -> zget X (src1 j i) = Some x -> zget Y' (dst1 j i) = Some (g1 x)) /\
    (forall j i x, lo <= j < t -> 0 <= i < N -> zget X (src2 j i) = Some x -> zget Y' (dst2 j i) = Some (g2 x)) /\
    (forall p, (forall j i, lo <= j < t -> 0 <= i < N -> p <> dst1 j i /\ p <> dst2 j i) -> zget Y' p = zget Y p)) lo hi
    (fun j Y => do Y <- for_up 0 N (fun i Y => do x <- zget X (src1 j i); zset Y (dst1 j i) (g1 x)) Y;
      for_up 0 N (fun i Y => do x <- zget X (src2 j i); zset Y (dst2 j i) (g2 x)) Y) Y) as (Y' & E & H); auto.
  - split; auto. split; [intros; lia|]. split; [intros; lia|auto].
  - intros t Y1 Ht (L & V1 & V2 & K).
    destruct (scatter 0 N (src1 t) (dst1 t) g1 X Y1) as (Y2 & E2 & L2 & V3 & K3); auto.
    { intros. rewrite L. auto. } { intros i i' Hi Hi' Q. destruct (HI1 t i t i' Ht Hi Ht Hi' Q); assumption. }
    destruct (scatter 0 N (src2 t) (dst2 t) g2 X Y2) as (Y3 & E3 & L3 & V4 & K4); auto.
    { intros. rewrite L2, L. auto. } { intros i i' Hi Hi' Q. destruct (HI2 t i t i' Ht Hi Ht Hi' Q); assumption. }
    rewrite E2. cbn [obind]. rewrite E3. exists Y3. split; auto. split; [congruence|]. split; [|split].
    + intros j i x Hj Hi Ex. rewrite K4. 2:{ intros i' Hi' Q. apply (HI12 j i t i'); auto; lia. }
      destruct (Z.eq_dec j t) as [->|Nj]; [now apply V3|]. rewrite K3. { apply V1; auto; lia. }
      intros i' Hi' Q. apply Nj. apply (HI1 j i t i'); auto; lia.
    + intros j i x Hj Hi Ex. destruct (Z.eq_dec j t) as [->|Nj]; [now apply V4|]. rewrite K4, K3. { apply V2; auto; lia. }
      * intros i' Hi' Q. apply (HI12 t i' j i); auto; lia.
      * intros i' Hi' Q. apply Nj. apply (HI2 j i t i'); auto; lia.
    + intros p Hp. rewrite K4, K3. { apply K. intros j i Hj Hi. apply Hp; [clear - Hj; lia | exact Hi]. }
      * intros i Hi. apply (Hp t i); [clear - Ht; lia | exact Hi].
      * intros i Hi. apply (Hp t i); [clear - Ht; lia | exact Hi].
  - exists Y'. split; auto.
Qed.

Lemma dbl_bound N i j m : 0 <= i < N -> 0 <= j < m -> 0 <= i + j * N < N * m.
Proof. intros Hi Hj. rewrite (Z.mul_comm N m). now apply idx2. Qed.
Lemma data_r2c_spec N h (X Y : list F) : 0 <= N -> 0 <= h -> zlen X = N * (2 * h + 1) -> zlen Y = 2 * (N * (h + 1)) ->
  exists Y', data_r2c N (2 * h + 1) X Y = Some Y' /\ zlen Y' = zlen Y /\
    (forall i x, 0 <= i < N -> zget X i = Some x -> zget Y' (2 * i) = Some x) /\
    (forall j i x, 1 <= j <= h -> 0 <= i < N -> zget X (i + 2 * j * N) = Some x -> zget Y' (2 * (i + j * N)) = Some x) /\
    (forall j i x, 1 <= j <= h -> 0 <= i < N -> zget X (i + (2 * j - 1) * N) = Some x -> zget Y' (2 * (i + j * N) + 1) = Some (opp x)) /\
    (forall i, 0 <= i < N -> zget Y' (2 * i + 1) = zget Y (2 * i + 1)).
Proof.
  intros HN Hh LX LY. unfold data_r2c. replace ((2 * h + 1) / 2) with h by lia.
  assert (B0 : forall i, 0 <= i < N -> 0 <= i < zlen X /\ 0 <= 2 * i < zlen Y).
  { intros i Hi. pose proof (dbl_bound N i 0 (2 * h + 1) Hi). pose proof (dbl_bound N i 0 (h + 1) Hi). lia. }
  assert (B1 : forall j i, 1 <= j < h + 1 -> 0 <= i < N -> 0 <= i + 2 * j * N < zlen X /\ 0 <= i + (2 * j - 1) * N < zlen X /\ 0 <= 2 * i + 2 * j * N < zlen Y /\ 0 <= 2 * i + 1 + 2 * j * N < zlen Y).
  { intros j i Hj Hi. pose proof (dbl_bound N i (2 * j) (2 * h + 1) Hi). pose proof (dbl_bound N i (2 * j - 1) (2 * h + 1) Hi). pose proof (dbl_bound N i j (h + 1) Hi). lia. }
  destruct (scatter 0 N (fun i => i) (fun i => 2 * i) (fun x => x) X Y) as (Y1 & E1 & L1 & V1 & K1); auto.
  { intros; now apply B0. } { intros; now apply B0. } { intros; lia. }
  rewrite E1. cbn [obind].
  destruct (scatter2 1 (h + 1) N (fun j i => i + 2 * j * N) (fun j i => 2 * i + 2 * j * N) (fun j i => i + (2 * j - 1) * N) (fun j i => 2 * i + 1 + 2 * j * N) (fun x => x) opp X Y1)
    as (Y2 & E2 & L2 & V2 & V3 & K2); auto.
  { lia. } { intros; now apply B1. } { intros; now apply B1. } { intros; rewrite L1; now apply B1. } { intros; rewrite L1; now apply B1. }
  { intros j i j' i' Hj Hi Hj' Hi' E. destruct (idx2_inj i j i' j' N); auto; lia. }
  { intros j i j' i' Hj Hi Hj' Hi' E. destruct (idx2_inj i j i' j' N); auto; lia. }
  { intros; lia. }
  assert (Far : forall i j k, 0 <= i < N -> 1 <= j -> 0 <= k -> i < k + j * N) by (intros; nia).
  exists Y2. split; [exact E2|]. split; [congruence|]. repeat split.
  - intros i x Hi Ex. rewrite K2. { now apply V1. } intros j k Hj Hk. pose proof (Far i j k). lia.
  - intros j i x Hj Hi Ex. replace (2 * (i + j * N)) with (2 * i + 2 * j * N) by ring. apply V2; auto; lia.
  - intros j i x Hj Hi Ex. replace (2 * (i + j * N) + 1) with (2 * i + 1 + 2 * j * N) by ring. apply V3; auto; lia.
  - intros i Hi. rewrite K2, K1; auto; intros; try lia. pose proof (Far i j i0). lia.
Qed.
Lemma data_c2r_spec N h (X Y : list F) : 0 <= N -> 0 <= h -> zlen X = N * (2 * h + 1) -> zlen Y = 2 * (N * (h + 1)) ->
  exists X', data_c2r N (2 * h + 1) X Y = Some X' /\ zlen X' = zlen X /\
    (forall i x, 0 <= i < N -> zget Y (2 * i) = Some x -> zget X' i = Some x) /\
    (forall j i x, 1 <= j <= h -> 0 <= i < N -> zget Y (2 * (i + j * N)) = Some x -> zget X' (i + 2 * j * N) = Some x) /\
    (forall j i x, 1 <= j <= h -> 0 <= i < N -> zget Y (2 * (i + j * N) + 1) = Some x -> zget X' (i + (2 * j - 1) * N) = Some (opp x)).
Proof.
  intros HN Hh LX LY. unfold data_c2r. replace ((2 * h + 1) / 2) with h by lia.
  assert (B0 : forall i, 0 <= i < N -> 0 <= i < zlen X /\ 0 <= 2 * i < zlen Y).
  { intros i Hi. pose proof (dbl_bound N i 0 (2 * h + 1) Hi). pose proof (dbl_bound N i 0 (h + 1) Hi). lia. }
  assert (B1 : forall j i, 1 <= j < h + 1 -> 0 <= i < N -> 0 <= i + 2 * j * N < zlen X /\ 0 <= i + (2 * j - 1) * N < zlen X /\ 0 <= 2 * i + 2 * j * N < zlen Y /\ 0 <= 2 * i + 1 + 2 * j * N < zlen Y).
  { intros j i Hj Hi. pose proof (dbl_bound N i (2 * j) (2 * h + 1) Hi). pose proof (dbl_bound N i (2 * j - 1) (2 * h + 1) Hi). pose proof (dbl_bound N i j (h + 1) Hi). lia. }
  destruct (scatter 0 N (fun i => 2 * i) (fun i => i) (fun x => x) Y X) as (X1 & E1 & L1 & V1 & K1); auto.
  { intros; now apply B0. } { intros; now apply B0. }
  rewrite E1. cbn [obind].
  destruct (scatter2 1 (h + 1) N (fun j i => 2 * i + 2 * j * N) (fun j i => i + 2 * j * N) (fun j i => 2 * i + 1 + 2 * j * N) (fun j i => i + (2 * j - 1) * N) (fun x => x) opp Y X1)
    as (X2 & E2 & L2 & V2 & V3 & K2); auto.
  { lia. } { intros; now apply B1. } { intros; now apply B1. } { intros; rewrite L1; now apply B1. } { intros; rewrite L1; now apply B1. }
  { intros j i j' i' Hj Hi Hj' Hi' E. destruct (idx2_inj i (2 * j) i' (2 * j') N); auto; lia. }
  { intros j i j' i' Hj Hi Hj' Hi' E. destruct (idx2_inj i (2 * j - 1) i' (2 * j' - 1) N); auto; lia. }
  { intros j i j' i' Hj Hi Hj' Hi' E. destruct (idx2_inj i (2 * j) i' (2 * j' - 1) N); auto; lia. }
  assert (Far : forall i j k, 0 <= i < N -> 1 <= j -> 0 <= k -> i < k + j * N) by (intros; nia).
  exists X2. split; [exact E2|]. split; [congruence|]. repeat split.
  - intros i x Hi Ex. rewrite K2. { now apply V1. } intros j k Hj Hk. pose proof (Far i (2 * j) k). pose proof (Far i (2 * j - 1) k). lia.
  - intros j i x Hj Hi Ex. apply V2; auto; try lia. rewrite <- Ex. f_equal. ring.
  - intros j i x Hj Hi Ex. apply V3; auto; try lia. rewrite <- Ex. f_equal. ring.
Qed.

(** *** the complex column exchange, on pairs *)
Definition cscatter N (src dst : Z -> Z) (X : list F) := for_up 0 N (fun i Y => copyc X (dst i) (src i) Y).
Lemma copyc_spec (X Y : list F) p q : 0 <= 2 * q -> 2 * q + 1 < zlen X -> 0 <= 2 * p -> 2 * p + 1 < zlen Y ->
  exists Y', copyc X p q Y = Some Y' /\ zlen Y' = zlen Y /\
    (forall r, 0 <= r < 2 -> zget Y' (2 * p + r) = zget X (2 * q + r)) /\
    (forall s, s <> 2 * p -> s <> 2 * p + 1 -> zget Y' s = zget Y s).
Proof.
  intros. unfold copyc. destruct (zget_ex X (2 * q) ltac:(lia)) as (x & Ex). destruct (zget_ex X (2 * q + 1) ltac:(lia)) as (y & Ey).
  rewrite Ex, Ey. cbn [obind]. rewrite zset_some by lia. cbn [obind]. rewrite zset_some by (rewrite zlen_zupd; lia).
  eexists. split; [reflexivity|]. rewrite !zlen_zupd. split; [auto|]. split.
  - intros r Hr. assert (r = 0 \/ r = 1) as [Hr0|Hr1] by lia; [subst r|subst r].
    + rewrite !Z.add_0_r, zget_zupd_other, zget_zupd_same by lia. congruence.
    + rewrite zget_zupd_same by (rewrite zlen_zupd; lia). congruence.
  - intros s H3 H4. rewrite !zget_zupd_other by lia. reflexivity.
Qed.
(** a family of copies of ft_complex from [src k] to [dst k], [k] in [dom] *)
Definition copied {K} (dom : K -> Prop) (src dst : K -> Z) (X Y Y' : list F) : Prop :=
  zlen Y' = zlen Y /\
  (forall k r, dom k -> 0 <= r < 2 -> zget Y' (2 * dst k + r) = zget X (2 * src k + r)) /\
  (forall p r, 0 <= r < 2 -> (forall k, dom k -> p <> dst k) -> zget Y' (2 * p + r) = zget Y (2 * p + r)).
Lemma copied_seq {K} (d1 d2 : K -> Prop) src dst X Y Y1 Y2 : (forall k k', d1 k -> d2 k' -> dst k <> dst k') ->
  copied d1 src dst X Y Y1 -> copied d2 src dst X Y1 Y2 -> copied (fun k => d1 k \/ d2 k) src dst X Y Y2.
Proof.
  intros HD (L1 & V1 & K1) (L2 & V2 & K2). split; [congruence|]. split.
  - intros k r [H|H] Hr; [|now apply V2]. rewrite K2 by auto. now apply V1.
  - intros p r Hr Hp. rewrite K2, K1; auto.
Qed.
Lemma copied_ext {K J} (d : K -> Prop) (d' : J -> Prop) src dst src' dst' X Y Y' (f : J -> K) (g : K -> J) :
  (forall j, d' j -> d (f j) /\ src (f j) = src' j /\ dst (f j) = dst' j) -> (forall k, d k -> d' (g k) /\ dst' (g k) = dst k) ->
  copied d src dst X Y Y' -> copied d' src' dst' X Y Y'.
Proof.
  intros Hf Hg (L & V & K1). split; [auto|]. split.
  - intros j r Hj Hr. destruct (Hf j Hj) as (D & <- & <-). now apply V.
  - intros p r Hr Hp. apply K1; auto. intros k Hk. destruct (Hg k Hk) as (D & <-). now apply Hp.
Qed.
Lemma copied_loop {K} lo hi (d : Z -> K -> Prop) (src dst : Z -> K -> Z) X Y body : lo <= hi ->
  (forall t t' k k', lo <= t < hi -> lo <= t' < hi -> t <> t' -> d t k -> d t' k' -> dst t k <> dst t' k') ->
  (forall t Y1, lo <= t < hi -> zlen Y1 = zlen Y -> exists Y2, body t Y1 = Some Y2 /\ copied (d t) (src t) (dst t) X Y1 Y2) ->
  exists Y', for_up lo hi body Y = Some Y' /\ copied (fun tk : Z * K => lo <= fst tk < hi /\ d (fst tk) (snd tk)) (fun tk => src (fst tk) (snd tk)) (fun tk => dst (fst tk) (snd tk)) X Y Y'.
Proof.
  intros Hl HD HB.
  destruct (for_up_inv (fun t Y' => copied (fun tk : Z * K => lo <= fst tk < t /\ d (fst tk) (snd tk)) (fun tk => src (fst tk) (snd tk)) (fun tk => dst (fst tk) (snd tk)) X Y Y') lo hi body Y)
    as (Y' & E & H); auto.
  - split; auto. split; auto. intros k r (H & _). lia.
  - intros t Y1 Ht H1. destruct (HB t Y1 Ht (proj1 H1)) as (Y2 & E & H2). exists Y2. split; auto.
    assert (H3 : copied (fun tk : Z * K => fst tk = t /\ d (fst tk) (snd tk)) (fun tk => src (fst tk) (snd tk)) (fun tk => dst (fst tk) (snd tk)) X Y1 Y2).
    { revert H2. apply (copied_ext _ _ _ _ _ _ _ _ _ snd (fun k => (t, k))).
      - intros (t', k) (Et & D). cbn [fst snd] in *. subst. auto.
      - intros k D. cbn. auto. }
    assert (H4 := fun D => copied_seq _ _ _ _ _ _ _ _ D H1 H3). cbv beta in H4.
    match type of H4 with ?P -> _ => assert (HP : P) end.
    { intros (t1, k1) (t2, k2) (Ha & Hb) (Hc & Hd). cbn [fst snd] in *. apply HD; auto; lia. }
    specialize (H4 HP). revert H4. apply (copied_ext _ _ _ _ _ _ _ _ _ (fun k => k) (fun k => k)).
    + intros (t', k) (Ha & Hb). cbn [fst snd] in *. split; auto. destruct (Z.eq_dec t' t); [right|left]; split; auto; lia.
    + intros (t', k) [(Ha & Hb)|(Ha & Hb)]; cbn [fst snd] in *; split; auto; split; auto; lia.
  - exists Y'. split; auto.
Qed.
Lemma copied_row N (src dst : Z -> Z) X Y : 0 <= N ->
  (forall i, 0 <= i < N -> 0 <= 2 * src i /\ 2 * src i + 1 < zlen X) -> (forall i, 0 <= i < N -> 0 <= 2 * dst i /\ 2 * dst i + 1 < zlen Y) ->
  (forall i i', 0 <= i < N -> 0 <= i' < N -> dst i = dst i' -> i = i') ->
  exists Y', for_up 0 N (fun i Y => copyc X (dst i) (src i) Y) Y = Some Y' /\ copied (fun i => 0 <= i < N) src dst X Y Y'.
Proof.
  intros HN HS HD HI.
  destruct (copied_loop 0 N (fun _ (_ : unit) => True) (fun i _ => src i) (fun i _ => dst i) X Y (fun i Y => copyc X (dst i) (src i) Y)) as (Y' & E & H); auto.
  - intros t Y1 Ht L. destruct (copyc_spec X Y1 (dst t) (src t)) as (Y2 & E & L2 & V & K); try (apply HS; auto); rewrite ?L; try (apply HD; auto).
    exists Y2. split; auto. split; auto. split; auto. intros p r Hr Hp. specialize (Hp tt Logic.I). apply K; lia.
  - exists Y'. split; auto. revert H. apply (copied_ext _ _ _ _ _ _ _ _ _ (fun i => (i, tt)) fst).
    + intros i Hi. cbn. auto.
    + intros (i, u) (Hi & _). cbn in *. auto.
Qed.
(** the column order: position of the Fourier coefficient of column [z] *)
Definition freq (M z : Z) : Z := if Z.odd z then M - (z + 1) / 2 else z / 2.
Lemma odd_m z : Z.odd z = (z mod 2 =? 1).
Proof. rewrite Zmod_odd. now destruct (Z.odd z). Qed.
Lemma freq_range h z : 0 <= z < 2 * h + 1 -> 0 <= freq (2 * h + 1) z < 2 * h + 1.
Proof. unfold freq. rewrite odd_m. intros. destruct (z mod 2 =? 1) eqn:E; lia. Qed.
Lemma freq_inj h z z' : 0 <= z < 2 * h + 1 -> 0 <= z' < 2 * h + 1 -> freq (2 * h + 1) z = freq (2 * h + 1) z' -> z = z'.
Proof. unfold freq. rewrite !odd_m. intros. destruct (z mod 2 =? 1) eqn:E, (z' mod 2 =? 1) eqn:E'; lia. Qed.
Lemma freq_onto h w : 0 <= w < 2 * h + 1 -> exists z, 0 <= z < 2 * h + 1 /\ freq (2 * h + 1) z = w.
Proof.
  intros. destruct (Z_le_dec w h).
  - exists (2 * w). split; [lia|]. unfold freq. rewrite odd_m. destruct ((2 * w) mod 2 =? 1) eqn:E; lia.
  - exists (2 * (2 * h + 1 - w) - 1). split; [lia|]. unfold freq. rewrite odd_m. destruct ((2 * (2 * h + 1 - w) - 1) mod 2 =? 1) eqn:E; lia.
Qed.
Lemma freq_even M j : freq M (2 * j) = j.
Proof. unfold freq. rewrite odd_m. destruct ((2 * j) mod 2 =? 1) eqn:E; lia. Qed.
Lemma freq_odd M j : freq M (2 * j - 1) = M - j.
Proof. unfold freq. rewrite odd_m. destruct ((2 * j - 1) mod 2 =? 1) eqn:E; lia. Qed.

(** both exchanges: [up z] is the column of the source, [dn z] that of the destination *)
Section Swap.
Variables (N h : Z) (S D : list F).
Let M := 2 * h + 1.
Hypotheses (HN : 0 <= N) (Hh : 0 <= h) (LS : zlen S = 2 * (N * M)) (LD : zlen D = 2 * (N * M)).
Variables (up dn : Z -> Z).
Hypotheses (Hup : forall z, 0 <= z < M -> 0 <= up z < M) (Hdn : forall z, 0 <= z < M -> 0 <= dn z < M)
  (Idn : forall z z', 0 <= z < M -> 0 <= z' < M -> dn z = dn z' -> z = z').
Lemma swap_cols prog :
  (forall D, prog D = do D <- for_up 0 N (fun i D => copyc S (i + dn 0 * N) (i + up 0 * N) D) D;
    for_up 1 (h + 1) (fun j D =>
      do D <- for_up 0 N (fun i D => copyc S (i + dn (2 * j) * N) (i + up (2 * j) * N) D) D;
      for_up 0 N (fun i D => copyc S (i + dn (2 * j - 1) * N) (i + up (2 * j - 1) * N) D) D) D) ->
  exists D', prog D = Some D' /\ zlen D' = zlen D /\
    forall i z r, 0 <= i < N -> 0 <= z < M -> 0 <= r < 2 -> zget D' (2 * (i + dn z * N) + r) = zget S (2 * (i + up z * N) + r).
Proof.
  intros HP0. rewrite HP0. clear HP0.
  assert (BS : forall i z, 0 <= i < N -> 0 <= z < M -> 0 <= 2 * (i + up z * N) /\ 2 * (i + up z * N) + 1 < zlen S).
  { intros i z Hi Hz. pose proof (dbl_bound N i (up z) M Hi (Hup z Hz)). lia. }
  assert (BD : forall i z, 0 <= i < N -> 0 <= z < M -> 0 <= 2 * (i + dn z * N) /\ 2 * (i + dn z * N) + 1 < zlen D).
  { intros i z Hi Hz. pose proof (dbl_bound N i (dn z) M Hi (Hdn z Hz)). lia. }
  assert (ID : forall i z i' z', 0 <= i < N -> 0 <= i' < N -> 0 <= z < M -> 0 <= z' < M -> i + dn z * N = i' + dn z' * N -> i = i' /\ z = z').
  { intros i z i' z' Hi Hi' Hz Hz' E. apply idx2_inj in E; auto. destruct E as (-> & E). split; auto. }
  assert (Z0 : 0 <= 0 < M) by (unfold M; lia).
  assert (ROW : forall z D1, 0 <= z < M -> zlen D1 = zlen D ->
    exists D2, for_up 0 N (fun i D => copyc S (i + dn z * N) (i + up z * N) D) D1 = Some D2 /\ copied (fun i => 0 <= i < N) (fun i => i + up z * N) (fun i => i + dn z * N) S D1 D2).
  { intros z D1 Hz L1. apply (copied_row N (fun i => i + up z * N) (fun i => i + dn z * N) S D1); auto.
    - intros i Hi. rewrite L1. auto.
    - intros i i' Hi Hi' E. lia. }
  destruct (ROW 0 D Z0 eq_refl) as (D1 & E1 & H1). rewrite E1. cbn [obind].
  destruct (copied_loop 1 (h + 1) (fun j (iz : Z * Z) => 0 <= fst iz < N /\ (snd iz = 2 * j \/ snd iz = 2 * j - 1)) (fun _ iz => fst iz + up (snd iz) * N) (fun _ iz => fst iz + dn (snd iz) * N) S D1
    (fun j D => do D <- for_up 0 N (fun i D => copyc S (i + dn (2 * j) * N) (i + up (2 * j) * N) D) D;
      for_up 0 N (fun i D => copyc S (i + dn (2 * j - 1) * N) (i + up (2 * j - 1) * N) D) D)) as (D2 & E2 & H2).
  - lia.
  - intros t t' (i, z) (i', z') Ht Ht' Hn (Hi & Hz) (Hi' & Hz') E. cbn [fst snd] in *.
    destruct (ID i z i' z') as (_ & Ez); auto; [unfold M; clear - Ht Hz; lia|unfold M; clear - Ht' Hz'; lia|clear - Ez Hz Hz' Hn; lia].
  - intros t Da Ht La. assert (Ta : 0 <= 2 * t < M) by (unfold M; lia). assert (Tb : 0 <= 2 * t - 1 < M) by (unfold M; lia).
    destruct (ROW (2 * t) Da Ta) as (Db & Eb & Hb). { rewrite La. apply H1. }
    destruct (ROW (2 * t - 1) Db Tb) as (Dc & Ec & Hc). { rewrite (proj1 Hb), La. apply H1. }
    rewrite Eb. cbn [obind]. rewrite Ec. exists Dc. split; auto.
    assert (Hb' : copied (fun iz : Z * Z => 0 <= fst iz < N /\ snd iz = 2 * t) (fun iz => fst iz + up (snd iz) * N) (fun iz => fst iz + dn (snd iz) * N) S Da Db).
    { revert Hb. apply (copied_ext _ _ _ _ _ _ _ _ _ fst (fun i => (i, 2 * t))).
      - intros (i, z) (Hi & Hz). cbn [fst snd] in *. subst. auto.
      - intros i Hi. cbn. auto. }
    assert (Hc' : copied (fun iz : Z * Z => 0 <= fst iz < N /\ snd iz = 2 * t - 1) (fun iz => fst iz + up (snd iz) * N) (fun iz => fst iz + dn (snd iz) * N) S Db Dc).
    { revert Hc. apply (copied_ext _ _ _ _ _ _ _ _ _ fst (fun i => (i, 2 * t - 1))).
      - intros (i, z) (Hi & Hz). cbn [fst snd] in *. subst. auto.
      - intros i Hi. cbn. auto. }
    assert (HP : forall k k' : Z * Z, 0 <= fst k < N /\ snd k = 2 * t -> 0 <= fst k' < N /\ snd k' = 2 * t - 1 -> fst k + dn (snd k) * N <> fst k' + dn (snd k') * N).
    { intros (i, z) (i', z') (Hi & Hz) (Hi' & Hz') E. cbn [fst snd] in *. subst z z'. destruct (ID i (2 * t) i' (2 * t - 1)) as (_ & Ez); auto. clear - Ez. lia. }
    generalize (copied_seq _ _ _ _ _ _ _ _ HP Hb' Hc'). apply (copied_ext _ _ _ _ _ _ _ _ _ (fun k => k) (fun k => k)).
    + intros (i, z) (Hi & [Hz|Hz]); cbn [fst snd] in *; auto.
    + intros (i, z) [(Hi & Hz)|(Hi & Hz)]; cbn [fst snd] in *; auto.
  - exists D2. split; [exact E2|]. destruct H2 as (L2 & V2 & K2). split; [rewrite L2; apply H1|].
    intros i z r Hi Hz Hr. destruct (Z.eq_dec z 0) as [->|Nz].
    + rewrite K2; auto. { now apply (proj1 (proj2 H1)). }
      intros (t, (i', z')) (Ht & Hi' & Hz'). cbn [fst snd] in *. intros E. destruct (ID i 0 i' z') as (_ & Ez); auto; [unfold M; clear - Ht Hz'; lia|clear - Ht Hz' Ez; lia].
    + apply (V2 ((z + 1) / 2, (i, z)) r); auto. cbn [fst snd]. unfold M in Hz. clear - Hz Nz Hi.
      split; [lia|]. split; [auto|]. destruct (Z_le_dec (z mod 2) 0); [left|right]; lia.
Qed.
End Swap.
Lemma colswap_spec N h (X Y : list F) : 0 <= N -> 0 <= h -> zlen X = 2 * (N * (2 * h + 1)) -> zlen Y = 2 * (N * (2 * h + 1)) ->
  exists Y', colswap N (2 * h + 1) X Y = Some Y' /\ zlen Y' = zlen Y /\
    forall i z r, 0 <= i < N -> 0 <= z < 2 * h + 1 -> 0 <= r < 2 -> zget Y' (2 * (i + freq (2 * h + 1) z * N) + r) = zget X (2 * (i + z * N) + r).
Proof.
  intros HN Hh LX LY. set (M := 2 * h + 1) in *.
  apply (swap_cols N h X Y HN Hh LX LY (fun z => z) (freq M)); auto.
  - intros; now apply freq_range.
  - intros; now apply (freq_inj h).
  - intros D. unfold colswap. replace ((M + 1) / 2) with (h + 1) by (unfold M; lia).
    rewrite (for_up_ext 0 N _ (fun i D => copyc X (i + freq M 0 * N) (i + 0 * N) D)).
    2: { intros i s _. rewrite (freq_even M 0 : freq M 0 = 0). f_equal; lia. }
    destruct (for_up 0 N _ D) as [D1|]; [|reflexivity]. cbn [obind].
    apply for_up_ext. intros j D2 _.
    rewrite (for_up_ext 0 N _ (fun i D => copyc X (i + freq M (2 * j) * N) (i + 2 * j * N) D)).
    2: { intros i s _. now rewrite freq_even. }
    destruct (for_up 0 N _ D2) as [D3|]; [|reflexivity]. cbn [obind].
    apply for_up_ext. intros i s _. now rewrite freq_odd.
Qed.
Lemma colswap_t_spec N h (X Y : list F) : 0 <= N -> 0 <= h -> zlen X = 2 * (N * (2 * h + 1)) -> zlen Y = 2 * (N * (2 * h + 1)) ->
  exists X', colswap_t N (2 * h + 1) X Y = Some X' /\ zlen X' = zlen X /\
    forall i z r, 0 <= i < N -> 0 <= z < 2 * h + 1 -> 0 <= r < 2 -> zget X' (2 * (i + z * N) + r) = zget Y (2 * (i + freq (2 * h + 1) z * N) + r).
Proof.
  intros HN Hh LX LY. set (M := 2 * h + 1) in *.
  apply (swap_cols N h Y X HN Hh LY LX (freq M) (fun z => z)  ltac:(intros; now apply freq_range) ltac:(auto) ltac:(auto) (fun X => colswap_t N M X Y)).
  intros D. unfold colswap_t. replace ((M + 1) / 2) with (h + 1) by (unfold M; lia).
  rewrite (for_up_ext 0 N _ (fun i D => copyc Y (i + 0 * N) (i + freq M 0 * N) D)).
  2: { intros i s _. rewrite (freq_even M 0 : freq M 0 = 0). f_equal; lia. }
  destruct (for_up 0 N _ D) as [D1|]; [|reflexivity]. cbn [obind].
  apply for_up_ext. intros j D2 _.
  rewrite (for_up_ext 0 N _ (fun i D => copyc Y (i + 2 * j * N) (i + freq M (2 * j) * N) D)).
  2: { intros i s _. now rewrite freq_even. }
  destruct (for_up 0 N _ D2) as [D3|]; [|reflexivity]. cbn [obind].
  apply for_up_ext. intros i s _. now rewrite freq_odd.
Qed.
(** every position of the array is one of a column *)
Lemma pos2 N M p : 0 <= N -> 0 <= p < 2 * (N * M) -> exists i z r, 0 <= i < N /\ 0 <= z < M /\ 0 <= r < 2 /\ p = 2 * (i + z * N) + r.
Proof.
  intros HN Hp. exists ((p / 2) mod N), ((p / 2) / N), (p mod 2).
  assert (HN' : 0 < N) by (destruct (Z.eq_dec N 0) as [->|]; [rewrite Z.mul_0_l in Hp; lia|lia]). pose proof (Z.div_mod (p / 2) N ltac:(lia)) as Hd. pose proof (Z.mod_pos_bound (p / 2) N HN').
  split; [auto|]. split; [|split; [lia|]].
  - split; [apply Z.div_pos; lia|]. apply Z.div_lt_upper_bound; lia.
  - rewrite (Z.mul_comm _ N). rewrite (Z.add_comm _ (N * _)), <- Hd. lia.
Qed.
(** the two copies undo each other, whatever the destination held *)
Lemma colswap_back N h (X Y Z0 : list F) : 0 <= N -> 0 <= h -> zlen X = 2 * (N * (2 * h + 1)) -> zlen Y = 2 * (N * (2 * h + 1)) -> zlen Z0 = 2 * (N * (2 * h + 1)) ->
  exists Y', colswap N (2 * h + 1) X Y = Some Y' /\ colswap_t N (2 * h + 1) Z0 Y' = Some X.
Proof.
  intros HN Hh LX LY LZ. destruct (colswap_spec N h X Y) as (Y' & E & L & V); auto. exists Y'. split; auto.
  destruct (colswap_t_spec N h Z0 Y') as (X' & E' & L' & V'); auto; [congruence|]. rewrite E'. f_equal.
  apply zget_ext_in; [congruence|]. intros p Hp. destruct (pos2 N (2 * h + 1) p) as (i & z & r & Hi & Hz & Hr & ->); auto; [lia|]. rewrite V', V; auto.
Qed.
Lemma colswap_forth N h (X Y Z0 : list F) : 0 <= N -> 0 <= h -> zlen X = 2 * (N * (2 * h + 1)) -> zlen Y = 2 * (N * (2 * h + 1)) -> zlen Z0 = 2 * (N * (2 * h + 1)) ->
  exists X', colswap_t N (2 * h + 1) X Y = Some X' /\ colswap N (2 * h + 1) X' Z0 = Some Y.
Proof.
  intros HN Hh LX LY LZ. destruct (colswap_t_spec N h X Y) as (X' & E & L & V); auto. exists X'. split; auto.
  destruct (colswap_spec N h X' Z0) as (Y' & E' & L' & V'); auto; [congruence|]. rewrite E'. f_equal.
  apply zget_ext_in; [congruence|]. intros p Hp. destruct (pos2 N (2 * h + 1) p) as (i & w & r & Hi & Hw & Hr & ->); auto; [lia|].
  destruct (freq_onto h w Hw) as (z & Hz & <-). rewrite V', V; auto.
Qed.
(** the half-complex copies *)
Section R2C.
Hypothesis opp_opp : forall x : F, opp (opp x) = x.
Lemma pos1 N M p : 0 <= N -> 0 <= p < N * M -> exists i z, 0 <= i < N /\ 0 <= z < M /\ p = i + z * N.
Proof.
  intros HN Hp. exists (p mod N), (p / N). assert (HN' : 0 < N) by (destruct (Z.eq_dec N 0) as [->|]; [rewrite Z.mul_0_l in Hp; lia|lia]).
  pose proof (Z.div_mod p N ltac:(lia)) as Hd. pose proof (Z.mod_pos_bound p N HN').
  split; [auto|]. split.
  - split; [apply Z.div_pos; lia|]. apply Z.div_lt_upper_bound; lia.
  - rewrite (Z.mul_comm _ N), Z.add_comm. exact Hd.
Qed.
Lemma data_back N h (X Y Z0 : list F) : 0 <= N -> 0 <= h -> zlen X = N * (2 * h + 1) -> zlen Y = 2 * (N * (h + 1)) -> zlen Z0 = N * (2 * h + 1) ->
  exists Y', data_r2c N (2 * h + 1) X Y = Some Y' /\ data_c2r N (2 * h + 1) Z0 Y' = Some X.
Proof.
  intros HN Hh LX LY LZ. destruct (data_r2c_spec N h X Y) as (Y' & E & L & A & B & C & _); auto. exists Y'. split; auto.
  destruct (data_c2r_spec N h Z0 Y') as (X' & E' & L' & A' & B' & C'); auto; [congruence|]. rewrite E'. f_equal.
  apply zget_ext_in; [congruence|]. intros p Hp. destruct (pos1 N (2 * h + 1) p) as (i & z & Hi & Hz & ->); auto; [lia|].
  destruct (zget_ex X (i + z * N)) as (x & Ex); [congruence|]. rewrite Ex.
  destruct (Z.eq_dec z 0) as [->|Nz]; [|destruct (Z_le_dec (z mod 2) 0)].
  - replace (i + 0 * N) with i in * by lia. apply A'; auto.
  - set (j := z / 2). assert (Ej : z = 2 * j) by (unfold j; lia). clearbody j. subst z. apply B'; [lia|auto|]. apply B; auto; lia.
  - set (j := (z + 1) / 2). assert (Ej : z = 2 * j - 1) by (unfold j; lia). clearbody j. subst z.
    rewrite <- (opp_opp x). apply C'; [lia|auto|]. apply C; auto; lia.
Qed.
(** from the half-complex side: everything comes back except the imaginary parts of column 0, which are
    never read (the transforms take them as zero) *)
Lemma data_forth N h (X Y Z0 : list F) : 0 <= N -> 0 <= h -> zlen X = N * (2 * h + 1) -> zlen Y = 2 * (N * (h + 1)) -> zlen Z0 = 2 * (N * (h + 1)) ->
  exists X' Y', data_c2r N (2 * h + 1) X Y = Some X' /\ data_r2c N (2 * h + 1) X' Z0 = Some Y' /\ zlen Y' = zlen Y /\
    forall i z r, 0 <= i < N -> 0 <= z < h + 1 -> 0 <= r < 2 -> (0 < z \/ r = 0) -> zget Y' (2 * (i + z * N) + r) = zget Y (2 * (i + z * N) + r).
Proof.
  intros HN Hh LX LY LZ. destruct (data_c2r_spec N h X Y) as (X' & E & L & A & B & C); auto.
  destruct (data_r2c_spec N h X' Z0) as (Y' & E' & L' & A' & B' & C' & _); auto; [congruence|].
  exists X', Y'. split; auto. split; auto. split; [congruence|]. intros i z r Hi Hz Hr Hc.
  pose proof (dbl_bound N i z (h + 1) Hi Hz) as HB.
  destruct (zget_ex Y (2 * (i + z * N) + r)) as (x & Ex); [lia|]. rewrite Ex.
  destruct (Z.eq_dec z 0) as [->|Nz]; [|destruct (Z.eq_dec r 0) as [->|Nr]].
  - assert (r = 0) by lia. subst r. replace (2 * (i + 0 * N) + 0) with (2 * i) in * by lia. apply A'; auto.
  - rewrite Z.add_0_r in *. apply B'; [lia|auto|]. apply B; auto; lia.
  - assert (r = 1) by lia. subst r. rewrite <- (opp_opp x). apply C'; [lia|auto|]. apply C; auto; lia.
Qed.
End R2C.
End Gen.
