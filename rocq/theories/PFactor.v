(** * Proofs: banded LU and Cholesky *)
From Coq Require Import ZArith List Lia Bool ZifyBool ZifyNat Reals Lra.
From Verif Require Import Arith Base BaseFacts SpecSum PSum SpecLin MBanded SpecBanded PTri MFactor.
Import ListNotations.
Open Scope Z_scope.

Notation g := (nthZ 0%R).
Lemma gget (D : list R) p : 0 <= p < zlen D -> zget D p = Some (g D p).
Proof. apply zget_nthZ. Qed.

(** ** Elementary transformations on a block *)
Lemma compute_elementary_val n D v : 1 <= n -> 0 <= v -> v + n <= zlen D ->
  exists D', compute_elementary n D v = Some D' /\ zlen D' = zlen D /\
    forall p, g D' p = if (v <? p) && (p <? v + n) then (g D p / g D v)%R else g D p.
Proof.
  intros Hn Hv Hl. unfold compute_elementary.
  destruct (for_up_inv (fun i D' => zlen D' = zlen D /\
    forall p, g D' p = if (v <? p) && (p <? v + i) then (g D p / g D v)%R else g D p) 1 n
    (fun i D => do x <- zget D (v + i); do p <- zget D v; zset D (v + i) (div x p)) D) as (D' & H & H1 & H2).
  - lia.
  - split; auto. intros p. destruct (v <? p) eqn:E; cbn [andb]; auto. replace (p <? v + 1) with false by lia. auto.
  - intros i D1 Hi (L1 & V1). rewrite !gget by lia. cbn [obind]. rewrite zset_some by lia. eexists; split; [reflexivity|].
    split; [now rewrite zlen_zupd|]. intros p. rewrite nthZ_zupd by lia. rewrite !V1.
    destruct (Z.eqb_spec (v + i) p).
    + subst p. replace (v <? v + i) with true by lia. replace (v + i <? v + (i + 1)) with true by lia.
      replace (v + i <? v + i) with false by lia. replace (v <? v) with false by lia. reflexivity.
    + destruct (v <? p) eqn:E; cbn [andb]; auto. replace (p <? v + (i + 1)) with (p <? v + i) by lia. auto.
  - exists D'. auto.
Qed.

Lemma apply_loop_val n D v A : 1 <= n -> 0 <= v -> v + n <= zlen D -> 0 <= A -> A + n <= zlen D ->
  v + n <= A \/ A + n <= v ->
  exists D', for_up 1 n (fun i D =>
    do a <- zget D (A + i); do w <- zget D (v + i); do a0 <- zget D A; zset D (A + i) (sub a (mul w a0))) D = Some D' /\ zlen D' = zlen D /\
    forall p, g D' p = if (A <? p) && (p <? A + n) then (g D p - g D (v + (p - A)) * g D A)%R else g D p.
Proof.
  intros Hn Hv Hl HA HlA Hd.
  destruct (for_up_inv (fun i D' => zlen D' = zlen D /\
    forall p, g D' p = if (A <? p) && (p <? A + i) then (g D p - g D (v + (p - A)) * g D A)%R else g D p) 1 n
    (fun i D => do a <- zget D (A + i); do w <- zget D (v + i); do a0 <- zget D A; zset D (A + i) (sub a (mul w a0))) D) as (D' & H & H1 & H2).
  - lia.
  - split; auto. intros p. destruct (A <? p) eqn:E; cbn [andb]; auto. replace (p <? A + 1) with false by lia. auto.
  - intros i D1 Hi (L1 & V1). rewrite !gget by lia. cbn [obind]. rewrite zset_some by lia. eexists; split; [reflexivity|].
    split; [now rewrite zlen_zupd|]. intros p. rewrite nthZ_zupd by lia. rewrite !V1.
    destruct (Z.eqb_spec (A + i) p).
    + subst p. replace (A <? A + i) with true by lia. replace (A + i <? A + (i + 1)) with true by lia.
      replace (A + i <? A + i) with false by lia. replace (A <? A) with false by lia.
      replace ((A <? v + i) && (v + i <? A + i)) with false by lia. cbn [andb].
      replace (v + (A + i - A)) with (v + i) by lia. reflexivity.
    + destruct (A <? p) eqn:E; cbn [andb]; auto. replace (p <? A + (i + 1)) with (p <? A + i) by lia. auto.
  - exists D'. auto.
Qed.
Lemma compute_sym_val n D v : 1 <= n -> 0 <= v -> v + n <= zlen D ->
  exists D', compute_symmetric_elementary n D v = Some D' /\ zlen D' = zlen D /\
    forall p, g D' p = if p =? v then sqrt (g D v) else if (v <? p) && (p <? v + n) then (g D p / g D v)%R else g D p.
Proof.
  intros Hn Hv Hl. unfold compute_symmetric_elementary.
  destruct (compute_elementary_val n D v) as (D1 & E1 & L1 & V1); auto. unfold compute_elementary in E1. rewrite E1. cbn [obind].
  rewrite !gget by lia. cbn [obind]. rewrite zset_some by lia. eexists; split; [reflexivity|]. split; [now rewrite zlen_zupd|].
  intros p. rewrite nthZ_zupd by lia. rewrite !V1. rewrite Z.ltb_irrefl. cbn [andb]. rewrite (Z.eqb_sym v p). reflexivity.
Qed.
Lemma apply_sym_val n D v A : 1 <= n -> 0 <= v -> v + n <= zlen D -> 0 <= A -> A + n <= zlen D ->
  v + n <= A \/ A + n <= v ->
  exists D', apply_symmetric_elementary n D v A = Some D' /\ zlen D' = zlen D /\
    forall p, g D' p = if p =? A then (g D A / g D v)%R else if (A <? p) && (p <? A + n) then (g D p - g D (v + (p - A)) * g D A)%R else g D p.
Proof.
  intros Hn Hv Hl HA HlA Hd. unfold apply_symmetric_elementary.
  destruct (apply_loop_val n D v A) as (D1 & E1 & L1 & V1); auto. rewrite E1. cbn [obind].
  rewrite !gget by lia. cbn [obind]. rewrite zset_some by lia. eexists; split; [reflexivity|]. split; [now rewrite zlen_zupd|].
  intros p. rewrite nthZ_zupd by lia. rewrite !V1. rewrite Z.ltb_irrefl. cbn [andb].
  replace ((A <? v) && (v <? A + n)) with false by lia. rewrite (Z.eqb_sym A p). reflexivity.
Qed.

(** ** Band positions *)
Section Band.
Variables l u n : Z.
Hypothesis Hl : 0 <= l.
Hypothesis Hu : 0 <= u.
Let nu := l + u + 1.
Definition pos r c := u + r - c + c * (l + u + 1).
Definition inb r c := 0 <= c < n /\ - l <= c - r <= u.
Definition dm (D : list R) r c := bd_mat (Banded D n n l u) r c.

Lemma pos_range r c len : n * nu <= len -> inb r c -> 0 <= pos r c < len.
Proof. intros H (H1 & H2). unfold pos. pose proof (idx2 (u + r - c) c nu n). unfold nu in *. lia. Qed.
Lemma pos_seg r0 c0 r c a k : inb r0 c0 -> r0 + k - 1 <= c0 + l -> 0 <= a -> inb r c ->
  (pos r0 c0 + a <= pos r c < pos r0 c0 + k <-> c = c0 /\ r0 + a <= r < r0 + k).
Proof.
  intros (H1 & H2) Hk Ha (H3 & H4). split.
  - intros H. set (d := pos r c - pos r0 c0). 
    assert (u + r - c = u + (r0 + d) - c0 /\ c = c0).
    { apply (idx2_inj _ _ _ _ nu); unfold nu; try (unfold d; lia). unfold d, pos, nu in *. lia. }
    unfold d in *. lia.
  - intros (-> & H). unfold pos. lia.
Qed.
Lemma dm_in D r c : inb r c -> dm D r c = g D (pos r c).
Proof. intros (H1 & H2). unfold dm, bd_mat, mat, pos; cbn. replace ((- l <=? c - r) && (c - r <=? u)) with true by lia. f_equal; lia. Qed.
Lemma dm_out D r c : ~ (- l <= c - r <= u) -> dm D r c = 0%R.
Proof. intros H. unfold dm, bd_mat; cbn. replace ((- l <=? c - r) && (c - r <=? u)) with false by lia. auto. Qed.
Lemma band_dec r c : 0 <= c < n -> inb r c \/ ~ (- l <= c - r <= u).
Proof. unfold inb. lia. Qed.

Variable len : Z.
Hypothesis Hlen : n * nu <= len.

Lemma pos_seg_b r0 c0 r c k : inb r0 c0 -> r0 + k - 1 <= c0 + l -> inb r c ->
  (pos r0 c0 <? pos r c) && (pos r c <? pos r0 c0 + k) = (c =? c0) && ((r0 <? r) && (r <? r0 + k)).
Proof.
  intros H0 Hk H. pose proof (pos_seg r0 c0 r c 1 k H0 Hk ltac:(lia) H). lia.
Qed.
Lemma pos_eq_b r0 c0 r c : inb r0 c0 -> inb r c -> (pos r c =? pos r0 c0) = (c =? c0) && (r =? r0).
Proof.
  intros H0 H. pose proof (pos_seg r0 c0 r c 0 1 H0 ltac:(unfold inb in *; lia) ltac:(lia) H). lia.
Qed.
Lemma seg_fits r0 c0 k : inb r0 c0 -> r0 + k - 1 <= c0 + l -> 0 <= pos r0 c0 /\ pos r0 c0 + k <= len.
Proof.
  intros H0 Hk. pose proof (pos_range r0 c0 len Hlen H0).
  split; [lia|]. destruct H0 as (H1 & H2). unfold pos in *.
  assert ((c0 + 1) * nu <= n * nu) by (apply Z.mul_le_mono_nonneg_r; unfold nu; lia). unfold nu in *. lia.
Qed.
Lemma seg_disj r0 c0 r1 c1 k : inb r0 c0 -> inb r1 c1 -> c0 < c1 -> r0 + k - 1 <= c0 + l ->
  pos r0 c0 + k <= pos r1 c1.
Proof.
  intros (H0 & H1) (H2 & H3) Hc Hk. unfold pos.
  assert ((c0 + 1) * nu <= c1 * nu) by (apply Z.mul_le_mono_nonneg_r; unfold nu; lia). unfold nu in *. lia.
Qed.

(** one elimination step, on all band positions *)
Lemma lu_step D j : zlen D = len -> 0 <= j < n ->
  let lv := Z.min (l + 1) (n - j + 1) in
  exists D', (do D1 <- compute_elementary lv D (u + j * nu);
              for_up 1 (Z.min u (n - j - 1) + 1) (fun k D => apply_elementary lv D (u + j * nu) (u - k + (j + k) * nu)) D1) = Some D' /\
    zlen D' = len /\
    forall r c, 0 <= r < n -> 0 <= c < n -> dm D' r c =
      if j <? r then
        if c =? j then (dm D r j / dm D j j)%R
        else if j <? c then (dm D r c - dm D r j / dm D j j * dm D j c)%R else dm D r c
      else dm D r c.
Proof.
  intros HD Hj lv.
  assert (Ij : inb j j) by (unfold inb; lia).
  replace (u + j * nu) with (pos j j) by (unfold pos, nu; lia).
  assert (Hlv : 1 <= lv) by lia. assert (Hlv2 : j + lv - 1 <= j + l) by lia.
  destruct (seg_fits j j lv Ij Hlv2) as (F1 & F2).
  destruct (compute_elementary_val lv D (pos j j)) as (D1 & E1 & L1 & V1); auto; try lia.
  rewrite E1. cbn [obind].
  destruct (for_up_inv (fun k D' => zlen D' = len /\
     forall r c, inb r c -> g D' (pos r c) = if (j <? c) && (c <? j + k) && (j <? r) && (r <? j + lv) then
        (g D (pos r c) - g D (pos r j) / g D (pos j j) * g D (pos j c))%R else g D1 (pos r c)) 1 (Z.min u (n - j - 1) + 1)
     (fun k D => apply_elementary lv D (pos j j) (u - k + (j + k) * nu)) D1) as (D' & H & H1 & H2).
  - lia.
  - split; [lia|]. intros r c _. replace ((j <? c) && (c <? j + 1)) with false by lia. reflexivity.
  - intros k D2 Hk (L2 & V2). replace (u - k + (j + k) * nu) with (pos j (j + k)) by (unfold pos, nu; lia).
    assert (Ik : inb j (j + k)) by (unfold inb; lia).
    destruct (seg_fits j (j + k) lv Ik ltac:(lia)) as (F3 & F4).
    pose proof (seg_disj j j j (j + k) lv Ij Ik ltac:(lia) Hlv2) as Hd.
    destruct (apply_loop_val lv D2 (pos j j) (pos j (j + k))) as (D3 & E3 & L3 & V3); auto; try lia.
    unfold apply_elementary. rewrite E3. eexists; split; [reflexivity|]. split; [lia|].
    intros r c Hrc. rewrite V3. rewrite (pos_seg_b j (j + k) r c lv) by (auto; lia).
    destruct (c =? j + k) eqn:Ec; cbn [andb].
    + replace c with (j + k) in * by lia. replace (j <? j + k) with true by lia. replace (j + k <? j + (k + 1)) with true by lia.
      cbn [andb]. rewrite V2 by auto. replace (j + k <? j + k) with false by lia.
      destruct (j <? r) eqn:Er1; cbn [andb]; [|now rewrite ?andb_false_r].
      destruct (r <? j + lv) eqn:Er2; cbn [andb]; [|now rewrite ?andb_false_r]. rewrite !andb_false_r. cbn [andb].
      assert (Irj : inb r j) by (unfold inb; lia).
      replace (pos j j + (pos r (j + k) - pos j (j + k))) with (pos r j) by (unfold pos; lia).
      rewrite !V2 by auto. replace (j <? j) with false by lia. cbn [andb]. rewrite !andb_false_r. cbn [andb].
      rewrite !V1, !(pos_seg_b j j) by (auto; lia).
      replace (j + k =? j) with false by lia. rewrite !Z.eqb_refl. rewrite Er1, Er2. cbn [andb]. reflexivity.
    + rewrite V2 by auto. replace (c <? j + (k + 1)) with (c <? j + k) by lia. reflexivity.
  - exists D'. split; [exact H|]. split; [exact H1|]. intros r c Hr Hc.
    assert (Hz : forall c', 0 <= c' < n -> j + lv <= r -> c' <= j -> dm D r c' = 0%R) by (intros; apply dm_out; lia).
    destruct (band_dec r c Hc) as [I|O].
    + rewrite (dm_in D' r c I), H2 by auto.
      assert (Hu0 : j < c -> Z.min u (n - j - 1) + 1 <= c - j -> dm D j c = 0%R) by (intros; apply dm_out; lia).
      rewrite V1, (pos_seg_b j j) by (auto; lia).
      destruct (j <? r) eqn:Er; cbn [andb].
      2:{ rewrite !andb_false_r. cbn [andb]. now rewrite (dm_in D r c I). }
      destruct (c =? j) eqn:Ec; cbn [andb].
      * replace c with j in * by lia. replace (j <? j) with false by lia. cbn [andb].
        destruct (r <? j + lv) eqn:Er2.
        -- now rewrite (dm_in D r j I), (dm_in D j j Ij).
        -- exfalso. unfold inb in I. lia.
      * destruct (j <? c) eqn:Ec2; cbn [andb]; [|now rewrite (dm_in D r c I)].
        destruct (c <? j + (Z.min u (n - j - 1) + 1)) eqn:Ec3; cbn [andb].
        -- destruct (r <? j + lv) eqn:Er2.
           ++ rewrite (dm_in D r c I), (dm_in D j j Ij), (dm_in D r j), (dm_in D j c) by (unfold inb in *; lia). reflexivity.
           ++ rewrite (Hz j) by lia. rewrite (dm_in D r c I). unfold Rdiv. ring.
        -- rewrite Hu0 by lia. rewrite (dm_in D r c I). ring.
    + rewrite !(dm_out _ r c O). destruct (j <? r) eqn:Er; auto. destruct (c =? j) eqn:Ec.
      * replace c with j in * by lia. rewrite (dm_out D r j) by lia. unfold Rdiv. ring.
      * destruct (j <? c) eqn:Ec2; auto.
        assert (r - c > l \/ c - r > u) as [Q|Q] by lia; [rewrite (dm_out D r j) by lia|rewrite (dm_out D j c) by lia]; unfold Rdiv; ring.
Qed.

Lemma chol_step D j : zlen D = len -> 0 <= j < n ->
  let lv := Z.min (l + 1) (n - j + 1) in
  exists D', (do D1 <- compute_symmetric_elementary lv D (u + j * nu);
              for_up 1 (Z.min u (n - j - 1) + 1) (fun k D => apply_symmetric_elementary lv D (u + j * nu) (u - k + (j + k) * nu)) D1) = Some D' /\
    zlen D' = len /\
    forall r c, 0 <= r < n -> 0 <= c < n -> dm D' r c =
      if j <? r then
        if c =? j then (dm D r j / dm D j j)%R
        else if j <? c then (dm D r c - dm D r j / dm D j j * dm D j c)%R else dm D r c
      else if r =? j then
        if c =? j then sqrt (dm D j j) else if j <? c then (dm D j c / sqrt (dm D j j))%R else dm D r c
      else dm D r c.
Proof.
  intros HD Hj lv.
  assert (Ij : inb j j) by (unfold inb; lia).
  replace (u + j * nu) with (pos j j) by (unfold pos, nu; lia).
  assert (Hlv : 1 <= lv) by lia. assert (Hlv2 : j + lv - 1 <= j + l) by lia.
  destruct (seg_fits j j lv Ij Hlv2) as (F1 & F2).
  destruct (compute_sym_val lv D (pos j j)) as (D1 & E1 & L1 & V1); auto; try lia.
  rewrite E1. cbn [obind].
  destruct (for_up_inv (fun k D' => zlen D' = len /\
     forall r c, inb r c -> g D' (pos r c) = if (j <? c) && (c <? j + k) && (j <=? r) && (r <? j + lv) then
        if r =? j then (g D (pos j c) / sqrt (g D (pos j j)))%R else
        (g D (pos r c) - g D (pos r j) / g D (pos j j) * g D (pos j c))%R else g D1 (pos r c)) 1 (Z.min u (n - j - 1) + 1)
     (fun k D => apply_symmetric_elementary lv D (pos j j) (u - k + (j + k) * nu)) D1) as (D' & H & H1 & H2).
  - lia.
  - split; [lia|]. intros r c _. replace ((j <? c) && (c <? j + 1)) with false by lia. reflexivity.
  - intros k D2 Hk (L2 & V2). replace (u - k + (j + k) * nu) with (pos j (j + k)) by (unfold pos, nu; lia).
    assert (Ik : inb j (j + k)) by (unfold inb; lia).
    destruct (seg_fits j (j + k) lv Ik ltac:(lia)) as (F3 & F4).
    pose proof (seg_disj j j j (j + k) lv Ij Ik ltac:(lia) Hlv2) as Hd.
    destruct (apply_sym_val lv D2 (pos j j) (pos j (j + k))) as (D3 & E3 & L3 & V3); auto; try lia.
    rewrite E3. eexists; split; [reflexivity|]. split; [lia|].
    intros r c Hrc. rewrite V3. rewrite (pos_seg_b j (j + k) r c lv) by (auto; lia).
    rewrite (pos_eq_b j (j + k) r c) by auto.
    destruct (c =? j + k) eqn:Ec; cbn [andb].
    + replace c with (j + k) in * by lia. replace (j <? j + k) with true by lia. replace (j + k <? j + (k + 1)) with true by lia.
      cbn [andb].
      assert (Vjk : g D2 (pos j (j + k)) = g D (pos j (j + k))).
      { rewrite V2 by auto. replace (j + k <? j + k) with false by lia. rewrite !andb_false_r. cbn [andb].
        rewrite !V1, !(pos_seg_b j j), (pos_eq_b j j) by (auto; lia). replace (j + k =? j) with false by lia. reflexivity. }
      assert (Vj : forall r, inb r j -> g D2 (pos r j) = g D1 (pos r j)).
      { intros r' I'. rewrite V2 by auto. replace (j <? j) with false by lia. reflexivity. }
      destruct (r =? j) eqn:Er0.
      * replace r with j in * by lia. rewrite Z.leb_refl. replace (j <? j + lv) with true by lia. cbn [andb].
        rewrite Vjk, Vj by auto. rewrite V1, Z.eqb_refl. reflexivity.
      * rewrite V2 by auto. replace (j + k <? j + k) with false by lia.
        replace (j <=? r) with (j <? r) by lia.
        destruct (j <? r) eqn:Er1; cbn [andb]; [|now rewrite ?andb_false_r].
        destruct (r <? j + lv) eqn:Er2; cbn [andb]; [|now rewrite ?andb_false_r]. rewrite !andb_false_r. cbn [andb].
        assert (Irj : inb r j) by (unfold inb; lia).
        replace (pos j j + (pos r (j + k) - pos j (j + k))) with (pos r j) by (unfold pos; lia).
        rewrite Vjk, Vj by auto. rewrite !V1, !(pos_seg_b j j), !(pos_eq_b j j) by (auto; lia).
        replace (j + k =? j) with false by lia. rewrite !Z.eqb_refl. rewrite Er0, Er1, Er2. cbn [andb]. reflexivity.
    + rewrite V2 by auto. replace (c <? j + (k + 1)) with (c <? j + k) by lia. reflexivity.
  - exists D'. split; [exact H|]. split; [exact H1|]. intros r c Hr Hc.
    assert (Hz : forall c', 0 <= c' < n -> j + lv <= r -> c' <= j -> dm D r c' = 0%R) by (intros; apply dm_out; lia).
    destruct (band_dec r c Hc) as [I|O].
    + rewrite (dm_in D' r c I), H2 by auto.
      assert (Hu0 : j < c -> Z.min u (n - j - 1) + 1 <= c - j -> dm D j c = 0%R) by (intros; apply dm_out; lia).
      rewrite V1, (pos_seg_b j j), (pos_eq_b j j) by (auto; lia).
      destruct (j <? r) eqn:Er; cbn [andb].
      2:{ destruct (r =? j) eqn:Er0.
          - replace r with j in * by lia. rewrite Z.leb_refl. replace (j <? j + lv) with true by lia. rewrite !andb_true_r.
            destruct (c =? j) eqn:Ec.
            + replace c with j by lia. replace (j <? j) with false by lia. cbn [andb]. now rewrite (dm_in D j j Ij).
            + destruct (j <? c) eqn:Ec2; cbn [andb]; [|now rewrite (dm_in D j c I)].
              replace (c <? j + (Z.min u (n - j - 1) + 1)) with true by (unfold inb in I; lia). cbn [andb].
              now rewrite (dm_in D j j Ij), (dm_in D j c I).
          - replace (j <=? r) with false by lia. rewrite !andb_false_r. cbn [andb]. now rewrite (dm_in D r c I). }
      replace (r =? j) with false by lia. replace (j <=? r) with true by lia. rewrite !andb_true_r, ?andb_false_r. 
      destruct (c =? j) eqn:Ec; cbn [andb].
      * replace c with j in * by lia. replace (j <? j) with false by lia. cbn [andb].
        destruct (r <? j + lv) eqn:Er2.
        -- now rewrite (dm_in D r j I), (dm_in D j j Ij).
        -- exfalso. unfold inb in I. lia.
      * destruct (j <? c) eqn:Ec2; cbn [andb]; [|now rewrite (dm_in D r c I)].
        destruct (c <? j + (Z.min u (n - j - 1) + 1)) eqn:Ec3; cbn [andb].
        -- destruct (r <? j + lv) eqn:Er2.
           ++ rewrite (dm_in D r c I), (dm_in D j j Ij), (dm_in D r j), (dm_in D j c) by (unfold inb in *; lia). reflexivity.
           ++ rewrite (Hz j) by lia. rewrite (dm_in D r c I). unfold Rdiv. ring.
        -- rewrite Hu0 by lia. rewrite (dm_in D r c I). ring.
    + rewrite !(dm_out _ r c O). destruct (j <? r) eqn:Er.
      * destruct (c =? j) eqn:Ec.
        -- replace c with j in * by lia. rewrite (dm_out D r j) by lia. unfold Rdiv. ring.
        -- destruct (j <? c) eqn:Ec2; auto.
           assert (r - c > l \/ c - r > u) as [Q|Q] by lia; [rewrite (dm_out D r j) by lia|rewrite (dm_out D j c) by lia]; unfold Rdiv; ring.
      * destruct (r =? j) eqn:Er0; auto. replace r with j in * by lia. destruct (c =? j) eqn:Ec.
        -- exfalso. lia.
        -- destruct (j <? c); auto. rewrite (dm_out D j c) by lia. unfold Rdiv. ring.
Qed.
End Band.
