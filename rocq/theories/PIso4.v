(** * Isometries of the sphere: one degree of the exchange of the y and z axes *)
From Coq Require Import ZArith List Lia Bool ZifyBool ZifyNat.
From Verif Require Import Base BaseFacts Arith MRecur MIso PIso2 PIso3.
Import ListNotations.
Open Scope Z_scope.

Section Degree.
Context {F : Type} {AF : Arith F}.
Implicit Types A B : list F.
Context (N h l : Z).
Hypothesis Hl : 1 <= l < N.
Hypothesis Hh : l <= h.
Let L := N * (2 * h + 1).
Definition ps m := pos N (l - m) (2 * m - 1).
Definition pc m := pos N (l - m) (2 * m).
Definition sa i := pos N (N - l + i) (2 * l - 1).
Definition sb i := pos N (N - l + i) (2 * l).

Ltac pinj := intros; unfold ps, pc, sa, sb; let X := fresh in intros X; apply pos_inj in X; [|lia|lia]; lia.
Ltac prng := intros; unfold ps, pc, sa, sb, L; apply pos_range; lia.
Lemma ps_rng m : 1 <= m <= l -> 0 <= ps m < L. Proof. prng. Qed.
Lemma pc_rng m : 0 <= m <= l -> 0 <= pc m < L. Proof. prng. Qed.
Lemma sa_rng i : 0 <= i < l -> 0 <= sa i < L. Proof. prng. Qed.
Lemma sb_rng i : 0 <= i < l -> 0 <= sb i < L. Proof. prng. Qed.
Lemma ps_ps m m' : 1 <= m <= l -> 1 <= m' <= l -> m <> m' -> ps m <> ps m'. Proof. pinj. Qed.
Lemma pc_pc m m' : 0 <= m <= l -> 0 <= m' <= l -> m <> m' -> pc m <> pc m'. Proof. pinj. Qed.
Lemma ps_pc m m' : 1 <= m <= l -> 0 <= m' <= l -> ps m <> pc m'. Proof. pinj. Qed.
Lemma ps_sa m i : 1 <= m <= l -> 0 <= i < l -> ps m <> sa i. Proof. pinj. Qed.
Lemma ps_sb m i : 1 <= m <= l -> 0 <= i < l -> ps m <> sb i. Proof. pinj. Qed.
Lemma pc_sa m i : 0 <= m <= l -> 0 <= i < l -> pc m <> sa i. Proof. pinj. Qed.
Lemma pc_sb m i : 0 <= m <= l -> 0 <= i < l -> pc m <> sb i. Proof. pinj. Qed.
Lemma sa_sb i j : 0 <= i < l -> 0 <= j < l -> sa i <> sb j. Proof. pinj. Qed.
Lemma sa_sa i j : i <> j -> sa i <> sa j. Proof. intros. unfold sa, pos. lia. Qed.
Lemma sb_sb i j : i <> j -> sb i <> sb j. Proof. intros. unfold sb, pos. lia. Qed.

(** one block: read at the positions [R], write the images of the vector at the scratch [O] *)
Lemma semv_pos huge E A R O x st y n : wf E -> se_n E = n -> zlen A = L ->
  (forall k, x + k * st = R k) -> (forall k, y + k = O k) -> 0 < st -> n <= l ->
  (forall k, 0 <= k < n -> 0 <= R k < L) -> (forall k, 0 <= k < n -> 0 <= O k < L) ->
  (forall k i, 0 <= k < n -> 0 <= i < n -> R k <> O i) -> 0 <= x -> 0 <= y -> 
  exists A', semv huge E A x st y = Some A' /\ zlen A' = L /\
    (forall i, 0 <= i < n -> nthZ zero A' (O i) = ev huge E (ztab n (fun k => nthZ zero A (R k))) i) /\
    (forall r, (forall i, 0 <= i < n -> r <> O i) -> nthZ zero A' r = nthZ zero A r).
Proof.
  intros W En LA ER EO Hst Hn RR RO D Hx Hy.
  destruct (Z_le_dec n 0) as [Z0|Z0].
  { exists A. unfold semv. replace (se_n E <? 1) with true by lia. repeat split; auto. intros; lia. }
  destruct (semv_spec huge E A x st y W Hx Hy) as (A' & E1 & L1 & H1).
  - rewrite En, LA. specialize (RO (n - 1)). rewrite <- EO in RO. lia.
  - lia.
  - intros k Hk. rewrite ER, LA. split; [apply RR; lia|]. rewrite En in *. destruct (Z_lt_dec (R k) y); auto. destruct (Z_le_dec (y + n) (R k)); auto. exfalso. apply (D k (R k - y)); try lia. rewrite <- EO. lia.
  - exists A'. rewrite En in *. split; auto. split; [lia|]. split.
    + intros i Hi. rewrite H1, <- EO. replace ((y <=? y + i) && (y + i <? y + n)) with true by lia. f_equal; [|lia]. unfold gather, ztab. apply map_ext. intros. now rewrite ER.
    + intros r Hr. rewrite H1. destruct ((y <=? r) && (r <? y + n)) eqn:B; auto. exfalso. apply (Hr (r - y)); [lia|]. rewrite <- EO. lia.
Qed.

Ltac ne := first
  [ apply ps_ps; lia | apply pc_pc; lia | apply ps_pc; lia | apply ps_sa; lia | apply ps_sb; lia | apply pc_sa; lia | apply pc_sb; lia | apply sa_sb; lia
  | apply sa_sa; lia | apply sb_sb; lia
  | apply not_eq_sym; first [apply ps_pc; lia | apply ps_sa; lia | apply ps_sb; lia | apply pc_sa; lia | apply pc_sb; lia | apply sa_sb; lia] ].
Ltac rg := first [apply ps_rng; lia | apply pc_rng; lia | apply sa_rng; lia | apply sb_rng; lia].

Lemma exchange_degree_spec huge (J : list (partial_iso F)) (P : partial_iso F) A : zlen A = L ->
  zget J (l - 2) = Some P -> wf (f11 P) -> wf (f21 P) -> wf (f12 P) -> wf (f22 P) ->
  se_n (f11 P) = l / 2 -> se_n (f21 P) = (l + 1) / 2 -> se_n (f12 P) = (l + 1) / 2 -> se_n (f22 P) = (l + 2) / 2 ->
  let e := l mod 2 in
  exists A', exchange_degree huge J N l A = Some A' /\ zlen A' = L /\
    (forall i, 0 <= i < l / 2 -> nthZ zero A' (ps (1 + e + 2 * i)) = ev huge (f11 P) (ztab (l / 2) (fun k => nthZ zero A (ps (1 + e + 2 * k)))) i) /\
    (forall i, 0 <= i < (l + 2) / 2 -> nthZ zero A' (pc (e + 2 * i)) = ev huge (f22 P) (ztab ((l + 2) / 2) (fun k => nthZ zero A (pc (e + 2 * k)))) i) /\
    (forall i, 0 <= i < (l + 1) / 2 -> nthZ zero A' (ps (2 - e + 2 * i)) = ev huge (f12 P) (ztab ((l + 1) / 2) (fun k => nthZ zero A (pc (1 - e + 2 * k)))) i) /\
    (forall i, 0 <= i < (l + 1) / 2 -> nthZ zero A' (pc (1 - e + 2 * i)) = ev huge (f21 P) (ztab ((l + 1) / 2) (fun k => nthZ zero A (ps (2 - e + 2 * k)))) i) /\
    (forall r, (forall m, 1 <= m <= l -> r <> ps m) -> (forall m, 0 <= m <= l -> r <> pc m) -> 
       nthZ zero A' r = nthZ zero A r \/ (nthZ zero A' r = zero /\ exists i, 0 <= i < l /\ (r = sa i \/ r = sb i))).
Proof.
  intros LA HJ W11 W21 W12 W22 N11 N21 N12 N22 e. unfold exchange_degree. rewrite HJ. cbn [obind].
  set (st := 4 * N - 2). set (oa := N * (2 * l - 1) + N - l). set (ob := N * (2 * l) + N - l).
  fold e. rewrite N11, N22, N21. set (a := l / 2) in *. replace ((l + 1) / 2) with (a + e) in * by (unfold a, e; lia). replace ((l + 2) / 2) with (a + 1) in * by (unfold a, e; lia).
  assert (Ee : 0 <= e <= 1) by (unfold e; lia). assert (El : l = 2 * a + e) by (unfold a, e; lia). clearbody a e.
  assert (Hst : 0 < st) by (unfold st; lia).
  assert (Q11 : forall k, l + N - 1 + e * (2 * N - 1) + k * st = ps (1 + e + 2 * k)) by (intros; unfold ps, pos, st; ring).
  assert (Q22 : forall k, l + e * (2 * N - 1) + k * st = pc (e + 2 * k)) by (intros; unfold pc, pos, st; ring).
  assert (Q21 : forall k, l - 1 + N + (1 - e) * (2 * N - 1) + k * st = ps (2 - e + 2 * k)) by (intros; unfold ps, pos, st; ring).
  assert (Q12 : forall k, l + (1 - e) * (2 * N - 1) + k * st = pc (1 - e + 2 * k)) by (intros; unfold pc, pos, st; ring).
  assert (Qa : forall k, oa + k = sa k) by (intros; unfold sa, pos, oa; ring).
  assert (Qb : forall k, ob + k = sb k) by (intros; unfold sb, pos, ob; ring).
  assert (Poa : 0 <= oa) by (unfold oa; apply Z.le_trans with (N * (2 * l - 1)); [apply Z.mul_nonneg_nonneg; lia|lia]).
  assert (Pob : 0 <= ob) by (unfold ob; apply Z.le_trans with (N * (2 * l)); [apply Z.mul_nonneg_nonneg; lia|lia]).
  assert (P11 : 0 <= l + N - 1 + e * (2 * N - 1)) by (apply Z.add_nonneg_nonneg; [lia|apply Z.mul_nonneg_nonneg; lia]).
  assert (P22 : 0 <= l + e * (2 * N - 1)) by (apply Z.add_nonneg_nonneg; [lia|apply Z.mul_nonneg_nonneg; lia]).
  assert (P21 : 0 <= l - 1 + N + (1 - e) * (2 * N - 1)) by (apply Z.add_nonneg_nonneg; [lia|apply Z.mul_nonneg_nonneg; lia]).
  assert (P12 : 0 <= l + (1 - e) * (2 * N - 1)) by (apply Z.add_nonneg_nonneg; [lia|apply Z.mul_nonneg_nonneg; lia]).
  destruct (semv_pos huge (f11 P) A (fun k => ps (1 + e + 2 * k)) sa _ st oa a W11 N11 LA Q11 Qa Hst) as (A1 & E1 & L1 & V1 & K1); try lia; try (intros; rg); try (intros; ne).
  fold st. rewrite E1. cbn [obind]. clear E1.
  destruct (semv_pos huge (f22 P) A1 (fun k => pc (e + 2 * k)) sb _ st ob (a + 1) W22 N22 L1 Q22 Qb Hst) as (A2 & E2 & L2 & V2 & K2); try lia; try (intros; rg); try (intros; ne).
  rewrite E2. cbn [obind]. clear E2.
  unfold copy_back.
  assert (Cb : forall n o p (Y : list F), for_up 0 n (fun i A => do x <- zget A (i + o); do A <- zset A (i * st + p) x; zset A (i + o) zero) Y =
     for_up 0 n (fun i A => do x <- zget A (o + i); do A <- zset A (p + i * st) x; zset A (o + i) zero) Y).
  { intros. apply for_up_ext. intros i s Hi. rewrite (Z.add_comm o i), (Z.add_comm p). reflexivity. }
  rewrite Cb. 
  replace (for_up 0 a (fun i A => do x <- zget A (oa + i); do A <- zset A (l + N - 1 + e * (2 * N - 1) + i * st) x; zset A (oa + i) zero) A2)
    with (for_up 0 a (fun i A => do x <- zget A (sa i); do A <- zset A (ps (1 + e + 2 * i)) x; zset A (sa i) zero) A2)
    by (apply for_up_ext; intros; rewrite Q11, Qa; reflexivity).
  destruct (copy_back_spec a L (fun i => ps (1 + e + 2 * i)) sa ltac:(lia) ltac:(intros; rg) ltac:(intros; rg) ltac:(intros; ne) ltac:(intros; ne) ltac:(intros; ne) A2 L2) as (A3 & E3 & L3 & V3 & Z3 & K3).
  rewrite E3. cbn [obind]. clear E3. rewrite L2 in L3.
  rewrite Cb.
  replace (for_up 0 (a + 1) (fun i A => do x <- zget A (ob + i); do A <- zset A (l + e * (2 * N - 1) + i * st) x; zset A (ob + i) zero) A3)
    with (for_up 0 (a + 1) (fun i A => do x <- zget A (sb i); do A <- zset A (pc (e + 2 * i)) x; zset A (sb i) zero) A3)
    by (apply for_up_ext; intros; rewrite Q22, Qb; reflexivity).
  destruct (copy_back_spec (a + 1) L (fun i => pc (e + 2 * i)) sb ltac:(lia) ltac:(intros; rg) ltac:(intros; rg) ltac:(intros; ne) ltac:(intros; ne) ltac:(intros; ne) A3 L3) as (A4 & E4 & L4 & V4 & Z4 & K4).
  rewrite E4. cbn [obind]. clear E4 Cb. rewrite L3 in L4.
  destruct (semv_pos huge (f21 P) A4 (fun k => ps (2 - e + 2 * k)) sa _ st oa (a + e) W21 N21 L4 Q21 Qa Hst) as (A5 & E5 & L5 & V5 & K5); try lia; try (intros; rg); try (intros; ne).
  rewrite E5. cbn [obind]. clear E5.
  destruct (semv_pos huge (f12 P) A5 (fun k => pc (1 - e + 2 * k)) sb _ st ob (a + e) W12 N12 L5 Q12 Qb Hst) as (A6 & E6 & L6 & V6 & K6); try lia; try (intros; rg); try (intros; ne).
  rewrite E6. cbn [obind]. clear E6.
  match goal with |- context [for_up 0 (a + e) ?f A6] => replace (for_up 0 (a + e) f A6) with
    (for_up 0 (a + e) (fun i A =>
      do x <- zget A (sb i); do A <- zset A (ps (2 - e + 2 * i)) x; do A <- zset A (sb i) zero;
      do y <- zget A (sa i); do A <- zset A (pc (1 - e + 2 * i)) y; zset A (sa i) zero) A6)
    by (apply for_up_ext; intros; rewrite (Z.add_comm _ oa), (Z.add_comm _ ob), (Z.add_comm (_ * st)), (Z.add_comm (_ * st) (l + _)), Q21, Q12, Qa, Qb; reflexivity) end.
  destruct (cross_back_spec (a + e) L (fun i => ps (2 - e + 2 * i)) (fun i => pc (1 - e + 2 * i)) sa sb ltac:(lia) ltac:(intros; rg) ltac:(intros; rg) ltac:(intros; rg) ltac:(intros; rg)
     ltac:(intros; ne) ltac:(intros; ne) ltac:(intros; ne) ltac:(intros; ne) ltac:(intros; ne) ltac:(intros; ne) ltac:(intros; ne) ltac:(intros; ne) ltac:(intros; ne) ltac:(intros; ne) A6 L6)
    as (A7 & E7 & L7 & V7 & U7 & Z7a & Z7b & K7).
  rewrite E7. clear E7. exists A7. split; auto. rewrite L6 in L7. split; [exact L7|].
  cbv beta in *.
  clear - L Hl Hh Ee El V1 K1 V2 K2 V3 Z3 K3 V4 Z4 K4 V5 K5 V6 K6 V7 U7 Z7a Z7b K7.
  split; [|split; [|split; [|split]]].
  - intros i Hi. rewrite K7 by (intros; split; [ne|split; [ne|split; ne]]). rewrite K6 by (intros; ne). rewrite K5 by (intros; ne). rewrite K4 by (intros; split; ne). rewrite V3 by lia. rewrite K2 by (intros; ne). apply V1; lia.
  - intros i Hi. rewrite K7 by (intros; split; [ne|split; [ne|split; ne]]). rewrite K6 by (intros; ne). rewrite K5 by (intros; ne). rewrite V4 by lia. rewrite K3 by (intros; split; ne). rewrite V2 by lia. f_equal.
    apply map_ext_in. intros k Hk. apply in_seq in Hk. apply K1. intros; ne.
  - intros i Hi. rewrite V7 by lia. rewrite V6 by lia. f_equal.
    apply map_ext_in. intros k Hk. apply in_seq in Hk. 
    rewrite K5 by (intros; ne). rewrite K4 by (intros; split; ne). rewrite K3 by (intros; split; ne). rewrite K2 by (intros; ne). apply K1. intros; ne.
  - intros i Hi. rewrite U7 by lia. rewrite K6 by (intros; ne). rewrite V5 by lia. f_equal.
    apply map_ext_in. intros k Hk. apply in_seq in Hk. 
    rewrite K4 by (intros; split; ne). rewrite K3 by (intros; split; ne). rewrite K2 by (intros; ne). apply K1. intros; ne.
  - intros r Rs Rc.
    destruct (Z_lt_dec 0 1) as [_|]; [|lia].
    assert (D : (forall i, 0 <= i < l -> r <> sa i /\ r <> sb i) \/ exists i, 0 <= i < l /\ (r = sa i \/ r = sb i)).
    { destruct (Z_le_dec (sa 0) r), (Z_lt_dec r (sa 0 + l)).
      - right. exists (r - sa 0). split; [lia|]. left. unfold sa, pos. lia.
      - destruct (Z_le_dec (sb 0) r), (Z_lt_dec r (sb 0 + l)).
        + right. exists (r - sb 0). split; [lia|]. right. unfold sb, pos. lia.
        + left. intros i Hi. unfold sa, sb, pos in *. lia.
        + left. intros i Hi. unfold sa, sb, pos in *. lia.
        + left. intros i Hi. unfold sa, sb, pos in *. lia.
      - destruct (Z_le_dec (sb 0) r), (Z_lt_dec r (sb 0 + l)).
        + right. exists (r - sb 0). split; [lia|]. right. unfold sb, pos. lia.
        + left. intros i Hi. unfold sa, sb, pos in *. lia.
        + left. intros i Hi. unfold sa, sb, pos in *. lia.
        + left. intros i Hi. unfold sa, sb, pos in *. lia.
      - left. intros i Hi. unfold sa, sb, pos in *. lia. }
    destruct D as [D|(i & Hi & D)].
    + left. rewrite K7 by (intros; split; [apply Rs; lia|split; [apply Rc; lia|apply D; lia]]). rewrite K6 by (intros; apply D; lia). rewrite K5 by (intros; apply D; lia).
      rewrite K4 by (intros; split; [apply Rc; lia|apply D; lia]). rewrite K3 by (intros; split; [apply Rs; lia|apply D; lia]). rewrite K2 by (intros; apply D; lia). apply K1. intros; apply D; lia.
    + destruct D as [-> | ->].
      * destruct (Z_lt_dec i (a + e)). { right. split; [apply Z7a; lia|]. exists i. auto. }
        left. rewrite K7 by (intros; split; [ne|split; [ne|split; ne]]). rewrite K6 by (intros; ne). rewrite K5 by (intros; ne).
        rewrite K4 by (intros; split; ne). rewrite K3 by (intros; split; ne). rewrite K2 by (intros; ne). apply K1. intros; ne.
      * destruct (Z_lt_dec i (a + e)). { right. split; [apply Z7b; lia|]. exists i. auto. }
        destruct (Z_lt_dec i (a + 1)). { right. split; [|exists i; auto]. rewrite K7 by (intros; split; [ne|split; [ne|split; ne]]). rewrite K6 by (intros; ne). rewrite K5 by (intros; ne). apply Z4. lia. }
        left. rewrite K7 by (intros; split; [ne|split; [ne|split; ne]]). rewrite K6 by (intros; ne). rewrite K5 by (intros; ne).
        rewrite K4 by (intros; split; ne). rewrite K3 by (intros; split; ne). rewrite K2 by (intros; ne). apply K1. intros; ne.
Qed.
End Degree.
