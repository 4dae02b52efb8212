(** * The kernels realise their rotations, lane by lane *)
From Coq Require Import ZArith List Lia Bool ZifyBool ZifyNat.
From Verif Require Import Base BaseFacts Arith MPermute PPermute MRotations PRot PRotBlock.
Import ListNotations.
Open Scope Z_scope.

Lemma for_dn_st1 {St} hi lo body (s : St) : for_dn hi lo body s = for_dnst hi lo 1 body s.
Proof.
  unfold for_dn, for_dnst. rewrite Z.div_1_r. apply itero_ext. intros. f_equal. lia.
Qed.
Lemma for_up_st1 {St} lo hi body (s : St) : for_up lo hi body s = for_upst lo hi 1 body s.
Proof.
  unfold for_up, for_upst. rewrite Z.div_1_r. replace (hi - lo + 1 - 1) with (hi - lo) by lia.
  apply itero_ext. intros. f_equal. lia.
Qed.

Section OpsLemmas.
Context {F : Type}.
Lemma only_nil ln i : @only F ln [] i = [].
Proof. unfold only. now destruct (i =? ln). Qed.
Lemma only_cat ln n (f : nat -> list (op F)) i : cat n (fun k => only ln (f k) i) = only ln (cat n f) i.
Proof.
  unfold only. destruct (i =? ln); auto. induction n; cbn; auto. now rewrite IHn.
Qed.
Lemma map_shift_ups b lo hi f : map (shift b) (ups lo hi f) = @ups F lo hi (fun k => map (shift b) (f k)).
Proof. unfold ups. induction (Z.to_nat (hi - lo)); cbn; auto. now rewrite map_app, IHn. Qed.
End OpsLemmas.

Section K.
Context {F : Type} `{Arith F}.
Variable rot : F -> F -> F -> F -> F * F.
Variable RP : rotplan F.
Variables (oA S : Z) (VS : nat).
Let W := Z.of_nat VS.
Variable n : Z.   (* number of rows *)
Hypothesis HW : 0 <= W <= S.
Variables (d st : Z) (top : Z -> Z) (ix : Z -> Z -> Z).
Hypothesis Hd : 0 < d.
Hypothesis Hst : 0 < st.
Hypothesis Hstep : forall j a, 0 <= a -> 0 <= j - st * a -> top (j - st * a) = top j + d * a.
Hypothesis Htop : forall j, 0 <= j -> top j + d < n.
(** table entries *)
Definition sc (ix : Z -> Z -> Z) (row col : Z) : F * F :=
  (nthZ zero (rp_s RP) (ix row col), nthZ zero (rp_c RP) (ix row col)).
Hypothesis HT : forall row col, 0 <= col -> 0 <= row <= top col ->
  tab RP (ix row col) = Some (sc ix row col).
Definition fnRC (ix : Z -> Z -> Z) (row col : Z) := rot (fst (sc ix row col)) (snd (sc ix row col)).
Notation oRC := (opRC d (fnRC ix)).
Notation OD := (opsD d st top (fnRC ix)).
Notation OU := (opsU d st top (fnRC ix)).
Notation mreal A0 := (real (minv oA S n W A0) (mview oA S n) W).

Lemma real_scal A0 row col ln : 0 <= col -> 0 <= row <= top col -> 0 <= ln < W ->
  mreal A0 (fun A => do sc <- tab RP (ix row col);
              apply_rot rot (fst sc) (snd sc) A (oA + ln + row * S) (oA + ln + (row + d) * S))
    (only ln [oRC row col]).
Proof.
  intros Hc Hr Hl. rewrite HT by auto. cbn [obind]. unfold opRC, fnRC.
  pose proof (Htop col Hc). apply real_apply_rot; auto; lia.
Qed.
Lemma real_vec A0 row col : 0 <= col -> 0 <= row <= top col ->
  mreal A0 (fun A => do sc <- tab RP (ix row col);
              vapply_rot rot VS (fst sc) (snd sc) A (oA + row * S) (oA + (row + d) * S))
    (fun _ => [oRC row col]).
Proof.
  intros Hc Hr. rewrite HT by auto. cbn [obind]. unfold opRC, fnRC.
  pose proof (Htop col Hc). apply real_vapply_rot; auto; lia.
Qed.

(** plain kernels on one lane *)
Lemma real_defD A0 m1 m2 ln : 0 <= m1 -> 0 <= ln < W ->
  mreal A0 (for_dnst (m2 - st) m1 st (fun j => for_dn (top j) 0 (fun k A =>
      do sc <- tab RP (ix k j);
      apply_rot rot (fst sc) (snd sc) A (oA + ln + k * S) (oA + ln + (k + d) * S))))
    (only ln (OD m1 m2)).
Proof.
  intros Hm Hl. eapply real_equiv.
  - apply real_dnst; [exact Hst|]. intros c j Hc Hj Hj'. apply real_dn. intros k Hk.
    apply real_scal; auto; lia.
  - intros i Hi. apply equiv_eq. unfold opsD, dnsst, colD, dns.
    rewrite <- only_cat. apply cat_ext. intros c Hc. rewrite <- only_cat. reflexivity.
Qed.
Lemma real_defU A0 m1 m2 ln : 0 <= m1 -> 0 <= ln < W ->
  mreal A0 (for_upst m1 m2 st (fun j => for_up 0 (top j + 1) (fun k A =>
      do sc <- tab RP (ix k j);
      apply_rot rot (fst sc) (snd sc) A (oA + ln + k * S) (oA + ln + (k + d) * S))))
    (only ln (OU m1 m2)).
Proof.
  intros Hm Hl. eapply real_equiv.
  - apply real_upst; [exact Hst|]. intros c j Hc Hj Hj'. apply real_up. intros k Hk.
    apply real_scal; auto; lia.
  - intros i Hi. apply equiv_eq. unfold opsU, upsst, colU, ups.
    rewrite <- only_cat. apply cat_ext. intros c Hc. rewrite <- only_cat. reflexivity.
Qed.
(** plain order, all lanes at once *)
Lemma real_vecD A0 m1 hi : 0 <= m1 ->
  mreal A0 (for_dnst hi m1 st (fun j => for_dn (top j) 0 (fun k A =>
      do sc <- tab RP (ix k j);
      vapply_rot rot VS (fst sc) (snd sc) A (oA + k * S) (oA + (k + d) * S))))
    (fun _ => dnsst hi m1 st (colD d top (fnRC ix))).
Proof.
  intros Hm. apply (real_dnst _ _ _ hi m1 st _ (fun j _ => colD d top (fnRC ix) j)); [exact Hst|].
  intros c j Hc Hj Hj'. unfold colD. apply (real_dn _ _ _ _ _ _ (fun k _ => [oRC k j])).
  intros k Hk. apply real_vec; auto; lia.
Qed.
Lemma real_vecU A0 lo m2 : 0 <= lo ->
  mreal A0 (for_upst lo m2 st (fun j => for_up 0 (top j + 1) (fun k A =>
      do sc <- tab RP (ix k j);
      vapply_rot rot VS (fst sc) (snd sc) A (oA + k * S) (oA + (k + d) * S))))
    (fun _ => upsst lo m2 st (colU d top (fnRC ix))).
Proof.
  intros Hm. apply (real_upst _ _ _ lo m2 st _ (fun j _ => colU d top (fnRC ix) j)); [exact Hst|].
  intros c j Hc Hj Hj'. unfold colU. apply (real_up _ _ _ _ _ _ (fun k _ => [oRC k j])).
  intros k Hk. apply real_vec; auto; lia.
Qed.

(** a register block *)
Lemma real_regs A0 (L K b : Z) (row ra rb : Z -> Z -> Z) (col : Z -> Z) :
  0 < L -> 0 <= b -> b + K <= n -> 0 <= K ->
  (forall lj lk, 0 <= lj < L -> 0 <= lk < L ->
     0 <= col lj /\ 0 <= row lj lk <= top (col lj) /\
     ra lj lk = row lj lk - b /\ rb lj lk = ra lj lk + d /\ 0 <= ra lj lk /\ rb lj lk < K) ->
  mreal A0 (fun A =>
      do X <- load_block VS K A oA S b;
      do X <- for_up 0 L (fun lj X =>
        for_up 0 L (fun lk X =>
          do sc <- tab RP (ix (row lj lk) (col lj));
          reg_rot rot (fst sc) (snd sc) X (ra lj lk) (rb lj lk)) X) X;
      store_block K X A oA S b)
    (fun _ => ups 0 L (fun lj => ups 0 L (fun lk => [oRC (row lj lk) (col lj)]))).
Proof.
  intros HL Hb HbK HK Hok. eapply real_equiv.
  - apply (real_block oA S n W HW VS eq_refl K HK A0 b
      (fun X => for_up 0 L (fun lj X =>
        for_up 0 L (fun lk X =>
          do sc <- tab RP (ix (row lj lk) (col lj));
          reg_rot rot (fst sc) (snd sc) X (ra lj lk) (rb lj lk)) X) X)
      (fun _ => ups 0 L (fun lj => ups 0 L (fun lk =>
         [mkop (ra lj lk) (rb lj lk) (fnRC ix (row lj lk) (col lj))])))); auto.
    + apply (real_up _ _ _ 0 L _ (fun lj _ => ups 0 L (fun lk =>
         [mkop (ra lj lk) (rb lj lk) (fnRC ix (row lj lk) (col lj))]))). intros lj Hlj.
      apply (real_up _ _ _ 0 L _ (fun lk _ =>
         [mkop (ra lj lk) (rb lj lk) (fnRC ix (row lj lk) (col lj))])). intros lk Hlk.
      destruct (Hok lj lk Hlj Hlk) as (A1 & A2 & A3 & A4 & A5 & A6).
      rewrite HT by auto. cbn [obind]. unfold fnRC. apply real_reg_rot; auto; lia.
    + intros i Hi o Ho. apply In_ups in Ho as (lj & Hlj & Ho). apply In_ups in Ho as (lk & Hlk & [<-|[]]).
      cbn. destruct (Hok lj lk Hlj Hlk) as (A1 & A2 & A3 & A4 & A5 & A6). lia.
  - intros i Hi. apply equiv_eq. cbn beta. rewrite map_shift_ups. apply ups_ext. intros lj Hlj.
    rewrite map_shift_ups. apply ups_ext. intros lk Hlk. cbn.
    destruct (Hok lj lk Hlj Hlk) as (A1 & A2 & A3 & A4 & A5 & A6).
    unfold shift, opRC; cbn. do 2 f_equal; lia.
Qed.

(** the blocked loop, downward *)
Lemma real_blkD A0 (L K lb stL m1 hi : Z) (row : Z -> Z -> Z -> Z) (ra rb tl : Z -> Z -> Z) (col : Z -> Z -> Z) :
  0 < L -> 0 <= m1 -> m1 + st * (L - 1) <= lb -> stL = st * L -> K = (d + 1) * L ->
  (forall k lj lk, row k lj lk = k - lk + d * lj) ->
  (forall lj lk, ra lj lk = L - 1 - lk + d * lj) ->
  (forall lj lk, rb lj lk = ra lj lk + d) ->
  (forall j lj, col j lj = j - st * lj) ->
  (forall k lj, tl k lj = k + d * lj) ->
  mreal A0 (for_dnst hi lb stL (fun j A =>
    do A <- for_dnst (top j) (L - 1) L (fun k A =>
      do X <- load_block VS K A oA S (k + 1 - L);
      do X <- for_up 0 L (fun lj X =>
        for_up 0 L (fun lk X =>
          do sc <- tab RP (ix (row k lj lk) (col j lj));
          reg_rot rot (fst sc) (snd sc) X (ra lj lk) (rb lj lk)) X) X;
      store_block K X A oA S (k + 1 - L)) A;
    for_up 0 L (fun lj A =>
      for_dn (tl (end_dnst (top j) (L - 1) L) lj) 0 (fun lk A =>
        do sc <- tab RP (ix lk (col j lj));
        vapply_rot rot VS (fst sc) (snd sc) A (oA + lk * S) (oA + (lk + d) * S)) A) A))
   (fun _ => dnsst hi lb (st * L) (blkD d st top (fnRC ix) L)).
Proof.
  intros HL Hm1 Hlb -> -> Hrow Hra Hrb Hcol Htl.
  assert (HsL : 0 < st * L) by (apply Z.mul_pos_pos; lia).
  apply (real_dnst _ _ _ _ _ _ _ (fun j _ => blkD d st top (fnRC ix) L j)); [lia|].
  intros c j Hc Hj Hj'. unfold blkD.
  assert (Hcolb : forall lj, 0 <= lj < L -> 0 <= j - st * lj /\ top (j - st * lj) = top j + d * lj).
  { intros lj Hlj. assert (st * lj <= st * (L - 1)) by (apply Z.mul_le_mono_nonneg_l; lia).
    split; [lia|]. apply Hstep; lia. }
  apply (real_seq _ _ _ _ _ (fun _ => _) (fun _ => _)).
  - apply (real_dnst _ _ _ _ _ _ _ (fun k _ => ups 0 L (fun lj => ups 0 L (fun lk => [oRC (k - lk + d * lj) (j - st * lj)])))); [lia|].
    intros c2 k Hc2 Hk Hk'. eapply real_equiv.
    + apply (real_regs A0 L ((d + 1) * L) (k + 1 - L) (row k) ra rb (col j)); [lia|lia| |nia|].
      { destruct (Hcolb (L - 1) ltac:(lia)) as [B1 B2]. pose proof (Htop _ B1) as B3. rewrite B2 in B3. lia. }
      intros lj lk Hlj Hlk. rewrite Hrow, Hrb, Hra, Hcol. destruct (Hcolb lj Hlj) as [B1 ->].
      assert (0 <= d * lj) by (apply Z.mul_nonneg_nonneg; lia).
      assert (d * lj <= d * (L - 1)) by (apply Z.mul_le_mono_nonneg_l; lia). repeat split; try lia.
    + intros i Hi. apply equiv_eq. apply ups_ext. intros lj Hlj. apply ups_ext. intros lk Hlk.
      now rewrite Hrow, Hcol.
  - apply (real_up _ _ _ _ _ _ (fun lj _ => dns (end_dnst (top j) (L - 1) L + d * lj) 0 (fun lk => [oRC lk (j - st * lj)]))).
    intros lj Hlj. rewrite Htl.
    apply (real_dn _ _ _ _ _ _ (fun lk _ => [oRC lk (j - st * lj)])). intros lk Hlk. rewrite Hcol.
    destruct (Hcolb lj Hlj) as [B1 B2]. apply real_vec; auto. rewrite B2.
    assert (end_dnst (top j) (L - 1) L <= top j); [|lia]. unfold end_dnst. 
    assert (0 <= Z.max 0 ((top j - (L - 1) + L) / L) * L) by (apply Z.mul_nonneg_nonneg; lia). lia.
Qed.

(** the blocked loop, upward *)
Lemma real_blkU A0 (L K ub stL m1 : Z) (k0 base ke : Z -> Z) (row : Z -> Z -> Z -> Z) (ra rb tl : Z -> Z -> Z) (col : Z -> Z -> Z) :
  0 < L -> 0 <= m1 -> stL = st * L -> K = (d + 1) * L ->
  (forall c j, 0 <= c -> j = m1 + c * (st * L) -> m1 <= j < ub -> d * L <= top j + 1) ->
  (forall j, ke j = top j + 1 - L) ->
  (forall j, k0 j = d * L + Z.rem (ke j) L) ->
  (forall k, base k = k - d * (L - 1)) ->
  (forall k lj lk, row k lj lk = k + lk - d * lj) ->
  (forall lj lk, ra lj lk = d * (L - 1) + lk - d * lj) ->
  (forall lj lk, rb lj lk = ra lj lk + d) ->
  (forall j lj, col j lj = j + st * lj) ->
  (forall k lj, tl k lj = k - d * lj) ->
  mreal A0 (for_upst m1 ub stL (fun j A =>
    do A <- for_up 0 L (fun lj A =>
      for_up 0 (tl (k0 j) lj) (fun lk A =>
        do sc <- tab RP (ix lk (col j lj));
        vapply_rot rot VS (fst sc) (snd sc) A (oA + lk * S) (oA + (lk + d) * S)) A) A;
    for_upst (k0 j) (ke j + 1) L (fun k A =>
      do X <- load_block VS K A oA S (base k);
      do X <- for_up 0 L (fun lj X =>
        for_up 0 L (fun lk X =>
          do sc <- tab RP (ix (row k lj lk) (col j lj));
          reg_rot rot (fst sc) (snd sc) X (ra lj lk) (rb lj lk)) X) X;
      store_block K X A oA S (base k)) A))
   (fun _ => upsst m1 ub (st * L) (blkU d st top (fnRC ix) L)).
Proof.
  intros HL Hm1 -> -> HTj Hke Hk0 Hbase Hrow Hra Hrb Hcol Htl.
  assert (HsL : 0 < st * L) by (apply Z.mul_pos_pos; lia).
  apply (real_upst _ _ _ _ _ _ _ (fun j _ => blkU d st top (fnRC ix) L j)); [lia|].
  intros c j Hc Hj Hj'. specialize (HTj c j Hc Hj Hj'). unfold blkU.
  assert (Hcolb : forall lj, 0 <= lj < L -> 0 <= j + st * lj /\ top (j + st * lj) = top j - d * lj /\
     0 <= d * lj <= d * (L - 1)).
  { intros lj Hlj. assert (0 <= st * lj) by (apply Z.mul_nonneg_nonneg; lia).
    split; [lia|]. split.
    { pose proof (Hstep (j + st * lj) lj ltac:(lia) ltac:(lia)) as E.
      replace (j + st * lj - st * lj) with j in E by lia. lia. }
    split; [apply Z.mul_nonneg_nonneg; lia|apply Z.mul_le_mono_nonneg_l; lia]. }
  rewrite Hk0, Hke.
  assert (HdL : L <= d * L) by nia.
  assert (Hrem : 0 <= Z.rem (top j + 1 - L) L < L) by (apply Z.rem_bound_pos; lia).
  assert (Hq : d * L + Z.rem (top j + 1 - L) L <= top j + 1).
  { pose proof (Z.quot_rem (top j + 1 - L) L ltac:(lia)) as E. set (q := Z.quot _ _) in *.
    assert (d - 1 <= q) by nia. nia. }
  set (r := Z.rem (top j + 1 - L) L) in *. clearbody r.
  apply (real_seq _ _ _ _ _ (fun _ => _) (fun _ => _)).
  - apply (real_up _ _ _ _ _ _ (fun lj _ => ups 0 (d * L + r - d * lj) (fun lk => [oRC lk (j + st * lj)]))).
    intros lj Hlj. rewrite Htl.
    apply (real_up _ _ _ _ _ _ (fun lk _ => [oRC lk (j + st * lj)])). intros lk Hlk. rewrite Hcol.
    destruct (Hcolb lj Hlj) as (B1 & B2 & B3). apply real_vec; auto. rewrite B2. lia.
  - apply (real_upst _ _ _ _ _ _ _ (fun k _ => ups 0 L (fun lj => ups 0 L (fun lk => [oRC (k + lk - d * lj) (j + st * lj)])))); [lia|].
    intros c2 k Hc2 Hk Hk'. rewrite Hbase. eapply real_equiv.
    + apply (real_regs A0 L ((d + 1) * L) (k - d * (L - 1)) (row k) ra rb (col j)); try lia.
      { pose proof (Htop j ltac:(lia)). lia. }
      intros lj lk Hlj Hlk. rewrite Hrow, Hrb, Hra, Hcol. destruct (Hcolb lj Hlj) as (B1 & -> & B3).
      repeat split; lia.
    + intros i Hi. apply equiv_eq. apply ups_ext. intros lj Hlj. apply ups_ext. intros lk Hlk.
      now rewrite Hrow, Hcol.
Qed.
End K.
