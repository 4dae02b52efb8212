(** * Proofs: binary search and interval bisection *)
From Coq Require Import ZArith List Lia Bool ZifyBool ZifyNat Reals Lra.
From Verif Require Import Arith Base BaseFacts MSort SpecSort.
Import ListNotations.
Open Scope Z_scope.

Lemma R_ltb_true x y : R_ltb x y = true -> (x < y)%R.
Proof. unfold R_ltb. destruct (Rlt_dec x y); auto; discriminate. Qed.
Lemma R_ltb_false x y : R_ltb x y = false -> (y <= x)%R.
Proof. unfold R_ltb. destruct (Rlt_dec x y); [discriminate|]. intros _. lra. Qed.

Section B.
Variable x : list R.
Variable y : R.
Notation v k := (nthZ 0%R x k).
Lemma nd_le lo hi : nondecreasing x lo hi -> forall i j, lo <= i -> i <= j -> j <= hi -> (v i <= v j)%R.
Proof.
  intros H i j Hi Hij Hj. destruct (Z.eq_dec i j) as [->|]; [lra|]. apply H; lia.
Qed.

Lemma bs_loop_val s0 e hi : 0 <= s0 -> hi < zlen x -> hi <= e <= hi + 1 -> nondecreasing x s0 hi -> (e = hi + 1 -> (y <= v hi)%R /\ s0 <= hi) ->
  forall fuel start stop oj, s0 <= start -> stop <= e -> start <= stop + 1 ->
  (forall k, s0 <= k < start -> (v k < y)%R) -> (forall k, stop < k <= hi -> (y < v k)%R) ->
  (start <= stop \/ exists j, oj = Some j /\ s0 <= j <= hi /\ (j = start - 1 \/ j = stop + 1)) ->
  stop - start + 2 <= Z.of_nat fuel ->
  exists j, (do o <- bs_loop fuel x start stop y oj; do j <- o; do xj <- zget x j; if ltb xj y then Some (j + 1) else Some j) = Some j /\
    s0 <= j <= hi + 1 /\ (forall k, s0 <= k < j -> (v k <= y)%R) /\ (forall k, j <= k <= hi -> (y <= v k)%R) /\
    ((forall k, s0 <= k < j -> (v k < y)%R) \/ (s0 <= j <= hi /\ v j = y)).
Proof.
  intros H0 Hhi He Hnd Hy. induction fuel as [|fuel IH]; intros start stop oj H1 H2 H3 HL HR Hj Hf; [lia|]. cbn [bs_loop].
  destruct (Z.leb_spec start stop) as [Hc|Hc].
  - set (m := (start + stop) / 2). assert (Hm : start <= m <= stop) by (unfold m; lia).
    assert (Hmh : m <= hi).
    { destruct (Z_le_gt_dec m hi); auto. assert (e = hi + 1) by lia. destruct (Hy H) as (Hy1 & Hy2). assert (start = hi + 1) by (unfold m in *; lia).
      specialize (HL hi). assert (v hi < y)%R by (apply HL; lia). lra. }
    rewrite (zget_nthZ 0%R) by lia. cbn [obind]. destruct (ltb (v m) y) eqn:B1.
    + change (ltb (v m) y) with (R_ltb (v m) y) in B1. apply R_ltb_true in B1. apply IH; try lia; auto.
      * intros k Hk. assert (v k <= v m)%R by (apply (nd_le s0 hi Hnd); lia). lra.
      * right. exists m. split; auto. lia.
    + change (ltb (v m) y) with (R_ltb (v m) y) in B1. apply R_ltb_false in B1. destruct (ltb y (v m)) eqn:B2.
      * change (ltb y (v m)) with (R_ltb y (v m)) in B2. apply R_ltb_true in B2. apply IH; try lia; auto.
        -- intros k Hk. assert (v m <= v k)%R by (apply (nd_le s0 hi Hnd); lia). lra.
        -- right. exists m. split; auto. lia.
      * change (ltb y (v m)) with (R_ltb y (v m)) in B2. apply R_ltb_false in B2. assert (Q : v m = y) by lra. cbn [obind].
        rewrite (zget_nthZ 0%R) by lia. cbn [obind]. replace (ltb (v m) y) with false.
        2:{ symmetry. change (R_ltb (v m) y = false). unfold R_ltb. destruct (Rlt_dec (v m) y); auto; lra. }
        exists m. split; auto. split; [lia|]. split; [|split].
        -- intros k Hk. rewrite <- Q. apply (nd_le s0 hi Hnd); lia.
        -- intros k Hk. rewrite <- Q. apply (nd_le s0 hi Hnd); lia.
        -- right. split; [lia|auto].
  - destruct Hj as [Hj|(j & -> & Hj & Hjj)]; [lia|]. cbn [obind]. rewrite (zget_nthZ 0%R) by lia. cbn [obind].
    assert (Hst : start = stop + 1) by lia. destruct Hjj as [Hjj|Hjj].
    + assert (v j < y)%R by (apply HL; lia). replace (ltb (v j) y) with true. 2:{ symmetry. change (R_ltb (v j) y = true). unfold R_ltb. destruct (Rlt_dec (v j) y); auto; lra. }
      exists (j + 1). split; auto. split; [lia|]. split; [|split]; [| |left]; intros k Hk.
      * apply Rlt_le, HL. lia. * apply Rlt_le, HR. lia. * apply HL. lia.
    + assert (y < v j)%R by (apply HR; lia). replace (ltb (v j) y) with false. 2:{ symmetry. change (R_ltb (v j) y = false). unfold R_ltb. destruct (Rlt_dec (v j) y); auto; lra. }
      exists j. split; auto. split; [lia|]. split; [|split]; [| |left]; intros k Hk.
      * apply Rlt_le, HL. lia. * apply Rlt_le, HR. lia. * apply HL. lia.
Qed.

(** inclusive use: x[start..stop] all readable, any target *)
Lemma binarysearch_incl start stop : 0 <= start -> start <= stop -> stop < zlen x -> nondecreasing x start stop ->
  exists j, binarysearch x start stop y = Some j /\ start <= j <= stop + 1 /\ (forall k, start <= k < j -> (v k <= y)%R) /\ (forall k, j <= k <= stop -> (y <= v k)%R).
Proof.
  intros H0 H1 H2 H3. destruct (bs_loop_val start stop stop H0 H2) with (fuel := (Z.to_nat (stop - start) + 2)%nat) (start := start) (stop := stop) (oj := @None Z) as (j & E & A & B & C & _); auto; try lia; try (intros; exfalso; lia).
   exists j. auto.
Qed.
(** exclusive use: x[start..stop-1] readable, target not above the last of them *)
Lemma binarysearch_excl start stop : 0 <= start -> start < stop -> stop <= zlen x -> nondecreasing x start (stop - 1) -> (y <= v (stop - 1))%R ->
  exists j, binarysearch x start stop y = Some j /\ start <= j <= stop /\ (forall k, start <= k < j -> (v k <= y)%R) /\ (forall k, j <= k < stop -> (y <= v k)%R) /\
    ((forall k, start <= k < j -> (v k < y)%R) \/ (start <= j < stop /\ v j = y)).
Proof.
  intros H0 H1 H2 H3 H4. destruct (bs_loop_val start stop (stop - 1) H0) with (fuel := (Z.to_nat (stop - start) + 2)%nat) (start := start) (stop := stop) (oj := @None Z) as (j & E & A & B & C & D); auto; try lia; try (intros; exfalso; lia).
  { intros; split; auto; lia. }  exists j. split; auto. split; [lia|]. split; [auto|]. split; [intros; apply C; lia|].
  destruct D as [D|(D1 & D2)]; [left; auto|right; split; [lia|auto]].
Qed.
End B.

Lemma indsplit_proof x start stop : 0 <= start -> start < stop -> stop <= zlen x -> nondecreasing x start (stop - 1) ->
  let c := ((nthZ 0 x start + nthZ 0 x (stop - 1)) / 2)%R in
  exists m, indsplit x start stop (nthZ 0%R x start) (nthZ 0%R x (stop - 1)) = Some ((start, m), (m, stop)) /\
    start <= m < stop /\
    (forall k, start <= k < m -> (nthZ 0 x k <= c)%R) /\ (forall k, m <= k < stop -> (c <= nthZ 0 x k)%R) /\
    (increasing x start (stop - 1) -> forall k, start <= k < m -> (nthZ 0 x k < c)%R) /\
    ((nthZ 0 x start < nthZ 0 x (stop - 1))%R -> start < m).
Proof.
  intros H0 H1 H2 H3 c. unfold indsplit. change (div (add (nthZ 0%R x start) (nthZ 0%R x (stop - 1))) (add one one)) with ((nthZ 0 x start + nthZ 0 x (stop - 1)) / (1 + 1))%R.
  replace (1 + 1)%R with 2%R by lra. fold c.
  assert (Hc : (nthZ 0 x start <= nthZ 0 x (stop - 1))%R) by (apply (nd_le x start (stop - 1)); auto; lia).
  destruct (binarysearch_excl x c start stop) as (m & E & A & B & C & D); auto; [unfold c; lra|]. rewrite E. cbn [obind].
  exists m. split; auto.
  assert (Hm : m < stop).
  { destruct (Z.eq_dec m stop) as [->|]; [|lia]. destruct D as [D|(D & _)]; [|lia]. specialize (D (stop - 1)). assert (nthZ 0 x (stop - 1) < c)%R by (apply D; lia). unfold c in *. lra. }
  split; [lia|]. split; auto. split; auto. split.
  - intros Hi k Hk. destruct D as [D|(D1 & D2)]; [auto|]. rewrite <- D2. apply Hi; lia.
  - intros Hlt. destruct (Z.eq_dec m start) as [->|]; [|lia]. specialize (C start). assert (c <= nthZ 0 x start)%R by (apply C; lia). unfold c in *. lra.
Qed.
