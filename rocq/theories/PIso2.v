(** Polar rotations and reflections of coefficient arrays *)
From Coq Require Import ZArith List Lia Bool Reals Lra ZifyBool ZifyNat.
From Verif Require Import Base Arith BaseFacts MIso SpecSum PSum SpecIso PTrig.
Import ListNotations.
Open Scope Z_scope.

(** entry (i, q) of an array with columns of length N *)
Definition pos (N i q : Z) : Z := i + N * q.
Lemma pos_inj N i q i' q' : 0 <= i < N -> 0 <= i' < N -> pos N i q = pos N i' q' -> i = i' /\ q = q'.
Proof.
  unfold pos. intros Hi Hi' H. assert (E : q = q').
  { assert (A : (i + N * q) / N = q) by (symmetry; apply (Z.div_unique _ _ q i); lia).
    assert (B : (i' + N * q') / N = q') by (symmetry; apply (Z.div_unique _ _ q' i'); lia). rewrite H in A. congruence. }
  subst. lia.
Qed.
Lemma pos_range N M i q : 0 <= i < N -> 0 <= q < M -> 0 <= pos N i q < N * M.
Proof. unfold pos. intros. nia. Qed.
Lemma pos_ex N M p : 0 < N -> 0 <= p < N * M -> exists i q, 0 <= i < N /\ 0 <= q < M /\ p = pos N i q.
Proof.
  intros HN Hp. exists (p mod N), (p / N). pose proof (Z.mod_pos_bound p N HN). pose proof (Z.div_mod p N ltac:(lia)).
  assert (0 <= p / N) by (apply Z.div_pos; lia). assert (p / N < M) by (apply Z.div_lt_upper_bound; lia). unfold pos. lia.
Qed.
Lemma arr_ext {F} (d : F) N M A B : 0 <= N -> zlen A = N * M -> zlen B = N * M ->
  (forall i q, 0 <= i < N -> 0 <= q < M -> nthZ d A (pos N i q) = nthZ d B (pos N i q)) -> A = B.
Proof.
  intros HN LA LB H. apply (nthZ_ext d); [lia|]. intros p Hp. rewrite LA in Hp. assert (0 < N) by (destruct (Z.eq_dec N 0); [subst N; lia|lia]).
  destruct (pos_ex N M p) as (i & q & Hi & Hq & ->); auto.
Qed.

(** ** rotation *)
Definition rotv (t : R) (N : Z) (A : list R) (i q : Z) : R :=
  let m := (q + 1) / 2 in
  (if (1 <=? q) && (i <? N - m) then
     if q mod 2 =? 1 then cos (IZR m * t) * nthZ 0 A (pos N i q) + sin (IZR m * t) * nthZ 0 A (pos N i (q + 1))
     else cos (IZR m * t) * nthZ 0 A (pos N i q) - sin (IZR m * t) * nthZ 0 A (pos N i (q - 1))
   else nthZ 0 A (pos N i q))%R.
Definition rotated (t : R) (N h : Z) (A A' : list R) : Prop :=
  zlen A' = N * (2 * h + 1) /\ forall i q, 0 <= i < N -> 0 <= q < 2 * h + 1 -> nthZ 0%R A' (pos N i q) = rotv t N A i q.

Lemma polar_rotation_spec N h t A : 0 <= N -> 0 <= h -> zlen A = N * (2 * h + 1) ->
  exists A', polar_rotation N (2 * h + 1) (sin t) (cos t) A = Some A' /\ rotated t N h A A'.
Proof.
  intros HN Hh LA. unfold polar_rotation. replace ((2 * h + 1) / 2) with h by lia.
  pose (J := fun m i A' => zlen A' = N * (2 * h + 1) /\ forall r q, 0 <= r < N -> 0 <= q < 2 * h + 1 ->
     nthZ 0%R A' (pos N r q) = if ((q + 1) / 2 <? m) || (((q + 1) / 2 =? m) && (r <? i)) then rotv t N A r q else nthZ 0%R A (pos N r q)).
  destruct (for_up_inv (fun m st => let '(A', s, c, sold, cold) := st in J m 0 A' /\ s = sin (IZR m * t) /\ c = cos (IZR m * t) /\ sold = sin (IZR (m - 1) * t) /\ cold = cos (IZR (m - 1) * t))
    1 (h + 1) (fun m st =>
    let '(A, s, c, sold, cold) := st in
    do A <- for_up 0 (N - m) (fun i A =>
      do t1 <- zget A (i + N * (2 * m - 1));
      do t2 <- zget A (i + N * (2 * m));
      do A <- zset A (i + N * (2 * m - 1)) (add (mul c t1) (mul s t2));
      zset A (i + N * (2 * m)) (sub (mul c t2) (mul s t1))) A;
    Some (A, sub (mul (mul (ofZ 2) (cos t)) s) sold, sub (mul (mul (ofZ 2) (cos t)) c) cold, s, c)) (A, sin t, cos t, zero, one)) as (st & E & H).
  - lia.
  - split; [split; [exact LA|]|].
    + intros r q Hr Hq. destruct (((q + 1) / 2 <? 1) || (((q + 1) / 2 =? 1) && (r <? 0))) eqn:B; auto. unfold rotv. assert (q = 0) by lia. subst q. reflexivity.
    + change (1 - 1) with 0. rewrite Rmult_1_l, Rmult_0_l, sin_0, cos_0. repeat split.
  - intros m [[[[B s] c] sold] cold] Hm (HJ & -> & -> & -> & ->).
    assert (L : exists B', for_up 0 (N - m) (fun i A =>
      do t1 <- zget A (i + N * (2 * m - 1));
      do t2 <- zget A (i + N * (2 * m));
      do A <- zset A (i + N * (2 * m - 1)) (add (mul (cos (IZR m * t)) t1) (mul (sin (IZR m * t)) t2));
      zset A (i + N * (2 * m)) (sub (mul (cos (IZR m * t)) t2) (mul (sin (IZR m * t)) t1))) B = Some B' /\ J m (Z.max 0 (N - m)) B').
    { destruct (Z_lt_dec (N - m) 0) as [Hn|Hn].
      - rewrite for_up_nil by lia. exists B. split; auto. rewrite Z.max_l by lia. exact HJ.
      - rewrite Z.max_r by lia. apply (for_up_inv (fun i B => J m i B)); [lia|exact HJ|].
        intros i C Hi [LC HC].
      change (i + N * (2 * m - 1)) with (pos N i (2 * m - 1)). change (i + N * (2 * m)) with (pos N i (2 * m)).
      pose proof (pos_range N (2 * h + 1) i (2 * m - 1) ltac:(lia) ltac:(lia)) as P1. pose proof (pos_range N (2 * h + 1) i (2 * m) ltac:(lia) ltac:(lia)) as P2.
      rewrite (zget_nthZ 0%R C (pos N i (2 * m - 1))) by lia. cbn [obind]. rewrite (zget_nthZ 0%R C (pos N i (2 * m))) by lia. cbn [obind].
      rewrite zset_some by lia. cbn [obind]. rewrite zset_some by (rewrite zlen_zupd; lia). eexists. split; [reflexivity|]. split; [rewrite !zlen_zupd; exact LC|].
      intros r q Hr Hq. rewrite (HC i (2 * m - 1)), (HC i (2 * m)) by lia.
      replace (((2 * m - 1 + 1) / 2 <? m) || (((2 * m - 1 + 1) / 2 =? m) && (i <? i))) with false by lia.
      replace (((2 * m + 1) / 2 <? m) || (((2 * m + 1) / 2 =? m) && (i <? i))) with false by lia.
      rewrite nthZ_zupd by (rewrite zlen_zupd; lia). destruct (pos N i (2 * m) =? pos N r q) eqn:E2.
      { apply Z.eqb_eq, pos_inj in E2; try lia. destruct E2 as [<- <-]. replace (((2 * m + 1) / 2 <? m) || (((2 * m + 1) / 2 =? m) && (i <? i + 1))) with true by lia.
        unfold rotv. replace ((2 * m + 1) / 2) with m by lia. replace ((1 <=? 2 * m) && (i <? N - m)) with true by lia. replace (2 * m mod 2 =? 1) with false by lia. cbn. reflexivity. }
      rewrite nthZ_zupd by lia. destruct (pos N i (2 * m - 1) =? pos N r q) eqn:E1.
      { apply Z.eqb_eq, pos_inj in E1; try lia. destruct E1 as [<- <-]. replace (((2 * m - 1 + 1) / 2 <? m) || (((2 * m - 1 + 1) / 2 =? m) && (i <? i + 1))) with true by lia.
        unfold rotv. replace ((2 * m - 1 + 1) / 2) with m by lia. replace ((1 <=? 2 * m - 1) && (i <? N - m)) with true by lia. replace ((2 * m - 1) mod 2 =? 1) with true by lia.
        replace (2 * m - 1 + 1) with (2 * m) by lia. cbn. reflexivity. }
      rewrite HC by lia.
      assert (X : ~ ((q + 1) / 2 = m /\ r = i)).
      { intros [Q ->]. assert (D : q = 2 * m - 1 \/ q = 2 * m) by lia. destruct D as [-> | ->]; rewrite Z.eqb_refl in *; discriminate. }
      replace (((q + 1) / 2 <? m) || (((q + 1) / 2 =? m) && (r <? i + 1))) with (((q + 1) / 2 <? m) || (((q + 1) / 2 =? m) && (r <? i))) by lia. reflexivity. }
    destruct L as (B' & EB & LB & HB). rewrite EB. cbn [obind]. eexists. split; [reflexivity|]. split; [split; [exact LB|]|].
    + intros r q Hr Hq. rewrite HB by lia. destruct (((q + 1) / 2 <? m) || (((q + 1) / 2 =? m) && (r <? Z.max 0 (N - m)))) eqn:B1.
      * replace (((q + 1) / 2 <? m + 1) || (((q + 1) / 2 =? m + 1) && (r <? 0))) with true by lia. reflexivity.
      * destruct (((q + 1) / 2 <? m + 1) || (((q + 1) / 2 =? m + 1) && (r <? 0))) eqn:B2; auto. unfold rotv. replace ((1 <=? q) && (r <? N - (q + 1) / 2)) with false by lia. reflexivity.
    + cbn. rewrite minus_IZR, plus_IZR. replace (m + 1 - 1) with m by lia.
      replace ((IZR m + 1) * t)%R with (IZR m * t + t)%R by ring. replace ((IZR m - 1) * t)%R with (IZR m * t - t)%R by ring.
      rewrite sin_plus, cos_plus, sin_minus, cos_minus. repeat split; ring.
  - rewrite E. cbn [obind]. destruct st as [[[[B s] c] sold] cold]. cbn [fst]. exists B. split; auto. destruct H as ([LB HB] & _). split; auto.
    intros i q Hi Hq. rewrite HB by lia. replace (((q + 1) / 2 <? h + 1) || (((q + 1) / 2 =? h + 1) && (i <? 0))) with true by lia. reflexivity.
Qed.

Lemma rotv_odd t N A i m : 0 <= i -> 1 <= m -> i < N - m ->
  rotv t N A i (2 * m - 1) = (cos (IZR m * t) * nthZ 0 A (pos N i (2 * m - 1)) + sin (IZR m * t) * nthZ 0 A (pos N i (2 * m)))%R.
Proof.
  intros. unfold rotv. replace ((2 * m - 1 + 1) / 2) with m by lia. replace ((1 <=? 2 * m - 1) && (i <? N - m)) with true by lia. replace ((2 * m - 1) mod 2 =? 1) with true by lia.
  replace (2 * m - 1 + 1) with (2 * m) by lia. reflexivity.
Qed.
Lemma rotv_even t N A i m : 0 <= i -> 1 <= m -> i < N - m ->
  rotv t N A i (2 * m) = (cos (IZR m * t) * nthZ 0 A (pos N i (2 * m)) - sin (IZR m * t) * nthZ 0 A (pos N i (2 * m - 1)))%R.
Proof.
  intros. unfold rotv. replace ((2 * m + 1) / 2) with m by lia. replace ((1 <=? 2 * m) && (i <? N - m)) with true by lia. replace (2 * m mod 2 =? 1) with false by lia. reflexivity.
Qed.
Lemma rotv_rest t N A i q : q = 0 \/ N - (q + 1) / 2 <= i -> rotv t N A i q = nthZ 0%R A (pos N i q).
Proof. intros. unfold rotv. replace ((1 <=? q) && (i <? N - (q + 1) / 2)) with false by lia. reflexivity. Qed.
Lemma col_cases N i q : 0 <= i < N -> 0 <= q -> q = 0 \/ N - (q + 1) / 2 <= i \/ exists m, 1 <= m /\ i < N - m /\ (q = 2 * m - 1 \/ q = 2 * m).
Proof. intros. destruct (Z.eq_dec q 0); auto. destruct (Z_le_dec (N - (q + 1) / 2) i); auto. right; right. exists ((q + 1) / 2). lia. Qed.

Lemma rotated_comp t t' N h A B C : 0 <= N -> 0 <= h -> rotated t N h A B -> rotated t' N h B C -> rotated (t + t') N h A C.
Proof.
  intros HN Hh [LB HB] [LC HC]. split; auto. intros i q Hi Hq. rewrite HC by lia.
  destruct (col_cases N i q Hi) as [D|[D|(m & Hm & Hi' & D)]]; [lia| | |].
  - rewrite !rotv_rest by auto. rewrite HB by lia. now apply rotv_rest; auto.
  - rewrite !rotv_rest by auto. rewrite HB by lia. now apply rotv_rest; auto.
  - destruct D as [-> | ->].
    + rewrite !rotv_odd by lia. rewrite !HB by lia. rewrite rotv_odd, rotv_even by lia. rewrite (Rmult_plus_distr_l (IZR m) t t'), sin_plus, cos_plus. ring.
    + rewrite !rotv_even by lia. rewrite !HB by lia. rewrite rotv_odd, rotv_even by lia. rewrite (Rmult_plus_distr_l (IZR m) t t'), sin_plus, cos_plus. ring.
Qed.
Lemma rotated_0 N h A B : 0 <= N -> zlen A = N * (2 * h + 1) -> rotated 0 N h A B -> B = A.
Proof.
  intros HN LA [LB HB]. apply (arr_ext 0%R N (2 * h + 1)); auto. intros i q Hi Hq. rewrite HB by lia.
  destruct (col_cases N i q Hi) as [D|[D|(m & Hm & Hi' & D)]]; [lia| | |]; try (now apply rotv_rest; auto).
  destruct D as [-> | ->]; [rewrite rotv_odd by lia|rewrite rotv_even by lia]; rewrite Rmult_0_r, sin_0, cos_0; ring.
Qed.
Lemma rotated_fun t N h A B C : 0 <= N -> rotated t N h A B -> rotated t N h A C -> B = C.
Proof. intros HN [LB HB] [LC HC]. apply (arr_ext 0%R N (2 * h + 1)); auto. intros. rewrite HB, HC by lia. auto. Qed.

Lemma rotated_series t N h A B P u phi : 0 <= N -> 0 <= h -> rotated t N h A B -> harmonic_series P N h B u phi = harmonic_series P N h A u (phi - t).
Proof.
  intros HN Hh [LB HB]. unfold harmonic_series. f_equal.
  - apply sumZ_ext. intros i Hi. f_equal. assert (X := HB i 0 Hi ltac:(lia)). rewrite rotv_rest in X by auto. unfold pos in X. replace (i + N * 0) with i in X by lia. exact X.
  - apply sumZ_ext. intros k Hk. cbv zeta. apply sumZ_ext. intros i Hi. f_equal. set (m := k + 1) in *.
    assert (X := HB i (2 * m - 1) ltac:(lia) ltac:(lia)). assert (Y := HB i (2 * m) ltac:(lia) ltac:(lia)). rewrite rotv_odd in X by lia. rewrite rotv_even in Y by lia. unfold pos in X, Y. rewrite X, Y.
    replace (IZR m * (phi - t))%R with (IZR m * phi - IZR m * t)%R by ring. rewrite sin_minus, cos_minus. ring.
Qed.

Lemma sum_pairs h f : 0 <= h -> sumZ (2 * h + 1) f = (f 0%Z + sumZ h (fun k => f (2 * k + 1)%Z + f (2 * k + 2)%Z))%R.
Proof.
  intros Hh. pattern h. apply natlike_ind; [| |exact Hh].
  - change (2 * 0 + 1) with 1. rewrite (sumZ_S 0) by lia. rewrite !sumZ_0 by lia. ring.
  - intros x Hx IH. unfold Z.succ. replace (2 * (x + 1) + 1) with (2 * x + 1 + 1 + 1) by lia. rewrite (sumZ_S (2 * x + 1 + 1) f), (sumZ_S (2 * x + 1) f) by lia. rewrite IH. rewrite sumZ_S by lia. replace (2 * x + 1 + 1) with (2 * x + 2) by lia. ring.
Qed.
Lemma sum_array N M f : 0 <= N -> 0 <= M -> sumZ (N * M) f = sumZ M (fun q => sumZ N (fun i => f (pos N i q))).
Proof.
  intros HN HM. pattern M. apply natlike_ind; [rewrite Z.mul_0_r; reflexivity| |exact HM].
  intros x Hx IH. unfold Z.succ. rewrite sumZ_S by lia. rewrite <- IH. rewrite Z.mul_add_distr_l, Z.mul_1_r. rewrite sumZ_app by (try apply Z.mul_nonneg_nonneg; lia). f_equal. apply sumZ_ext. intros i Hi. f_equal. unfold pos. lia.
Qed.
Lemma rotated_norm t N h A B : 0 <= N -> 0 <= h -> rotated t N h A B ->
  sumZ (N * (2 * h + 1)) (fun p => (nthZ 0 B p * nthZ 0 B p)%R) = sumZ (N * (2 * h + 1)) (fun p => (nthZ 0 A p * nthZ 0 A p)%R).
Proof.
  intros HN Hh [LB HB]. rewrite !sum_array by lia. rewrite !sum_pairs by lia. f_equal.
  - apply sumZ_ext. intros i Hi. rewrite HB by lia. now rewrite rotv_rest by auto.
  - apply sumZ_ext. intros k Hk. rewrite <- !sumZ_plus. apply sumZ_ext. intros i Hi. rewrite !HB by lia.
    replace (2 * k + 1) with (2 * (k + 1) - 1) by lia. replace (2 * k + 2) with (2 * (k + 1)) by lia.
    destruct (Z_le_dec (N - (k + 1)) i).
    + rewrite !rotv_rest by lia. reflexivity.
    + rewrite rotv_odd, rotv_even by lia. pose proof (sin2_cos2 (IZR (k + 1) * t)) as T. unfold Rsqr in T.
      set (s := sin (IZR (k + 1) * t)) in *. set (c := cos (IZR (k + 1) * t)) in *. set (x := nthZ 0%R A (pos N i (2 * (k + 1) - 1))). set (y := nthZ 0%R A (pos N i (2 * (k + 1)))).
      transitivity ((s * s + c * c) * (x * x + y * y))%R; [ring|rewrite T; ring].
Qed.

(** ** reflection in the equatorial plane, for any arithmetic *)
Section Refl.
Context {F : Type} {AF : Arith F}.
Definition refv (N : Z) (A : list F) (i q : Z) : F :=
  if (i <? N - (q + 1) / 2) && (i mod 2 =? 1) then opp (nthZ zero A (pos N i q)) else nthZ zero A (pos N i q).
Definition reflected (N h : Z) (A A' : list F) : Prop :=
  zlen A' = N * (2 * h + 1) /\ forall i q, 0 <= i < N -> 0 <= q < 2 * h + 1 -> nthZ zero A' (pos N i q) = refv N A i q.

Lemma polar_reflection_spec N h A : 0 <= N -> 0 <= h -> zlen A = N * (2 * h + 1) ->
  exists A', polar_reflection N (2 * h + 1) A = Some A' /\ reflected N h A A'.
Proof.
  intros HN Hh LA. unfold polar_reflection. replace ((2 * h + 1) / 2) with h by lia.
  pose (J := fun m i A' => zlen A' = N * (2 * h + 1) /\ forall r q, 0 <= r < N -> 0 <= q < 2 * h + 1 ->
     nthZ zero A' (pos N r q) = if ((q + 1) / 2 <? m) || (((q + 1) / 2 =? m) && (r <? i)) then refv N A r q else nthZ zero A (pos N r q)).
  (* order 0 *)
  assert (L0 : exists B, for_upst 1 N 2 (fun i A => do x <- zget A i; zset A i (opp x)) A = Some B /\ J 1 0 B).
  { destruct (for_upst_inv (fun i B => J 0 i B) 1 N 2 (fun i A => do x <- zget A i; zset A i (opp x)) A) as (B & E & LB & HB).
    - lia.
    - split; auto. intros r q Hr Hq. destruct (((q + 1) / 2 <? 0) || (((q + 1) / 2 =? 0) && (r <? 1))) eqn:B; auto. unfold refv. assert (r = 0) by lia. subst r. rewrite andb_comm. reflexivity.
    - intros k i C Hk -> Hi [LC HC]. set (i := 1 + k * 2) in *. assert (P : 0 <= pos N i 0 < N * (2 * h + 1)) by (apply pos_range; lia).
      assert (Ei : i = pos N i 0) by (unfold pos; lia). assert (Es : forall x, zset C i x = zset C (pos N i 0) x) by (intros; f_equal; exact Ei).
      replace (zget C i) with (zget C (pos N i 0)) by (f_equal; symmetry; exact Ei). rewrite (zget_nthZ zero) by lia. cbn [obind]. rewrite Es, zset_some by lia. eexists. split; [reflexivity|]. split; [rewrite zlen_zupd; exact LC|].
      intros r q Hr Hq. rewrite nthZ_zupd by lia. destruct (pos N i 0 =? pos N r q) eqn:E0.
      + apply Z.eqb_eq, pos_inj in E0; try lia. destruct E0 as [<- <-]. rewrite HC by lia. change ((0 + 1) / 2) with 0. replace ((0 <? 0) || ((0 =? 0) && (i <? i))) with false by lia. replace ((0 <? 0) || ((0 =? 0) && (i <? i + 2))) with true by lia.
        unfold refv. change ((0 + 1) / 2) with 0. replace ((i <? N - 0) && (i mod 2 =? 1)) with true by lia. reflexivity.
      + rewrite HC by lia. destruct (((q + 1) / 2 <? 0) || (((q + 1) / 2 =? 0) && (r <? i))) eqn:B1.
        * replace (((q + 1) / 2 <? 0) || (((q + 1) / 2 =? 0) && (r <? i + 2))) with true by lia. reflexivity.
        * destruct (((q + 1) / 2 <? 0) || (((q + 1) / 2 =? 0) && (r <? i + 2))) eqn:B2; auto. assert (q = 0) by lia. subst q. assert (D : r = i \/ r = i + 1) by lia. destruct D as [-> | ->].
          -- rewrite Z.eqb_refl in E0. discriminate.
          -- unfold refv. replace ((i + 1 <? N - (0 + 1) / 2) && ((i + 1) mod 2 =? 1)) with false by lia. reflexivity.
    - exists B. split; auto. split; auto. intros r q Hr Hq. rewrite HB by lia. destruct (Z_le_dec N 1) as [N1|N1].
      + rewrite end_upst_nil by lia. destruct (((q + 1) / 2 <? 0) || (((q + 1) / 2 =? 0) && (r <? 1))) eqn:B1.
        * replace (((q + 1) / 2 <? 1) || (((q + 1) / 2 =? 1) && (r <? 0))) with true by lia. reflexivity.
        * replace (((q + 1) / 2 <? 1) || (((q + 1) / 2 =? 1) && (r <? 0))) with false by lia. reflexivity.
      + destruct (end_upst_spec 1 N 2) as (k & Hk & Ek & Hb); try lia. 
        replace (((q + 1) / 2 <? 0) || (((q + 1) / 2 =? 0) && (r <? end_upst 1 N 2))) with (((q + 1) / 2 <? 1) || (((q + 1) / 2 =? 1) && (r <? 0))) by lia. reflexivity. }
  destruct L0 as (B & E & HB). rewrite E. cbn [obind].
  destruct (for_up_inv (fun m B => J m 0 B) 1 (h + 1) (fun m A =>
    for_upst 1 (N - m) 2 (fun i A =>
      do x <- zget A (i + N * (2 * m - 1));
      do A <- zset A (i + N * (2 * m - 1)) (opp x);
      do y <- zget A (i + N * (2 * m));
      zset A (i + N * (2 * m)) (opp y)) A) B) as (C & EC & LC & HC).
  - lia.
  - exact HB.
  - intros m D Hm HD.
    destruct (for_upst_inv (fun i B => J m i B) 1 (N - m) 2 (fun i A =>
      do x <- zget A (i + N * (2 * m - 1));
      do A <- zset A (i + N * (2 * m - 1)) (opp x);
      do y <- zget A (i + N * (2 * m));
      zset A (i + N * (2 * m)) (opp y)) D) as (G & EG & LG & HG).
    + lia.
    + destruct HD as [LD HD]. split; auto. intros r q Hr Hq. rewrite HD by lia. destruct (((q + 1) / 2 <? m) || (((q + 1) / 2 =? m) && (r <? 0))) eqn:B1.
      * replace (((q + 1) / 2 <? m) || (((q + 1) / 2 =? m) && (r <? 1))) with true by lia. reflexivity.
      * destruct (((q + 1) / 2 <? m) || (((q + 1) / 2 =? m) && (r <? 1))) eqn:B2; auto. unfold refv. assert (r = 0) by lia. subst r. rewrite andb_comm. reflexivity.
    + intros k i S Hk -> Hi [LS HS]. set (i := 1 + k * 2) in *.
      change (i + N * (2 * m - 1)) with (pos N i (2 * m - 1)). change (i + N * (2 * m)) with (pos N i (2 * m)).
      pose proof (pos_range N (2 * h + 1) i (2 * m - 1) ltac:(lia) ltac:(lia)) as P1. pose proof (pos_range N (2 * h + 1) i (2 * m) ltac:(lia) ltac:(lia)) as P2.
      assert (NE : pos N i (2 * m - 1) <> pos N i (2 * m)) by (intros X; apply pos_inj in X; lia).
      rewrite (zget_nthZ zero) by lia. cbn [obind]. rewrite zset_some by lia. cbn [obind]. rewrite (zget_nthZ zero) by (rewrite zlen_zupd; lia). cbn [obind]. rewrite zset_some by (rewrite zlen_zupd; lia).
      eexists. split; [reflexivity|]. split; [rewrite !zlen_zupd; exact LS|].
      rewrite nthZ_zupd_other by auto. rewrite (HS i (2 * m - 1)), (HS i (2 * m)) by lia.
      replace (((2 * m - 1 + 1) / 2 <? m) || (((2 * m - 1 + 1) / 2 =? m) && (i <? i))) with false by lia.
      replace (((2 * m + 1) / 2 <? m) || (((2 * m + 1) / 2 =? m) && (i <? i))) with false by lia.
      intros r q Hr Hq. rewrite nthZ_zupd by (rewrite zlen_zupd; lia). destruct (pos N i (2 * m) =? pos N r q) eqn:E2.
      { apply Z.eqb_eq, pos_inj in E2; try lia. destruct E2 as [<- <-]. replace (((2 * m + 1) / 2 <? m) || (((2 * m + 1) / 2 =? m) && (i <? i + 2))) with true by lia.
        unfold refv. replace ((i <? N - (2 * m + 1) / 2) && (i mod 2 =? 1)) with true by lia. reflexivity. }
      rewrite nthZ_zupd by lia. destruct (pos N i (2 * m - 1) =? pos N r q) eqn:E1.
      { apply Z.eqb_eq, pos_inj in E1; try lia. destruct E1 as [<- <-]. replace (((2 * m - 1 + 1) / 2 <? m) || (((2 * m - 1 + 1) / 2 =? m) && (i <? i + 2))) with true by lia.
        unfold refv. replace ((i <? N - (2 * m - 1 + 1) / 2) && (i mod 2 =? 1)) with true by lia. reflexivity. }
      rewrite HS by lia. destruct (((q + 1) / 2 <? m) || (((q + 1) / 2 =? m) && (r <? i))) eqn:B1.
      * replace (((q + 1) / 2 <? m) || (((q + 1) / 2 =? m) && (r <? i + 2))) with true by lia. reflexivity.
      * destruct (((q + 1) / 2 <? m) || (((q + 1) / 2 =? m) && (r <? i + 2))) eqn:B2; auto. assert (Q : q = 2 * m - 1 \/ q = 2 * m) by lia. assert (D' : r = i \/ r = i + 1) by lia. destruct D' as [-> | ->].
        -- destruct Q as [-> | ->]; rewrite Z.eqb_refl in *; discriminate.
        -- unfold refv. replace ((i + 1 <? N - (q + 1) / 2) && ((i + 1) mod 2 =? 1)) with false by lia. reflexivity.
    + exists G. split; auto. split; auto. intros r q Hr Hq. rewrite HG by lia. destruct (Z_le_dec (N - m) 1) as [N1|N1].
      * rewrite end_upst_nil by lia. destruct (((q + 1) / 2 <? m) || (((q + 1) / 2 =? m) && (r <? 1))) eqn:B1.
        -- replace (((q + 1) / 2 <? m + 1) || (((q + 1) / 2 =? m + 1) && (r <? 0))) with true by lia. reflexivity.
        -- destruct (((q + 1) / 2 <? m + 1) || (((q + 1) / 2 =? m + 1) && (r <? 0))) eqn:B2; auto. unfold refv. replace ((r <? N - (q + 1) / 2) && (r mod 2 =? 1)) with false by lia. reflexivity.
      * destruct (end_upst_spec 1 (N - m) 2) as (k & Hk & Ek & Hb); try lia. destruct (((q + 1) / 2 <? m) || (((q + 1) / 2 =? m) && (r <? end_upst 1 (N - m) 2))) eqn:B1.
        -- replace (((q + 1) / 2 <? m + 1) || (((q + 1) / 2 =? m + 1) && (r <? 0))) with true by lia. reflexivity.
        -- destruct (((q + 1) / 2 <? m + 1) || (((q + 1) / 2 =? m + 1) && (r <? 0))) eqn:B2; auto. unfold refv. replace ((r <? N - (q + 1) / 2) && (r mod 2 =? 1)) with false by lia. reflexivity.
  - exists C. split; auto. split; auto. intros i q Hi Hq. rewrite HC by lia. replace (((q + 1) / 2 <? h + 1) || (((q + 1) / 2 =? h + 1) && (i <? 0))) with true by lia. reflexivity.
Qed.
Lemma reflected_twice N h A B C : 0 <= N -> (forall x : F, opp (opp x) = x) -> zlen A = N * (2 * h + 1) -> reflected N h A B -> reflected N h B C -> C = A.
Proof.
  intros HN OO LA [LB HB] [LC HC]. apply (arr_ext zero N (2 * h + 1)); auto. intros i q Hi Hq. rewrite HC by lia. unfold refv. rewrite HB by lia. unfold refv.
  destruct ((i <? N - (q + 1) / 2) && (i mod 2 =? 1)); auto.
Qed.
End Refl.
Lemma reflected_series N h (A B : list R) P u u' phi : 0 <= N -> 0 <= h -> reflected N h A B ->
  (forall m i, 0 <= m <= h -> 0 <= i < N - m -> P m i u' = ((if i mod 2 =? 1 then -1 else 1) * P m i u)%R) ->
  harmonic_series P N h B u phi = harmonic_series P N h A u' phi.
Proof.
  intros HN Hh [LB HB] HP. cbn [zero R_arith] in HB. unfold harmonic_series. f_equal.
  - apply sumZ_ext. intros i Hi. assert (X := HB i 0 Hi ltac:(lia)). unfold pos in X. unfold refv in X. change ((0 + 1) / 2) with 0 in X. unfold pos in X. replace (i + N * 0) with i in X by lia. cbn [zero opp R_arith] in X. rewrite X, HP by lia. replace (i <? N - 0) with true by lia. cbn [andb]. destruct (i mod 2 =? 1); ring.
  - apply sumZ_ext. intros k Hk. cbv zeta. set (m := k + 1) in *. apply sumZ_ext. intros i Hi. rewrite HP by lia.
    assert (X := HB i (2 * m - 1) ltac:(lia) ltac:(lia)). assert (Y := HB i (2 * m) ltac:(lia) ltac:(lia)). unfold refv in X, Y. unfold pos in X, Y. cbn [zero opp R_arith] in X, Y. rewrite X, Y.
    replace (i <? N - (2 * m - 1 + 1) / 2) with true by lia. replace (i <? N - (2 * m + 1) / 2) with true by lia. cbn [andb]. destruct (i mod 2 =? 1); ring.
Qed.
