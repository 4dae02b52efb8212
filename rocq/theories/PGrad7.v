(** * Helmholtz-Hodge: the conversion matrix and its least-squares solution *)
From Coq Require Import ZArith List Lia Bool Reals Lra ZifyBool.
From Verif Require Import Base BaseFacts Arith SpecSum PSum SpecLin MBanded SpecBanded PTri PBand MFactor PFactor2 PFactorThms PBlock MGrad SpecIso SpecGeo SpecGrad PGrad1 PGrad2 PGrad3 PGrad4 PGrad5.
Import ListNotations.
Open Scope Z_scope.

(** ** full column rank makes the triangular factor nonsingular *)
Lemma upper_solvable U b k : 0 <= k -> (forall i j, 0 <= j < i -> i < k -> U i j = 0%R) -> (forall i, 0 <= i < k -> U i i <> 0%R) ->
  exists x, forall i, 0 <= i < k -> matvec k U x i = b i.
Proof.
  intros Hk. revert b. pattern k. apply natlike_ind; [|clear k Hk|exact Hk].
  - intros. exists (fun _ => 0%R). intros; lia.
  - intros k Hk IH b HU HD. unfold Z.succ in *. destruct (IH (fun i => b i - U i k * (b k / U k k))%R) as (x & Hx); [intros; apply HU; lia|intros; apply HD; lia|].
    exists (fun j => if j =? k then (b k / U k k)%R else x j). intros i Hi. unfold matvec in *. rewrite sumZ_S by lia. rewrite Z.eqb_refl.
    rewrite (sumZ_ext k _ (fun j => U i j * x j)%R) by (intros j Hj; replace (j =? k) with false by lia; reflexivity).
    destruct (Z.eq_dec i k) as [E|Hne].
    + subst i. rewrite (sumZ_zero k) by (intros j Hj; rewrite HU by lia; ring). field. apply HD; lia.
    + rewrite Hx by lia. ring.
Qed.
Lemma rank_diag M n Q U A : 0 <= n <= M ->
  same_matrix M n (matmul M Q (upper U)) A ->
  (forall x, (forall i, 0 <= i < M -> matvec n A x i = 0%R) -> forall j, 0 <= j < n -> x j = 0%R) ->
  forall k, 0 <= k < n -> U k k <> 0%R.
Proof.
  intros Hn HQ HA.
  assert (IND : forall k, 0 <= k -> k <= n -> forall j, 0 <= j < k -> U j j <> 0%R).
  { apply (natlike_ind (fun k => k <= n -> forall j, 0 <= j < k -> U j j <> 0%R)); [intros; lia|]. intros k Hk IH Hkn j Hj. unfold Z.succ in *.
    destruct (Z.eq_dec j k) as [E|]; [subst j|apply IH; lia]. intros E.
    destruct (upper_solvable (upper U) (fun i => - U i k)%R k Hk) as (x & Hx).
    { intros i j Hj' Hi. unfold upper. replace (i <=? j) with false by lia. reflexivity. }
    { intros i Hi. unfold upper. rewrite Z.leb_refl. apply IH; lia. }
    set (y := fun j => if j <? k then x j else if j =? k then 1%R else 0%R).
    assert (Hy : forall i, 0 <= i < M -> matvec n (upper U) y i = 0%R).
    { intros i Hi. unfold matvec. rewrite (sumZ_split n (k + 1)) by lia. rewrite (sumZ_zero (n - (k + 1))).
      2:{ intros j Hj'. unfold y. replace (k + 1 + j <? k) with false by lia. replace (k + 1 + j =? k) with false by lia. ring. }
      rewrite sumZ_S by lia. rewrite (sumZ_ext k _ (fun j => upper U i j * x j)%R) by (intros j Hj'; unfold y; replace (j <? k) with true by lia; reflexivity).
      replace (y k) with 1%R by (unfold y; replace (k <? k) with false by lia; now rewrite Z.eqb_refl).
      destruct (Z_lt_dec i k) as [Hik|Hik].
      - change (sumZ k (fun j => upper U i j * x j)%R) with (matvec k (upper U) x i). rewrite Hx by lia. unfold upper. replace (i <=? k) with true by lia. ring.
      - rewrite sumZ_zero by (intros j Hj'; unfold upper; replace (i <=? j) with false by lia; ring). unfold upper. destruct (Z.leb_spec i k); [replace i with k by lia; rewrite E; ring|ring]. }
    assert (Z0 : y k = 0%R).
    { apply HA; [|lia]. intros i Hi. unfold matvec. rewrite (sumZ_ext n _ (fun j => sumZ M (fun r => Q i r * (upper U r j * y j)))%R).
      2:{ intros j Hj'. rewrite <- HQ by lia. unfold matmul. rewrite <- sumZ_scal_r. apply sumZ_ext. intros; ring. }
      rewrite sumZ_swap. apply sumZ_zero. intros r Hr. rewrite sumZ_scal. change (sumZ n (fun j => upper U r j * y j)%R) with (matvec n (upper U) y r). rewrite Hy by lia. ring. }
    unfold y in Z0. replace (k <? k) with false in Z0 by lia. rewrite Z.eqb_refl in Z0. lra. }
  intros k Hk. apply (IND n); lia.
Qed.

(** ** the conversion matrix *)
Definition Amat (m p q : Z) : R := if p mod 2 =? q mod 2 then Bmat m (p / 2) (q / 2) else if p / 2 =? q / 2 then IZR m else 0%R.
Lemma Amat_shift m i j : 0 <= j < i -> Amat m (i + 2) j = 0%R.
Proof. intros H. unfold Amat, Bmat. replace ((i + 2) / 2) with (i / 2 + 1) by lia. replace (i / 2 + 1 =? j / 2) with false by lia.
  destruct ((i + 2) mod 2 =? j mod 2) eqn:E; [|reflexivity]. replace (j / 2 =? i / 2 + 1 - 1) with false by lia. replace (j / 2 =? i / 2 + 1 + 1) with false by lia. reflexivity. Qed.
Lemma gg_pos m l : 1 <= m -> 0 <= l -> (0 < gg_ m l)%R.
Proof.
  intros Hm Hl. unfold gg_. apply sqrt_lt_R0. apply Rdiv_lt_0_compat; apply IZR_lt; nia.
Qed.
Lemma Amat_sub m i : 1 <= m -> 0 <= i -> Amat m (i + 2) i <> 0%R.
Proof.
  intros Hm H. unfold Amat, Bmat. replace ((i + 2) mod 2 =? i mod 2) with true by lia. replace (i / 2 =? (i + 2) / 2 - 1) with true by lia.
  apply Rmult_integral_contrapositive_currified; [apply not_0_IZR; lia|]. apply Rgt_not_eq, gg_pos; lia.
Qed.
Lemma Amat_injective m K x : 1 <= m -> 0 <= K -> (forall i, 0 <= i < 2 * K + 2 -> matvec (2 * K) (Amat m) x i = 0%R) -> forall j, 0 <= j < 2 * K -> x j = 0%R.
Proof.
  intros Hm HK H. apply (tri_unique (2 * K) (fun i j => Amat m (i + 2) j) x (fun _ => 0%R)).
  - left. intros i j Hi Hj Hij. apply Amat_shift. lia.
  - intros i Hi. apply Amat_sub; lia.
  - intros i Hi. change (matvec (2 * K) (fun i j => Amat m (i + 2) j) x i) with (matvec (2 * K) (Amat m) x (i + 2)). rewrite H by lia. symmetry. unfold matvec. apply sumZ_zero. intros; ring.
Qed.
(** rows of the conversion matrix on an interleaved vector *)
Lemma Amat_even m K x l : 0 <= l -> matvec (2 * K) (Amat m) x (2 * l) = (matvec K (Bmat m) (fun j => x (2 * j)%Z) l + (if l <? K then IZR m * x (2 * l + 1)%Z else 0))%R.
Proof.
  intros Hl. unfold matvec. rewrite sumZ_pairs. rewrite sumZ_plus. f_equal.
  - apply sumZ_ext. intros j Hj. unfold Amat. replace ((2 * l) mod 2 =? (2 * j) mod 2) with true by lia. replace (2 * l / 2) with l by lia. replace (2 * j / 2) with j by lia. reflexivity.
  - assert (E : forall j, 0 <= j -> Amat m (2 * l) (2 * j + 1) = if l =? j then IZR m else 0%R).
    { intros j Hj. unfold Amat. replace ((2 * l) mod 2 =? (2 * j + 1) mod 2) with false by lia. replace (2 * l / 2) with l by lia. replace ((2 * j + 1) / 2) with j by lia. reflexivity. }
    destruct (l <? K) eqn:EK.
    + rewrite (sumZ_single K l); [|lia|]. * rewrite E by lia. rewrite Z.eqb_refl. reflexivity. * intros j Hj Hne. rewrite E by lia. replace (l =? j) with false by lia. ring.
    + apply sumZ_zero. intros j Hj. rewrite E by lia. replace (l =? j) with false by lia. ring.
Qed.
Lemma Amat_odd m K x l : 0 <= l -> matvec (2 * K) (Amat m) x (2 * l + 1) = (matvec K (Bmat m) (fun j => x (2 * j + 1)%Z) l + (if l <? K then IZR m * x (2 * l)%Z else 0))%R.
Proof.
  intros Hl. unfold matvec. rewrite sumZ_pairs. rewrite sumZ_plus. rewrite Rplus_comm. f_equal.
  - apply sumZ_ext. intros j Hj. unfold Amat. replace ((2 * l + 1) mod 2 =? (2 * j + 1) mod 2) with true by lia. replace ((2 * l + 1) / 2) with l by lia. replace ((2 * j + 1) / 2) with j by lia. reflexivity.
  - assert (E : forall j, 0 <= j -> Amat m (2 * l + 1) (2 * j) = if l =? j then IZR m else 0%R).
    { intros j Hj. unfold Amat. replace ((2 * l + 1) mod 2 =? (2 * j) mod 2) with false by lia. replace ((2 * l + 1) / 2) with l by lia. replace ((2 * j) / 2) with j by lia. reflexivity. }
    destruct (l <? K) eqn:EK.
    + rewrite (sumZ_single K l); [|lia|]. * rewrite E by lia. rewrite Z.eqb_refl. reflexivity. * intros j Hj Hne. rewrite E by lia. replace (l =? j) with false by lia. ring.
    + apply sumZ_zero. intros j Hj. rewrite E by lia. replace (l =? j) with false by lia. ring.
Qed.
Lemma conv_val n m : 1 <= m <= n -> exists A, @sph_helmholtz_hodge_conversion R R_arith n m = Some A /\ bd_ok A /\
  bd_m A = 2 * (n + 1 - m) + 2 /\ bd_n A = 2 * (n + 1 - m) /\ bd_l A = 2 /\ bd_u A = 2 /\
  (forall p q, 0 <= p < 2 * (n + 1 - m) + 2 -> 0 <= q < 2 * (n + 1 - m) -> bd_mat A p q = Amat m p q).
Proof.
  intros Hm. unfold sph_helmholtz_hodge_conversion. replace (2 * n + 4 - 2 * m) with (2 * (n + 1 - m) + 2) by lia. replace (2 * n + 2 - 2 * m) with (2 * (n + 1 - m)) by lia.
  set (K := n + 1 - m). set (C0 := calloc_banded (F:=R) (2 * K + 2) (2 * K) 2 2). assert (OC : bd_ok C0) by (apply calloc_bd_ok; unfold K; lia).
  set (G1 := fun k p q => if (0 <=? q) && (q <? 2 * k) then (if p =? q + 2 then (IZR (m + q / 2) * gg_ m (q / 2))%R else if (p / 2 =? q / 2) && negb (p =? q) then IZR m else 0%R) else 0%R).
  match goal with |- exists T, obind (for_up 0 K ?b _) _ = _ /\ _ =>
  destruct (for_up_max (fun k T => bd_ok T /\ same_shape T C0 /\ forall p q, bG T p q = G1 k p q) 0 K b C0) as [T1 [E1 (O1 & S1 & V1)]] end.
  { split; [exact OC|]. split; [repeat split|]. intros p q. unfold G1. replace (_ && (q <? 2 * 0)) with false by lia.
    pose proof (calloc_bd_get (F:=R) (2 * K + 2) (2 * K) 2 2 p q ltac:(unfold K; lia) ltac:(unfold K; lia) ltac:(lia)) as E. fold C0 in E. rewrite bd_get_val in E by exact OC. injection E as E; exact E. }
  { intros l T Hl (O & Sh & G).
    set (cst := (IZR (m + l) * gg_ m l)%R).
    destruct (bd_set_val T (IZR m) (2 * l + 1) (2 * l) O) as [Ta (Ea & Oa & Sa & _ & Ga)].
    destruct (bd_set_val Ta (IZR m) (2 * l) (2 * l + 1) Oa) as [Tb (Eb & Ob & Sb & _ & Gb)].
    destruct (bd_set_val Tb cst (2 * l + 3) (2 * l + 1) Ob) as [Tc (Ec & Oc & Sc & _ & Gc)].
    destruct (bd_set_val Tc cst (2 * l + 2) (2 * l) Oc) as [Td (Ed & Od & Sd & _ & Gd)].
    cbv zeta. cbn [ofZ R_arith mul sqrtA div]. fold (gg_ m l). rewrite Ea. cbn [obind]. rewrite Eb. cbn [obind]. fold cst. rewrite Ec. cbn [obind]. rewrite Ed.
    exists Td. split; [reflexivity|]. split; [exact Od|].
    destruct Sh as (s1 & s2 & s3 & s4), Sa as (a1 & a2 & a3 & a4), Sb as (b1 & b2 & b3 & b4), Sc as (c1 & c2 & c3 & c4), Sd as (d1 & d2 & d3 & d4).
    split; [repeat split; congruence|]. intros p q. rewrite Gd, Gc, Gb, Ga, G. unfold bd_in.
    rewrite c1, c2, c3, c4, b1, b2, b3, b4, a1, a2, a3, a4, s1, s2, s3, s4. cbn [bd_m bd_n bd_l bd_u calloc_banded C0].
    replace (_ && (p =? 2 * l + 2) && (q =? 2 * l)) with ((p =? 2 * l + 2) && (q =? 2 * l)) by (unfold K in *; lia).
    replace (_ && (p =? 2 * l + 3) && (q =? 2 * l + 1)) with ((p =? 2 * l + 3) && (q =? 2 * l + 1)) by (unfold K in *; lia).
    replace (_ && (p =? 2 * l) && (q =? 2 * l + 1)) with ((p =? 2 * l) && (q =? 2 * l + 1)) by (unfold K in *; lia).
    replace (_ && (p =? 2 * l + 1) && (q =? 2 * l)) with ((p =? 2 * l + 1) && (q =? 2 * l)) by (unfold K in *; lia).
    unfold G1.
    destruct ((p =? 2 * l + 2) && (q =? 2 * l)) eqn:X1.
    { replace (_ && (q <? 2 * (l + 1))) with true by lia. replace (p =? q + 2) with true by lia. replace (q / 2) with l by lia. reflexivity. }
    destruct ((p =? 2 * l + 3) && (q =? 2 * l + 1)) eqn:X2.
    { replace (_ && (q <? 2 * (l + 1))) with true by lia. replace (p =? q + 2) with true by lia. replace (q / 2) with l by lia. reflexivity. }
    destruct ((p =? 2 * l) && (q =? 2 * l + 1)) eqn:X3.
    { replace (_ && (q <? 2 * (l + 1))) with true by lia. replace (p =? q + 2) with false by lia. replace ((p / 2 =? q / 2) && _) with true by lia. reflexivity. }
    destruct ((p =? 2 * l + 1) && (q =? 2 * l)) eqn:X4.
    { replace (_ && (q <? 2 * (l + 1))) with true by lia. replace (p =? q + 2) with false by lia. replace ((p / 2 =? q / 2) && _) with true by lia. reflexivity. }
    destruct (Z_lt_dec q (2 * l)) as [Hq|Hq].
    { replace (q <? 2 * (l + 1)) with true by lia. replace (q <? 2 * l) with true by lia. reflexivity. }
    replace (_ && (q <? 2 * l)) with false by lia. destruct (_ && (q <? 2 * (l + 1))) eqn:X5; [|reflexivity].
    replace (p =? q + 2) with false by lia. replace ((p / 2 =? q / 2) && _) with false by lia. reflexivity. }
  rewrite E1. cbn [obind]. replace (Z.max 0 K) with K in V1 by (unfold K; lia).
  match goal with |- exists T, for_up 0 _ ?b _ = _ /\ _ =>
  destruct (for_up_max (fun k T => bd_ok T /\ same_shape T C0 /\ forall p q, bG T p q = if (0 <=? p) && (p <? 2 * k) && (q =? p + 2) then (- IZR (m + p / 2 + 2) * gg_ m (p / 2))%R else G1 K p q) 0 (n - m) b T1) as [T2 [E2 (O2 & S2 & V2)]] end.
  { split; [auto|]. split; [auto|]. intros p q. replace (_ && (p <? 2 * 0)) with false by lia. apply V1. }
  { intros l T Hl (O & Sh & G). set (cst := (IZR (- (m + l + 2)) * gg_ m l)%R).
    destruct (bd_set_val T cst (2 * l) (2 * l + 2) O) as [Ta (Ea & Oa & Sa & _ & Ga)].
    destruct (bd_set_val Ta cst (2 * l + 1) (2 * l + 3) Oa) as [Tb (Eb & Ob & Sb & _ & Gb)].
    cbv zeta. cbn [ofZ R_arith mul sqrtA div]. fold (gg_ m l). fold cst. rewrite Ea. cbn [obind]. rewrite Eb.
    exists Tb. split; [reflexivity|]. split; [exact Ob|].
    destruct Sh as (s1 & s2 & s3 & s4), Sa as (a1 & a2 & a3 & a4), Sb as (b1 & b2 & b3 & b4).
    split; [repeat split; congruence|]. intros p q. rewrite Gb, Ga, G. unfold bd_in.
    rewrite a1, a2, a3, a4, s1, s2, s3, s4. cbn [bd_m bd_n bd_l bd_u calloc_banded C0].
    replace (_ && (p =? 2 * l + 1) && (q =? 2 * l + 3)) with ((p =? 2 * l + 1) && (q =? 2 * l + 3)) by (unfold K in *; lia).
    replace (_ && (p =? 2 * l) && (q =? 2 * l + 2)) with ((p =? 2 * l) && (q =? 2 * l + 2)) by (unfold K in *; lia).
    assert (EC : cst = (- IZR (m + l + 2) * gg_ m l)%R) by (unfold cst; now rewrite opp_IZR).
    destruct ((p =? 2 * l + 1) && (q =? 2 * l + 3)) eqn:X1.
    { replace (_ && (q =? p + 2)) with true by lia. replace (p / 2) with l by lia. exact EC. }
    destruct ((p =? 2 * l) && (q =? 2 * l + 2)) eqn:X2.
    { replace (_ && (q =? p + 2)) with true by lia. replace (p / 2) with l by lia. exact EC. }
    replace ((0 <=? p) && (p <? 2 * (l + 1)) && (q =? p + 2)) with ((0 <=? p) && (p <? 2 * l) && (q =? p + 2)) by lia. reflexivity. }
  destruct S2 as (s1 & s2 & s3 & s4). cbn [bd_m bd_n bd_l bd_u calloc_banded C0] in s1, s2, s3, s4.
  exists T2. split; [exact E2|]. split; [exact O2|]. split; [exact s1|]. split; [exact s2|]. split; [exact s3|]. split; [exact s4|]. intros p q Hp Hq.
  rewrite <- bG_in by (rewrite ?s1, ?s2; lia). rewrite V2. unfold G1, Amat, Bmat.
  replace (_ && (q <? 2 * K)) with true by lia.
  destruct (p mod 2 =? q mod 2) eqn:EP.
  - destruct (q / 2 =? p / 2 - 1) eqn:X1.
    + replace (_ && (q =? p + 2)) with false by lia. replace (p =? q + 2) with true by lia. reflexivity.
    + destruct (q / 2 =? p / 2 + 1) eqn:X2.
      * replace (_ && (q =? p + 2)) with true by (unfold K in *; lia). f_equal. f_equal. f_equal. lia.
      * replace (_ && (q =? p + 2)) with false by lia. replace (p =? q + 2) with false by lia. replace ((p / 2 =? q / 2) && _) with false by lia. reflexivity.
  - replace (_ && (q =? p + 2)) with false by lia. replace (p =? q + 2) with false by lia. destruct (p / 2 =? q / 2) eqn:X1; [|reflexivity]. replace (negb (p =? q)) with true by lia. reflexivity.
Qed.
(** the plan's factors of the conversion matrix recover an exact solution *)
Definition solver_ok (K m : Z) (Q : @banded_oq R) : Prop :=
  forall X x, 2 * K + 2 <= zlen X -> (forall i, 0 <= i < 2 * K + 2 -> vec 0 X i = matvec (2 * K) (Amat m) x i) ->
  exists X', hh_solve Q X = Some X' /\ zlen X' = zlen X /\ forall i, 0 <= i < 2 * K -> vec 0 X' i = x i.
Lemma solver_val n m : 1 <= m <= n -> exists A Q, sph_helmholtz_hodge_conversion n m = Some A /\ banded_qrfact A = Some Q /\ solver_ok (n + 1 - m) m Q.
Proof.
  intros Hm. destruct (conv_val n m Hm) as (A & EA & OA & MA & NA & LA & UA & VA). set (K := n + 1 - m) in *.
  destruct (C23_qr_proof A OA ltac:(lia) ltac:(lia)) as (Q & EQ & OQ & MQ & NQ & LQ & UQ & Qx & (Or & _) & HS & HB).
  exists A, Q. split; [exact EA|]. split; [exact EQ|]. rewrite MA, NA in *.
  assert (HD : nonzero_diag (2 * K) (bd_mat (bq_factors Q))).
  { intros k Hk. apply (rank_diag (2 * K + 2) (2 * K) Qx (bd_mat (bq_factors Q)) (Amat m)); [unfold K; lia| | |exact Hk].
    - intros i j Hi Hj. rewrite HS by lia. apply VA; lia.
    - intros x Hx. apply (Amat_injective m K x); [lia|unfold K; lia|exact Hx]. }
  intros X x HX Hv. unfold hh_solve. destruct (HB true X 0) as (X1 & E1 & L1 & W1 & _); [split; lia|]. rewrite E1. cbn [obind].
  destruct (brsv_proof (bq_factors Q) false X1 0 OQ ltac:(lia) ltac:(lia)) as (X2 & E2 & L2 & W2 & _); [now rewrite NQ|rewrite NQ; split; lia|].
  rewrite NQ in W2. cbn [op] in W2. exists X2. split; [exact E2|]. split; [lia|].
  apply (tri_unique (2 * K) (upper (bd_mat (bq_factors Q)))).
  - left. intros i j Hi Hj Hij. unfold upper. replace (i <=? j) with false by lia. reflexivity.
  - intros i Hi. unfold upper. rewrite Z.leb_refl. now apply HD.
  - intros i Hi. rewrite <- (W2 i Hi). rewrite (W1 i) by lia. cbn [op]. unfold matvec at 1.
    rewrite (sumZ_ext (2 * K + 2) _ (fun r => sumZ (2 * K) (fun j => transp Qx i r * (Amat m r j * x j)))%R).
    2:{ intros r Hr. rewrite Hv by lia. unfold matvec. now rewrite sumZ_scal. }
    rewrite sumZ_swap. unfold matvec. apply sumZ_ext. intros j Hj.
    rewrite (sumZ_ext (2 * K + 2) _ (fun r => sumZ (2 * K + 2) (fun s => transp Qx i r * Qx r s * (upper (bd_mat (bq_factors Q)) s j * x j)))%R).
    2:{ intros r Hr. rewrite <- VA, <- HS by lia. unfold matmul. rewrite <- sumZ_scal_r. rewrite <- sumZ_scal. apply sumZ_ext. intros; ring. }
    rewrite sumZ_swap. rewrite (sumZ_ext (2 * K + 2) _ (fun s => delta i s * (upper (bd_mat (bq_factors Q)) s j * x j))%R).
    2:{ intros s Hs. rewrite sumZ_scal_r. f_equal. apply (Or i s); lia. }
    rewrite (sumZ_single (2 * K + 2) i); [unfold delta; rewrite Z.eqb_refl; ring|lia|]. intros s Hs Hne. unfold delta. replace (i =? s) with false by lia. ring.
Qed.
