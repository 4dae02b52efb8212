(** * The matrices of the gradient and what they do to series *)
From Coq Require Import ZArith List Lia Bool Reals Lra ZifyBool.
From Verif Require Import Base BaseFacts Arith SpecSum PSum SpecLin MBanded SpecBanded PTri PBand MFactor MGrad SpecIso SpecGeo SpecGrad PGrad1 PGrad2 PGrad3.
Import ListNotations.
Open Scope Z_scope.

Lemma for_up_max {S} (I : Z -> S -> Prop) lo hi body s : I lo s ->
  (forall i s, lo <= i < hi -> I i s -> exists s', body i s = Some s' /\ I (i + 1) s') ->
  exists s', for_up lo hi body s = Some s' /\ I (Z.max lo hi) s'.
Proof.
  intros H0 Hs. destruct (Z_le_dec hi lo) as [H|H].
  - rewrite for_up_nil by lia. exists s. replace (Z.max lo hi) with lo by lia. auto.
  - replace (Z.max lo hi) with hi by lia. apply for_up_inv; auto. lia.
Qed.
Lemma ok_tb_calloc n b : 0 <= n -> 0 <= b -> tb_ok (calloc_tbanded (F:=R) n b). Proof. apply calloc_tb_ok. Qed.

Definition tG (A : tbanded R) (i j : Z) : R := if (0 <=? i) && (j <? tb_n A) then tb_mat A i j else 0%R.
Lemma tb_set_val A v i j : tb_ok A ->
  exists A', tb_set A v i j = Some A' /\ tb_ok A' /\ tb_n A' = tb_n A /\ tb_b A' = tb_b A /\
    forall p q, tG A' p q = if tb_in A i j && (p =? i) && (q =? j) then v else tG A p q.
Proof.
  intros HA. destruct (tb_set_proof A v i j HA) as [A' (E & O & Sn & Sb & G)]. exists A'. repeat (split; [auto|]).
  intros p q. specialize (G p q). rewrite !tb_get_val in G by auto. unfold tG. destruct (_ && _ && _); congruence.
Qed.

Definition Tmat (m p q : Z) : R := if p =? q then tt_ m p else if q =? p + 2 then (- tu_ m p)%R else 0%R.
Definition Bmat (m p q : Z) : R := if q =? p - 1 then (IZR (m + q) * gg_ m q)%R else if q =? p + 1 then (- IZR (m + q + 1) * gg_ m p)%R else 0%R.

Lemma sine_val n m : 1 <= m <= n -> exists T, @sph_sine_multiplication R R_arith n m = Some T /\ tb_ok T /\ tb_n T = n + 1 - m /\
  (forall p q, 0 <= p < n + 1 - m -> 0 <= q < n + 1 - m -> tb_mat T p q = Tmat m p q).
Proof.
  intros Hm. unfold sph_sine_multiplication. set (K := n + 1 - m).
  match goal with |- exists T, obind (for_up 0 K ?b _) _ = _ /\ _ =>
  destruct (for_up_max (fun k T => tb_ok T /\ tb_n T = K /\ tb_b T = 2 /\ forall p q, tG T p q = if (p =? q) && (0 <=? p) && (p <? k) then tt_ m p else 0%R) 0 K b (calloc_tbanded K 2)) as [T1 [E1 (O1 & N1 & B1 & G1)]] end.
  { split; [apply calloc_tb_ok; unfold K; lia|]. split; [reflexivity|]. split; [reflexivity|]. intros p q. replace ((p =? q) && (0 <=? p) && (p <? 0)) with false by lia.
    pose proof (calloc_tb_get (F:=R) K 2 p q ltac:(unfold K; lia) ltac:(lia)) as E. rewrite tb_get_val in E by (apply calloc_tb_ok; unfold K; lia). injection E as E; exact E. }
  { intros l T Hl (O & Nn & Nb & G). destruct (tb_set_val T (sqrtA (div (ofZ ((l + 2 * m - 1) * (l + 2 * m))) (ofZ ((2 * l + 2 * m - 1) * (2 * l + 2 * m + 1))))) l l O) as [T' (E & O' & Nn' & Nb' & G')].
    exists T'. split; [exact E|]. split; [exact O'|]. split; [congruence|]. split; [congruence|]. intros p q. rewrite G', G. unfold tb_in. rewrite Nn, Nb.
    destruct (Z.eqb_spec p l) as [->|Hp].
    - destruct (Z.eqb_spec q l) as [->|Hq]; [replace (_ && true && true) with true by lia; replace (_ && _ && (l <? l + 1)) with true by lia; reflexivity|].
      replace ((l =? q) && (0 <=? l) && (l <? l)) with false by lia. replace ((l =? q) && (0 <=? l) && (l <? l + 1)) with false by lia. rewrite !andb_false_r. reflexivity.
    - replace ((p =? q) && (0 <=? p) && (p <? l + 1)) with ((p =? q) && (0 <=? p) && (p <? l)) by lia. rewrite andb_false_r. reflexivity. }
  rewrite E1. cbn [obind]. replace (Z.max 0 K) with K in G1 by (unfold K; lia).
  match goal with |- exists T, for_up 0 _ ?b _ = _ /\ _ =>
  destruct (for_up_max (fun k T => tb_ok T /\ tb_n T = K /\ tb_b T = 2 /\ forall p q, tG T p q = if (q =? p + 2) && (0 <=? p) && (p <? k) then (- tu_ m p)%R else tG T1 p q) 0 (n - 1 - m) b T1) as [T2 [E2 (O2 & N2 & B2 & G2)]] end.
  { split; [auto|]. split; [auto|]. split; [auto|]. intros p q. replace (_ && (p <? 0)) with false by lia. reflexivity. }
  { intros l T Hl (O & Nn & Nb & G). destruct (tb_set_val T (opp (sqrtA (div (ofZ ((l + 1) * (l + 2))) (ofZ ((2 * l + 2 * m + 1) * (2 * l + 2 * m + 3)))))) l (l + 2) O) as [T' (E & O' & Nn' & Nb' & G')].
    exists T'. split; [exact E|]. split; [exact O'|]. split; [congruence|]. split; [congruence|]. intros p q. rewrite G', G. unfold tb_in. rewrite Nn, Nb.
    destruct (Z.eqb_spec p l) as [->|Hp].
    - destruct (Z.eqb_spec q (l + 2)) as [->|Hq]; [replace (_ && true && true) with true by (unfold K; lia); replace (_ && _ && (l <? l + 1)) with true by lia; reflexivity|].
      cbn [andb]. rewrite !andb_false_r. reflexivity.
    - replace ((q =? p + 2) && (0 <=? p) && (p <? l + 1)) with ((q =? p + 2) && (0 <=? p) && (p <? l)) by lia. rewrite andb_false_r. reflexivity. }
  exists T2. split; [exact E2|]. split; [exact O2|]. split; [exact N2|]. intros p q Hp Hq.
  specialize (G2 p q). rewrite G1 in G2. unfold tG in G2. rewrite N2 in G2. replace ((0 <=? p) && (q <? K)) with true in G2 by (unfold K; lia). rewrite G2. unfold Tmat.
  destruct (Z.eqb_spec p q) as [Epq|Hne].
  - subst q. replace (p =? p + 2) with false by lia. replace (_ && (p <? K)) with true by (unfold K; lia). reflexivity.
  - clear G1. destruct (Z.eqb_spec q (p + 2)) as [Eq|Nq]; [|reflexivity]. replace (_ && (p <? Z.max 0 (n - 1 - m))) with true by lia. reflexivity.
Qed.

Lemma deriv_val n m : 1 <= m <= n -> exists B, @sph_theta_derivative R R_arith n m = Some B /\ bd_ok B /\ bd_m B = n + 1 - m /\ bd_n B = n + 1 - m /\
  (forall p q, 0 <= p < n + 1 - m -> 0 <= q < n + 1 - m -> bd_mat B p q = Bmat m p q).
Proof.
  intros Hm. unfold sph_theta_derivative. set (K := n + 1 - m). assert (OC : bd_ok (calloc_banded (F:=R) K K 1 1)) by (apply calloc_bd_ok; unfold K; lia).
  match goal with |- exists T, obind (for_up 1 K ?b _) _ = _ /\ _ =>
  destruct (for_up_max (fun k T => bd_ok T /\ same_shape T (calloc_banded (F:=R) K K 1 1) /\ forall p q, bG T p q = if (q =? p - 1) && (1 <=? p) && (p <? k) then (IZR (m + q) * gg_ m q)%R else 0%R) 1 K b (calloc_banded K K 1 1)) as [T1 [E1 (O1 & S1 & G1)]] end.
  { split; [exact OC|]. split; [repeat split|]. intros p q. replace (_ && (p <? 1)) with false by lia.
    pose proof (calloc_bd_get (F:=R) K K 1 1 p q ltac:(unfold K; lia) ltac:(unfold K; lia) ltac:(lia)) as E. rewrite bd_get_val in E by exact OC. injection E as E; exact E. }
  { intros l T Hl (O & Sh & G). destruct (bd_set_val T (mul (ofZ (l + m - 1)) (sqrtA (div (ofZ (l * (l + 2 * m))) (ofZ ((2 * l + 2 * m - 1) * (2 * l + 2 * m + 1)))))) l (l - 1) O) as [T' (E & O' & Sh' & _ & G')].
    exists T'. split; [exact E|]. split; [exact O'|]. destruct Sh as (s1 & s2 & s3 & s4), Sh' as (s1' & s2' & s3' & s4'). split; [repeat split; congruence|]. intros p q. rewrite G', G. unfold bd_in. rewrite s1, s2, s3, s4. cbn [bd_m bd_n bd_l bd_u calloc_banded].
    destruct (Z.eqb_spec p l) as [->|Hp].
    - destruct (Z.eqb_spec q (l - 1)) as [->|Hq]; [|cbn [andb]; rewrite !andb_false_r; reflexivity].
      replace (_ && true && true) with true by (unfold K; lia). replace (_ && _ && (l <? l + 1)) with true by lia. cbn [mul R_arith ofZ sqrtA div]. unfold gg_. f_equal; [f_equal; lia|]. f_equal. f_equal; f_equal; lia.
    - replace (_ && (p <? l + 1)) with ((q =? p - 1) && (1 <=? p) && (p <? l)) by lia. rewrite andb_false_r. reflexivity. }
  rewrite E1. cbn [obind]. replace (Z.max 1 K) with K in G1 by (unfold K; lia).
  match goal with |- exists T, for_up 0 _ ?b _ = _ /\ _ =>
  destruct (for_up_max (fun k T => bd_ok T /\ same_shape T (calloc_banded (F:=R) K K 1 1) /\ forall p q, bG T p q = if (q =? p + 1) && (0 <=? p) && (p <? k) then (- IZR (m + q + 1) * gg_ m p)%R else bG T1 p q) 0 (n - m) b T1) as [T2 [E2 (O2 & S2 & G2)]] end.
  { split; [auto|]. split; [auto|]. intros p q. replace (_ && (p <? 0)) with false by lia. reflexivity. }
  { intros l T Hl (O & Sh & G). destruct (bd_set_val T (mul (ofZ (- (l + m + 2))) (sqrtA (div (ofZ ((l + 1) * (l + 2 * m + 1))) (ofZ ((2 * l + 2 * m + 1) * (2 * l + 2 * m + 3)))))) l (l + 1) O) as [T' (E & O' & Sh' & _ & G')].
    exists T'. split; [exact E|]. split; [exact O'|]. destruct Sh as (s1 & s2 & s3 & s4), Sh' as (s1' & s2' & s3' & s4'). split; [repeat split; congruence|]. intros p q. rewrite G', G. unfold bd_in. rewrite s1, s2, s3, s4. cbn [bd_m bd_n bd_l bd_u calloc_banded].
    destruct (Z.eqb_spec p l) as [->|Hp].
    - destruct (Z.eqb_spec q (l + 1)) as [->|Hq]; [|cbn [andb]; rewrite !andb_false_r; reflexivity].
      replace (_ && true && true) with true by (unfold K; lia). replace (_ && _ && (l <? l + 1)) with true by lia. cbn [mul R_arith ofZ sqrtA div]. unfold gg_. rewrite <- opp_IZR. f_equal. f_equal. lia.
    - replace (_ && (p <? l + 1)) with ((q =? p + 1) && (0 <=? p) && (p <? l)) by lia. rewrite andb_false_r. reflexivity. }
  destruct S2 as (s1 & s2 & s3 & s4). cbn [bd_m bd_n calloc_banded] in s1, s2.
  exists T2. split; [exact E2|]. split; [exact O2|]. split; [exact s1|]. split; [exact s2|]. intros p q Hp Hq.
  rewrite <- bG_in by (rewrite ?s1, ?s2; lia). rewrite G2, G1. unfold Bmat.
  destruct (Z.eqb_spec q (p - 1)) as [Eq|Nq].
  - replace (_ && (p <? Z.max 0 (n - m))) with false by lia. replace (_ && (p <? K)) with true by (unfold K; lia). reflexivity.
  - destruct (Z.eqb_spec q (p + 1)) as [Eq|Nq2]; [|reflexivity]. replace (_ && (p <? Z.max 0 (n - m))) with true by (unfold K in *; lia). reflexivity.
Qed.
Lemma Tmat_diag m K : 1 <= m -> forall i, 0 <= i < K -> Tmat m i i <> 0%R.
Proof. intros Hm i Hi. unfold Tmat. rewrite Z.eqb_refl. unfold tt_. apply Rgt_not_eq, sqrt_lt_R0. apply tt_arg_pos; lia. Qed.

(** ** columns of the matrices *)
Lemma sumZ_two K a b f : 0 <= a < K -> 0 <= b < K -> a <> b -> (forall i, 0 <= i < K -> i <> a -> i <> b -> f i = 0%R) -> sumZ K f = (f a + f b)%R.
Proof.
  intros Ha Hb Hab H. rewrite (sumZ_pick K a) by lia. f_equal. rewrite (sumZ_single K b); [|lia|intros i Hi Hne; destruct (Z.eqb_spec i a); [reflexivity|apply H; lia]].
  replace (b =? a) with false by lia. reflexivity.
Qed.
Lemma sine_col m k K t : 1 <= m -> 0 <= k < K -> (sin t * vsphP m k t)%R = sumZ K (fun p => Tmat m p k * sphP m p t)%R.
Proof.
  intros Hm Hk. rewrite sine_prod by lia. destruct (k <? 2) eqn:E.
  - rewrite (sumZ_single K k); [unfold Tmat; rewrite Z.eqb_refl; ring|lia|]. intros i Hi Hne. unfold Tmat. replace (i =? k) with false by lia. replace (k =? i + 2) with false by lia. ring.
  - rewrite (sumZ_two K k (k - 2)); [|lia|lia|lia|].
    + unfold Tmat. rewrite Z.eqb_refl. replace (k - 2 =? k) with false by lia. replace (k =? k - 2 + 2) with true by lia. ring.
    + intros i Hi H1 H2. unfold Tmat. replace (i =? k) with false by lia. replace (k =? i + 2) with false by lia. ring.
Qed.
Lemma deriv_col m k K t : 1 <= m -> 0 <= k -> k + 1 < K -> (sin t * dsphP m k t)%R = sumZ K (fun p => Bmat m p k * sphP m p t)%R.
Proof.
  intros Hm Hk HK. rewrite theta_der by lia. destruct (k <? 1) eqn:E.
  - rewrite (sumZ_single K (k + 1)); [unfold Bmat; replace (k =? k + 1 - 1) with true by lia; ring|lia|]. intros i Hi Hne. unfold Bmat. replace (k =? i - 1) with false by lia. replace (k =? i + 1) with false by lia. ring.
  - rewrite (sumZ_two K (k + 1) (k - 1)); [|lia|lia|lia|].
    + unfold Bmat. replace (k =? k + 1 - 1) with true by lia. replace (k =? k - 1 - 1) with false by lia. replace (k =? k - 1 + 1) with true by lia. ring.
    + intros i Hi H1 H2. unfold Bmat. replace (k =? i - 1) with false by lia. replace (k =? i + 1) with false by lia. ring.
Qed.
(** if T w = v then sin times the vector series of w is the scalar series of v *)
Lemma col_T m K w v t : 1 <= m -> isprod K (Tmat m) w v -> (sin t * sumZ K (fun k => vsphP m k t * w k))%R = sumZ K (fun p => sphP m p t * v p)%R.
Proof.
  intros Hm H. rewrite <- sumZ_scal. rewrite (sumZ_ext K _ (fun k => sumZ K (fun p => Tmat m p k * sphP m p t * w k)%R)).
  2:{ intros k Hk. rewrite sumZ_scal_r, <- (sine_col m k K t) by lia. ring. }
  rewrite sumZ_swap. apply sumZ_ext. intros p Hp. rewrite (H p Hp). unfold matvec. rewrite <- sumZ_scal. apply sumZ_ext. intros. ring.
Qed.
Lemma col_B m K x v t : 1 <= m -> 1 <= K -> x (K - 1) = 0%R -> isprod K (Bmat m) x v -> (sin t * sumZ (K - 1) (fun k => dsphP m k t * x k))%R = sumZ K (fun p => sphP m p t * v p)%R.
Proof.
  intros Hm HK Hx H. rewrite <- sumZ_scal. rewrite (sumZ_ext (K - 1) _ (fun k => sumZ K (fun p => Bmat m p k * sphP m p t * x k)%R)).
  2:{ intros k Hk. rewrite sumZ_scal_r, <- (deriv_col m k K t) by lia. ring. }
  transitivity (sumZ K (fun k => sumZ K (fun p => (Bmat m p k * sphP m p t * x k)%R))).
  { symmetry. rewrite (sumZ_split K (K - 1) (fun k => sumZ K _)) by lia. rewrite (sumZ_zero (K - (K - 1))); [ring|].
    intros i Hi. replace (K - 1 + i) with (K - 1) by lia. apply sumZ_zero. intros p Hp. rewrite Hx. ring. }
  rewrite sumZ_swap. apply sumZ_ext. intros p Hp. rewrite (H p Hp). unfold matvec. rewrite <- sumZ_scal. apply sumZ_ext. intros. ring.
Qed.
