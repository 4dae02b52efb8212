(** * Proofs about the eigenvectors of triangular banded pencils *)
From Coq Require Import ZArith List Lia Bool Reals Lra ZifyBool ZifyNat.
From Verif Require Import Arith Base BaseFacts SpecSum PSum SpecLin SpecBanded PTri MBanded MEig.
Import ListNotations.
Open Scope Z_scope.

(** ** One column: back substitution with an inexact division *)
Definition after (n i : Z) (f : Z -> R) : R := sumZ n (fun k => if i <? k then f k else 0%R).
Lemma after_ext n i f g : (forall k, i < k < n -> 0 <= k -> f k = g k) -> after n i f = after n i g.
Proof. intros H. unfold after. apply sumZ_ext. intros k Hk. destruct (Z.ltb_spec i k); [apply H; lia|reflexivity]. Qed.
Section Column.
Variables (n j o : Z) (M K : Z -> Z -> R) (c : R) (body : Z -> list R -> option (list R)).
Definition tail_ok (V : list R) (i : Z) (r : R) : Prop :=
  (Rabs (M i i * r + after n i (fun k => M i k * vec o V k)) <= c * after n i (fun k => K i k * Rabs (vec o V k)))%R.
Hypothesis Hb : forall V i, 0 <= i < j -> 0 <= o -> o + n <= zlen V -> exists r, body i V = Some (zupd V (o + i) r) /\ tail_ok V i r.

Lemma column_spec V : 0 <= j -> j <= n -> 0 <= o -> o + n <= zlen V ->
  exists V', for_dn (j - 1) 0 body V = Some V' /\ zlen V' = zlen V /\
    (forall p, p < o \/ o + j <= p -> zget V' p = zget V p) /\
    (forall i, 0 <= i < j -> tail_ok V' i (vec o V' i)).
Proof.
  intros Hj Hjn Ho HV.
  destruct (for_dn_inv (fun i V1 => zlen V1 = zlen V /\ (forall p, p < o \/ o + j <= p -> zget V1 p = zget V p) /\ (forall q, i < q < j -> 0 <= q -> tail_ok V1 q (vec o V1 q)))
    (j - 1) 0 body V) as [V' [E (L & O & G)]].
  - lia.
  - split; [auto|split; [auto|]]. intros q H1 H2. exfalso. lia.
  - intros i V1 Hi (L & O & G). destruct (Hb V1 i ltac:(lia) Ho ltac:(lia)) as (r & E & T). rewrite E. eexists; split; [reflexivity|].
    split; [now rewrite zlen_zupd|]. split; [intros p Hp; rewrite zget_zupd_other by lia; apply O; lia|].
    assert (X : forall k, i < k -> 0 <= k -> vec o (zupd V1 (o + i) r) k = vec o V1 k) by (intros; unfold vec; apply nthZ_zupd_other; lia).
    assert (TE : forall q s, i <= q -> 0 <= q -> tail_ok V1 q s -> tail_ok (zupd V1 (o + i) r) q s).
    { intros q s Hq1 Hq2 HT. unfold tail_ok in *. rewrite (after_ext n q (fun k => M q k * vec o (zupd V1 (o + i) r) k)%R (fun k => M q k * vec o V1 k)%R),
        (after_ext n q (fun k => K q k * Rabs (vec o (zupd V1 (o + i) r) k))%R (fun k => K q k * Rabs (vec o V1 k))%R); auto; intros; rewrite X by lia; reflexivity. }
    intros q Hq Hq0. destruct (Z.eq_dec q i) as [->|].
    + replace (vec o (zupd V1 (o + i) r) i) with r; [apply TE; auto; lia|]. unfold vec. symmetry. apply nthZ_zupd_same. lia.
    + rewrite X by lia. apply TE; [lia|lia|]. apply G; lia.
  - exists V'. split; auto. split; auto. split; auto. intros i Hi. apply G; lia.
Qed.
End Column.

Lemma after_split n i f : 0 <= i < n -> sumZ n (fun k => if k <? i then 0%R else f k) = (f i + after n i f)%R.
Proof.
  intros Hi. rewrite (sumZ_pick n i) by auto. rewrite Z.ltb_irrefl. unfold after. f_equal. apply sumZ_ext. intros k Hk.
  destruct (Z.eqb_spec k i) as [->|]; [now rewrite Z.ltb_irrefl|]. destruct (Z.ltb_spec k i), (Z.ltb_spec i k); auto; lia.
Qed.
(** the sum over the band *)
Lemma after_band n i hi f : 0 <= i -> i + 1 <= hi <= n -> (forall k, hi <= k < n -> f k = 0%R) -> after n i f = sumZ (hi - (i + 1)) (fun q => f (i + 1 + q)).
Proof.
  intros Hi Hh Hz. unfold after. rewrite (sumZ_split n (i + 1)) by lia. rewrite sumZ_zero.
  2:{ intros k Hk. destruct (Z.ltb_spec i k); auto; lia. }
  rewrite (sumZ_split (n - (i + 1)) (hi - (i + 1))) by lia.
  rewrite (sumZ_zero (n - (i + 1) - (hi - (i + 1)))).
  2:{ intros k Hk. destruct (Z.ltb_spec i (i + 1 + (hi - (i + 1) + k))); auto. apply Hz. lia. }
  rewrite Rplus_0_l, Rplus_0_r. apply sumZ_ext. intros k Hk. destruct (Z.ltb_spec i (i + 1 + k)); auto; lia.
Qed.

(** accumulate two sums *)
Lemma pair_loop lo hi (f g : Z -> R) (body : Z -> R * R -> option (R * R)) : lo <= hi ->
  (forall k t s, lo <= k < hi -> body k (t, s) = Some (t + f k, s + g k)%R) ->
  for_up lo hi body (0, 0)%R = Some (sumZ (hi - lo) (fun q => f (lo + q)), sumZ (hi - lo) (fun q => g (lo + q))).
Proof.
  intros Hl Hb. destruct (for_up_inv (fun k s => s = (sumZ (k - lo) (fun q => f (lo + q)), sumZ (k - lo) (fun q => g (lo + q)))) lo hi body (0, 0)%R) as [s [E ->]]; auto.
  - now rewrite !sumZ_0 by lia.
  - intros k s Hk ->. rewrite Hb by lia. eexists; split; [reflexivity|].
    replace (k + 1 - lo) with (k - lo + 1) by lia. rewrite !sumZ_S by lia. now replace (lo + (k - lo)) with k by lia.
Qed.

Lemma qget n (T : tbanded R) i k : tb_ok T -> tb_n T = n -> 0 <= i -> k < n -> tb_get T i k = Some (tb_mat T i k).
Proof. intros HT E Hi Hk. rewrite tb_get_val by auto. rewrite E. now replace ((0 <=? i) && (k <? n)) with true by lia. Qed.
Lemma outB (B : tbanded R) i k : i + tb_b B < k -> tb_mat B i k = 0%R.
Proof. intros. unfold tb_mat. now replace ((0 <=? k - i) && (k - i <=? tb_b B)) with false by lia. Qed.
Lemma lowB (B : tbanded R) i k : k < i -> tb_mat B i k = 0%R.
Proof. intros. unfold tb_mat. now replace ((0 <=? k - i) && (k - i <=? tb_b B)) with false by lia. Qed.

Section Lin.
Variables (A B : tbanded R) (eps : R).
Let n := tb_n A.
Hypothesis HA : tb_ok A.
Hypothesis HB : tb_ok B.
Hypothesis Hn : tb_n B = n.
Hypothesis Heps : (0 <= eps)%R.
Definition eigval (j : Z) : R := (tb_mat A j j / tb_mat B j j)%R.
Definition pencil (j i k : Z) : R := (tb_mat A i k - eigval j * tb_mat B i k)%R.
Definition magnitude (j i k : Z) : R := (Rabs (tb_mat A i k) + Rabs (eigval j * tb_mat B i k))%R.
Hypothesis Hsep : forall i j, 0 <= i < j -> j < n -> (tb_mat A i i <> eigval j * tb_mat B i i)%R /\
  (4 * (Rabs (eigval j * tb_mat B i i) + Rabs (tb_mat A i i)) * eps <= Rabs (eigval j * tb_mat B i i - tb_mat A i i))%R.

Lemma eigentry_spec o j V i : 0 <= i < j -> j < n -> 0 <= o -> o + n <= zlen V ->
  exists r, eigentry eps A B n (Z.max (tb_b A) (tb_b B)) (eigval j) V o i = Some (zupd V (o + i) r) /\
    tail_ok n o (pencil j) (magnitude j) (4 * eps) V i r.
Proof.
  intros Hi Hj Ho HV. destruct HA as (_ & HbA & _). destruct HB as (_ & HbB & _). unfold eigentry, eigrow.
  set (hi := Z.min (i + Z.max (tb_b A) (tb_b B) + 1) n).
  assert (Hh : i + 1 <= hi <= n) by lia.
  rewrite (pair_loop (i + 1) hi (fun k => pencil j i k * vec o V k)%R (fun k => magnitude j i k * Rabs (vec o V k))%R) by
    (try lia; intros k t s Hk; rewrite !(qget n) by (auto; lia); cbn [obind]; rewrite (zget_nthZ 0%R) by lia; reflexivity).
  cbn [obind]. rewrite !(qget n) by (auto; lia). cbn [obind].
  rewrite <- (after_band n i hi (fun k => pencil j i k * vec o V k)%R), <- (after_band n i hi (fun k => magnitude j i k * Rabs (vec o V k))%R); try lia.
  2-3: intros k Hk; unfold pencil, magnitude; rewrite !outB by lia; rewrite ?Rmult_0_r, ?Rabs_R0; lra.
  set (t := after _ _ _). set (kt := after _ _ _).
  destruct (Hsep i j Hi ltac:(lia)) as [H1 H2]. cbn [mul sub add absA ltb ofZ zero div R_arith].
  unfold R_ltb at 1. destruct (Rlt_dec _ _) as [Hl|_]; [exfalso; lra|]. cbn [orb].
  rewrite !zset_some by lia. unfold R_ltb. destruct (Rlt_dec _ _) as [Hl|_].
  - exists 0%R. split; auto. unfold tail_ok. fold t kt. rewrite Rmult_0_r, Rplus_0_l. lra.
  - eexists; split; [reflexivity|]. unfold tail_ok. fold t kt.
    replace (pencil j i i * (t / (eigval j * tb_mat B i i - tb_mat A i i)) + t)%R with 0%R.
    + rewrite Rabs_R0.
      assert (0 <= kt)%R; [|nra].
      unfold kt, after. apply sumZ_pos. intros k Hk. destruct (i <? k); [|lra]. unfold magnitude.
      pose proof (Rabs_pos (tb_mat A i k)). pose proof (Rabs_pos (eigval j * tb_mat B i k)). pose proof (Rabs_pos (vec o V k)). nra.
    + unfold pencil. field. lra.
Qed.
End Lin.

(** ** All columns, for any family of pencils M j that vanish below the diagonal and at (j,j) *)
Section Gen.
Variables (n : Z) (M K : Z -> Z -> Z -> R) (c : R) (col : Z -> list R -> option (list R)).
Hypothesis Hn0 : 0 <= n.
Hypothesis Hc : (0 <= c)%R.
Hypothesis HK : forall j i k, (0 <= K j i k)%R.
Hypothesis HM : forall j i k, 0 <= j < n -> k < i -> M j i k = 0%R.
Hypothesis HMd : forall j, 0 <= j < n -> M j j j = 0%R.
Hypothesis Hcol : forall j V, 1 <= j < n -> n * n <= zlen V ->
  exists V', col j V = Some V' /\ zlen V' = zlen V /\ (forall p, p < j * n \/ j * n + j <= p -> zget V' p = zget V p) /\
    (forall i, 0 <= i < j -> tail_ok n (j * n) (M j) (K j) c V' i (vec (j * n) V' i)).
Lemma columns_spec V : n * n <= zlen V -> (forall i j, 0 <= j < i -> i < n -> mat 0 n V i j = 0%R) ->
  exists V', for_up 1 n col V = Some V' /\ zlen V' = zlen V /\
    (forall i j, 0 <= i < n -> 0 <= j <= i -> mat 0 n V' i j = mat 0 n V i j) /\
    (forall p, n * n <= p -> zget V' p = zget V p) /\
    (forall i j, 0 <= i < n -> 0 <= j < n ->
      (Rabs (sumZ n (fun k => M j i k * mat 0 n V' k j)) <= c * sumZ n (fun k => K j i k * Rabs (mat 0 n V' k j)))%R).
Proof.
  intros HV Hlow.
  pose (I := fun j0 V1 => zlen V1 = zlen V /\ (forall p, n * n <= p -> zget V1 p = zget V p) /\
    (forall i j, 0 <= i < n -> 0 <= j < n -> j <= i \/ j0 <= j -> mat 0 n V1 i j = mat 0 n V i j) /\
    (forall i j, 0 <= i < j -> j < j0 -> j < n -> tail_ok n (j * n) (M j) (K j) c V1 i (vec (j * n) V1 i))).
  assert (HI : exists V', for_up 1 n col V = Some V' /\ I n V').
  { destruct (Z_le_dec n 1).
    - rewrite for_up_nil by lia. exists V. split; auto. split; auto. split; auto. split; auto. intros; lia.
    - apply for_up_inv; [lia| |].
      + split; auto. split; auto. split; auto. intros; lia.
      + intros j V1 Hj (L & O & P & T).
        assert (Hjn : 0 <= j * n) by nia. assert (Hjn2 : j * n + n <= n * n) by nia.
        destruct (Hcol j V1 Hj ltac:(lia)) as (V2 & E & L2 & O2 & T2).
        exists V2. split; auto. split; [lia|]. split; [intros p Hp; rewrite O2 by lia; now apply O|]. split.
        * intros i j' Hi Hj' Hcc. rewrite <- P by lia. unfold mat, nthZ. rewrite O2; auto.
          destruct (Z.eq_dec j' j) as [->|]; [lia|]. destruct (Z_lt_dec j' j); [left|right]; nia.
        * intros i j' Hi Hj' Hjn3. destruct (Z.eq_dec j' j) as [->|]; [now apply T2|].
          assert (X : forall k, 0 <= k < n -> vec (j' * n) V2 k = vec (j' * n) V1 k) by (intros k Hk; unfold vec, nthZ; rewrite O2; auto; left; nia).
          specialize (T i j' Hi ltac:(lia) Hjn3). unfold tail_ok in *. rewrite X by lia.
          rewrite (after_ext n i (fun k => M j' i k * vec (j' * n) V2 k)%R (fun k => M j' i k * vec (j' * n) V1 k)%R),
            (after_ext n i (fun k => K j' i k * Rabs (vec (j' * n) V2 k))%R (fun k => K j' i k * Rabs (vec (j' * n) V1 k))%R); auto; intros; rewrite X by lia; reflexivity. }
  destruct HI as (V' & E & L & O & P & T). exists V'. split; auto. split; auto. split; [intros i j Hi Hj; apply P; lia|]. split; auto.
  intros i j Hi Hj.
  assert (SK : (0 <= sumZ n (fun k => if k <? i then K j i k * Rabs (mat 0 n V' k j) else 0))%R).
  { apply sumZ_pos. intros k Hk. destruct (k <? i); [|lra]. apply Rmult_le_pos; auto using Rabs_pos. }
  assert (S1 : (sumZ n (fun k => if k <? i then 0 else K j i k * Rabs (mat 0 n V' k j)) <= sumZ n (fun k => K j i k * Rabs (mat 0 n V' k j)))%R).
  { replace (sumZ n (fun k => K j i k * Rabs (mat 0 n V' k j))%R) with
      (sumZ n (fun k => if k <? i then K j i k * Rabs (mat 0 n V' k j) else 0) + sumZ n (fun k => if k <? i then 0 else K j i k * Rabs (mat 0 n V' k j)))%R; [lra|].
    rewrite <- sumZ_plus. apply sumZ_ext. intros k Hk. destruct (k <? i); lra. }
  eapply Rle_trans; [|apply Rmult_le_compat_l; [exact Hc|exact S1]].
  rewrite (sumZ_ext n _ (fun k => if k <? i then 0%R else (M j i k * mat 0 n V' k j)%R)).
  2:{ intros k Hk. destruct (Z.ltb_spec k i); [rewrite HM by lia; lra|]. reflexivity. }
  rewrite !after_split by auto.
  assert (MV : forall k, mat 0 n V' k j = vec (j * n) V' k) by (intros; unfold mat, vec; f_equal; lia).
  assert (Mag : (0 <= K j i i * Rabs (mat 0 n V' i j))%R) by (apply Rmult_le_pos; auto using Rabs_pos).
  destruct (Z_lt_dec i j) as [Hlt|Hge].
  - specialize (T i j ltac:(lia) ltac:(lia) ltac:(lia)). unfold tail_ok in T. rewrite <- MV in T.
    rewrite (after_ext n i (fun k => M j i k * mat 0 n V' k j)%R (fun k => M j i k * vec (j * n) V' k)%R) by (intros; now rewrite MV).
    rewrite (after_ext n i (fun k => K j i k * Rabs (mat 0 n V' k j))%R (fun k => K j i k * Rabs (vec (j * n) V' k))%R) by (intros; now rewrite MV).
    nra.
  - assert (Z0 : forall k, j < k < n -> mat 0 n V' k j = 0%R) by (intros k Hk; rewrite P by lia; apply Hlow; lia).
    rewrite (after_ext n i (fun k => M j i k * mat 0 n V' k j)%R (fun _ => 0%R)) by (intros; rewrite Z0 by lia; lra).
    rewrite (after_ext n i (fun k => K j i k * Rabs (mat 0 n V' k j))%R (fun _ => 0%R)) by (intros; rewrite Z0, Rabs_R0 by lia; lra).
    unfold after. rewrite (sumZ_zero n (fun k => if i <? k then 0%R else 0%R)) by (intros; destruct (_ <? _); auto).
    replace (M j i i * mat 0 n V' i j)%R with 0%R; [rewrite Rplus_0_r, Rabs_R0; nra|].
    destruct (Z.eq_dec i j) as [->|]; [|rewrite Z0 by lia; lra]. rewrite HMd by lia. lra.
Qed.
End Gen.

Section Lin2.
Variables (A B : tbanded R) (eps : R).
Let n := tb_n A.
Hypothesis HA : tb_ok A.
Hypothesis HB : tb_ok B.
Hypothesis Hn : tb_n B = n.
Hypothesis Heps : (0 <= eps)%R.
Notation eigval := (eigval A B).
Hypothesis Hsep : forall i j, 0 <= i < j -> j < n -> (tb_mat A i i <> eigval j * tb_mat B i i)%R /\
  (4 * (Rabs (eigval j * tb_mat B i i) + Rabs (tb_mat A i i)) * eps <= Rabs (eigval j * tb_mat B i i - tb_mat A i i))%R.
Hypothesis Hd : nonzero_diag n (tb_mat B).
Lemma eigenvectors_spec V : n * n <= zlen V -> (forall i j, 0 <= j < i -> i < n -> mat 0 n V i j = 0%R) ->
  exists V', triangular_banded_eigenvectors eps A B V = Some V' /\ zlen V' = zlen V /\
    (forall i j, 0 <= i < n -> 0 <= j <= i -> mat 0 n V' i j = mat 0 n V i j) /\
    (forall p, n * n <= p -> zget V' p = zget V p) /\
    (forall i j, 0 <= i < n -> 0 <= j < n ->
      (Rabs (matmul n (tb_mat A) (mat 0 n V') i j - matmul n (tb_mat B) (mat 0 n V') i j * eigval j)
       <= 4 * eps * sumZ n (fun k => (Rabs (tb_mat A i k) + Rabs (eigval j * tb_mat B i k)) * Rabs (mat 0 n V' k j)))%R).
Proof.
  intros HV Hlow. pose proof HA as (Hn0 & _). fold n in Hn0. unfold triangular_banded_eigenvectors. fold n.
  destruct (columns_spec n (pencil A B) (magnitude A B) (4 * eps) (fun j V => do a <- tb_get A j j; do c <- tb_get B j j;
    let lam := div a c in for_dn (j - 1) 0 (fun i V => eigentry eps A B n (Z.max (tb_b A) (tb_b B)) lam V (j * n) i) V)) with (V := V)
    as (V' & E & L & P & O & T); auto; try lra.
  - intros j i k. unfold magnitude. pose proof (Rabs_pos (tb_mat A i k)). pose proof (Rabs_pos (eigval j * tb_mat B i k)). lra.
  - intros j i k Hj Hk. unfold pencil. rewrite (lowB A), (lowB B) by lia. lra.
  - intros j Hj. unfold pencil, PEig.eigval. field. now apply Hd.
  - intros j V1 Hj HV1. rewrite !(qget n) by (auto; lia). cbn [obind]. cbn zeta. change (div (tb_mat A j j) (tb_mat B j j)) with (eigval j).
    assert (Hjn : 0 <= j * n) by nia. assert (Hjn2 : j * n + n <= n * n) by nia.
    apply column_spec; try lia. intros V3 i Hi Ho HV3. apply eigentry_spec; auto; lia.
  - exists V'. split; auto. split; auto. split; auto. split; auto. intros i j Hi Hj. specialize (T i j Hi Hj).
    unfold matmul. rewrite <- sumZ_scal_r, <- sumZ_minus.
    erewrite sumZ_ext; [exact T|]. intros k Hk. cbv beta. unfold pencil. lra.
Qed.
End Lin2.

Section Quad.
Variables (A B C : tbanded R) (eps : R).
Let n := tb_n A.
Hypothesis HA : tb_ok A.
Hypothesis HB : tb_ok B.
Hypothesis HC : tb_ok C.
Hypothesis HnB : tb_n B = n.
Hypothesis HnC : tb_n C = n.
Hypothesis Heps : (0 <= eps)%R.
Definition qeigval (j : Z) : R := quadratic_root (tb_mat A j j) (tb_mat B j j) (tb_mat C j j).
Definition qpencil (j i k : Z) : R := (tb_mat A i k + qeigval j * tb_mat B i k - qeigval j * qeigval j * tb_mat C i k)%R.
Definition qmagnitude (j i k : Z) : R :=
  (Rabs (tb_mat A i k) + Rabs (qeigval j) * (Rabs (tb_mat B i k) + Rabs (qeigval j) * Rabs (tb_mat C i k)))%R.
Hypothesis Hsep : forall i j, 0 <= i < j -> j < n -> qpencil j i i <> 0%R.
Hypothesis Hroot : forall j, 0 <= j < n -> tb_mat C j j <> 0%R /\ (0 <= tb_mat B j j * tb_mat B j j + 4 * tb_mat A j j * tb_mat C j j)%R.
Lemma qmag_pos j i k : (0 <= qmagnitude j i k)%R.
Proof.
  unfold qmagnitude. pose proof (Rabs_pos (tb_mat A i k)). pose proof (Rabs_pos (tb_mat B i k)). pose proof (Rabs_pos (tb_mat C i k)). pose proof (Rabs_pos (qeigval j)).
  assert (0 <= Rabs (qeigval j) * Rabs (tb_mat C i k))%R by nra. nra.
Qed.
Lemma qroot_spec j : 0 <= j < n -> qpencil j j j = 0%R.
Proof.
  intros Hj. destruct (Hroot j Hj) as [H1 H2]. unfold qpencil, qeigval, quadratic_root. cbn [div add mul ofZ sqrtA R_arith].
  set (a := tb_mat A j j) in *. set (b := tb_mat B j j) in *. set (c := tb_mat C j j) in *.
  pose proof (sqrt_sqrt _ H2) as Hs. set (s := sqrt _) in *.
  replace (a + (b + s) / (2 * c) * b - (b + s) / (2 * c) * ((b + s) / (2 * c)) * c)%R with ((b * b + 4 * a * c - s * s) / (4 * c))%R by (field; auto).
  rewrite Hs. field. auto.
Qed.
Lemma qeigentry_spec o j V i : 0 <= i < j -> j < n -> 0 <= o -> o + n <= zlen V ->
  exists r, qeigentry eps A B C n (Z.max (Z.max (tb_b A) (tb_b B)) (tb_b C)) (qeigval j) V o i = Some (zupd V (o + i) r) /\
    tail_ok n o (qpencil j) (qmagnitude j) (4 * eps) V i r.
Proof.
  intros Hi Hj Ho HV. pose proof HA as (_ & HbA & _). pose proof HB as (_ & HbB & _). pose proof HC as (_ & HbC & _). unfold qeigentry, qeigrow.
  set (hi := Z.min (i + Z.max (Z.max (tb_b A) (tb_b B)) (tb_b C) + 1) n).
  assert (Hh : i + 1 <= hi <= n) by lia.
  rewrite (pair_loop (i + 1) hi (fun k => qpencil j i k * vec o V k)%R (fun k => qmagnitude j i k * Rabs (vec o V k))%R); [|lia|].
  2:{ intros k t s Hk. rewrite !(qget n) by (auto; lia). cbn [obind]. rewrite (zget_nthZ 0%R) by lia. cbn [obind add mul sub absA R_arith]. do 2 f_equal.
      - unfold qpencil, vec. lra.
      - unfold qmagnitude, vec. rewrite Rabs_mult, (Rabs_mult (qeigval j)), (Rabs_right (_ + _)); [lra|].
        pose proof (Rabs_pos (tb_mat B i k)). pose proof (Rabs_pos (tb_mat C i k)). pose proof (Rabs_pos (qeigval j)). nra. }
  cbn [obind]. rewrite !(qget n) by (auto; lia). cbn [obind].
  rewrite <- (after_band n i hi (fun k => qpencil j i k * vec o V k)%R), <- (after_band n i hi (fun k => qmagnitude j i k * Rabs (vec o V k))%R); try lia.
  2-3: intros k Hk; unfold qpencil, qmagnitude; rewrite (outB A), (outB B), (outB C) by lia; rewrite ?Rmult_0_r, ?Rabs_R0; lra.
  set (t := after _ _ _). set (kt := after _ _ _).
  assert (Hkt : (0 <= kt)%R).
  { unfold kt, after. apply sumZ_pos. intros k Hk. destruct (i <? k); [|lra]. apply Rmult_le_pos; auto using Rabs_pos, qmag_pos. }
  pose proof (Hsep i j Hi ltac:(lia)) as H1. cbn [mul sub add absA ltb ofZ zero div R_arith]. rewrite !zset_some by lia.
  destruct (_ && _) eqn:Eg.
  - exists 0%R. split; auto. unfold tail_ok. fold t kt. rewrite Rmult_0_r, Rplus_0_l. apply andb_prop in Eg. destruct Eg as [_ Eg].
    unfold R_ltb in Eg. destruct (Rlt_dec _ _) in Eg; [|discriminate]. lra.
  - eexists; split; [reflexivity|]. unfold tail_ok. fold t kt. unfold qpencil at 1. unfold qpencil in H1.
    set (l := qeigval j) in *. set (a := tb_mat A i i) in *. set (b := tb_mat B i i) in *. set (cc := tb_mat C i i) in *.
    replace ((a + l * b - l * l * cc) * (t / (l * (l * cc - b) - a)) + t)%R with 0%R; [rewrite Rabs_R0; nra|]. field. lra.
Qed.
Lemma quadratic_spec V : n * n <= zlen V -> (forall i j, 0 <= j < i -> i < n -> mat 0 n V i j = 0%R) ->
  exists V', triangular_banded_quadratic_eigenvectors eps A B C V = Some V' /\ zlen V' = zlen V /\
    (forall i j, 0 <= i < n -> 0 <= j <= i -> mat 0 n V' i j = mat 0 n V i j) /\
    (forall p, n * n <= p -> zget V' p = zget V p) /\
    (forall i j, 0 <= i < n -> 0 <= j < n ->
      (Rabs (matmul n (tb_mat A) (mat 0 n V') i j + matmul n (tb_mat B) (mat 0 n V') i j * qeigval j - matmul n (tb_mat C) (mat 0 n V') i j * (qeigval j * qeigval j))
       <= 4 * eps * sumZ n (fun k => (Rabs (tb_mat A i k) + Rabs (qeigval j) * (Rabs (tb_mat B i k) + Rabs (qeigval j) * Rabs (tb_mat C i k))) * Rabs (mat 0 n V' k j)))%R).
Proof.
  intros HV Hlow. pose proof HA as (Hn0 & _). fold n in Hn0. unfold triangular_banded_quadratic_eigenvectors. fold n.
  destruct (columns_spec n qpencil qmagnitude (4 * eps) (fun j V => do x <- tb_get A j j; do y <- tb_get B j j; do z <- tb_get C j j;
    let lam := quadratic_root x y z in for_dn (j - 1) 0 (fun i V => qeigentry eps A B C n (Z.max (Z.max (tb_b A) (tb_b B)) (tb_b C)) lam V (j * n) i) V)) with (V := V)
    as (V' & E & L & P & O & T); auto; try lra.
  - intros; apply qmag_pos.
  - intros j i k Hj Hk. unfold qpencil. rewrite (lowB A), (lowB B), (lowB C) by lia. lra.
  - intros. now apply qroot_spec.
  - intros j V1 Hj HV1. rewrite !(qget n) by (auto; lia). cbn [obind]. cbn zeta. change (quadratic_root (tb_mat A j j) (tb_mat B j j) (tb_mat C j j)) with (qeigval j).
    assert (Hjn : 0 <= j * n) by nia. assert (Hjn2 : j * n + n <= n * n) by nia.
    apply column_spec; try lia. intros V3 i Hi Ho HV3. apply qeigentry_spec; auto; lia.
  - exists V'. split; auto. split; auto. split; auto. split; auto. intros i j Hi Hj. specialize (T i j Hi Hj).
    unfold matmul. rewrite <- !sumZ_scal_r, <- sumZ_plus, <- sumZ_minus.
    erewrite sumZ_ext; [exact T|]. intros k Hk. cbv beta. unfold qpencil. lra.
Qed.
End Quad.
