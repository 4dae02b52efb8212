(** * Proofs: the eigenvector matrix of a 2x2-block triangular pencil; assembling block matrices *)
From Coq Require Import ZArith List Lia Bool ZifyBool ZifyNat Reals Lra.
From Verif Require Import Arith Base BaseFacts SpecSum PSum SpecLin MBanded SpecBanded PBand PTri PTri2 MHier MEig MButter SpecButter MBlock SpecBlock PBlock PBlock2 PBlock3.
Import ListNotations.
Open Scope Z_scope.

Lemma btband_eigenvectors_proof A B lambda lambda' V : bt_ok A -> bt_ok B -> bt_n B = bt_n A -> 2 * bt_n A <= zlen lambda -> 2 * bt_n A * (2 * bt_n A) <= zlen V ->
  (forall j, 0 <= j < bt_n A -> det2 (bt_mat B) j <> 0%R /\ exists l, l <> 0%R /\ pencil_det2 (bt_mat A) (bt_mat B) l j = 0%R) ->
  btband_eigenvalues A B lambda = Some lambda' ->
  (forall j p, 0 <= j < bt_n A -> p = 0 \/ p = 1 -> (bt_mat A (2 * j + 1) (2 * j + 1) - vec 0 lambda' (2 * j + p) * bt_mat B (2 * j + 1)%Z (2 * j + 1)%Z)%R <> 0%R) ->
  (forall i j p, 0 <= i < j -> j < bt_n A -> p = 0 \/ p = 1 -> pencil_det2 (bt_mat A) (bt_mat B) (vec 0 lambda' (2 * j + p)) i <> 0%R) ->
  no_block_lower (bt_n A) V ->
  exists V', btband_eigenvectors A B V = Some V' /\ zlen V' = zlen V /\ no_block_lower (bt_n A) V' /\
    (forall j p, 0 <= j < bt_n A -> p = 0 \/ p = 1 -> mat 0 (2 * bt_n A) V' (2 * j) (2 * j + p) = mat 0 (2 * bt_n A) V (2 * j) (2 * j + p)) /\
    (forall i c, 0 <= i < 2 * bt_n A -> 0 <= c < 2 * bt_n A ->
      matmul (2 * bt_n A) (bt_mat A) (mat 0 (2 * bt_n A) V') i c = (vec 0 lambda' c * matmul (2 * bt_n A) (bt_mat B) (mat 0 (2 * bt_n A) V') i c)%R).
Proof.
  intros HA HB HN HL HV Hj HE Hne Hsep Hlow. destruct (bt_ok_n A HA) as [Hn _].
  destruct (btband_eigenvalues_proof A B lambda HA HB HN ltac:(split; lia) Hj) as (l' & E1 & _ & _ & Hl). rewrite HE in E1. injection E1 as <-.
  assert (Hroot : forall j p, 0 <= j < bt_n A -> p = 0 \/ p = 1 -> pencil_det2 (bt_mat A) (bt_mat B) (vec 0 lambda' (2 * j + p)) j = 0%R).
  { intros j p Hjj Hp. destruct (Hl j Hjj) as (_ & _ & HH). rewrite HH. destruct Hp as [-> | ->]; rewrite ?Z.add_0_r; ring. }
  set (n := bt_n A) in *. set (W := fun l => pencil2 (bt_mat A) (bt_mat B) l).
  assert (Hidx : forall c i, 0 <= c < 2 * n -> 0 <= i < 2 * n -> 0 <= c * (2 * n) + i < zlen V). { intros. split; nia. }
  unfold btband_eigenvectors. fold n.
  match goal with |- context [for_up 0 n ?f V] => destruct (for_up_inv (fun j V' => zlen V' = zlen V /\
     (forall p, 2 * j * (2 * n) <= p -> zget V' p = zget V p) /\
     (forall c i, 0 <= c < 2 * j -> 0 <= i < 2 * n -> i = 2 * (c / 2) \/ 2 * (c / 2) + 1 < i -> vec (c * (2 * n)) V' i = vec (c * (2 * n)) V i) /\
     (forall c i, 0 <= c < 2 * j -> 0 <= i < 2 * n -> matvec (2 * n) (W (vec 0 lambda' c)) (vec (c * (2 * n)) V') i = 0%R)) 0 n f V) as [V' [E (L1 & O & K & G)]] end.
  - lia.
  - repeat split; auto; intros; lia.
  - intros j V1 Hjn (L1 & O & K & G). rewrite !bt_get_val by (auto; lia). cbn [obind]. destruct (Hl j Hjn) as (Eg & _ & _). rewrite Eg. cbn [obind fst snd].
    replace (2 * j * 2 * n) with (2 * j * (2 * n)) by ring. replace ((2 * j + 1) * 2 * n) with ((2 * j + 1) * (2 * n)) by ring.
    set (o1 := 2 * j * (2 * n)) in *. set (o2 := (2 * j + 1) * (2 * n)) in *. assert (Ho : o2 = o1 + 2 * n) by (unfold o1, o2; ring).
    assert (B1 : 0 <= o1 /\ o2 + 2 * n <= zlen V). { pose proof (Hidx (2 * j) 0 ltac:(lia) ltac:(lia)). pose proof (Hidx (2 * j + 1) (2 * n - 1) ltac:(lia) ltac:(lia)). unfold o1, o2 in *. lia. }
    set (lam1 := vec 0 lambda' (2 * j)) in *. set (lam2 := vec 0 lambda' (2 * j + 1)) in *.
    replace (2 * j + o1) with (o1 + 2 * j) by lia. replace (2 * j + 1 + o1) with (o1 + (2 * j + 1)) by lia. replace (2 * j + o2) with (o2 + 2 * j) by lia. replace (2 * j + 1 + o2) with (o2 + (2 * j + 1)) by lia.
    rewrite (zget_nthZ 0%R V1) by lia. cbn [obind]. rewrite zset_some by lia. cbn [obind]. rewrite zget_zupd_other by lia. rewrite (zget_nthZ 0%R V1) by lia. cbn [obind].
    rewrite zset_some by (rewrite zlen_zupd; lia). cbn [obind].
    match goal with |- context [for_dn _ _ _ (zupd (zupd V1 _ ?a) _ ?b)] => set (v1 := a); set (v2 := b) end.
    set (V3 := zupd (zupd V1 (o1 + (2 * j + 1)) v1) (o2 + (2 * j + 1)) v2).
    assert (L3 : zlen V3 = zlen V) by (unfold V3; rewrite !zlen_zupd; lia).
    assert (G3 : forall p, p <> o1 + (2 * j + 1) -> p <> o2 + (2 * j + 1) -> zget V3 p = zget V1 p) by (intros; unfold V3; rewrite !zget_zupd_other by lia; reflexivity).
    assert (Q1 : vec o1 V3 (2 * j + 1) = v1). { unfold vec, V3. rewrite nthZ_zupd_other by lia. apply nthZ_zupd_same. lia. }
    assert (Q2 : vec o2 V3 (2 * j + 1) = v2). { unfold vec, V3. apply nthZ_zupd_same. rewrite zlen_zupd. lia. }
    assert (Z3 : forall c k, c = 2 * j \/ c = 2 * j + 1 -> 2 * j + 2 <= k < 2 * n -> vec (c * (2 * n)) V3 k = 0%R).
    { intros c k Hc Hk. assert (c * (2 * n) = o1 \/ c * (2 * n) = o2) as Hco by (destruct Hc as [-> | ->]; auto).
      rewrite (vec_ext V1) by (apply G3; lia). rewrite (vec_ext V) by (apply O; lia). specialize (Hlow k c ltac:(lia) ltac:(lia) ltac:(lia)). unfold mat in Hlow. unfold vec. etransitivity; [|exact Hlow]. f_equal. ring. }
    destruct (two_columns A B HA HB HN j lam1 lam2 o1 o2 V3) as (V4 & E4 & L4 & O4 & G4).
    + exact Hjn.
    + fold n. split; lia.
    + fold n. split; lia.
    + fold n. exact Ho.
    + intros i Hi. split; [apply (Hsep i j 0) || (pose proof (Hsep i j 0 ltac:(lia) ltac:(lia) ltac:(auto)) as HH; rewrite Z.add_0_r in HH; exact HH)|exact (Hsep i j 1 ltac:(lia) ltac:(lia) ltac:(auto))].
    + intros q p Hq Hp. split.
      * pose proof (Hroot j 0 Hjn ltac:(auto)) as R0. pose proof (Hne j 0 Hjn ltac:(auto)) as N0. rewrite Z.add_0_r in R0, N0.
        apply (diag_column A B HA HB HN j lam1 o1 V3); auto.
        -- rewrite Q1. unfold v1. f_equal. symmetry. unfold vec. apply nthZ_zget. rewrite G3 by lia. apply zget_nthZ. lia.
        -- intros k Hk. apply (Z3 (2 * j) k); auto; lia.
      * apply (diag_column A B HA HB HN j lam2 o2 V3); auto; try apply (Hne j 1); auto; try apply (Hroot j 1); auto.
        -- rewrite Q2. unfold v2. f_equal. symmetry. unfold vec. apply nthZ_zget. rewrite G3 by lia. apply zget_nthZ. lia.
        -- intros k Hk. apply (Z3 (2 * j + 1) k); auto; lia.
    + fold n in E4. exists V4. split; [exact E4|]. split; [lia|]. fold n in O4, G4.
      assert (Hc : forall c, 0 <= c < 2 * (j + 1) -> c < 2 * j \/ c = 2 * j \/ c = 2 * j + 1) by lia.
      assert (Old : forall c i, 0 <= c < 2 * j -> 0 <= i < 2 * n -> vec (c * (2 * n)) V4 i = vec (c * (2 * n)) V1 i).
      { intros c i Hcc Hi. assert (c * (2 * n) + i < o1) by (unfold o1; nia). rewrite (vec_ext V3) by (apply O4; lia). apply vec_ext. apply G3; lia. }
      split; [|split].
      * intros p Hp. replace (2 * (j + 1) * (2 * n)) with (o2 + 2 * n) in Hp by (unfold o2; ring). rewrite O4 by lia. rewrite G3 by lia. apply O. lia.
      * intros c i Hcc Hi Hs. destruct (Hc c Hcc) as [Hlt|Heq].
        -- rewrite Old by lia. apply K; auto; lia.
        -- assert (c * (2 * n) = o1 \/ c * (2 * n) = o2) as Hco by (destruct Heq as [-> | ->]; auto). assert (c / 2 = j) by lia.
           rewrite (vec_ext V3) by (apply O4; lia). rewrite (vec_ext V1) by (apply G3; lia). apply vec_ext. apply O. lia.
      * intros c i Hcc Hi. destruct (Hc c Hcc) as [Hlt|Heq].
        -- rewrite <- (G c i) by lia. unfold matvec. apply sumZ_ext. intros k Hk. now rewrite Old by lia.
        -- replace i with (2 * (i / 2) + i mod 2) by lia. destruct (G4 (i / 2) (i mod 2)) as [Ga Gb]; [lia|lia|]. destruct Heq as [-> | ->]; assumption.
  - exists V'. split; auto. split; auto.
    assert (Hm : forall i c, mat 0 (2 * n) V' i c = vec (c * (2 * n)) V' i) by (intros; unfold mat, vec; f_equal; ring).
    assert (Hm0 : forall i c, mat 0 (2 * n) V i c = vec (c * (2 * n)) V i) by (intros; unfold mat, vec; f_equal; ring).
    split; [|split].
    + intros i c Hi Hc Hlt. rewrite Hm, K by lia. rewrite <- Hm0. apply Hlow; auto.
    + intros j p Hjn Hp. rewrite Hm, K by lia. rewrite <- Hm0. reflexivity.
    + intros i c Hi Hc. specialize (G c i Hc Hi). unfold matvec, W, pencil2 in G. unfold matmul. rewrite <- sumZ_scal. apply Rminus_diag_uniq. rewrite <- sumZ_minus. rewrite <- G.
      apply sumZ_ext. intros k Hk. rewrite !Hm. ring.
Qed.

(** ** Assembling *)
Lemma widen_proof b (T : tbanded R) : tb_ok T -> tb_b T <= b -> exists T', widen b T = Some T' /\ tb_is (tb_n T) b T' /\ forall i j, tb_get T' i j = tb_get T i j.
Proof.
  intros HT Hb. unfold widen. destruct (Z.eqb_spec (tb_b T) b).
  - exists T. repeat split; auto; apply HT.
  - destruct (realloc_grow_proof T b HT ltac:(lia)) as (T' & E & H1 & H2 & H3 & H4). exists T'. repeat split; auto; apply H1.
Qed.
Lemma tb_mat_of_get (T T' : tbanded R) i j : tb_ok T -> tb_ok T' -> tb_n T' = tb_n T -> (forall i j, tb_get T' i j = tb_get T i j) -> 0 <= i -> j < tb_n T -> tb_mat T' i j = tb_mat T i j.
Proof. intros H H' En G Hi Hj. specialize (G i j). rewrite !tb_get_val in G by auto. rewrite En in G. replace ((0 <=? i) && (j <? tb_n T)) with true in G by lia. congruence. Qed.
Lemma create_btband_proof (d00 d01 d10 d11 : tbanded R) : tb_ok d00 -> tb_ok d01 -> tb_ok d10 -> tb_ok d11 -> tb_n d01 = tb_n d00 -> tb_n d10 = tb_n d00 -> tb_n d11 = tb_n d00 ->
  exists A, create_btband d00 d01 d10 d11 = Some A /\ bt_ok A /\ bt_n A = tb_n d00 /\
    forall i j, 0 <= i < tb_n d00 -> 0 <= j < tb_n d00 ->
      bt_mat A (2 * i) (2 * j) = tb_mat d00 i j /\ bt_mat A (2 * i) (2 * j + 1) = tb_mat d01 i j /\
      bt_mat A (2 * i + 1) (2 * j) = tb_mat d10 i j /\ bt_mat A (2 * i + 1) (2 * j + 1) = tb_mat d11 i j.
Proof.
  intros H0 H1 H2 H3 N1 N2 N3. unfold create_btband. rewrite N1, N2, N3, Z.eqb_refl. cbn [negb orb].
  set (b := Z.max (Z.max (tb_b d00) (tb_b d01)) (Z.max (tb_b d10) (tb_b d11))).
  destruct (widen_proof b d00 H0 ltac:(lia)) as (A0 & E0 & I0 & G0). destruct (widen_proof b d01 H1 ltac:(lia)) as (A1 & E1 & I1 & G1).
  destruct (widen_proof b d10 H2 ltac:(lia)) as (A2 & E2 & I2 & G2). destruct (widen_proof b d11 H3 ltac:(lia)) as (A3 & E3 & I3 & G3).
  rewrite E0. cbn [obind]. rewrite E1. cbn [obind]. rewrite E2. cbn [obind]. rewrite E3. cbn [obind]. rewrite N1 in I1. rewrite N2 in I2. rewrite N3 in I3.
  eexists. split; [reflexivity|]. split; [repeat split; cbn; (apply I0 || apply I1 || apply I2 || apply I3)|]. split; [reflexivity|].
  intros i j Hi Hj. unfold bt_mat. rewrite !even_div, !odd_div, !even_mod, !odd_mod. cbn [Z.eqb Pos.eqb bt00 bt01 bt10 bt11].
  destruct I0 as (? & ? & ?), I1 as (? & ? & ?), I2 as (? & ? & ?), I3 as (? & ? & ?).
  repeat split; apply tb_mat_of_get; auto; lia.
Qed.
Lemma create_btband_sizes (d00 d01 d10 d11 : tbanded R) : tb_n d01 <> tb_n d00 \/ tb_n d10 <> tb_n d00 \/ tb_n d11 <> tb_n d00 -> create_btband d00 d01 d10 d11 = None.
Proof. intros H. unfold create_btband. replace (negb (tb_n d01 =? tb_n d00) || negb (tb_n d10 =? tb_n d00) || negb (tb_n d11 =? tb_n d00)) with true by lia. reflexivity. Qed.
Lemma bt_get1_val A i j : bt_ok A -> 0 <= i < 2 * bt_n A -> 0 <= j < 2 * bt_n A -> bt_get1 A i j = Some (bt_mat A i j).
Proof.
  intros HA Hi Hj. unfold bt_get1, bt_mat, bt_block. destruct HA as ((H0 & N0 & B0) & (H1 & N1 & B1) & (H2 & N2 & B2) & (H3 & N3 & B3)).
  destruct (i mod 2 =? 0), (j mod 2 =? 0); rewrite tb_get_val by auto; rewrite ?N0, ?N1, ?N2, ?N3; replace ((0 <=? i / 2) && (j / 2 <? bt_n A)) with true by lia; reflexivity.
Qed.
Lemma btband_to_tb_proof junk A : bt_ok A -> exists T, btband_to_tb junk A = Some T /\ tb_ok T /\ tb_n T = 2 * bt_n A /\
  forall i j, 0 <= i < 2 * bt_n A -> 0 <= j < 2 * bt_n A -> tb_mat T i j = upper (bt_mat A) i j.
Proof.
  intros HA. destruct (bt_ok_n A HA) as [Hn Hb]. unfold btband_to_tb. set (n := bt_n A) in *. set (b := bt_b A) in *.
  set (T0 := TBanded (zmake (2 * n * (2 * b + 1 + 1)) junk) (2 * n) (2 * b + 1)).
  assert (OK0 : tb_ok T0). { unfold tb_ok, T0. cbn [tb_n tb_b tb_data]. split; [lia|split; [lia|]]. rewrite zlen_zmake by (apply Z.mul_nonneg_nonneg; lia). apply Z.le_refl. }
  match goal with |- context [for_up 0 (2 * n) ?f T0] => destruct (for_up_inv (fun j T => tb_ok T /\ tb_n T = 2 * n /\ tb_b T = 2 * b + 1 /\
    forall p q, 0 <= p < 2 * n -> 0 <= q < j -> tb_get T p q = Some (upper (bt_mat A) p q)) 0 (2 * n) f T0) as [T [E (H1 & H2 & H3 & G)]] end.
  - lia.
  - repeat split; auto; try apply OK0. intros; lia.
  - intros j T Hj (H1 & H2 & H3 & G).
    match goal with |- context [for_up ?lo ?hi ?f T] => destruct (for_up_inv (fun k T' => tb_ok T' /\ tb_n T' = 2 * n /\ tb_b T' = 2 * b + 1 /\
      (forall p q, q <> j -> tb_get T' p q = tb_get T p q) /\ (forall p, lo <= p < k -> tb_get T' p j = Some (bt_mat A p j))) lo hi f T) as [T' [E (K1 & K2 & K3 & K4 & K5)]] end.
    + lia.
    + repeat split; auto; try apply H1. intros; lia.
    + intros k T1 Hk (K1 & K2 & K3 & K4 & K5). rewrite bt_get1_val by (auto; unfold n in *; lia). cbn [obind].
      destruct (tb_set_proof T1 (bt_mat A k j) k j K1) as (T2 & E2 & S1 & S2 & S3 & S4). exists T2. split; auto. split; auto. split; [lia|]. split; [lia|]. split.
      * intros p q Hq. rewrite S4. replace (q =? j) with false by lia. rewrite andb_false_r. auto.
      * intros p Hp. rewrite S4. assert (Hin : tb_in T1 k j = true) by (unfold tb_in; rewrite K2, K3; clear - Hk Hj Hn Hb; lia). rewrite Hin, Z.eqb_refl. cbn [andb]. rewrite andb_true_r. destruct (Z.eqb_spec p k); [subst; auto|]. apply K5. lia.
    + exists T'. split; auto. repeat split; auto; try apply K1. intros p q Hp Hq. destruct (Z.eq_dec q j) as [->|]; [|rewrite K4 by auto; apply G; lia].
      unfold upper. destruct (Z.leb_spec p j).
      * destruct (Z_le_dec (Z.max (j - 2 * b - 1) 0) p); [apply K5; lia|]. unfold tb_get. replace (tb_in T' p j) with false by (unfold tb_in; lia).
        f_equal. symmetry. replace p with (2 * (p / 2) + p mod 2) by lia. replace j with (2 * (j / 2) + j mod 2) by lia. apply bt_mat_out; auto; fold b; lia.
      * unfold tb_get. replace (tb_in T' p j) with false by (unfold tb_in; lia). reflexivity.
  - exists T. split; auto. split; auto. split; auto. intros i j Hi Hj. specialize (G i j Hi Hj). rewrite tb_get_val in G by auto. replace ((0 <=? i) && (j <? tb_n T)) with true in G by lia. congruence.
Qed.
