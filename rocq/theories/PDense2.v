(** * Dense planners: the six that scale the matrix of a Jacobi connection *)
From Coq Require Import ZArith List Lia Bool Reals Lra ZifyBool ZifyNat.
From Verif Require Import Base BaseFacts Arith SpecSum PSum SpecLin MBanded SpecBanded
  SpecClassical SpecConn MClassical MConn PClass1 PClass2 PClass3 PClass4 PClass5 PClass6 PClass7 PClass8 PPoly PPenJ PPenU PPenC PPenL PDiag MTransforms SpecTransforms PTransforms PTransforms2 PTransforms3 MDense SpecConvert PDense.
Import ListNotations.
Open Scope Z_scope.

(** ** Loops *)
Section Scale.
Variables (n : Z) (sel : Z -> Z -> Z) (scl : list R) (r : Z -> R).
Hypotheses (Hn : 0 <= n) (Ls : n <= zlen scl) (Hr : forall i, 0 <= i < n -> nthZ 0%R scl i = r i) (Hsel : forall i j, 0 <= i < n -> 0 <= j < n -> 0 <= sel i j < n).
Let at_ (X : list R) (i j : Z) := nthZ 0%R X (i + j * n).
(** X is V with the entries in the set [done] multiplied *)
Definition part (V X : list R) (done : Z -> Z -> bool) : Prop :=
  zlen X = n * n /\ forall i j, 0 <= i < n -> 0 <= j < n -> at_ X i j = if done i j then (at_ V i j * r (sel i j))%R else at_ V i j.
Lemma part_step V X done i0 j0 : part V X done -> 0 <= i0 < n -> 0 <= j0 < n -> done i0 j0 = false ->
  exists X', (do v <- zget X (i0 + j0 * n); do s <- zget scl (sel i0 j0); zset X (i0 + j0 * n) (mul v s)) = Some X' /\
    part V X' (fun i j => done i j || ((i =? i0) && (j =? j0))).
Proof.
  intros [L H] Hi Hj D. assert (IN : 0 <= i0 + j0 * n < n * n) by nia. rewrite (zget_nthZ 0%R) by lia. cbn [obind]. assert (S0 := Hsel i0 j0 Hi Hj). rewrite (zget_nthZ 0%R scl) by lia. cbn [obind].
  rewrite zset_some by lia. eexists. split; [reflexivity|]. split; [now rewrite zlen_zupd|]. intros i j Hi' Hj'. unfold at_. rewrite nthZ_zupd by lia.
  destruct (Z.eqb_spec (i0 + j0 * n) (i + j * n)) as [E|E].
  - assert (j = j0) by nia. assert (i = i0) by nia. subst. rewrite !Z.eqb_refl, D. cbn [andb orb mul R_arith]. rewrite Hr by auto. fold (at_ X i0 j0). rewrite H by auto. now rewrite D.
  - replace ((i =? i0) && (j =? j0)) with false by (destruct (Z.eqb_spec i i0), (Z.eqb_spec j j0); subst; auto; lia). rewrite orb_false_r. apply H; auto.
Qed.
Lemma part_ext V X d d' : (forall i j, 0 <= i < n -> 0 <= j < n -> d i j = d' i j) -> part V X d -> part V X d'.
Proof. intros E [L H]. split; auto. intros i j Hi Hj. rewrite H by auto. now rewrite E. Qed.
Lemma part_0 V : zlen V = n * n -> part V V (fun _ _ => false). Proof. intros. split; auto. Qed.
Lemma scale_dense_ok V : zlen V = n * n -> exists X, scale_dense n sel scl V = Some X /\ part V X (fun i j => i <=? j).
Proof.
  intros L. unfold scale_dense.
  destruct (for_up_inv (fun J X => part V X (fun i j => (i <=? j) && (j <? J))) 0 n (fun j V => for_up 0 (j + 1) (fun i V =>
    do v <- zget V (i + j * n); do s <- zget scl (sel i j); zset V (i + j * n) (mul v s)) V) V) as (X & E & H); [lia| | |].
  - eapply part_ext; [|apply part_0; auto]. intros. cbv beta. lia.
  - intros J X HJ HX.
    destruct (for_up_inv (fun I X => part V X (fun i j => ((i <=? j) && (j <? J)) || ((j =? J) && (i <? I)))) 0 (J + 1) (fun i V =>
      do v <- zget V (i + J * n); do s <- zget scl (sel i J); zset V (i + J * n) (mul v s)) X) as (X' & E' & H'); [lia| | |].
    + eapply part_ext; [|exact HX]. intros. cbv beta. lia.
    + intros I Y HI HY. destruct (part_step V Y _ I J HY) as (Y' & EY & PY); [lia|lia|cbv beta; lia|]. exists Y'. split; [exact EY|]. eapply part_ext; [|exact PY]. intros. cbv beta. lia.
    + exists X'. split; [exact E'|]. eapply part_ext; [|exact H']. intros. cbv beta. lia.
  - exists X. split; [exact E|]. eapply part_ext; [|exact H]. intros. cbv beta. lia.
Qed.
Lemma scale_parity_ok V : zlen V = n * n -> exists X, scale_dense_parity n sel scl V = Some X /\ part V X (fun i j => (i <=? j) && Z.even (j - i)).
Proof.
  intros L. unfold scale_dense_parity.
  destruct (for_up_inv (fun J X => part V X (fun i j => (i <=? j) && Z.even (j - i) && (j <? J))) 0 n (fun j V => for_dnst j 0 2 (fun i V =>
    do v <- zget V (i + j * n); do s <- zget scl (sel i j); zset V (i + j * n) (mul v s)) V) V) as (X & E & H); [lia| | |].
  - eapply part_ext; [|apply part_0; auto]. intros. cbv beta. destruct (Z.even _); lia.
  - intros J X HJ HX. unfold for_dnst.
    destruct (itero_inv (fun k X => part V X (fun i j => ((i <=? j) && Z.even (j - i) && (j <? J)) || ((j =? J) && (J - Z.of_nat k * 2 <? i) && (i <=? j) && Z.even (j - i)))) (Z.to_nat ((J - 0 + 2) / 2)) (fun k V =>
      do v <- zget V (J - Z.of_nat k * 2 + J * n); do s <- zget scl (sel (J - Z.of_nat k * 2) J); zset V (J - Z.of_nat k * 2 + J * n) (mul v s)) X) as (X' & E' & H').
    + eapply part_ext; [|exact HX]. intros. cbv beta. destruct (Z.even _); lia.
    + intros k Y Hk HY. destruct (part_step V Y _ (J - Z.of_nat k * 2) J HY) as (Y' & EY & PY); [lia|lia|cbv beta; destruct (Z.even _); lia|]. exists Y'. split; [exact EY|]. eapply part_ext; [|exact PY]. intros. cbv beta.
      destruct (Z.even (j - i)) eqn:EE.
      * apply Z.even_spec in EE. destruct EE as [q Hq]. lia.
      * destruct (Z.eqb_spec i (J - Z.of_nat k * 2)); [|lia]. destruct (Z.eqb_spec j J); [|lia]. subst. replace (J - (J - Z.of_nat k * 2)) with (2 * Z.of_nat k) in EE by lia. rewrite Z.even_mul in EE. discriminate.
    + exists X'. split; [exact E'|]. eapply part_ext; [|exact H']. intros. cbv beta. destruct (Z.even _) eqn:EE; [|lia].
      apply Z.even_spec in EE. destruct EE as [q Hq]. lia.
  - exists X. split; [exact E|]. eapply part_ext; [|exact H]. intros. cbv beta. destruct (Z.even _); lia.
Qed.
End Scale.
Lemma two_values_ok n (a b : R) junk : 0 <= n <= zlen junk -> exists x, two_values junk n a b = Some x /\ zlen x = zlen junk /\ forall i, 0 <= i < n -> nthZ 0%R x i = if i =? 0 then b else a.
Proof.
  intros Hn. unfold two_values.
  destruct (for_up_inv (fun k x => zlen x = zlen junk /\ forall i, 0 <= i < k -> nthZ 0%R x i = if i =? 0 then b else a) 0 n (fun i x => zset x i (if i =? 0 then b else a)) junk) as (x & E & L & H); [lia| | |].
  - split; auto. intros; lia.
  - intros k x Hk (L & H). rewrite zset_some by lia. eexists. split; [reflexivity|]. rewrite zlen_zupd. split; [exact L|]. intros i Hi. rewrite nthZ_zupd by lia. destruct (Z.eqb_spec k i) as [->|]; auto. apply H. lia.
  - exists x. auto.
Qed.

(** ** Tables *)
Lemma table_ext n V P Q P' Q' : table n V P Q -> (forall i x, 0 <= i < n -> P' i x = P i x) -> (forall i x, 0 <= i < n -> Q' i x = Q i x) -> table n V P' Q'.
Proof. intros [L C] HP HQ. split; auto. eapply connects_ext; eauto. Qed.
Lemma mat_at n V i j : mat 0 n V i j = nthZ 0%R V (i + j * n). Proof. reflexivity. Qed.
Lemma table_rows n V X P Q Q' r : 0 <= n -> table n V P Q -> part n by_row r V X (fun i j => i <=? j) -> (forall i x, 0 <= i < n -> Q i x = (r i * Q' i x)%R) -> table n X P Q'.
Proof.
  intros Hn [L C] [LX HX] HQ. apply (connects_mat n X (fun i j => (r i * mat 0 n V i j)%R)); auto.
  - intros i j Hi Hj. rewrite !mat_at, HX by auto. destruct (Z.leb_spec i j); [unfold by_row; ring|]. pose proof (proj1 C i j ltac:(lia) ltac:(lia)) as Z0. rewrite mat_at in Z0. rewrite Z0. ring.
  - eapply connects_rows; eauto.
Qed.
Lemma table_columns n V X P P' Q r : 0 <= n -> table n V P Q -> part n by_column r V X (fun i j => i <=? j) -> (forall i x, 0 <= i < n -> P' i x = (r i * P i x)%R) -> table n X P' Q.
Proof.
  intros Hn [L C] [LX HX] HP. apply (connects_mat n X (fun i j => (mat 0 n V i j * r j)%R)); auto.
  - intros i j Hi Hj. rewrite !mat_at, HX by auto. destruct (Z.leb_spec i j); [unfold by_column; ring|]. pose proof (proj1 C i j ltac:(lia) ltac:(lia)) as Z0. rewrite mat_at in Z0. rewrite Z0. ring.
  - eapply connects_columns; eauto.
Qed.

(** ** Parity *)
Definition sgn (i : Z) : R := if Z.even i then 1%R else (-1)%R.
Definition parity (P : Z -> R -> R) : Prop := forall i x, 0 <= i -> P i (- x)%R = (sgn i * P i x)%R.
Lemma sgn_S i : sgn (i + 1) = (- sgn i)%R.
Proof. unfold sgn. rewrite Z.even_add. destruct (Z.even i); cbn; ring. Qed.
Lemma sgn_P i : sgn (i - 1) = (- sgn i)%R.
Proof. unfold sgn. rewrite Z.even_sub. destruct (Z.even i); cbn; ring. Qed.
Lemma sgn_sq i : (sgn i * sgn i = 1)%R. Proof. unfold sgn. destruct (Z.even i); ring. Qed.
Lemma cheb_parity P : is_chebyshev P -> parity P.
Proof.
  intros H i x Hi. revert x. apply (two_step (fun i => forall x, P i (- x)%R = (sgn i * P i x)%R)); auto.
  - intros x. rewrite !(che_0 P H). unfold sgn. cbn. ring.
  - intros x. rewrite !(che_1 P H). unfold sgn. cbn. ring.
  - intros k Hk I1 I2 x. rewrite !(che_S P H) by auto. rewrite I1, I2, sgn_S, sgn_P. ring.
Qed.
Lemma ult_parity la P : is_ultraspherical la P -> parity P.
Proof.
  intros H i x Hi. revert x. apply (two_step (fun i => forall x, P i (- x)%R = (sgn i * P i x)%R)); auto.
  - intros x. rewrite !(ult_0 la P H). unfold sgn. cbn. ring.
  - intros x. rewrite !(ult_1 la P H). unfold sgn. cbn. ring.
  - intros k Hk I1 I2 x. pose proof (ult_S la P H k x Hk) as E1. pose proof (ult_S la P H k (- x)%R Hk) as E2. cbv zeta in E1, E2.
    assert (1 <= IZR k)%R by (apply IZR_le; lia). apply (Rmult_eq_reg_l (IZR k + 1)); [|lra]. rewrite E2, I1, I2, sgn_S, sgn_P. replace ((IZR k + 1) * (- sgn k * P (k + 1)%Z x))%R with (- sgn k * ((IZR k + 1) * P (k + 1)%Z x))%R by ring. rewrite E1. ring.
Qed.
Lemma fam_parity b P h : parity P -> parity (fam b P h).
Proof. intros H i x Hi. unfold fam. destruct b; rewrite H by auto; unfold Rdiv; ring. Qed.
Lemma odd_zero n U P Q : one_connection n P Q -> connects n U P Q -> parity P -> parity Q -> forall i j, 0 <= i < n -> 0 <= j < n -> Z.even (j - i) = false -> U i j = 0%R.
Proof.
  intros [_ O] C HP HQ i j Hi Hj E.
  assert (C' : connects n (fun i j => sgn i * sgn j * U i j)%R P Q).
  { destruct C as [C1 C2]. split; [intros; rewrite C1 by lia; ring|]. intros k x Hk.
    pose proof (HP k x ltac:(lia)) as E1. rewrite (C2 k (- x)%R Hk) in E1. apply (f_equal (fun t => sgn k * t)%R) in E1. rewrite <- Rmult_assoc, sgn_sq, Rmult_1_l in E1. rewrite <- E1.
    unfold expansion. rewrite <- sumZ_scal. apply sumZ_ext. intros q Hq. rewrite HQ by lia. ring. }
  specialize (O _ _ C C' i j Hi Hj). cbv beta in O.
  assert (sgn i * sgn j = -1)%R. { rewrite Z.even_sub in E. unfold sgn. destruct (Z.even i), (Z.even j); cbn in E; try discriminate; ring. }
  rewrite H in O. lra.
Qed.

(** ** The planners *)
Section Planners.
Variables (tgamma pow2 : R -> R).
Hypothesis HG : special tgamma pow2.
Variables (pi : R) (d1 d2 data junk : list R) (n : Z).
Hypotheses (Hn : 0 <= n) (L1 : n <= zlen d1) (L2 : n <= zlen d2) (L4 : n <= zlen junk).
Hypothesis Hpi : pi = (tgamma (1/2) * tgamma (1/2))%R.
Let idR := fun x : R => x.
Let uJ := uJ. Let uh := uh tgamma pow2. Let ch := ch tgamma pow2.

Lemma jac2ult_dense n1 n2 a b la P Q hP hQ : (-1 < a)%R -> (-1 < b)%R -> (- 1 / 2 < la)%R -> la <> 0%R -> (n2 = true -> 0 < la)%R ->
  is_jacobi a b P -> is_ultraspherical la Q -> jacobi_norms a b hP -> ultraspherical_norms la hQ ->
  hP 0 = jacobi_mass tgamma pow2 a b -> hQ 0 = jacobi_mass tgamma pow2 (la - 1 / 2) (la - 1 / 2) ->
  exists V, dense_jacobi_to_ultraspherical 0%R idR tgamma pow2 d1 d2 junk n1 n2 n a b la = Some V /\ table n V (fam n1 P hP) (fam n2 Q hQ).
Proof.
  intros Ha Hb Hl Hl0 Hs HP HQ NP NQ MP MQ. destruct (uJ_ok tgamma pow2 HG la Hl) as (UJ & UN & UM).
  destruct (jac_dense tgamma pow2 HG d1 d2 n Hn L1 L2 n1 n2 a b (la - 1 / 2) (la - 1 / 2) P (uJ la) hP (uh la)) as (V & EV & TV); auto; try lra.
  unfold dense_jacobi_to_ultraspherical. change (sub la half) with (la - 1 / 2)%R. unfold idR in *. rewrite EV. cbn [obind]. destruct n2.
  - exists V. split; [reflexivity|]. eapply table_ext; [exact TV|reflexivity|]. intros i x Hi. symmetry. apply (jac_ult_fam la); auto; try lia; try (now rewrite UM, MQ).
  - match goal with |- context [scl_array junk n ?v ?st] => destruct (scl_array_ok junk n v st (rs la) Hn L4) as (scl & Es & Ls & Hr) end.
    + reflexivity.
    + intros i Hi. unfold rs. rewrite kz_step by lia. unfold rsA. rewrite minus_IZR. replace (IZR i - 1 + 1)%R with (IZR i) by ring. reflexivity.
    + rewrite Es. cbn [obind]. destruct (scale_dense_ok n by_row scl (rs la) Hn ltac:(lia) Hr ltac:(unfold by_row; auto) V (proj1 TV)) as (X & EX & PX).
      exists X. split; [exact EX|]. eapply table_rows; eauto. intros i x Hi. unfold fam. apply (jac_ult la); auto. lia.
Qed.
Lemma ult2jac_dense n1 n2 a b la P Q hP hQ : (-1 < a)%R -> (-1 < b)%R -> (- 1 / 2 < la)%R -> la <> 0%R -> (n1 = true -> 0 < la)%R ->
  is_ultraspherical la P -> is_jacobi a b Q -> ultraspherical_norms la hP -> jacobi_norms a b hQ ->
  hP 0 = jacobi_mass tgamma pow2 (la - 1 / 2) (la - 1 / 2) -> hQ 0 = jacobi_mass tgamma pow2 a b ->
  exists V, dense_ultraspherical_to_jacobi 0%R idR tgamma pow2 d1 d2 junk n1 n2 n la a b = Some V /\ table n V (fam n1 P hP) (fam n2 Q hQ).
Proof.
  intros Ha Hb Hl Hl0 Hs HP HQ NP NQ MP MQ. destruct (uJ_ok tgamma pow2 HG la Hl) as (UJ & UN & UM).
  destruct (jac_dense tgamma pow2 HG d1 d2 n Hn L1 L2 n1 n2 (la - 1 / 2) (la - 1 / 2) a b (uJ la) Q (uh la) hQ) as (V & EV & TV); auto; try lra.
  unfold dense_ultraspherical_to_jacobi. change (sub la half) with (la - 1 / 2)%R. unfold idR in *. rewrite EV. cbn [obind]. destruct n1.
  - exists V. split; [reflexivity|]. eapply table_ext; [exact TV| |reflexivity]. intros i x Hi. symmetry. apply (jac_ult_fam la); auto; try lia; try (now rewrite UM, MP).
  - assert (RN : forall i, 0 <= i -> rs la i <> 0%R) by (intros; apply rs_nz; auto).
    match goal with |- context [scl_array junk n ?v ?st] => destruct (scl_array_ok junk n v st (fun i => / rs la i)%R Hn L4) as (scl & Es & Ls & Hr) end.
    + unfold rs. rewrite kz_0. cbn. lra.
    + intros i Hi. specialize (RN (i - 1) ltac:(lia)). unfold rs at 1. rewrite kz_step by lia. fold (rs la). pose proof (rsA_nz la Hl Hl0 (i - 1) ltac:(lia)) as AN. unfold rsA in *. rewrite minus_IZR in *. cbn -[IZR].
      assert (X1 : (la + IZR i - 1 / 2 <> 0)%R) by (assert (1 <= IZR i)%R by (apply IZR_le; lia); lra).
      assert (X2 : (2 * la + IZR i - 1 <> 0)%R). { pose proof (rs_den la Hl Hl0 (i - 1) ltac:(lia)) as H. rewrite minus_IZR in H. lra. }
      unfold rs in *. field. repeat split; auto; try lra.
    + rewrite Es. cbn [obind]. destruct (scale_dense_ok n by_column scl (fun i => / rs la i)%R Hn ltac:(lia) Hr ltac:(unfold by_column; auto) V (proj1 TV)) as (X & EX & PX).
      exists X. split; [exact EX|]. eapply table_columns; eauto. intros i x Hi. cbv beta. unfold fam. rewrite (jac_ult la Hl Hl0 (uJ la) P UJ HP i) by lia. field. apply RN. lia.
Qed.
Lemma che_row i : (if i =? 0 then sqrt (1 / pi) else sqrt (2 / pi))%R = che_r tgamma i.
Proof.
  pose proof (g_pos tgamma pow2 HG) as G. assert (0 < pi)%R by (rewrite Hpi; nra). assert (S : sqrt pi = tgamma (1/2)%R) by (rewrite Hpi; apply sqrt_square; lra).
  unfold che_r. rewrite <- S. assert (0 < sqrt pi)%R by now apply sqrt_lt_R0. destruct (_ =? _); rewrite sqrt_div by lra; try rewrite sqrt_1; reflexivity.
Qed.
Lemma che_col i : (if i =? 0 then sqrt pi else sqrt (pi / 2))%R = che_c tgamma i.
Proof.
  pose proof (g_pos tgamma pow2 HG) as G. assert (0 < pi)%R by (rewrite Hpi; nra). assert (S : sqrt pi = tgamma (1/2)%R) by (rewrite Hpi; apply sqrt_square; lra).
  unfold che_c. rewrite <- S. destruct (_ =? _); try rewrite sqrt_div by lra; reflexivity.
Qed.
Lemma rows_values : exists scl, two_values junk n (sqrt (2 / pi))%R (sqrt (1 / pi))%R = Some scl /\ n <= zlen scl /\ forall i, 0 <= i < n -> nthZ 0%R scl i = che_r tgamma i.
Proof. destruct (two_values_ok n (sqrt (2 / pi)) (sqrt (1 / pi)) junk ltac:(lia)) as (x & E & L & H). exists x. split; auto. split; [lia|]. intros i Hi. rewrite H by auto. apply che_row. Qed.
Lemma cols_values : exists scl, two_values junk n (sqrt (pi / 2))%R (sqrt pi)%R = Some scl /\ n <= zlen scl /\ forall i, 0 <= i < n -> nthZ 0%R scl i = che_c tgamma i.
Proof. destruct (two_values_ok n (sqrt (pi / 2)) (sqrt pi) junk ltac:(lia)) as (x & E & L & H). exists x. split; auto. split; [lia|]. intros i Hi. rewrite H by auto. apply che_col. Qed.
Lemma row_family Q hQ i x : chebyshev_norms hQ -> hQ 0 = (tgamma (1/2) * tgamma (1/2))%R -> 0 <= i < n -> fam true Q hQ i x = (che_r tgamma i * fam false Q hQ i x)%R.
Proof. intros N M Hi. unfold fam. rewrite (che_norm 0%R tgamma pow2 HG hQ) by (auto; lia). rewrite (che_rc tgamma pow2 HG). pose proof (che_c_pos tgamma pow2 HG i). field. lra. Qed.
Lemma col_family P hP i x : chebyshev_norms hP -> hP 0 = (tgamma (1/2) * tgamma (1/2))%R -> 0 <= i < n -> fam false P hP i x = (che_c tgamma i * fam true P hP i x)%R.
Proof. intros N M Hi. unfold fam. rewrite (che_norm 0%R tgamma pow2 HG hP) by (auto; lia). pose proof (che_c_pos tgamma pow2 HG i). field. lra. Qed.

Lemma jac2che_dense n1 n2 a b P Q hP hQ : (-1 < a)%R -> (-1 < b)%R ->
  is_jacobi a b P -> is_chebyshev Q -> jacobi_norms a b hP -> chebyshev_norms hQ ->
  hP 0 = jacobi_mass tgamma pow2 a b -> hQ 0 = (tgamma (1/2) * tgamma (1/2))%R ->
  exists V, dense_jacobi_to_chebyshev 0%R idR tgamma pow2 pi d1 d2 junk n1 n2 n a b = Some V /\ table n V (fam n1 P hP) (fam n2 Q hQ).
Proof.
  intros Ha Hb HP HQ NP NQ MP MQ. destruct (cJ_ok tgamma pow2 HG) as (UJ & UN & UM).
  destruct (jac_dense tgamma pow2 HG d1 d2 n Hn L1 L2 n1 true a b (- (1 / 2)) (- (1 / 2)) P cJ hP ch) as (V & EV & TV0); auto; try lra.
  assert (TV : table n V (fam n1 P hP) (fam true Q hQ)).
  { eapply table_ext; [exact TV0|reflexivity|]. intros i x Hi. symmetry. apply jac_che_fam; auto; try lia; try (unfold ch; rewrite UM, MQ; apply che_mass; auto). }
  unfold dense_jacobi_to_chebyshev. change (opp half) with (- (1 / 2))%R. unfold idR in *. rewrite EV. cbn [obind]. destruct n2.
  - exists V. split; [reflexivity|exact TV].
  - destruct rows_values as (scl & Es & Ls & Hr). cbn [sqrtA div ofZ R_arith]. rewrite Es. cbn [obind].
    destruct (scale_dense_ok n by_row scl (che_r tgamma) Hn Ls Hr ltac:(unfold by_row; auto) V (proj1 TV)) as (X & EX & PX).
    exists X. split; [exact EX|]. eapply table_rows; eauto. intros. apply row_family; auto.
Qed.
Lemma che2jac_dense n1 n2 a b P Q hP hQ : (-1 < a)%R -> (-1 < b)%R ->
  is_chebyshev P -> is_jacobi a b Q -> chebyshev_norms hP -> jacobi_norms a b hQ ->
  hP 0 = (tgamma (1/2) * tgamma (1/2))%R -> hQ 0 = jacobi_mass tgamma pow2 a b ->
  exists V, dense_chebyshev_to_jacobi 0%R idR tgamma pow2 pi d1 d2 junk n1 n2 n a b = Some V /\ table n V (fam n1 P hP) (fam n2 Q hQ).
Proof.
  intros Ha Hb HP HQ NP NQ MP MQ. destruct (cJ_ok tgamma pow2 HG) as (UJ & UN & UM).
  destruct (jac_dense tgamma pow2 HG d1 d2 n Hn L1 L2 true n2 (- (1 / 2)) (- (1 / 2)) a b cJ Q ch hQ) as (V & EV & TV0); auto; try lra.
  assert (TV : table n V (fam true P hP) (fam n2 Q hQ)).
  { eapply table_ext; [exact TV0| |reflexivity]. intros i x Hi. symmetry. apply jac_che_fam; auto; try lia; try (unfold ch; rewrite UM, MP; apply che_mass; auto). }
  unfold dense_chebyshev_to_jacobi. change (opp half) with (- (1 / 2))%R. unfold idR in *. rewrite EV. cbn [obind]. destruct n1.
  - exists V. split; [reflexivity|exact TV].
  - destruct cols_values as (scl & Es & Ls & Hr). cbn [sqrtA div ofZ R_arith]. rewrite Es. cbn [obind].
    destruct (scale_dense_ok n by_column scl (che_c tgamma) Hn Ls Hr ltac:(unfold by_column; auto) V (proj1 TV)) as (X & EX & PX).
    exists X. split; [exact EX|]. eapply table_columns; eauto. intros. apply col_family; auto.
Qed.
(** scaling every second entry is scaling all of them when the others are zero *)
Lemma part_full sel r V X P Q : zlen V = n * n -> connects n (mat 0 n V) P Q -> one_connection n P Q -> parity P -> parity Q ->
  part n sel r V X (fun i j => (i <=? j) && Z.even (j - i)) -> part n sel r V X (fun i j => i <=? j).
Proof.
  intros L C O HP HQ [LX HX]. split; auto. intros i j Hi Hj. rewrite HX by auto. destruct (Z.leb_spec i j); cbn [andb]; auto.
  destruct (Z.even (j - i)) eqn:E; auto. pose proof (odd_zero n _ P Q O C HP HQ i j Hi Hj E) as Z0. rewrite mat_at in Z0. rewrite Z0. ring.
Qed.
Lemma ult2che_dense n1 n2 la P Q hP hQ : (- 1 / 2 < la)%R -> la <> 0%R -> (n1 = true -> 0 < la)%R ->
  is_ultraspherical la P -> is_chebyshev Q -> ultraspherical_norms la hP -> chebyshev_norms hQ ->
  hP 0 = jacobi_mass tgamma pow2 (la - 1 / 2) (la - 1 / 2) -> hQ 0 = (tgamma (1/2) * tgamma (1/2))%R ->
  exists V, dense_ultraspherical_to_chebyshev 0%R idR tgamma pow2 pi d1 d2 junk n1 n2 n la = Some V /\ table n V (fam n1 P hP) (fam n2 Q hQ).
Proof.
  intros Hl Hl0 Hs HP HQ NP NQ MP MQ. destruct (cJ_ok tgamma pow2 HG) as (UJ & UN & UM).
  destruct (ult2jac_dense n1 true (- (1 / 2)) (- (1 / 2)) la P cJ hP ch) as (V & EV & TV0); auto; try lra.
  assert (TV : table n V (fam n1 P hP) (fam true Q hQ)).
  { eapply table_ext; [exact TV0|reflexivity|]. intros i x Hi. symmetry. apply jac_che_fam; auto; try lia; try (unfold ch; rewrite UM, MQ; apply che_mass; auto). }
  unfold dense_ultraspherical_to_chebyshev. change (opp half) with (- (1 / 2))%R. unfold idR in *. rewrite EV. cbn [obind]. destruct n2.
  - exists V. split; [reflexivity|exact TV].
  - destruct rows_values as (scl & Es & Ls & Hr). cbn [sqrtA div ofZ R_arith]. rewrite Es. cbn [obind].
    destruct (scale_parity_ok n by_row scl (che_r tgamma) Hn Ls Hr ltac:(unfold by_row; auto) V (proj1 TV)) as (X & EX & PX).
    exists X. split; [exact EX|]. eapply table_rows; eauto; [|intros; apply row_family; auto].
    refine (part_full _ _ V X (fam n1 P hP) (fam true Q hQ) (proj1 TV) (proj2 TV) _ _ _ PX).
    + eapply one_conn; [apply (ult_graded la); auto|apply cheb_graded; auto|apply (un_pos la); auto|apply chn_pos; auto].
    + apply fam_parity, (ult_parity la); auto.
    + apply fam_parity, cheb_parity; auto.
Qed.
Lemma che2ult_dense n1 n2 la P Q hP hQ : (- 1 / 2 < la)%R -> la <> 0%R -> (n2 = true -> 0 < la)%R ->
  is_chebyshev P -> is_ultraspherical la Q -> chebyshev_norms hP -> ultraspherical_norms la hQ ->
  hP 0 = (tgamma (1/2) * tgamma (1/2))%R -> hQ 0 = jacobi_mass tgamma pow2 (la - 1 / 2) (la - 1 / 2) ->
  exists V, dense_chebyshev_to_ultraspherical 0%R idR tgamma pow2 pi d1 d2 junk n1 n2 n la = Some V /\ table n V (fam n1 P hP) (fam n2 Q hQ).
Proof.
  intros Hl Hl0 Hs HP HQ NP NQ MP MQ. destruct (cJ_ok tgamma pow2 HG) as (UJ & UN & UM).
  destruct (jac2ult_dense true n2 (- (1 / 2)) (- (1 / 2)) la cJ Q ch hQ) as (V & EV & TV0); auto; try lra.
  assert (TV : table n V (fam true P hP) (fam n2 Q hQ)).
  { eapply table_ext; [exact TV0| |reflexivity]. intros i x Hi. symmetry. apply jac_che_fam; auto; try lia; try (unfold ch; rewrite UM, MP; apply che_mass; auto). }
  unfold dense_chebyshev_to_ultraspherical. change (opp half) with (- (1 / 2))%R. unfold idR in *. rewrite EV. cbn [obind]. destruct n1.
  - exists V. split; [reflexivity|exact TV].
  - destruct cols_values as (scl & Es & Ls & Hr). cbn [sqrtA div ofZ R_arith]. rewrite Es. cbn [obind].
    destruct (scale_parity_ok n by_column scl (che_c tgamma) Hn Ls Hr ltac:(unfold by_column; auto) V (proj1 TV)) as (X & EX & PX).
    exists X. split; [exact EX|]. eapply table_columns; eauto; [|intros; apply col_family; auto].
    refine (part_full _ _ V X (fam true P hP) (fam n2 Q hQ) (proj1 TV) (proj2 TV) _ _ _ PX).
    + eapply one_conn; [apply cheb_graded; auto|apply (ult_graded la); auto|apply chn_pos; auto|apply (un_pos la); auto].
    + apply fam_parity, cheb_parity; auto.
    + apply fam_parity, (ult_parity la); auto.
Qed.
End Planners.
