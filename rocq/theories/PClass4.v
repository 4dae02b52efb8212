(** * The Jacobi operators of the model *)
From Coq Require Import ZArith List Lia Bool Reals Lra ZifyBool.
From Verif Require Import Base BaseFacts Arith SpecSum PSum SpecLin SpecBanded MBanded PBand MClassical SpecClassical PClass1 PClass2 PClass3.
Import ListNotations.
Open Scope Z_scope.

Ltac posr := repeat (first [lra | apply Rdiv_lt_0_compat | apply Rmult_lt_0_compat]); lra.
Ltac posl := first [lra | apply Rlt_le; posr].

Lemma nrm c X d H K M sg rho : (0 <= c)%R -> (0 <= d)%R -> (0 <= X)%R -> (0 < M)%R -> (0 <= sg)%R -> (0 <= rho)%R ->
  H = (sg * M)%R -> K = (rho * M)%R -> (c * c * X * sg = d * d * rho)%R -> (c * sqrt X * sqrt H = d * sqrt K)%R.
Proof.
  intros Hc Hd HX HM Hs Hr -> -> E.
  rewrite <- (sqrt_Rsqr c), <- (sqrt_Rsqr d) by auto. rewrite <- !sqrt_mult; unfold Rsqr; try nra; try (apply Rmult_le_pos; nra).
  f_equal. transitivity (c * c * X * sg * M)%R; [ring|]. rewrite E. ring.
Qed.
Lemma entry v d q H K : (0 < H)%R -> (0 < K)%R -> (v * sqrt H = d * sqrt K)%R -> (v * (q / sqrt K) = d * q / sqrt H)%R.
Proof.
  intros HH HK E. apply sqrt_lt_R0 in HH. apply sqrt_lt_R0 in HK.
  apply (Rmult_eq_reg_r (sqrt H * sqrt K)); [|nra]. field_simplify; try lra. rewrite (Rmult_comm v), Rmult_assoc, E. ring.
Qed.

Ltac ar := cbn [ofZ add sub mul div opp one zero sqrtA R_arith].
Ltac izr := rewrite ?plus_IZR, ?minus_IZR, ?mult_IZR, ?plus_IZR, ?minus_IZR.

Section J.
Variables (a b : R).
Hypotheses (Ha : (-1 < a)%R) (Hb : (-1 < b)%R).
Variables (P : Z -> R -> R) (h : Z -> R).
Hypotheses (HP : is_jacobi a b P) (Hh : jacobi_norms a b h).

Lemma jac_rec_norm n x : 1 <= n ->
  fam true P h (n + 1) x = ((rec_A_jacobi true n a b * x + rec_B_jacobi true n a b) * fam true P h n x - rec_C_jacobi true n a b * fam true P h (n - 1) x)%R.
Proof.
  intros Hn. unfold fam. rewrite (jac_rec a b Ha Hb P HP n x Hn).
  assert (H0 := jn_pos a b h Ha Hb Hh n ltac:(lia)). assert (H1 := jn_pos a b h Ha Hb Hh (n+1) ltac:(lia)). assert (H2 := jn_pos a b h Ha Hb Hh (n-1) ltac:(lia)).
  assert (E1 := jn_rec a b h Ha Hb Hh n Hn). pose proof Hn as Hk. apply IZR_le in Hk.
  assert (EA : (rec_A_jacobi true n a b * sqrt (h (n+1)%Z) = rA (IZR n) a b * sqrt (h n))%R).
  { unfold rec_A_jacobi. replace (n =? 0) with false by lia. ar. izr. set (k := IZR n) in *.
    match goal with |- (sqrt ?X / 2 * _ = _)%R => replace (sqrt X / 2)%R with (/2 * sqrt X)%R by lra end.
    eapply (nrm _ _ _ _ _ (h n)); [lra|unfold rA; posl|posl|exact H0| | |exact E1|symmetry; apply Rmult_1_l|]; [posl|lra|fld]. }
  assert (EB : (rec_B_jacobi true n a b * sqrt (h (n+1)%Z) = rB (IZR n) a b * sqrt (h n))%R).
  { unfold rec_B_jacobi. replace (n =? 0) with false by lia. ar. izr. set (k := IZR n) in *.
    match goal with |- (?c * sqrt ?X * _ = _)%R => assert (EE : (/ (2 * (2 * k + a + b)) * sqrt X * sqrt (h (n + 1)%Z) = (2*k+a+b+1)/(2*(k+1)*(k+a+b+1)*(2*k+a+b)) * sqrt (h n))%R) end.
    { eapply (nrm _ _ _ _ _ (h n)); [apply Rlt_le, Rinv_0_lt_compat; lra|posl|posl|exact H0| | |exact E1|symmetry; apply Rmult_1_l|]; [posl|lra|fld]. }
    transitivity ((a - b) * (a + b) * ((2*k+a+b+1)/(2*(k+1)*(k+a+b+1)*(2*k+a+b)) * sqrt (h n)))%R; [rewrite <- EE|]; unf; field; repeat split; lra. }
  assert (EC : (rec_C_jacobi true n a b * sqrt (h (n+1)%Z) = rC (IZR n) a b * sqrt (h (n-1)%Z))%R).
  { unfold rec_C_jacobi. destruct (Z.eqb_spec n 1) as [->|].
    - ar. cbn [Z.add Z.sub Z.opp Z.pos_sub] in *. rewrite (jn_rec0 a b h Ha Hb Hh) in E1.
      eapply (nrm _ _ _ _ _ (h 0%Z)); [posl|unfold rC; posl|posl|exact H2| | |rewrite E1; rewrite <- Rmult_assoc; reflexivity|symmetry; apply Rmult_1_l|]; [posl|lra|fld].
    - assert (E2 := jn_rec a b h Ha Hb Hh (n-1) ltac:(lia)). replace (n - 1 + 1) with n in E2 by lia. rewrite E2 in E1. rewrite minus_IZR in E1.
      assert (Hk2 : 2 <= n) by lia. apply IZR_le in Hk2. ar. izr. set (k := IZR n) in *.
      match goal with |- (_ * sqrt (?X * ?Y / ?W) * _ = _)%R => replace (X * Y / W)%R with (k * (k + a) * (k + b) * (k + a + b) * (2 * k + a + b + 3) / ((k + 1) * (k + a + 1) * (k + b + 1) * (k + a + b + 1) * (2 * k + a + b - 1)))%R by (field; repeat split; lra) end.
      eapply (nrm _ _ _ _ _ (h (n-1)%Z)); [posl|unfold rC; posl|posl|exact H2| | |rewrite E1; rewrite <- Rmult_assoc; reflexivity|symmetry; apply Rmult_1_l|]; [posl|lra|fld]. }
  transitivity (x * (rec_A_jacobi true n a b * (P n x / sqrt (h n))) + rec_B_jacobi true n a b * (P n x / sqrt (h n)) - rec_C_jacobi true n a b * (P (n-1)%Z x / sqrt (h (n-1)%Z)))%R; [|ring].
  rewrite (entry _ _ (P (n-1)%Z x) _ _ H1 H2 EC), (entry _ _ (P n x) _ _ H1 H0 EA), (entry _ _ (P n x) _ _ H1 H0 EB).
  apply sqrt_lt_R0 in H1. field. lra.
Qed.
Lemma jac_rec_norm0 x : fam true P h 1 x = ((rec_A_jacobi true 0 a b * x + rec_B_jacobi true 0 a b) * fam true P h 0 x)%R.
Proof.
  unfold fam. rewrite (jac_1 _ _ _ HP), (jac_0 _ _ _ HP).
  assert (H0 := jn_pos a b h Ha Hb Hh 0 ltac:(lia)). assert (H1 := jn_pos a b h Ha Hb Hh 1 ltac:(lia)). assert (E1 := jn_rec0 a b h Ha Hb Hh).
  assert (EA : (1 * sqrt ((a + b + 3) / ((a + 1) * (b + 1))) * sqrt (h 1%Z) = 1 * sqrt (h 0%Z))%R).
  { eapply (nrm _ _ _ _ _ (h 0%Z)); [lra|lra|posl|exact H0| | |exact E1|symmetry; apply Rmult_1_l|]; [posl|lra|field; repeat split; lra]. }
  unfold rec_A_jacobi, rec_B_jacobi. cbn [Z.eqb]. ar. rewrite !Rmult_1_l in EA. set (s := sqrt ((a + b + 3) / _)) in *.
  apply sqrt_lt_R0 in H0. apply sqrt_lt_R0 in H1. 
  assert (ES : s = (sqrt (h 0%Z) / sqrt (h 1%Z))%R). { rewrite <- EA. field. lra. } rewrite ES. field. split; lra.
Qed.

(** recurrence coefficients without normalisation *)
Lemma rec_A_val n : 1 <= n -> rec_A_jacobi false n a b = rA (IZR n) a b.
Proof. intros. unfold rec_A_jacobi. replace (n =? 0) with false by lia. ar. izr. reflexivity. Qed.
Lemma rec_B_val n : 1 <= n -> rec_B_jacobi false n a b = rB (IZR n) a b.
Proof. intros. unfold rec_B_jacobi. replace (n =? 0) with false by lia. ar. izr. reflexivity. Qed.
Lemma rec_C_val n : 1 <= n -> rec_C_jacobi false n a b = rC (IZR n) a b.
Proof. intros. unfold rec_C_jacobi. ar. izr. reflexivity. Qed.
Lemma jacobi_recurrence_proof norm x :
  fam norm P h 1 x = ((rec_A_jacobi norm 0 a b * x + rec_B_jacobi norm 0 a b) * fam norm P h 0 x)%R /\
  forall n, 1 <= n -> fam norm P h (n + 1) x =
    ((rec_A_jacobi norm n a b * x + rec_B_jacobi norm n a b) * fam norm P h n x - rec_C_jacobi norm n a b * fam norm P h (n - 1) x)%R.
Proof.
  destruct norm. { split; [apply jac_rec_norm0|intros; now apply jac_rec_norm]. } unfold fam. split.
  - rewrite (jac_1 _ _ _ HP), (jac_0 _ _ _ HP). unfold rec_A_jacobi, rec_B_jacobi. cbn [Z.eqb]. ar. field.
  - intros n Hn. rewrite rec_A_val, rec_B_val, rec_C_val by auto. now apply jac_rec.
Qed.

Ltac inr := repeat match goal with |- context[if (?u <=? ?v) && (?w <? ?z) then _ else _] =>
    first [replace ((u <=? v) && (w <? z)) with true by lia | replace ((u <=? v) && (w <? z)) with false by lia] end.
Lemma jacobi_mult_col_val norm m j x : 0 <= j -> j + 1 < m ->
  colsum m (jacobi_mult_col norm a b j) (fun i => fam norm P h i x) = (x * fam norm P h j x)%R.
Proof.
  intros Hj Hm. unfold jacobi_mult_col. destruct (Z.eqb_spec j 0) as [->|Hj0].
  - assert (M0 := jac_mult0 a b Ha Hb P HP x). destruct norm; cbn [colsum fst snd]; inr; ar; cbn [Z.sub Z.opp Z.add Z.mul].
    + assert (H0 := jn_pos a b h Ha Hb Hh 0 ltac:(lia)). assert (H1 := jn_pos a b h Ha Hb Hh 1 ltac:(lia)). assert (E1 := jn_rec0 a b h Ha Hb Hh).
      assert (EA : (2 * sqrt ((a + 1) * (b + 1) / ((a + b + 2) * (a + b + 2) * (a + b + 3))) * sqrt (h 0%Z) = 2 / (a + b + 2) * sqrt (h 1%Z))%R).
      { eapply (nrm _ _ _ _ _ (h 0%Z)); [lra|posl|posl|exact H0| | |symmetry; apply Rmult_1_l|exact E1|]; [lra|posl|field; repeat split; lra]. }
      unfold fam. rewrite (entry _ _ (P 1 x) _ _ H0 H1 EA). apply sqrt_lt_R0 in H0. transitivity (x * P 0 x / sqrt (h 0%Z))%R; [rewrite M0; field; split; lra|field; lra].
    + unfold fam. rewrite M0. ring.
  - assert (M0 := jac_mult a b Ha Hb P HP j x ltac:(lia)). assert (Hk : 1 <= j) by lia. pose proof Hk as Hk'. apply IZR_le in Hk.
    destruct norm; cbn [colsum fst snd]; inr; ar; izr.
    + assert (H0 := jn_pos a b h Ha Hb Hh j ltac:(lia)). assert (H1 := jn_pos a b h Ha Hb Hh (j+1) ltac:(lia)). assert (H2 := jn_pos a b h Ha Hb Hh (j-1) ltac:(lia)).
      assert (E1 := jn_rec a b h Ha Hb Hh j Hk'). set (k := IZR j) in *.
      assert (EU : (2 * sqrt ((k + 1) * (k + a + 1) * (k + b + 1) * (k + a + b + 1) / ((2 * k + a + b + 1) * (2 * k + a + b + 2) * (2 * k + a + b + 2) * (2 * k + a + b + 3))) * sqrt (h j) = mU k a b * sqrt (h (j+1)%Z))%R).
      { eapply (nrm _ _ _ _ _ (h j)); [lra|unfold mU; posl|posl|exact H0| | |symmetry; apply Rmult_1_l|exact E1|]; [lra|posl|fld]. }
      match goal with |- (?up * _ + _ = _)%R => assert (EL : (up * sqrt (h j) = mL k a b * sqrt (h (j-1)%Z))%R) end.
      { destruct (Z.eqb_spec j 1) as [E|].
        - assert (k = 1%R) by (unfold k; now rewrite E). assert (E2 := jn_rec0 a b h Ha Hb Hh). rewrite H. rewrite E. cbn [Z.sub Z.opp Z.add Z.pos_sub]. rewrite E in H2. cbn in H2.
          eapply (nrm _ _ _ _ _ (h 0%Z)); [lra|unfold mL; posl|posl|exact H2| | |exact E2|symmetry; apply Rmult_1_l|]; [posl|lra|fld].
        - assert (E2 := jn_rec a b h Ha Hb Hh (j-1) ltac:(lia)). replace (j - 1 + 1) with j in E2 by lia. rewrite minus_IZR in E2. fold k in E2.
          assert (Hk2 : 2 <= j) by lia. apply IZR_le in Hk2. fold k in Hk2.
          eapply (nrm _ _ _ _ _ (h (j-1)%Z)); [lra|unfold mL; posl|posl|exact H2| | |exact E2|symmetry; apply Rmult_1_l|]; [posl|lra|fld]. }
      unfold fam. rewrite (entry _ _ (P (j-1)%Z x) _ _ H0 H2 EL), (entry _ _ (P (j+1)%Z x) _ _ H0 H1 EU).
      apply sqrt_lt_R0 in H0. transitivity (x * P j x / sqrt (h j))%R; [|field; lra]. rewrite M0. unfold mD. field. repeat split; lra.
    + unfold fam. rewrite M0. unf. ring.
Qed.
End J.
