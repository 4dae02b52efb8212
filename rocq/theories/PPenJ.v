(** * The Jacobi pencil *)
From Coq Require Import ZArith List Lia Bool Reals Lra ZifyBool.
From Verif Require Import Base BaseFacts Arith SpecSum PSum SpecLin SpecBanded MBanded PTri PBand SpecEig SpecClassical SpecConn MClassical MConn PClass1 PClass2 PClass3 PClass4 PClass5 PClass6 PClass8 PPoly PPen.
Import ListNotations.
Open Scope Z_scope.

Fixpoint kn (p0 : R) (A : Z -> R) (n : nat) : R := match n with O => p0 | S m => (A (Z.of_nat m) * kn p0 A m)%R end.
Definition kz (p0 : R) (A : Z -> R) (n : Z) : R := kn p0 A (Z.to_nat n).
Lemma kz_S p0 A n : 0 <= n -> kz p0 A (n + 1) = (A n * kz p0 A n)%R.
Proof. intros. unfold kz. replace (Z.to_nat (n + 1)) with (S (Z.to_nat n)) by lia. cbn. now rewrite Z2Nat.id by lia. Qed.
Lemma rec3_graded p0 A B C P N : rec3 p0 A B C P -> p0 <> 0%R -> (forall n, 0 <= n -> A n <> 0%R) -> graded N (kz p0 A) P.
Proof.
  intros H H0 HA n Hn. split.
  - apply (rec3_lead p0 A B C P (kz p0 A)); auto; [intros; apply kz_S; auto|lia].
  - unfold kz. generalize (Z.to_nat n). induction n0 as [|m IH]; cbn; auto. apply Rmult_integral_contrapositive_currified; auto. apply HA. lia.
Qed.
Definition sc (norm : bool) (h : Z -> R) (j : Z) : R := if norm then (/ sqrt (h j))%R else 1%R.
Lemma fam_sc norm P h j x : fam norm P h j x = (sc norm h j * P j x)%R.
Proof. unfold fam, sc. destruct norm; [unfold Rdiv|]; ring. Qed.
Lemma sc_nz norm h j : (0 < h j)%R -> sc norm h j <> 0%R.
Proof. intros. unfold sc. destruct norm; [|lra]. apply Rinv_neq_0_compat. apply sqrt_lt_R0 in H. lra. Qed.
Lemma graded_fam norm N k P h : graded N k P -> (forall n, 0 <= n -> (0 < h n)%R) -> graded N (fun n => (sc norm h n * k n)%R) (fam norm P h).
Proof.
  intros G Hh n Hn. destruct (G n Hn) as [L K]. split.
  - apply (polylt_ext _ (fun x => (sc norm h n * (P n x - k n * mono n x))%R)); [intros; rewrite fam_sc; ring|now apply polylt_scal].
  - apply Rmult_integral_contrapositive_currified; auto. apply sc_nz. apply Hh. lia.
Qed.

Section J.
Variables (a b : R).
Hypotheses (Ha : (-1 < a)%R) (Hb : (-1 < b)%R).
Variable P : Z -> R -> R.
Hypothesis HP : is_jacobi a b P.
Definition jA (n : Z) : R := if n =? 0 then ((a + b + 2) / 2)%R else rA (IZR n) a b.
Definition jB (n : Z) : R := if n =? 0 then ((a - b) / 2)%R else rB (IZR n) a b.
Lemma jac_rec3 : rec3 1 jA jB (fun n => rC (IZR n) a b) P.
Proof.
  split.
  - apply (jac_0 _ _ _ HP).
  - intros. rewrite (jac_0 _ _ _ HP), (jac_1 _ _ _ HP). unfold jA, jB. cbn [Z.eqb]. field.
  - intros. rewrite (jac_rec a b Ha Hb P HP n x) by auto. unfold jA, jB. now replace (n =? 0) with false by lia.
Qed.
Lemma jA_pos n : 0 <= n -> (0 < jA n)%R.
Proof.
  intros Hn. unfold jA. destruct (Z.eqb_spec n 0). { lra. } assert (1 <= IZR n)%R by (apply IZR_le; lia). unfold rA. posr.
Qed.
Lemma jac_graded N : graded N (kz 1 jA) P.
Proof. apply (rec3_graded 1 jA _ _ P N jac_rec3); [lra|]. intros. pose proof (jA_pos n H). lra. Qed.
Variables (Q S : Z -> R -> R).
Hypotheses (HQ : is_jacobi (a+1) (b+1) Q) (HS : is_jacobi (a+1+1) (b+1+1) S).
Definition jd1 (j : Z) : R := ((IZR j + a + b + 1) / 2)%R.
Definition jd2 (j : Z) : R := ((IZR j + a + b + 2) / 2)%R.
Lemma jac_d1 j x : 0 <= j -> derivable_pt_lim (P j) x (jd1 j * ext0 Q (j - 1) x)%R.
Proof. intros. apply jac_deriv; auto. Qed.
Lemma jac_d2 j x : 0 <= j -> derivable_pt_lim (fun x => jd1 j * ext0 Q (j - 1) x)%R x (jd1 j * (jd2 j * ext0 S (j - 2) x))%R.
Proof.
  intros Hj. apply (derivable_pt_lim_scal (ext0 Q (j - 1)) (jd1 j) x). destruct (Z.eq_dec j 0) as [->|].
  - rewrite ext0_neg by lia. rewrite Rmult_0_r.
    assert (D := derivable_pt_lim_const 0 x). intros e He. destruct (D e He) as [d Hd]. exists d. intros h' A B. rewrite !ext0_neg by lia. apply (Hd h' A B).
  - assert (D := jac_deriv (a+1) (b+1) ltac:(lra) ltac:(lra) Q S HQ HS (j-1) ltac:(lia) x).
    replace (j - 1 - 1) with (j - 2) in D by lia. rewrite minus_IZR in D.
    replace ((IZR j - 1 + (a + 1) + (b + 1) + 1) / 2)%R with (jd2 j) in D by (unfold jd2; lra).
    intros e He. destruct (D e He) as [d Hd]. exists d. intros h' A B. rewrite !ext0_pos by lia. apply (Hd h' A B).
Qed.
Lemma jac_ode j x : 0 <= j ->
  (- (1 - x * x) * (jd1 j * (jd2 j * ext0 S (j - 2) x)) + ((a - b) + (a + b + 2) * x) * (jd1 j * ext0 Q (j - 1) x) = IZR j * (IZR j + a + b + 1) * P j x)%R.
Proof.
  intros Hj. destruct (Z.eq_dec j 0) as [->|H0]. { rewrite !ext0_neg by lia. lra. }
  destruct (Z.eq_dec j 1) as [->|H1].
  { rewrite ext0_neg, ext0_pos by lia. change (1 - 1) with 0. rewrite (jac_0 _ _ _ HQ), (jac_1 _ _ _ HP). unfold jd1. lra. }
  rewrite (jac_raise a b Ha Hb P Q HP HQ j x) by lia.
  assert (L := jac_lower (a+1) (b+1) ltac:(lra) ltac:(lra) Q S HQ HS (j - 2) x ltac:(lia)).
  assert (M := Q_mult a b Ha Hb Q HQ (j - 1) x ltac:(lia)).
  replace (j - 2 + 1) with (j - 1) in L by lia. replace (j - 2 + 2) with j in L by lia.
  replace (j - 1 - 1) with (j - 2) in M by lia. replace (j - 1 + 1) with j in M by lia.
  rewrite !ext0_pos in * by lia. rewrite !minus_IZR in *.
  transitivity (- (jd1 j * jd2 j) * ((1 - x * x) * S (j - 2)%Z x) + jd1 j * ((a - b) * Q (j - 1)%Z x + (a + b + 2) * (x * Q (j - 1)%Z x)))%R; [ring|].
  rewrite L, M. assert (2 <= IZR j)%R by (apply IZR_le; lia). unfold jd1, jd2. unf. field. repeat split; lra.
Qed.
End J.

Section Families.
Variables (n : Z) (norm : bool) (al be c e : R).
Hypotheses (Hn : 0 <= n) (Hc : (-1 < c)%R) (He : (-1 < e)%R).
Variables (Q T S : Z -> R -> R) (hQ hT hS : Z -> R).
Hypotheses (HQ : is_jacobi c e Q) (HT : is_jacobi (c+1) (e+1) T) (HS : is_jacobi (c+1+1) (e+1+1) S).
Hypotheses (NQ : jacobi_norms c e hQ) (NT : jacobi_norms (c+1) (e+1) hT) (NS : jacobi_norms (c+1+1) (e+1+1) hS).
Hypotheses (M1 : jacobi_masses c e (hQ 0%Z) (hT 0%Z)) (M2 : jacobi_masses (c+1) (e+1) (hT 0%Z) (hS 0%Z)).

Definition Fm (k : Z) : Z -> R -> R := if k =? 0 then Q else if k =? 1 then T else S.
Definition Hm (k : Z) : Z -> R := if k =? 0 then hQ else if k =? 1 then hT else hS.
Lemma jac_eq a b a' b' F : a = a' -> b = b' -> is_jacobi a b F -> is_jacobi a' b' F. Proof. now intros -> ->. Qed.
Lemma jn_eq a b a' b' F : a = a' -> b = b' -> jacobi_norms a b F -> jacobi_norms a' b' F. Proof. now intros -> ->. Qed.
Lemma Fm_ok k : 0 <= k <= 2 -> is_jacobi (c + IZR k) (e + IZR k) (Fm k) /\ jacobi_norms (c + IZR k) (e + IZR k) (Hm k).
Proof.
  intros Hk. unfold Fm, Hm. assert (E : k = 0 \/ k = 1 \/ k = 2) by lia. destruct E as [->|[->| ->]]; cbn [Z.eqb Pos.eqb]; split;
  first [eapply jac_eq; [| |eassumption]; lra | eapply jn_eq; [| |eassumption]; lra].
Qed.
Lemma Fm_mass k : 0 <= k < 2 -> jacobi_masses (c + IZR k) (e + IZR k) (Hm k 0) (Hm (k+1) 0).
Proof.
  intros Hk. assert (E : k = 0 \/ k = 1) by lia. destruct E as [->| ->]; unfold Hm; cbn [Z.eqb Pos.eqb Z.add Pos.add Pos.succ].
  - now rewrite !Rplus_0_r.
  - exact M2.
Qed.
Variables (d1 d2 : list R).
Hypotheses (L1 : n <= zlen d1) (L2 : n <= zlen d2).
Lemma jacobi_A_cols : exists A, create_A_jacobi_to_jacobi d1 d2 norm n al be c e = Some A /\ tb_ok A /\ tb_n A = n /\ tb_b A = 2 /\
  forall j x, 0 <= j < n -> expansion n (fun i => tb_mat A i j) (fam norm T hT) x =
   (- (1 - x * x) * (sc norm hQ j * (jd1 c e j * (jd2 c e j * ext0 S (j - 2) x))) + ((al - be) + (al + be + 2) * x) * (sc norm hQ j * (jd1 c e j * ext0 T (j - 1) x)))%R.
Proof.
  destruct (jacobi_derivative_proof c e 1 Fm Hm Hc He ltac:(lia) ltac:(intros; apply Fm_ok; lia) ltac:(intros; apply Fm_ok; lia) ltac:(intros; apply Fm_mass; lia) d1 norm n n Hn Hn L1)
    as [D1 (ED1 & OD1 & mD1 & nD1 & lD1 & uD1 & VD1)].
  destruct (jacobi_derivative_proof c e 2 Fm Hm Hc He ltac:(lia) ltac:(intros; apply Fm_ok; lia) ltac:(intros; apply Fm_ok; lia) ltac:(intros; apply Fm_mass; lia) d2 norm n n Hn Hn L2)
    as [D2 (ED2 & OD2 & mD2 & nD2 & lD2 & uD2 & VD2)].
  destruct (jacobi_lowering_proof norm n n (c+1) (e+1) T S hT hS ltac:(lra) ltac:(lra) Hn Hn HT NT HS NS M2) as [L (EL & OL & mL & nL & lL & uL & VL)].
  destruct (jacobi_multiplication_proof norm n n (c+1) (e+1) T hT ltac:(lra) ltac:(lra) Hn Hn HT NT) as [M (EM & OM & mM & nM & lM & uM & VM)].
  assert (OC := calloc_bd_ok (F:=R) n n 0 2 Hn Hn ltac:(lia)).
  destruct (gbmm_proof (-1)%R L D2 0%R (calloc_banded n n 0 2) OL OD2 OC) as [A1 (E1 & O1 & S1 & V1)]; try (cbn; lia).
  destruct S1 as (m1 & n1 & l1 & u1). cbn in m1, n1, l1, u1.
  destruct (banded_add_inplace_proof 1%R (al - be)%R D1 A1 OD1 O1) as [A2 (E2 & O2 & S2 & _ & V2)]; try lia.
  destruct S2 as (m2 & n2 & l2 & u2).
  destruct (gbmm_proof (al + be + 2)%R M D1 1%R A2 OM OD1 O2) as [A3 (E3 & O3 & S3 & V3)]; try lia.
  destruct S3 as (m3 & n3 & l3 & u3).
  destruct (banded_to_tb_proof (F:=R) A3 O3) as [A4 (E4 & O4 & N4 & B4 & V4)]; try lia.
  exists A4. split.
  { unfold create_A_jacobi_to_jacobi. cbn [ofZ add sub R_arith] in *. rewrite ED1. cbn [obind]. rewrite ED2. cbn [obind]. rewrite EL. cbn [obind]. rewrite EM. cbn [obind].
    change (IZR (-1)) with (-1)%R. rewrite E1. cbn [obind]. rewrite E2. cbn [obind]. rewrite E3. cbn [obind]. exact E4. }
  split; [auto|]. split; [lia|split; [lia|]].
  assert (ent : forall i j, 0 <= i < n -> 0 <= j < n -> tb_mat A4 i j =
    (- matmul n (bd_mat L) (bd_mat D2) i j + (al - be) * bd_mat D1 i j + (al + be + 2) * matmul n (bd_mat M) (bd_mat D1) i j)%R).
  { intros i j Hi Hj. specialize (V4 i j). rewrite tb_get_val in V4 by auto. rewrite (bd_get_val A3) in V4 by auto.
    replace ((0 <=? i) && (j <? tb_n A4)) with true in V4 by lia. injection V4 as ->. rewrite bG_in by lia.
    rewrite V3 by lia. rewrite <- (bG_in A2) by lia. rewrite V2, !bG_in by lia. rewrite V1 by (cbn; lia). rewrite nL, nM.
    assert (Z0 : bd_mat (calloc_banded n n 0 2) i j = 0%R).
    { assert (HH := bd_get_val (calloc_banded n n 0 2) i j OC). rewrite calloc_bd_get in HH by lia. rewrite bG_in in HH by (cbn; lia). now injection HH. }
    rewrite Z0. ring. }
  intros j x Hj.
  assert (X1 : expansion n (fun i => bd_mat D1 i j) (fam norm T hT) x = (sc norm hQ j * (jd1 c e j * ext0 T (j - 1) x))%R).
  { destruct (VD1 j Hj ltac:(lia)) as [f' [Hf Hg]]. cbn in Hg. change (Fm 1) with T in Hg. change (Hm 1) with hT in Hg. rewrite <- Hg.
    apply (uniqueness_limite _ x _ _ (Hf x)). change (Fm 0) with Q. change (Hm 0) with hQ.
    assert (D := derivable_pt_lim_scal (Q j) (sc norm hQ j) x _ (jac_d1 c e Hc He Q HQ T HT j x ltac:(lia))).
    intros w Hw. destruct (D w Hw) as [dd Hd]. exists dd. intros h' X Y. rewrite !fam_sc. apply (Hd h' X Y). }
  assert (X2 : expansion n (fun i => bd_mat D2 i j) (fam norm S hS) x = (sc norm hQ j * (jd1 c e j * (jd2 c e j * ext0 S (j - 2) x)))%R).
  { destruct (VD2 j Hj ltac:(lia)) as [f' [Hf [f'' [Hf2 Hg]]]]. cbn in Hg. change (Fm 2) with S in Hg. change (Hm 2) with hS in Hg. rewrite <- Hg.
    assert (F1 : forall y, f' y = (sc norm hQ j * (jd1 c e j * ext0 T (j - 1) y))%R).
    { intros y. apply (uniqueness_limite _ y _ _ (Hf y)). change (Fm 0) with Q. change (Hm 0) with hQ.
      assert (D := derivable_pt_lim_scal (Q j) (sc norm hQ j) y _ (jac_d1 c e Hc He Q HQ T HT j y ltac:(lia))).
      intros w Hw. destruct (D w Hw) as [dd Hd]. exists dd. intros h' X Y. rewrite !fam_sc. apply (Hd h' X Y). }
    apply (uniqueness_limite _ x _ _ (Hf2 x)).
    assert (D := derivable_pt_lim_scal _ (sc norm hQ j) x _ (jac_d2 c e Hc He T S HT HS j x ltac:(lia))).
    intros w Hw. destruct (D w Hw) as [dd Hd]. exists dd. intros h' X Y. rewrite !F1. apply (Hd h' X Y). }
  unfold expansion. rewrite (sumZ_ext n _ (fun i => (- (matmul n (bd_mat L) (bd_mat D2) i j * fam norm T hT i x) + ((al - be) * (bd_mat D1 i j * fam norm T hT i x) + (al + be + 2) * (matmul n (bd_mat M) (bd_mat D1) i j * fam norm T hT i x)))%R)) by (intros; rewrite ent by auto; ring).
  rewrite !sumZ_plus, !sumZ_scal. fold (expansion n (fun i => bd_mat D1 i j) (fam norm T hT) x). rewrite X1.
  assert (SW : forall (K D : banded R) (G : Z -> R), (forall k, 0 <= k < n -> bd_mat D k j <> 0%R -> expansion n (fun i => bd_mat K i k) (fam norm T hT) x = G k) ->
     sumZ n (fun i => (matmul n (bd_mat K) (bd_mat D) i j * fam norm T hT i x)%R) = sumZ n (fun k => (bd_mat D k j * G k)%R)).
  { intros K D G HG. unfold matmul. rewrite (sumZ_ext n _ (fun i => sumZ n (fun k => (bd_mat K i k * bd_mat D k j * fam norm T hT i x)%R))) by (intros; now rewrite sumZ_scal_r).
    rewrite sumZ_swap. apply sumZ_ext. intros k Hk. destruct (Req_dec (bd_mat D k j) 0) as [Z0|Z0].
    - rewrite Z0. rewrite Rmult_0_l. apply sumZ_zero. intros. lra.
    - rewrite <- (HG k Hk Z0). unfold expansion. rewrite <- sumZ_scal. apply sumZ_ext. intros. ring. }
  rewrite (sumZ_ext n (fun i => (- _)%R) (fun i => (-1 * (matmul n (bd_mat L) (bd_mat D2) i j * fam norm T hT i x))%R)) by (intros; ring).
  rewrite sumZ_scal.
  rewrite (SW L D2 (fun k => ((1 - x * x) * fam norm S hS k x)%R)).
  2:{ intros k Hk Hnz. apply VL; auto. destruct (Z_lt_dec (k + 2) n); auto. exfalso. apply Hnz. unfold bd_mat. rewrite lD2, uD2. now replace ((- - (2) <=? j - k) && (j - k <=? 2)) with false by lia. }
  rewrite (SW M D1 (fun k => (x * fam norm T hT k x)%R)).
  2:{ intros k Hk Hnz. apply VM; auto. destruct (Z_lt_dec (k + 1) n); auto. exfalso. apply Hnz. unfold bd_mat. rewrite lD1, uD1. now replace ((- - (1) <=? j - k) && (j - k <=? 1)) with false by lia. }
  rewrite (sumZ_ext n (fun k => (bd_mat D2 k j * _)%R) (fun k => ((1 - x * x) * (bd_mat D2 k j * fam norm S hS k x))%R)) by (intros; ring).
  rewrite (sumZ_ext n (fun k => (bd_mat D1 k j * _)%R) (fun k => (x * (bd_mat D1 k j * fam norm T hT k x))%R)) by (intros; ring).
  rewrite !sumZ_scal. unfold expansion in X1, X2. rewrite X1, X2. ring.
Qed.
Lemma jacobi_B_cols : exists B, create_B_jacobi_to_jacobi norm n c e = Some B /\ tb_ok B /\ tb_n B = n /\ tb_b B = 2 /\
  forall j x, 0 <= j < n -> expansion n (fun i => tb_mat B i j) (fam norm T hT) x = fam norm Q hQ j x.
Proof.
  destruct (jacobi_raising_proof norm n n c e Q T hQ hT Hc He Hn Hn HQ NQ HT NT M1) as [B (E & O & m & n' & l & u & V)].
  destruct (banded_to_tb_proof (F:=R) B O) as [B' (E' & O' & N' & B2 & V')]; try lia.
  exists B'. split. { unfold create_B_jacobi_to_jacobi. rewrite E. exact E'. } split; [auto|split; [lia|split; [lia|]]].
  intros j x Hj. rewrite <- V by lia. unfold expansion. apply sumZ_ext. intros i Hi. f_equal.
  specialize (V' i j). rewrite tb_get_val, bd_get_val in V' by auto. replace ((0 <=? i) && (j <? tb_n B')) with true in V' by lia. injection V' as ->. apply bG_in; lia.
Qed.
End Families.

Lemma jacobi_pencil_proof n1 n2 n a b c e P Q hP hQ d1 d2 : (-1 < a)%R -> (-1 < b)%R -> (-1 < c)%R -> (-1 < e)%R -> 0 <= n ->
  n <= zlen d1 -> n <= zlen d2 -> is_jacobi a b P -> jacobi_norms a b hP -> is_jacobi c e Q -> jacobi_norms c e hQ ->
  exists A B, create_A_jacobi_to_jacobi d1 d2 n2 n a b c e = Some A /\ create_B_jacobi_to_jacobi n2 n c e = Some B /\ tb_b A = 2 /\ tb_b B = 2 /\
    forall U, connects n U (fam n1 P hP) (fam n2 Q hQ) -> diagonalizes n A B U (fun j => (IZR j * (IZR j + a + b + 1))%R).
Proof.
  intros Ha Hb Hc He Hn L1 L2 HP NP HQ NQ.
  set (P1 := std_jacobi (a+1) (b+1)). set (P2 := std_jacobi (a+1+1) (b+1+1)).
  assert (HP1 : is_jacobi (a+1) (b+1) P1) by (apply std_jacobi_ok; lra). assert (HP2 : is_jacobi (a+1+1) (b+1+1) P2) by (apply std_jacobi_ok; lra).
  set (T := std_jacobi (c+1) (e+1)). set (S := std_jacobi (c+1+1) (e+1+1)).
  assert (HT : is_jacobi (c+1) (e+1) T) by (apply std_jacobi_ok; lra). assert (HS : is_jacobi (c+1+1) (e+1+1) S) by (apply std_jacobi_ok; lra).
  set (m1 := (4 * (c + 1) * (e + 1) / ((c + e + 2) * (c + e + 3)) * hQ 0%Z)%R).
  set (m2 := (4 * (c + 2) * (e + 2) / ((c + e + 4) * (c + e + 5)) * m1)%R).
  assert (Pm1 : (0 < m1)%R). { unfold m1. pose proof (jn_0 _ _ _ NQ). posr. }
  assert (Pm2 : (0 < m2)%R). { unfold m2. posr. }
  set (hT := std_jacobi_norms (c+1) (e+1) m1). set (hS := std_jacobi_norms (c+1+1) (e+1+1) m2).
  assert (NT : jacobi_norms (c+1) (e+1) hT) by (apply std_jacobi_norms_ok; lra). assert (NS : jacobi_norms (c+1+1) (e+1+1) hS) by (apply std_jacobi_norms_ok; lra).
  assert (M1 : jacobi_masses c e (hQ 0%Z) (hT 0%Z)). { unfold jacobi_masses. change (hT 0%Z) with m1. unfold m1. field. lra. }
  assert (M2 : jacobi_masses (c+1) (e+1) (hT 0%Z) (hS 0%Z)). { unfold jacobi_masses. change (hT 0%Z) with m1. change (hS 0%Z) with m2. unfold m2. field. lra. }
  destruct (jacobi_A_cols n n2 a b c e Hn Hc He Q T S hQ hT hS HQ HT HS NQ NT NS M1 M2 d1 d2 L1 L2) as [A (EA & OA & NA & BA & CA)].
  destruct (jacobi_B_cols n n2 c e Hn Hc He Q T hQ hT HQ HT NQ NT M1) as [B (EB & OB & NB & BB & CB)].
  exists A, B. do 4 (split; [assumption|]). intros U HU.
  refine (pencil_diag n _ _ _ (fam n1 P hP) (fun j x => sc n1 hP j * (jd1 a b j * ext0 P1 (j - 1) x))%R (fun j x => sc n1 hP j * (jd1 a b j * (jd2 a b j * ext0 P2 (j - 2) x)))%R
    (fam n2 Q hQ) (fun j x => sc n2 hQ j * (jd1 c e j * ext0 T (j - 1) x))%R (fun j x => sc n2 hQ j * (jd1 c e j * (jd2 c e j * ext0 S (j - 2) x)))%R (fam n2 T hT)
    (fun x => - (1 - x * x))%R (fun x => (a - b) + (a + b + 2) * x)%R _ A B U
    (graded_fam n1 n _ P hP (jac_graded a b Ha Hb P HP n) (fun k Hk => jn_pos a b hP Ha Hb NP k Hk))
    (graded_fam n2 n _ Q hQ (jac_graded c e Hc He Q HQ n) (fun k Hk => jn_pos c e hQ Hc He NQ k Hk))
    (graded_fam n2 n _ T hT (jac_graded (c+1) (e+1) ltac:(lra) ltac:(lra) T HT n) (fun k Hk => jn_pos (c+1) (e+1) hT ltac:(lra) ltac:(lra) NT k Hk)) _ _ _ _ _ OA OB NA NB CA CB HU).
  - intros j x Hj. assert (D := derivable_pt_lim_scal (P j) (sc n1 hP j) x _ (jac_d1 a b Ha Hb P HP P1 HP1 j x ltac:(lia))).
    intros w Hw. destruct (D w Hw) as [dd Hd]. exists dd. intros h' X Y. rewrite !fam_sc. apply (Hd h' X Y).
  - intros j x Hj. apply (derivable_pt_lim_scal (fun y => jd1 a b j * ext0 P1 (j - 1) y)%R (sc n1 hP j) x). apply jac_d2; auto. lia.
  - intros j x Hj. assert (D := derivable_pt_lim_scal (Q j) (sc n2 hQ j) x _ (jac_d1 c e Hc He Q HQ T HT j x ltac:(lia))).
    intros w Hw. destruct (D w Hw) as [dd Hd]. exists dd. intros h' X Y. rewrite !fam_sc. apply (Hd h' X Y).
  - intros j x Hj. apply (derivable_pt_lim_scal (fun y => jd1 c e j * ext0 T (j - 1) y)%R (sc n2 hQ j) x). apply jac_d2; auto. lia.
  - intros j x Hj. rewrite fam_sc. pose proof (jac_ode a b Ha Hb P HP P1 P2 HP1 HP2 j x ltac:(lia)) as O.
    transitivity (sc n1 hP j * (IZR j * (IZR j + a + b + 1) * P j x))%R; [rewrite <- O; ring|ring].
Qed.
