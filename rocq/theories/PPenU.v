(** * The ultraspherical, Legendre and Chebyshev pencils *)
From Coq Require Import ZArith List Lia Bool Reals Lra ZifyBool.
From Verif Require Import Base BaseFacts Arith SpecSum PSum SpecLin SpecBanded MBanded PTri PBand SpecEig SpecClassical SpecConn MClassical MConn PClass1 PClass2 PClass3 PPoly PPen PPenJ PUltra.
Import ListNotations.
Open Scope Z_scope.

Section G.
Variables (n : Z) (n1 n2 : bool) (lS lT : R) (P P1 P2 Q Q1 Q2 T : Z -> R -> R) (hP hQ kP kQ kR : Z -> R) (colA colB : Z -> list (Z * R)).
Hypotheses (Hn : 0 <= n) (gP : gegen lS P P1 P2) (gQ : gegen lT Q Q1 Q2).
Hypotheses (GP : graded n kP P) (GQ : graded n kQ Q) (GR : graded n kR T).
Hypotheses (hPp : forall k, 0 <= k -> (0 < hP k)%R) (hQp : forall k, 0 <= k -> (0 < hQ k)%R).
Hypothesis shA : forall j, 0 <= j < n -> NoDup (map fst (colA j)) /\ forall i, In i (map fst (colA j)) -> 0 <= i < n -> 0 <= j - i <= 2.
Hypothesis shB : forall j, 0 <= j < n -> NoDup (map fst (colB j)) /\ forall i, In i (map fst (colB j)) -> 0 <= i < n -> 0 <= j - i <= 2.
Hypothesis CA : forall j x, 0 <= j < n -> colsum n (colA j) (fun i => T i x) = (sc n2 hQ j * (IZR j * (IZR j + 2 * lT) * Q j x + 2 * (lS - lT) * (x * Q1 j x)))%R.
Hypothesis CB : forall j x, 0 <= j < n -> colsum n (colB j) (fun i => T i x) = (sc n2 hQ j * Q j x)%R.
Lemma gegen_pencil : exists A B, tset_cols n colA (calloc_tbanded n 2) = Some A /\ tset_cols n colB (calloc_tbanded n 2) = Some B /\ tb_b A = 2 /\ tb_b B = 2 /\
  forall U, connects n U (fam n1 P hP) (fam n2 Q hQ) -> diagonalizes n A B U (fun j => (IZR j * (IZR j + 2 * lS))%R).
Proof.
  destruct (tset_cols_sum n 2 colA Hn ltac:(lia) shA) as [A (EA & OA & NA & BA & VA)].
  destruct (tset_cols_sum n 2 colB Hn ltac:(lia) shB) as [B (EB & OB & NB & BB & VB)].
  exists A, B. do 4 (split; [assumption|]). intros U HU.
  refine (pencil_diag n _ _ _ (fam n1 P hP) (fun j x => sc n1 hP j * P1 j x)%R (fun j x => sc n1 hP j * P2 j x)%R
    (fam n2 Q hQ) (fun j x => sc n2 hQ j * Q1 j x)%R (fun j x => sc n2 hQ j * Q2 j x)%R T
    (fun x => - (1 - x * x))%R (fun x => (2 * lS + 1) * x)%R _ A B U
    (graded_fam n1 n kP P hP GP hPp) (graded_fam n2 n kQ Q hQ GQ hQp) GR _ _ _ _ _ OA OB NA NB _ _ HU).
  - intros j x Hj. assert (D := derivable_pt_lim_scal (P j) (sc n1 hP j) x _ (gg1 _ _ _ _ gP j x ltac:(lia))).
    intros w Hw. destruct (D w Hw) as [dd Hd]. exists dd. intros h' X Y. rewrite !fam_sc. apply (Hd h' X Y).
  - intros j x Hj. apply (derivable_pt_lim_scal (P1 j) (sc n1 hP j) x). apply (gg2 _ _ _ _ gP). lia.
  - intros j x Hj. assert (D := derivable_pt_lim_scal (Q j) (sc n2 hQ j) x _ (gg1 _ _ _ _ gQ j x ltac:(lia))).
    intros w Hw. destruct (D w Hw) as [dd Hd]. exists dd. intros h' X Y. rewrite !fam_sc. apply (Hd h' X Y).
  - intros j x Hj. apply (derivable_pt_lim_scal (Q1 j) (sc n2 hQ j) x). apply (gg2 _ _ _ _ gQ). lia.
  - intros j x Hj. rewrite fam_sc. pose proof (gg_ode _ _ _ _ gP j x ltac:(lia)) as O.
    transitivity (sc n1 hP j * (IZR j * (IZR j + 2 * lS) * P j x))%R; [rewrite <- O; ring|ring].
  - intros j x Hj. unfold expansion. rewrite (VA j (fun i => T i x) Hj), CA by auto. rewrite <- (gg_ode _ _ _ _ gQ j x) by lia. ring.
  - intros j x Hj. unfold expansion. rewrite (VB j (fun i => T i x) Hj), CB by auto. now rewrite fam_sc.
Qed.
End G.

(** grading *)
Section R3.
Variables (l : R) (P : Z -> R -> R).
Hypotheses (Hl : (- 1 / 2 < l)%R) (Hl0 : l <> 0%R) (HP : is_ultraspherical l P).
Definition uA (n : Z) : R := (2 * (IZR n + l) / (IZR n + 1))%R.
Lemma nl0 n : 0 <= n -> (IZR n + l <> 0)%R.
Proof. intros Hn. destruct (Z.eq_dec n 0) as [->|]; [lra|]. assert (1 <= IZR n)%R by (apply IZR_le; lia). lra. Qed.
Lemma nl20 n : 0 <= n -> (IZR n + 2 * l <> 0)%R.
Proof. intros Hn. destruct (Z.eq_dec n 0) as [->|]; [lra|]. assert (1 <= IZR n)%R by (apply IZR_le; lia). lra. Qed.
Lemma ult_graded N : graded N (kz 1 uA) P.
Proof.
  apply (rec3_graded 1 uA (fun _ => 0%R) (fun n => ((IZR n + 2 * l - 1) / (IZR n + 1))%R)); [|lra|].
  - split; [apply (ult_0 _ _ HP)| |].
    + intros x. rewrite (ult_0 _ _ HP), (ult_1 _ _ HP). unfold uA. cbn. field.
    + intros n x Hn. rewrite (ut_S l P HP n x) by auto. unfold uA. apply IZR_le in Hn. field. lra.
  - intros n Hn. unfold uA. pose proof (nl0 n Hn). apply IZR_le in Hn. intros E. apply (f_equal (fun t => t * (IZR n + 1))%R) in E. field_simplify in E; lra.
Qed.
Lemma un_pos h : ultraspherical_norms l h -> forall n, 0 <= n -> (0 < h n)%R.
Proof.
  intros N n Hn. rewrite <- (Z2Nat.id n) by lia. induction (Z.to_nat n) as [|m IH]; [apply (un_0 _ _ N)|].
  replace (Z.of_nat (S m)) with (Z.of_nat m + 1) by lia. assert (H := un_S _ _ N (Z.of_nat m) ltac:(lia)). cbn zeta in H.
  set (k := Z.of_nat m) in *. assert (K : (0 <= IZR k)%R) by (apply IZR_le; unfold k; lia).
  assert (K2 : (0 < (IZR k + l) * (IZR k + 2 * l))%R).
  { destruct (Z.eq_dec k 0) as [->|]. { replace ((0 + l) * (0 + 2 * l))%R with (2 * (l * l))%R by ring. assert (0 < l * l)%R by (apply Rsqr_pos_lt; auto). lra. }
    assert (1 <= IZR k)%R by (apply IZR_le; unfold k in *; lia). apply Rmult_lt_0_compat; lra. }
  assert (K1 : (0 < (IZR k + 1) * (IZR k + 1 + l))%R) by (apply Rmult_lt_0_compat; lra).
  apply (Rmult_lt_reg_l ((IZR k + 1) * (IZR k + 1 + l))); auto. rewrite Rmult_0_r, H. apply Rmult_lt_0_compat; auto.
Qed.
End R3.

Lemma copysign_pos (x y : R) : (0 <= x)%R -> (0 < y)%R -> copysignA x y = x.
Proof. intros. unfold copysignA. cbn. unfold R_ltb. destruct (Rlt_dec y 0); [lra|]. apply Rabs_pos_eq; auto. Qed.
Lemma cs_sqrt (X mu c H1 H2 : R) : (X = c * c * (H1 / H2) -> 0 < H1 -> 0 < H2 -> 0 < c * mu -> copysignA (sqrt X) mu = c * (sqrt H1 / sqrt H2))%R.
Proof.
  intros -> P1 P2 Hc. assert (c <> 0%R) by (intros ->; lra).
  assert (E : (sqrt (c * c * (H1 / H2)) = Rabs c * (sqrt H1 / sqrt H2))%R).
  { rewrite sqrt_mult. rewrite <- sqrt_div by lra. f_equal. apply sqrt_Rsqr_abs. apply Rle_0_sqr. apply Rlt_le. apply Rdiv_lt_0_compat; auto. }
  assert (0 <= sqrt H1 / sqrt H2)%R. { apply Rlt_le. apply Rdiv_lt_0_compat; apply sqrt_lt_R0; auto. }
  rewrite E. unfold copysignA. cbn. unfold R_ltb. rewrite Rabs_mult, Rabs_Rabsolu, (Rabs_pos_eq (sqrt H1 / sqrt H2)) by auto.
  destruct (Rlt_dec mu 0).
  - rewrite Rabs_left; [ring|]. destruct (Rlt_dec c 0); auto. exfalso. assert (c * mu <= 0)%R; [|lra]. replace 0%R with (c * 0)%R by ring. apply Rmult_le_compat_l; lra.
  - rewrite Rabs_pos_eq; [ring|]. destruct (Rlt_dec c 0); [|lra]. exfalso. assert (c * mu <= 0)%R; [|lra]. replace (c * mu)%R with (- ((- c) * mu))%R by ring. assert (0 <= - c * mu)%R; [|lra]. apply Rmult_le_pos; lra.
Qed.

Section UT.
Variables (mu : R) (h : Z -> R).
Hypotheses (Hm : (- 1 / 2 < mu)%R) (Hm0 : mu <> 0%R) (Nh : ultraspherical_norms mu h).
Definition hT (i : Z) : R := ((IZR i + 2 * mu) * (IZR i + 2 * mu + 1) * (IZR i + mu) / (4 * mu * mu * (IZR i + mu + 1)) * h i)%R.
Lemma hT_pos i : 0 <= i -> (0 < hT i)%R.
Proof.
  intros Hi. assert (Ph := un_pos mu Hm Hm0 h Nh i Hi). unfold hT. apply Rmult_lt_0_compat; auto.
  assert (0 < mu * mu)%R by (apply Rsqr_pos_lt; auto).
  destruct (Z.eq_dec i 0) as [->|].
  - replace ((0 + 2 * mu) * (0 + 2 * mu + 1) * (0 + mu) / (4 * mu * mu * (0 + mu + 1)))%R with ((2 * mu + 1) / (2 * (mu + 1)))%R by (field; split; lra). apply Rdiv_lt_0_compat; lra.
  - assert (1 <= IZR i)%R by (apply IZR_le; lia). apply Rdiv_lt_0_compat.
    + repeat apply Rmult_lt_0_compat; lra.
    + rewrite (Rmult_assoc 4 mu mu). apply Rmult_lt_0_compat; [apply Rmult_lt_0_compat|]; lra.
Qed.
Variable norm : bool.
Definition cc (j : Z) : R := (mu / (IZR j + mu))%R.
Lemma cc_sign j : 1 <= j -> (0 < cc j * mu)%R.
Proof. intros Hj. apply IZR_le in Hj. unfold cc. replace (mu / (IZR j + mu) * mu)%R with (mu * mu / (IZR j + mu))%R by (field; lra). apply Rdiv_lt_0_compat; [apply Rsqr_pos_lt; auto|lra]. Qed.
Definition dg (j : Z) : R := if norm then copysignA (sqrt ((IZR j + 2 * mu) * (IZR j + 2 * mu + 1) / (4 * (IZR j + mu) * (IZR j + mu + 1)))) mu else cc j.
Definition og (j : Z) : R := if norm then copysignA (sqrt (IZR j * (IZR j - 1) / (4 * (IZR j + mu) * (IZR j + mu - 1)))) mu else cc j.
Lemma dg_val j : 1 <= j -> (dg j * sc norm hT j = sc norm h j * cc j)%R.
Proof.
  intros Hj. unfold dg, sc. destruct norm; [|ring]. assert (Ph := un_pos mu Hm Hm0 h Nh j ltac:(lia)). assert (PT := hT_pos j ltac:(lia)).
  rewrite (cs_sqrt _ mu (cc j) (hT j) (h j)); auto.
  - apply sqrt_lt_R0 in Ph. apply sqrt_lt_R0 in PT. field. lra.
  - unfold hT, cc. apply IZR_le in Hj. field. repeat split; lra.
  - now apply cc_sign.
Qed.
Lemma og_val j : 2 <= j -> (og j * sc norm hT (j - 2) = sc norm h j * cc j)%R.
Proof.
  intros Hj. unfold og, sc. destruct norm; [|ring]. assert (Ph := un_pos mu Hm Hm0 h Nh j ltac:(lia)). assert (PT := hT_pos (j - 2) ltac:(lia)).
  rewrite (cs_sqrt _ mu (cc j) (hT (j - 2)) (h j)); auto.
  - apply sqrt_lt_R0 in Ph. apply sqrt_lt_R0 in PT. field. lra.
  - assert (E1 := un_S _ _ Nh (j - 1) ltac:(lia)). assert (E2 := un_S _ _ Nh (j - 2) ltac:(lia)). cbn zeta in E1, E2.
    replace (j - 1 + 1) with j in E1 by lia. replace (j - 2 + 1) with (j - 1) in E2 by lia.
    assert (Ph2 := un_pos mu Hm Hm0 h Nh (j - 2) ltac:(lia)).
    assert (N1 := nl0 mu Hm Hm0 (j - 2) ltac:(lia)). assert (N2 := nl20 mu Hm Hm0 (j - 2) ltac:(lia)).
    unfold hT, cc. rewrite !minus_IZR in *. apply IZR_le in Hj.
    assert (F2 : h (j - 1) = ((IZR j - 2 + mu) * (IZR j - 2 + 2 * mu) / ((IZR j - 1) * (IZR j - 1 + mu)) * h (j - 2)%Z)%R).
    { apply (Rmult_eq_reg_l ((IZR j - 2 + 1) * (IZR j - 2 + 1 + mu))); [|apply Rmult_integral_contrapositive_currified; lra]. rewrite E2. field. repeat split; lra. }
    assert (F1 : h j = ((IZR j - 1 + mu) * (IZR j - 1 + 2 * mu) / (IZR j * (IZR j + mu)) * h (j - 1)%Z)%R).
    { apply (Rmult_eq_reg_l ((IZR j - 1 + 1) * (IZR j - 1 + 1 + mu))); [|apply Rmult_integral_contrapositive_currified; lra]. rewrite E1. field. repeat split; lra. }
    rewrite F1, F2. field. repeat split; lra.
  - apply cc_sign. lia.
Qed.
Lemma ultra_B_eq j : 0 <= j -> ultra_B_col norm mu j = if j =? 0 then [(0, (if norm then sqrt ((2 * mu + 1) / (2 * mu + 2)) else 1)%R)] else if j =? 1 then [(1, dg 1)] else [(j - 2, (- og j)%R); (j, dg j)].
Proof.
  intros Hj. unfold ultra_B_col, dg, og, cc. destruct (Z.eqb_spec j 0) as [->|]; [destruct norm; reflexivity|].
  destruct (Z.eqb_spec j 1) as [->|].
  - destruct norm; cbn; [|reflexivity]. do 3 f_equal. f_equal. field. lra.
  - assert (2 <= IZR j)%R by (apply IZR_le; lia). destruct norm; cbn; [reflexivity|]. do 3 f_equal. field. lra.
Qed.
Variable lam : R.
Lemma ultra_A_eq j : 0 <= j -> ultra_A_col norm lam mu j = if j =? 0 then [] else if j =? 1 then [(1, ((1 + 2 * lam) * dg 1)%R)] else
  [(j - 2, (- (IZR j + 2 * mu) * (IZR j + 2 * (mu - lam)) * og j)%R); (j, (IZR j * (IZR j + 2 * lam) * dg j)%R)].
Proof.
  intros Hj. unfold ultra_A_col, dg, og, cc. destruct (Z.eqb_spec j 0) as [->|]; [reflexivity|].
  destruct (Z.eqb_spec j 1) as [->|].
  - destruct norm; cbn; [do 4 f_equal; f_equal|do 2 f_equal]; field; lra.
  - assert (2 <= IZR j)%R by (apply IZR_le; lia). destruct norm; cbn; [reflexivity|]. f_equal; [|f_equal]; f_equal; field; lra.
Qed.
Lemma ultra_shA n j : 0 <= j < n -> NoDup (map fst (ultra_A_col norm lam mu j)) /\ forall i, In i (map fst (ultra_A_col norm lam mu j)) -> 0 <= i < n -> 0 <= j - i <= 2.
Proof.
  intros Hj. rewrite ultra_A_eq by lia. destruct (Z.eqb_spec j 0); [cbn; split; [constructor|tauto]|]. destruct (Z.eqb_spec j 1); cbn; split; try lia; repeat constructor; cbn; lia.
Qed.
Lemma ultra_shB n j : 0 <= j < n -> NoDup (map fst (ultra_B_col norm mu j)) /\ forall i, In i (map fst (ultra_B_col norm mu j)) -> 0 <= i < n -> 0 <= j - i <= 2.
Proof.
  intros Hj. rewrite ultra_B_eq by lia. destruct (Z.eqb_spec j 0); [cbn; split; [repeat constructor; cbn; lia|lia]|]. destruct (Z.eqb_spec j 1); cbn; split; try lia; repeat constructor; cbn; lia.
Qed.
Variables (Q T : Z -> R -> R).
Hypotheses (HQ : is_ultraspherical mu Q) (HT : is_ultraspherical (mu + 1) T).
Lemma ultra_CB n j x : 0 <= j < n -> colsum n (ultra_B_col norm mu j) (fun i => (sc norm hT i * T i x)%R) = (sc norm h j * Q j x)%R.
Proof.
  intros Hj. rewrite ultra_B_eq by lia. rewrite (ut_raise_pos mu Hm Hm0 Q T HQ HT j x) by lia. fold (cc j).
  destruct (Z.eqb_spec j 0) as [->|].
  { cbn [colsum fst snd]. replace ((0 <=? 0) && (0 <? n)) with true by lia. rewrite (ext0_neg T (0 - 2)), (ext0_pos T 0) by lia. rewrite (ult_0 _ _ HT). unfold sc. destruct norm.
    - assert (Ph := un_pos mu Hm Hm0 h Nh 0 ltac:(lia)). assert (PT := hT_pos 0 ltac:(lia)).
      replace ((2 * mu + 1) / (2 * mu + 2))%R with (hT 0 / h 0%Z)%R by (unfold hT; field; repeat split; lra).
      rewrite sqrt_div by lra. unfold cc. apply sqrt_lt_R0 in Ph. apply sqrt_lt_R0 in PT. field. repeat split; lra.
    - unfold cc. field. lra. }
  destruct (Z.eqb_spec j 1) as [->|].
  { cbn [colsum fst snd]. replace ((0 <=? 1) && (1 <? n)) with true by lia. rewrite (ext0_neg T (1 - 2)), (ext0_pos T 1) by lia.
    rewrite <- Rmult_assoc, dg_val by lia. ring. }
  cbn [colsum fst snd]. replace ((0 <=? j - 2) && (j - 2 <? n)) with true by lia. replace ((0 <=? j) && (j <? n)) with true by lia. rewrite !ext0_pos by lia.
  transitivity (- (og j * sc norm hT (j - 2)) * T (j - 2)%Z x + (dg j * sc norm hT j) * T j x)%R; [ring|]. rewrite dg_val, og_val by lia. ring.
Qed.
Lemma ultra_CA n j x : 0 <= j < n -> colsum n (ultra_A_col norm lam mu j) (fun i => (sc norm hT i * T i x)%R) =
  (sc norm h j * (IZR j * (IZR j + 2 * mu) * Q j x + 2 * (lam - mu) * (x * (2 * mu * ext0 T (j - 1) x))))%R.
Proof.
  intros Hj. rewrite ultra_A_eq by lia. rewrite (ut_raise_pos mu Hm Hm0 Q T HQ HT j x) by lia. fold (cc j).
  destruct (Z.eqb_spec j 0) as [->|]. { cbn [colsum]. rewrite (ext0_neg T (0 - 1)) by lia. ring. }
  assert (M := T_mult mu Hm Hm0 T HT (j - 1) x ltac:(lia)). replace (j - 1 + 1) with j in M by lia. replace (j - 1 - 1) with (j - 2) in M by lia. rewrite minus_IZR in M.
  replace (x * (2 * mu * ext0 T (j - 1) x))%R with (2 * mu * (x * ext0 T (j - 1) x))%R by ring. rewrite M. clear M.
  assert (1 <= IZR j)%R by (apply IZR_le; lia).
  destruct (Z.eqb_spec j 1) as [->|].
  { cbn [colsum fst snd]. replace ((0 <=? 1) && (1 <? n)) with true by lia. rewrite (ext0_neg T (1 - 2)), (ext0_pos T 1) by lia.
    transitivity ((1 + 2 * lam) * (dg 1 * sc norm hT 1) * T 1%Z x)%R; [ring|]. rewrite dg_val by lia. unfold cc. field. lra. }
  cbn [colsum fst snd]. replace ((0 <=? j - 2) && (j - 2 <? n)) with true by lia. replace ((0 <=? j) && (j <? n)) with true by lia. rewrite !ext0_pos by lia.
  transitivity (- (IZR j + 2 * mu) * (IZR j + 2 * (mu - lam)) * (og j * sc norm hT (j - 2)) * T (j - 2)%Z x + IZR j * (IZR j + 2 * lam) * (dg j * sc norm hT j) * T j x)%R; [ring|]. rewrite dg_val, og_val by lia. unfold cc. field. lra.
Qed.
End UT.
