(** * The Laguerre pencil *)
From Coq Require Import ZArith List Lia Bool Reals Lra ZifyBool.
From Verif Require Import Base BaseFacts Arith SpecSum PSum SpecLin SpecBanded MBanded PTri PBand SpecEig SpecClassical SpecConn MClassical MConn PClass1 PClass2 PClass3 PClass6 PClass7 PClass8 PPoly PPen PPenJ PUltra.
Import ListNotations.
Open Scope Z_scope.

Section L.
Variable a : R.
Hypothesis Ha : (-1 < a)%R.
Variables (P Q S : Z -> R -> R).
Hypotheses (HP : is_laguerre a P) (HQ : is_laguerre (a+1) Q) (HS : is_laguerre (a+1+1) S).
Definition lA (n : Z) : R := (-1 / (IZR n + 1))%R.
Lemma lag_graded N : graded N (kz 1 lA) P.
Proof.
  apply (rec3_graded 1 lA (fun n => ((2 * IZR n + a + 1) / (IZR n + 1))%R) (fun n => ((IZR n + a) / (IZR n + 1))%R)); [|lra|].
  - split; [apply (lag_0 _ _ HP)| |].
    + intros x. rewrite (lag_0 _ _ HP), (lag_1 _ _ HP). unfold lA. cbn. field.
    + intros n x Hn. rewrite (lag_rec a P HP n x) by auto. reflexivity.
  - intros n Hn. unfold lA. apply IZR_le in Hn. intros E. apply (f_equal (fun t => t * (IZR n + 1))%R) in E. field_simplify in E; lra.
Qed.
Lemma lag_d1 j x : 0 <= j -> derivable_pt_lim (P j) x (- ext0 Q (j - 1) x)%R.
Proof. intros. replace (- ext0 Q (j - 1) x)%R with (-1 * ext0 Q (j - 1) x)%R by ring. apply (lag_deriv a P Q HP HQ); auto. Qed.
Lemma lag_d1' j x : 0 <= j -> derivable_pt_lim (Q j) x (- ext0 S (j - 1) x)%R.
Proof. intros. replace (- ext0 S (j - 1) x)%R with (-1 * ext0 S (j - 1) x)%R by ring. apply (lag_deriv (a+1) Q S HQ HS); auto. Qed.
Lemma lag_d2 j x : 0 <= j -> derivable_pt_lim (fun y => - ext0 Q (j - 1) y)%R x (ext0 S (j - 2) x).
Proof.
  intros Hj. destruct (Z.eq_dec j 0) as [->|].
  - rewrite ext0_neg by lia. apply (deriv_ext (fun _ => 0%R)); [intros; rewrite ext0_neg by lia; ring|apply derivable_pt_lim_const].
  - replace (ext0 S (j - 2) x) with (- (- ext0 S (j - 1 - 1) x))%R by (replace (j - 1 - 1) with (j - 2) by lia; ring).
    apply (deriv_ext (fun y => - Q (j - 1)%Z y)%R); [intros; now rewrite ext0_pos by lia|]. apply (derivable_pt_lim_opp (Q (j - 1))). apply lag_d1'. lia.
Qed.
Lemma lag_ode j x : 0 <= j -> (- x * ext0 S (j - 2) x + - (a + 1 - x) * - ext0 Q (j - 1) x = IZR j * P j x)%R.
Proof.
  intros Hj. destruct (Z.eq_dec j 0) as [->|H0]. { rewrite !ext0_neg by lia. lra. }
  destruct (Z.eq_dec j 1) as [->|H1].
  { rewrite ext0_neg, ext0_pos by lia. change (1 - 1) with 0. rewrite (lag_0 _ _ HQ), (lag_1 _ _ HP). lra. }
  rewrite (lag_raise a P Q HP HQ j x) by lia.
  assert (L := lag_lower (a+1) Q S HQ HS (j - 2) x ltac:(lia)).
  assert (M := Ql_mult a Q HQ (j - 1) x ltac:(lia)).
  replace (j - 2 + 1) with (j - 1) in L by lia. replace (j - 1 - 1) with (j - 2) in M by lia. replace (j - 1 + 1) with j in M by lia.
  rewrite !ext0_pos in * by lia. rewrite !minus_IZR in *.
  transitivity (- (x * S (j - 2)%Z x) + ((a + 1) * Q (j - 1)%Z x - x * Q (j - 1)%Z x))%R; [ring|]. rewrite L, M. ring.
Qed.
End L.

Lemma laguerre_pencil_proof n1 n2 n a b P Q hP hQ data : (-1 < a)%R -> (-1 < b)%R -> 0 <= n -> 2 * n <= zlen data ->
  is_laguerre a P -> laguerre_norms a hP -> is_laguerre b Q -> laguerre_norms b hQ ->
  exists A B, create_A_laguerre_to_laguerre data n2 n a b = Some A /\ create_B_laguerre_to_laguerre n2 n b = Some B /\ tb_b A = 1 /\ tb_b B = 1 /\
    forall U, connects n U (fam n1 P hP) (fam n2 Q hQ) -> diagonalizes n A B U (fun j => IZR j).
Proof.
  intros Ha Hb Hn HL HP NP HQ NQ.
  set (P1 := std_laguerre (a+1)). set (P2 := std_laguerre (a+1+1)). set (T := std_laguerre (b+1)). set (S := std_laguerre (b+1+1)).
  assert (HP1 : is_laguerre (a+1) P1) by apply std_laguerre_ok. assert (HP2 : is_laguerre (a+1+1) P2) by apply std_laguerre_ok.
  assert (HT : is_laguerre (b+1) T) by apply std_laguerre_ok. assert (HS : is_laguerre (b+1+1) S) by apply std_laguerre_ok.
  set (hT := std_laguerre_norms (b+1) ((b+1) * hQ 0%Z)%R).
  assert (P0 : (0 < (b+1) * hQ 0%Z)%R) by (pose proof (ln_0 _ _ NQ); apply Rmult_lt_0_compat; lra).
  assert (NT : laguerre_norms (b+1) hT) by (apply std_laguerre_norms_ok; lra).
  assert (M : laguerre_masses b (hQ 0%Z) (hT 0%Z)) by reflexivity.
  destruct (tset_cols_malloc data n 1 (laguerre_A_col n2 a b) Hn ltac:(lia) ltac:(lia)) as [A (EA & OA & NA & BA & VA)].
  { intros j Hj. unfold laguerre_A_col. destruct n2; cbn; split; try lia; repeat constructor; cbn; lia. }
  destruct (laguerre_raising_proof n2 n n b Q T hQ hT Hb Hn Hn HQ NQ HT NT M) as [B0 (E & O & m & n' & l & u & V)].
  destruct (banded_to_tb_proof (F:=R) B0 O) as [B (E' & OB & NB & BB & V')]; try lia.
  exists A, B. split; [exact EA|]. split. { unfold create_B_laguerre_to_laguerre. rewrite E. exact E'. } split; [auto|]. split; [lia|]. intros U HU.
  refine (pencil_diag n _ _ _ (fam n1 P hP) (fun j x => sc n1 hP j * - ext0 P1 (j - 1) x)%R (fun j x => sc n1 hP j * ext0 P2 (j - 2) x)%R
    (fam n2 Q hQ) (fun j x => sc n2 hQ j * - ext0 T (j - 1) x)%R (fun j x => sc n2 hQ j * ext0 S (j - 2) x)%R (fam n2 T hT)
    (fun x => - x)%R (fun x => - (a + 1 - x))%R _ A B U
    (graded_fam n1 n _ P hP (lag_graded a P HP n) (ln_pos a Ha hP NP))
    (graded_fam n2 n _ Q hQ (lag_graded b Q HQ n) (ln_pos b Hb hQ NQ))
    (graded_fam n2 n _ T hT (lag_graded (b+1) T HT n) (ln_pos (b+1) ltac:(lra) hT NT)) _ _ _ _ _ OA OB NA ltac:(lia) _ _ HU).
  - intros j x Hj. assert (D := derivable_pt_lim_scal (P j) (sc n1 hP j) x _ (lag_d1 a P P1 HP HP1 j x ltac:(lia))).
    intros w Hw. destruct (D w Hw) as [dd Hd]. exists dd. intros h' X Y. rewrite !fam_sc. apply (Hd h' X Y).
  - intros j x Hj. apply (derivable_pt_lim_scal (fun y => - ext0 P1 (j - 1) y)%R (sc n1 hP j) x). apply (lag_d2 a P1 P2 HP1 HP2). lia.
  - intros j x Hj. assert (D := derivable_pt_lim_scal (Q j) (sc n2 hQ j) x _ (lag_d1 b Q T HQ HT j x ltac:(lia))).
    intros w Hw. destruct (D w Hw) as [dd Hd]. exists dd. intros h' X Y. rewrite !fam_sc. apply (Hd h' X Y).
  - intros j x Hj. apply (derivable_pt_lim_scal (fun y => - ext0 T (j - 1) y)%R (sc n2 hQ j) x). apply (lag_d2 b T S HT HS). lia.
  - intros j x Hj. rewrite fam_sc. pose proof (lag_ode a P P1 P2 HP HP1 HP2 j x ltac:(lia)) as OD.
    transitivity (sc n1 hP j * (IZR j * P j x))%R; [rewrite <- OD; ring|ring].
  - intros j x Hj. unfold expansion. rewrite (VA j (fun i => fam n2 T hT i x) Hj). unfold laguerre_A_col.
    pose proof (lag_ode b Q T S HQ HT HS j x ltac:(lia)) as OD. rewrite (lag_raise b Q T HQ HT j x) in OD by lia.
    assert (G0 : (0 <= IZR j)%R) by (apply IZR_le; lia).
    assert (X1 : ((if n2 then sqrt (IZR j + b + 1) else 1) * sc n2 hT j = sc n2 hQ j)%R).
    { unfold sc. destruct n2; [|ring]. assert (Q0 := ln_pos b Hb hQ NQ j ltac:(lia)). rewrite (lhq b hQ hT NQ NT M j) by lia. rewrite sqrt_mult by lra.
      apply sqrt_lt_R0 in Q0. assert (0 < sqrt (IZR j + b + 1))%R by (apply sqrt_lt_R0; lra). field. lra. }
    assert (X2 : 1 <= j -> ((if n2 then sqrt (IZR j) else 1) * sc n2 hT (j - 1) = sc n2 hQ j)%R).
    { intros Hj1. unfold sc. destruct n2; [|ring]. assert (Q0 := ln_pos b Hb hQ NQ j ltac:(lia)). assert (1 <= IZR j)%R by (apply IZR_le; lia). rewrite (lhq1 b hQ hT NQ NT M j) by lia. rewrite sqrt_mult by lra.
      apply sqrt_lt_R0 in Q0. assert (0 < sqrt (IZR j))%R by (apply sqrt_lt_R0; lra). field. lra. }
    transitivity (sc n2 hQ j * (IZR j * ext0 T j x + (a - b - IZR j) * ext0 T (j - 1) x))%R.
    2:{ replace (IZR j * ext0 T j x + (a - b - IZR j) * ext0 T (j - 1) x)%R with (IZR j * (ext0 T j x - ext0 T (j - 1) x) + (a - b) * ext0 T (j - 1) x)%R by ring. rewrite <- OD. ring. }
    destruct (Z.eq_dec j 0) as [->|].
    + rewrite (ext0_neg T (0-1)), ext0_pos by lia. destruct n2; cbn [colsum fst snd]; replace ((0 <=? 0 - 1) && (0 - 1 <? n)) with false by lia; replace ((0 <=? 0) && (0 <? n)) with true by lia; cbn; ring.
    + specialize (X2 ltac:(lia)). rewrite !ext0_pos by lia.
      transitivity ((a - b - IZR j) * ((if n2 then sqrt (IZR j) else 1) * sc n2 hT (j - 1)) * T (j - 1)%Z x + IZR j * ((if n2 then sqrt (IZR j + b + 1) else 1) * sc n2 hT j) * T j x)%R.
      * destruct n2; cbn [colsum fst snd]; replace ((0 <=? j - 1) && (j - 1 <? n)) with true by lia; replace ((0 <=? j) && (j <? n)) with true by lia; rewrite !fam_sc; cbn; ring.
      * rewrite X1, X2. ring.
  - intros j x Hj. rewrite <- V by lia. unfold expansion. apply sumZ_ext. intros i Hi. f_equal.
    specialize (V' i j). rewrite tb_get_val, bd_get_val in V' by auto. replace ((0 <=? i) && (j <? tb_n B)) with true in V' by lia. injection V' as ->. apply bG_in; lia.
Qed.
