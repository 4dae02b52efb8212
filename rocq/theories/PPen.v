(** * Filling triangular banded matrices by columns; from differential equations to pencils *)
From Coq Require Import ZArith List Lia Bool Reals Lra ZifyBool.
From Verif Require Import Base BaseFacts Arith SpecSum PSum SpecLin SpecBanded MBanded PTri PBand SpecEig SpecClassical SpecConn MClassical MConn PClass1 PPoly PDprk3.
Import ListNotations.
Open Scope Z_scope.

Definition tG (A : tbanded R) (i j : Z) : R := if (0 <=? i) && (j <? tb_n A) then tb_mat A i j else 0%R.
Lemma tset_col_val j col (A : tbanded R) : tb_ok A ->
  exists A', tset_col j col A = Some A' /\ tb_ok A' /\ tb_n A' = tb_n A /\ tb_b A' = tb_b A /\
    forall p q, tG A' p q = if (q =? j) && tb_in A p q then look col p (tG A p q) else tG A p q.
Proof.
  revert A. induction col as [|[i v] t IH]; intros A HA.
  - exists A. split; [reflexivity|]. split; [auto|split; [auto|split; [auto|]]]. intros. cbn. now destruct (_ && _).
  - destruct (tb_set_proof A v i j HA) as [A1 (E1 & O1 & N1 & B1 & G1)].
    destruct (IH A1 O1) as [A2 (E2 & O2 & N2 & B2 & G2)].
    exists A2. split. { unfold tset_col. cbn [fold_left obind fst snd]. rewrite E1. exact E2. }
    split; [auto|]. split; [congruence|split; [congruence|]]. intros p q.
    assert (G1' : tG A1 p q = if tb_in A i j && (p =? i) && (q =? j) then v else tG A p q).
    { specialize (G1 p q). rewrite !tb_get_val in G1 by auto. unfold tG. destruct (tb_in A i j && (p =? i) && (q =? j)); congruence. }
    rewrite G2, G1'. clear G1'. replace (tb_in A1 p q) with (tb_in A p q) by (unfold tb_in; now rewrite N1, B1).
    destruct (Z.eqb_spec q j) as [->|]; cbn [andb].
    + destruct (tb_in A p j) eqn:Ep; cbn [andb].
      * unfold look. cbn [fold_left fst snd]. f_equal. destruct (Z.eqb_spec i p) as [->|].
        -- rewrite Ep, Z.eqb_refl. reflexivity.
        -- destruct (Z.eqb_spec p i); [lia|]. now rewrite andb_false_r.
      * destruct (Z.eqb_spec p i) as [->|]; [rewrite Ep; reflexivity|]. now rewrite andb_false_r.
    + now rewrite andb_false_r.
Qed.
Lemma tset_cols_val n col (A : tbanded R) : tb_ok A -> 0 <= n ->
  exists A', tset_cols n col A = Some A' /\ tb_ok A' /\ tb_n A' = tb_n A /\ tb_b A' = tb_b A /\
    forall p q, tG A' p q = if (0 <=? q) && (q <? n) && tb_in A p q then look (col q) p (tG A p q) else tG A p q.
Proof.
  intros HA Hn. unfold tset_cols.
  destruct (for_up_inv (fun k A' => tb_ok A' /\ tb_n A' = tb_n A /\ tb_b A' = tb_b A /\
    forall p q, tG A' p q = if (0 <=? q) && (q <? k) && tb_in A p q then look (col q) p (tG A p q) else tG A p q) 0 n (fun j A => tset_col j (col j) A) A)
    as [A' [E HA']]; auto.
  - split; [auto|split; [auto|split; auto]]. intros p q. now replace ((0 <=? q) && (q <? 0)) with false by lia.
  - intros j A1 Hj (O1 & N1 & B1 & G1). destruct (tset_col_val j (col j) A1 O1) as [A2 (E2 & O2 & N2 & B2 & G2)].
    exists A2. split; auto. split; [auto|]. split; [congruence|split; [congruence|]]. intros p q.
    rewrite G2. replace (tb_in A1 p q) with (tb_in A p q) by (unfold tb_in; now rewrite N1, B1). rewrite !G1.
    destruct (Z.eqb_spec q j) as [->|].
    + replace ((0 <=? j) && (j <? j)) with false by lia. replace ((0 <=? j) && (j <? j + 1)) with true by lia. reflexivity.
    + cbn [andb]. now replace (q <? j + 1) with (q <? j) by lia.
  - eauto.
Qed.
(** columns with indices in the band, from calloc *)
Lemma tset_cols_sum n b col : 0 <= n -> 0 <= b ->
  (forall j, 0 <= j < n -> NoDup (map fst (col j)) /\ forall i, In i (map fst (col j)) -> 0 <= i < n -> 0 <= j - i <= b) ->
  exists A, tset_cols n col (calloc_tbanded n b) = Some A /\ tb_ok A /\ tb_n A = n /\ tb_b A = b /\
    forall j q, 0 <= j < n -> sumZ n (fun i => (tb_mat A i j * q i)%R) = colsum n (col j) q.
Proof.
  intros Hn Hb Hc. assert (O0 := calloc_tb_ok (F:=R) n b Hn Hb).
  destruct (tset_cols_val n col (calloc_tbanded n b)) as [A (E & O & N & B & G)]; auto.
  exists A. cbn in N, B. split; [auto|split; [auto|split; [auto|split; [auto|]]]].
  intros j q Hj. destruct (Hc j Hj) as [Hd Hi]. rewrite <- lk_sum by auto. apply sumZ_ext. intros i Hi'. f_equal.
  specialize (G i j). unfold tG in G at 1. replace ((0 <=? i) && (j <? tb_n A)) with true in G by lia. rewrite G.
  assert (Z0 : tG (calloc_tbanded n b) i j = 0%R).
  { assert (HH := tb_get_val (calloc_tbanded n b) i j O0). rewrite calloc_tb_get in HH by auto. unfold tG. now injection HH. }
  rewrite Z0. replace ((0 <=? j) && (j <? n)) with true by lia. cbn [andb].
  destruct (tb_in (calloc_tbanded n b) i j) eqn:Ei; unfold tb_in in Ei; cbn in Ei; [now apply look_lk|].
  symmetry. apply lk_notin. intros Hin. apply Hi in Hin; lia.
Qed.
(** from an uninitialised block: every entry of the band must be set *)
Lemma tset_cols_malloc data n b col : 0 <= n -> 0 <= b -> n * (b + 1) <= zlen data ->
  (forall j, 0 <= j < n -> NoDup (map fst (col j)) /\ forall i, 0 <= i < n -> (In i (map fst (col j)) <-> 0 <= j - i <= b)) ->
  exists A, tset_cols n col (malloc_tbanded data n b) = Some A /\ tb_ok A /\ tb_n A = n /\ tb_b A = b /\
    forall j q, 0 <= j < n -> sumZ n (fun i => (tb_mat A i j * q i)%R) = colsum n (col j) q.
Proof.
  intros Hn Hb Hd Hc. assert (O0 : tb_ok (malloc_tbanded data n b)) by (split; [|split]; cbn; auto).
  destruct (tset_cols_val n col (malloc_tbanded data n b)) as [A (E & O & N & B & G)]; auto.
  exists A. cbn in N, B. split; [auto|split; [auto|split; [auto|split; [auto|]]]].
  intros j q Hj. destruct (Hc j Hj) as [Hdup Hi]. rewrite <- lk_sum by auto. apply sumZ_ext. intros i Hi'. f_equal.
  specialize (G i j). unfold tG in G at 1. replace ((0 <=? i) && (j <? tb_n A)) with true in G by lia. rewrite G.
  replace ((0 <=? j) && (j <? n)) with true by lia. cbn [andb].
  assert (Look : forall c d d', In i (map fst c) -> look c i d = look c i d').
  { clear. induction c as [|[p v] t IH]; intros d d' H; [destruct H|]. unfold look. cbn [fold_left fst snd]. destruct (Z.eqb_spec p i); [reflexivity|].
    apply IH. destruct H; [cbn in H; lia|auto]. }
  destruct (tb_in (malloc_tbanded data n b) i j) eqn:Ei; unfold tb_in in Ei; cbn in Ei.
  - rewrite (Look _ _ 0%R) by (apply Hi; lia). now apply look_lk.
  - rewrite lk_notin by (rewrite Hi by lia; lia). unfold tG, tb_mat. cbn [tb_b malloc_tbanded].
    replace ((0 <=? j - i) && (j - i <=? b)) with false by lia. match goal with |- (if ?c then _ else _) = _ => destruct c end; reflexivity.
Qed.

Section Pencil.
Variables (n : Z) (kP kQ kR : Z -> R) (P P1 P2 Q Q1 Q2 T : Z -> R -> R) (s t : R -> R) (lam : Z -> R) (A B : tbanded R) (U : Z -> Z -> R).
Hypotheses (GP : graded n kP P) (GQ : graded n kQ Q) (GR : graded n kR T).
Hypotheses (dP : forall j x, 0 <= j < n -> derivable_pt_lim (P j) x (P1 j x)) (dP1 : forall j x, 0 <= j < n -> derivable_pt_lim (P1 j) x (P2 j x)).
Hypotheses (dQ : forall j x, 0 <= j < n -> derivable_pt_lim (Q j) x (Q1 j x)) (dQ1 : forall j x, 0 <= j < n -> derivable_pt_lim (Q1 j) x (Q2 j x)).
Hypothesis ODE : forall j x, 0 <= j < n -> (s x * P2 j x + t x * P1 j x = lam j * P j x)%R.
Hypotheses (OA : tb_ok A) (OB : tb_ok B) (NA : tb_n A = n) (NB : tb_n B = n).
Hypothesis CA : forall j x, 0 <= j < n -> expansion n (fun i => tb_mat A i j) T x = (s x * Q2 j x + t x * Q1 j x)%R.
Hypothesis CB : forall j x, 0 <= j < n -> expansion n (fun i => tb_mat B i j) T x = Q j x.
Hypothesis HU : connects n U P Q.

Lemma expand_deriv (F F1 : R -> R) (G G1 : Z -> R -> R) (c : Z -> R) :
  (forall x, derivable_pt_lim F x (F1 x)) -> (forall i x, 0 <= i < n -> derivable_pt_lim (G i) x (G1 i x)) ->
  (forall x, F x = expansion n c G x) -> forall x, F1 x = expansion n c G1 x.
Proof.
  intros HF HG E x. apply (uniqueness_limite F x); auto.
  assert (D := sum_deriv n (fun i x => (c i * G i x)%R) (fun i x => (c i * G1 i x)%R) x).
  intros e He. destruct (D ltac:(intros; apply derivable_pt_lim_scal; auto) e He) as [d Hd]. exists d. intros h Hh Hl. rewrite !E. now apply Hd.
Qed.
Lemma matmul_expand (M : Z -> Z -> R) j x : expansion n (fun i => matmul n M U i j) T x = sumZ n (fun k => (U k j * expansion n (fun i => M i k) T x)%R).
Proof.
  unfold expansion, matmul. rewrite (sumZ_ext n _ (fun i => sumZ n (fun k => (M i k * U k j * T i x)%R))) by (intros; now rewrite sumZ_scal_r).
  rewrite sumZ_swap. apply sumZ_ext. intros k Hk. rewrite <- sumZ_scal. apply sumZ_ext. intros. ring.
Qed.
Lemma pencil_product i j : 0 <= i < n -> 0 <= j < n -> matmul n (tb_mat A) U i j = (matmul n (tb_mat B) U i j * lam j)%R.
Proof.
  intros Hi Hj. destruct HU as [Z0 E].
  enough (H : (matmul n (tb_mat A) U i j - matmul n (tb_mat B) U i j * lam j = 0)%R) by lra.
  apply (graded_indep n kR T (fun i => (matmul n (tb_mat A) U i j - matmul n (tb_mat B) U i j * lam j)%R) n); auto; [lia|].
  intros x.
  assert (E0 : forall x, P j x = expansion n (fun i => U i j) Q x) by (intros; now apply E).
  assert (E1 : forall x, P1 j x = expansion n (fun i => U i j) Q1 x) by (apply (expand_deriv (P j) (P1 j) Q Q1); auto).
  assert (E2 : forall x, P2 j x = expansion n (fun i => U i j) Q2 x) by (apply (expand_deriv (P1 j) (P2 j) Q1 Q2); auto).
  transitivity (expansion n (fun i => matmul n (tb_mat A) U i j) T x - lam j * expansion n (fun i => matmul n (tb_mat B) U i j) T x)%R.
  { unfold expansion. rewrite <- sumZ_scal, <- sumZ_minus. apply sumZ_ext. intros. ring. }
  rewrite !matmul_expand.
  rewrite (sumZ_ext n (fun k => (U k j * expansion n (fun i => tb_mat A i k) T x)%R) (fun k => (s x * (U k j * Q2 k x) + t x * (U k j * Q1 k x))%R)) by (intros; rewrite CA by auto; ring).
  rewrite (sumZ_ext n (fun k => (U k j * expansion n (fun i => tb_mat B i k) T x)%R) (fun k => (U k j * Q k x)%R)) by (intros; rewrite CB by auto; ring).
  rewrite sumZ_plus, !sumZ_scal. specialize (ODE j x Hj). rewrite E0, E1, E2 in ODE. unfold expansion in ODE. rewrite ODE. ring.
Qed.
Lemma upper_diag (M : tbanded R) j : 0 <= j < n -> matmul n (tb_mat M) U j j = (tb_mat M j j * U j j)%R.
Proof.
  intros Hj. destruct HU as [Z0 _]. unfold matmul. apply (sumZ_single n j); auto. intros k Hk Hkj. destruct (Z_lt_dec k j).
  - unfold tb_mat. replace ((0 <=? k - j) && (k - j <=? tb_b M)) with false by lia. lra.
  - rewrite Z0 by lia. lra.
Qed.
Lemma pencil_diag : diagonalizes n A B U lam.
Proof.
  assert (BN : nonzero_diag n (tb_mat B)).
  { intros j Hj E0. assert (C : connects n (tb_mat B) Q T).
    { split; [|intros; symmetry; auto]. intros i k Hk Hi. unfold tb_mat. now replace ((0 <=? k - i) && (k - i <=? tb_b B)) with false by lia. }
    assert (L := connects_lead n n kQ kR _ _ _ GQ GR ltac:(lia) C j Hj). rewrite E0, Rmult_0_l in L. destruct (GQ j Hj) as [_ Hk]. auto. }
  do 4 (split; [assumption|]). split; [exact BN|]. split; [|exact pencil_product].
  intros j Hj. pose proof (pencil_product j j Hj Hj) as H. rewrite !upper_diag in H by auto. specialize (BN j Hj).
  assert (Uj : U j j <> 0%R).
  { intros E0. assert (L := connects_lead n n kP kQ _ _ _ GP GQ ltac:(lia) HU j Hj). rewrite E0, Rmult_0_l in L. destruct (GP j Hj) as [_ Hk]. auto. }
  unfold pencil_eig. assert (EA : tb_mat A j j = (lam j * tb_mat B j j)%R) by (apply (Rmult_eq_reg_r (U j j)); auto; rewrite H; ring).
  rewrite EA. field. auto.
Qed.
End Pencil.
