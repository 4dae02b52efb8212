(** * Divide and conquer: linear algebra and products *)
From Coq Require Import ZArith List Lia Bool Reals Lra ZifyBool ZifyNat.
From Verif Require Import Arith Base BaseFacts SpecSum SpecLin PSum PTri MHier SpecHier PHier PHier2 MDprk MDprk2 SpecDprk PDprk PDprk2 PDprk3 PDprk7 PLinInv MTridiag SpecTri MTdc SpecTdc.
Import ListNotations.
Open Scope Z_scope.

(** ** block diagonal matrices *)
Lemma bd_matvec n s A B v i : 0 <= s <= n ->
  matvec n (blockdiag s A B) v i = if i <? s then matvec s A v i else matvec (n - s) B (fun k => v (s + k)) (i - s).
Proof.
  intros Hs. unfold matvec. rewrite (sumZ_split n s) by lia. unfold blockdiag. destruct (i <? s) eqn:E.
  - rewrite (sumZ_zero (n - s)). 2:{ intros k Hk. replace (s + k <? s) with false by lia. ring. }
    rewrite Rplus_0_r. apply sumZ_ext. intros k Hk. replace (k <? s) with true by lia. reflexivity.
  - rewrite (sumZ_zero s). 2:{ intros k Hk. replace (k <? s) with true by lia. ring. }
    rewrite Rplus_0_l. apply sumZ_ext. intros k Hk. replace (s + k <? s) with false by lia. replace (s + k - s) with k by ring. reflexivity.
Qed.
Lemma bd_op t s A B i j : op t (blockdiag s A B) i j = blockdiag s (op t A) (op t B) i j.
Proof. destruct t; [|reflexivity]. cbn [op]. unfold transp, blockdiag. destruct (i <? s), (j <? s); reflexivity. Qed.
Definition catf (s : Z) (f g : Z -> R) (i : Z) : R := if i <? s then f i else g (i - s).
Lemma bd_system n s T1 T2 S1 S2 l1 l2 V1 V2 : 0 <= s <= n -> eigensystem s s T1 S1 l1 V1 -> eigensystem (n - s) (n - s) T2 S2 l2 V2 ->
  eigensystem n n (blockdiag s T1 T2) (blockdiag s S1 S2) (catf s l1 l2) (blockdiag s V1 V2).
Proof.
  intros Hs (E1 & O1) (E2 & O2).
  assert (MV : forall A B j i, matvec n (blockdiag s A B) (fun k => blockdiag s V1 V2 k j) i =
     if i <? s then (if j <? s then matvec s A (fun k => V1 k j) i else 0%R) else (if j <? s then 0%R else matvec (n - s) B (fun k => V2 k (j - s)) (i - s))).
  { intros A B j i. rewrite bd_matvec by lia. destruct (i <? s) eqn:Ei, (j <? s) eqn:Ej.
    - apply sumZ_ext. intros k Hk. unfold blockdiag. replace (k <? s) with true by lia. now rewrite Ej.
    - apply sumZ_zero. intros k Hk. unfold blockdiag. replace (k <? s) with true by lia. rewrite Ej. ring.
    - apply sumZ_zero. intros k Hk. unfold blockdiag. replace (s + k <? s) with false by lia. rewrite Ej. ring.
    - apply sumZ_ext. intros k Hk. unfold blockdiag. replace (s + k <? s) with false by lia. rewrite Ej. replace (s + k - s) with k by ring. reflexivity. }
  split.
  - intros j Hj i Hi. rewrite !MV. unfold catf. destruct (i <? s) eqn:Ei, (j <? s) eqn:Ej; try ring; [apply E1|apply E2]; lia.
  - intros j k Hj Hk. rewrite (sumZ_split n s) by lia.
    rewrite (sumZ_ext s _ (fun i => if k <? s then (if j <? s then V1 i j * matvec s S1 (fun r => V1 r k) i else 0) else 0)%R).
    2:{ intros i Hi. rewrite MV. unfold blockdiag. replace (i <? s) with true by lia. destruct (k <? s), (j <? s); ring. }
    rewrite (sumZ_ext (n - s) _ (fun i => if k <? s then 0 else (if j <? s then 0 else V2 i (j - s)%Z * matvec (n - s) S2 (fun r => V2 r (k - s)%Z) i))%R).
    2:{ intros i Hi. rewrite MV. unfold blockdiag. replace (s + i <? s) with false by lia. replace (s + i - s) with i by ring. destruct (k <? s), (j <? s); ring. }
    unfold delta. destruct (k <? s) eqn:Ek, (j <? s) eqn:Ej.
    + rewrite (sumZ_zero (n - s)) by reflexivity. rewrite Rplus_0_r. apply O1; lia.
    + rewrite !sumZ_zero by reflexivity. replace (j =? k) with false by lia. ring.
    + rewrite !sumZ_zero by reflexivity. replace (j =? k) with false by lia. ring.
    + rewrite (sumZ_zero s) by reflexivity. rewrite Rplus_0_l, O2 by lia. unfold delta. replace (j - s =? k - s) with (j =? k) by lia. reflexivity.
Qed.

(** ** adding a multiple of y y^T to both matrices of a solved pencil *)
Section Merge.
Variables (n : Z) (T0 S0 W : Z -> Z -> R) (d y z : Z -> R) (rho sigma : R) (lam : Z -> R) (V0 : Z -> Z -> R).
Hypothesis Hn : 0 <= n.
Hypothesis H0 : eigensystem n n T0 S0 d W.
Hypothesis Hz : forall k, 0 <= k < n -> z k = sumZ n (fun i => (W i k * y i)%R).
Hypothesis HV : eigensystem n n (fun i j => (delta i j * d i + rho * z i * z j)%R) (fun i j => (delta i j + sigma * z i * z j)%R) lam V0.
Definition dot (f g : Z -> R) : R := sumZ n (fun i => (f i * g i)%R).
Lemma rank1_mv (A : Z -> Z -> R) c (u : Z -> R) v i : matvec n (fun i j => (A i j + c * u i * u j)%R) v i = (matvec n A v i + c * u i * dot u v)%R.
Proof.
  unfold matvec, dot. rewrite <- sumZ_scal, <- sumZ_plus. apply sumZ_ext. intros; ring.
Qed.
Lemma delta_mv (e : Z -> R) v i : 0 <= i < n -> matvec n (fun i j => (delta i j * e i)%R) v i = (e i * v i)%R.
Proof.
  intros Hi. unfold matvec. rewrite (sumZ_single n i).
  - unfold delta. rewrite Z.eqb_refl. ring.
  - lia.
  - intros k Hk Hne. unfold delta. replace (i =? k) with false by lia. ring.
Qed.
Lemma delta_mv1 v i : 0 <= i < n -> matvec n delta v i = v i.
Proof.
  intros Hi. rewrite <- (Rmult_1_l (v i)). rewrite <- (delta_mv (fun _ => 1%R) v i Hi). apply mv_ext; intros; ring.
Qed.
Lemma inv_y i : 0 <= i < n -> matvec n (matmul n S0 W) z i = y i.
Proof.
  intros Hi. destruct H0 as (_ & O).
  assert (L : forall i j, 0 <= i < n -> 0 <= j < n -> matmul n (matmul n S0 W) (transp W) i j = delta i j).
  { apply left_right_inverse; [exact Hn|]. intros a b Ha Hb. rewrite <- (O a b Ha Hb). unfold matmul, transp, matvec. apply sumZ_ext. intros. reflexivity. }
  transitivity (matvec n (matmul n (matmul n S0 W) (transp W)) y i).
  - rewrite (mv_assoc n n (matmul n S0 W) (transp W) y i). apply mv_ext; [reflexivity|]. intros k Hk. rewrite Hz by lia. unfold matvec, transp. reflexivity.
  - unfold matvec. rewrite (sumZ_ext n _ (fun k => (delta i k * y k)%R)) by (intros k Hk; now rewrite L by lia).
    change (matvec n delta y i = y i). now apply delta_mv1.
Qed.
Lemma dot_Wv v : dot y (matvec n W v) = dot z v.
Proof.
  unfold dot, matvec. rewrite (sumZ_ext n _ (fun i => sumZ n (fun k => (W i k * y i * v k)%R))) by (intros; rewrite <- sumZ_scal; apply sumZ_ext; intros; ring).
  rewrite sumZ_swap. apply sumZ_ext. intros k Hk. rewrite sumZ_scal_r, Hz by lia. reflexivity.
Qed.
Lemma T0W v i : 0 <= i < n -> matvec n T0 (matvec n W v) i = matvec n (matmul n S0 W) (fun k => (d k * v k)%R) i.
Proof.
  intros Hi. rewrite <- mv_assoc. unfold matvec. apply sumZ_ext. intros k Hk. destruct H0 as (E & _).
  specialize (E k Hk i Hi). unfold matvec in E. unfold matmul. rewrite E. ring.
Qed.
Lemma merge_system : eigensystem n n (fun i j => (T0 i j + rho * y i * y j)%R) (fun i j => (S0 i j + sigma * y i * y j)%R) lam (matmul n W V0).
Proof.
  destruct HV as (EV & OV).
  assert (EV' : forall j, 0 <= j < n -> forall k, 0 <= k < n -> (d k * V0 k j = lam j * V0 k j + (sigma * lam j - rho) * dot z (fun r => V0 r j) * z k)%R).
  { intros j Hj k Hk. specialize (EV j Hj k Hk). rewrite rank1_mv, delta_mv, rank1_mv, delta_mv1 in EV by lia. lra. }
  assert (CW : forall A j i, matvec n A (fun i => matmul n W V0 i j) i = matvec n A (matvec n W (fun r => V0 r j)) i) by reflexivity.
  assert (SU : forall j i, matvec n (fun i j => (S0 i j + sigma * y i * y j)%R) (fun i => matmul n W V0 i j) i =
    (matvec n (matmul n S0 W) (fun r => V0 r j) i + sigma * y i * dot z (fun r => V0 r j))%R).
  { intros j i. rewrite rank1_mv, CW, <- mv_assoc. rewrite <- dot_Wv. reflexivity. }
  split.
  - intros j Hj i Hi. rewrite SU, rank1_mv. change (dot y (fun i0 : Z => matmul n W V0 i0 j)) with (dot y (matvec n W (fun r => V0 r j))).
    rewrite dot_Wv, CW, T0W by lia. rewrite (mv_ext n _ (matmul n S0 W) _ (fun k => (lam j * V0 k j + (sigma * lam j - rho) * dot z (fun r => V0 r j) * z k)%R)) by (intros; auto).
    set (c := dot z (fun r => V0 r j)).
    replace (matvec n (matmul n S0 W) (fun k => (lam j * V0 k j + (sigma * lam j - rho) * c * z k)%R) i) with
      (lam j * matvec n (matmul n S0 W) (fun r => V0 r j) i + (sigma * lam j - rho) * c * matvec n (matmul n S0 W) z i)%R.
    + rewrite inv_y by lia. ring.
    + unfold matvec. rewrite <- !sumZ_scal, <- sumZ_plus. apply sumZ_ext. intros; ring.
  - intros j k Hj Hk. rewrite (sumZ_ext n _ (fun i => (matvec n W (fun r => V0 r j) i * matvec n (matmul n S0 W) (fun r => V0 r k) i + sigma * dot z (fun r => V0 r k) * (y i * matvec n W (fun r => V0 r j) i))%R)).
    2:{ intros i Hi. rewrite SU. unfold matmul at 1. fold (matvec n W (fun r => V0 r j) i). ring. }
    rewrite sumZ_plus, sumZ_scal. fold (dot y (matvec n W (fun r => V0 r j))). rewrite dot_Wv.
    rewrite <- (OV j k Hj Hk).
    rewrite (sumZ_ext n (fun i => (V0 i j * matvec n (fun i0 j0 => (delta i0 j0 + sigma * z i0 * z j0)%R) (fun r => V0 r k) i)%R)
      (fun i => (V0 i j * V0 i k + sigma * dot z (fun r => V0 r k) * (z i * V0 i j))%R)).
    2:{ intros i Hi. rewrite rank1_mv, delta_mv1 by lia. ring. }
    rewrite sumZ_plus, sumZ_scal. fold (dot z (fun r => V0 r j)). f_equal.
    destruct H0 as (_ & O0).
    transitivity (sumZ n (fun a => sumZ n (fun b => (V0 a j * V0 b k * sumZ n (fun i => W i a * matvec n S0 (fun r => W r b) i))%R))).
    + unfold matvec at 1. rewrite (sumZ_ext n _ (fun i => sumZ n (fun a => (W i a * V0 a j * matvec n (matmul n S0 W) (fun r => V0 r k) i)%R))) by (intros; now rewrite <- sumZ_scal_r).
      rewrite sumZ_swap. apply sumZ_ext. intros a Ha.
      rewrite (sumZ_ext n _ (fun i => sumZ n (fun b => (V0 a j * V0 b k * (W i a * matvec n S0 (fun r => W r b) i))%R))).
      * rewrite sumZ_swap. apply sumZ_ext. intros b Hb. now rewrite sumZ_scal.
      * intros i Hi. unfold matvec at 1. rewrite <- sumZ_scal. apply sumZ_ext. intros b Hb. unfold matmul, matvec. ring.
    + apply sumZ_ext. intros a Ha. rewrite (sumZ_single n a).
      * rewrite O0 by lia. unfold delta. rewrite Z.eqb_refl. ring.
      * lia.
      * intros b Hb Hne. rewrite O0 by lia. unfold delta. replace (a =? b) with false by lia. ring.
Qed.
End Merge.

(** ** products *)
Lemma tail_writes s m (y : list R) y2 w : 0 <= s -> s + m <= zlen y -> 0 <= m -> writes 0 m (tailz s y) y2 w -> writes s m y (headz s y ++ y2) w.
Proof.
  intros Hs Hm Hm0 (L & W & O). rewrite zlen_tailz in L by lia. repeat split.
  - rewrite zlen_app, zlen_headz, L by lia. ring.
  - intros i Hi. rewrite zget_head_app by lia. replace (s + i <? s) with false by lia. replace (s + i - s) with (0 + i) by ring. apply W; lia.
  - intros p Hp. rewrite zget_head_app by lia. destruct (p <? s) eqn:E; [reflexivity|].
    rewrite O by lia. rewrite zget_tailz by lia. f_equal; ring.
Qed.
Lemma vec_tailz s (y : list R) i : 0 <= s -> 0 <= i -> vec 0 (tailz s y) i = vec 0 y (s + i).
Proof. intros. unfold vec. rewrite nR_tailz by lia. f_equal; lia. Qed.
Lemma writes_join n s (y y1 y2 : list R) f g : 0 <= s <= n -> writes 0 s y y1 f -> writes s (n - s) y1 y2 g -> writes 0 n y y2 (catf s f g).
Proof.
  intros Hs (L1 & W1 & O1) (L2 & W2 & O2). repeat split; [congruence| |].
  - intros i Hi. unfold catf. destruct (i <? s) eqn:E; [rewrite O2 by lia; apply W1; lia|].
    replace (0 + i) with (s + (i - s)) by ring. apply W2; lia.
  - intros p Hp. rewrite O2 by lia. apply O1; lia.
Qed.
Lemma shiftr1 n : Z.shiftr n 1 = n / 2.
Proof. rewrite Z.shiftr_div_pow2 by lia. reflexivity. Qed.
Lemma set_perms_self {F V} (E : dpeig F V) : set_perms E (de_p E) (de_q E) = E.
Proof. destruct E; reflexivity. Qed.

Section Products.
Context {V : Type}.
Variable M0 : dpeig R V -> Z -> Z -> R.
Variable ok0 : dpeig R V -> Prop.
Variable dmv0 : bool -> R -> dpeig R V -> list R -> R -> list R -> option (list R * list R * list Z * list Z).
Hypothesis Hdmv : forall t alpha E x beta y, ok0 E -> de_num E <= zlen x -> de_num E <= zlen y ->
  exists y', dmv0 t alpha E x beta y = Some (x, y', de_p E, de_q E) /\
    writes 0 (de_num E) y y' (fun i => (alpha * matvec (de_num E) (op t (M0 E)) (vec 0 x) i + beta * vec 0 y i)%R).
Lemma same_n (F F' : tdc R (dpeig R V)) : same_tree F F' -> tdc_n F = tdc_n F' /\ tdc_lambda F = tdc_lambda F'.
Proof. destruct F, F'; cbn; intros H; try contradiction; [injection H; intros; subst; auto|destruct H as (-> & -> & _); auto]. Qed.
Lemma same_ok F : forall F', same_tree F F' -> tdc_ok ok0 F -> tdc_ok ok0 F'.
Proof.
  induction F as [n Vm l|n F0 F1 IH1 F2 IH2 z]; intros [m Wm k|m G0 G1 G2 w]; cbn [same_tree]; intros H; try contradiction.
  - now injection H as <- <- <-.
  - destruct H as (<- & <- & Hz & H1 & H2). destruct (same_n _ _ H1) as (N1 & _), (same_n _ _ H2) as (N2 & _).
    cbn [tdc_ok]. rewrite <- N1, <- N2, <- Hz. intuition.
Qed.
Lemma same_mat F : forall F', same_tree F F' -> tdc_mat M0 F = tdc_mat M0 F'.
Proof.
  induction F as [n Vm l|n F0 F1 IH1 F2 IH2 z]; intros [m Wm k|m G0 G1 G2 w]; cbn [same_tree]; intros H; try contradiction.
  - now injection H as <- <- <-.
  - destruct H as (<- & <- & Hz & H1 & H2). destruct (same_n _ _ H1) as (N1 & _), (same_n _ _ H2) as (N2 & _).
    cbn [tdc_mat]. now rewrite (IH1 _ H1), (IH2 _ H2), N1.
Qed.
Lemma same_refl (F : tdc R (dpeig R V)) : same_tree F F.
Proof. induction F; cbn; auto. Qed.
Lemma ok_nonneg F : tdc_ok ok0 F -> 0 <= tdc_n F.
Proof. destruct F; cbn; lia. Qed.
Theorem tmv_proof F : forall t alpha x beta y, tdc_ok ok0 F -> tdc_n F <= zlen x -> tdc_n F <= zlen y ->
  exists F' y', tmv dmv0 t alpha F x beta y = Some (F', y') /\ same_tree F F' /\
    writes 0 (tdc_n F) y y' (fun i => (alpha * matvec (tdc_n F) (op t (tdc_mat M0 F)) (vec 0 x) i + beta * vec 0 y i)%R).
Proof.
  induction F as [n Vm l|n F0 F1 IH1 F2 IH2 z]; intros t alpha x beta y Hok Hx Hy; cbn [tdc_n tdc_ok tmv] in *.
  - destruct Hok as (Hn & HV & Hl).
    destruct (gemv_proof t n n alpha Vm 0 n x 0 beta y 0) as (y' & E & W); auto.
    { split; [lia|split; [lia|]]. intros. nia. }
    { destruct t; unfold fits; cbn; lia. } { destruct t; unfold fits; cbn; lia. }
    rewrite E. cbn [obind]. exists (TLeaf n Vm l), y'. split; [reflexivity|split; [reflexivity|]]. cbn [tdc_mat].
    destruct t; exact W.
  - destruct Hok as (Hn & H0 & N0 & L0 & Hz & N1 & N2 & K1 & K2). rewrite shiftr1. set (s := n / 2) in *.
    assert (Hs : 1 <= s <= n - 1) by (subst s; pose proof (Z.div_le_upper_bound n 2 (n - 1)); pose proof (Z.div_le_lower_bound n 2 1); lia).
    assert (N2' : tdc_n F2 = n - s) by (exact N2).
    destruct t.
    + destruct (IH1 true 1%R x 0%R z K1 ltac:(lia) ltac:(lia)) as (F1' & z1 & E1 & S1 & W1).
      change (@one R R_arith) with 1%R; change (@zero R R_arith) with 0%R. rewrite E1. cbn [obind].
      assert (Lz1 : zlen z1 = n) by (destruct W1 as (Q & _); lia).
      destruct (IH2 true 1%R (tailz s x) 0%R (tailz s z1) K2) as (F2' & z2 & E2 & S2 & W2); [rewrite zlen_tailz by lia; lia|rewrite zlen_tailz by lia; lia|].
      rewrite E2. cbn [obind].
      apply tail_writes in W2; [|lia|lia|lia]. rewrite N2' in W2. rewrite N1 in W1.
      pose proof (writes_join n s z z1 _ _ _ ltac:(lia) W1 W2) as WJ.
      set (z3 := headz s z1 ++ z2) in *.
      assert (Lz3 : zlen z3 = n) by (destruct WJ as (Q & _); lia).
      destruct (Hdmv true alpha F0 z3 beta y H0 ltac:(lia) ltac:(lia)) as (y' & E & W). rewrite E. cbn [obind].
      rewrite set_perms_self. eexists _, y'. split; [reflexivity|]. split; [cbn [same_tree]; repeat split; auto; lia|].
      rewrite N0 in W. eapply writes_ext; [|exact W]. intros i Hi. cbv beta. f_equal. f_equal.
      cbn [tdc_mat op]. rewrite (mv_ext n (transp (matmul n _ (M0 F0))) _ _ (vec 0 x) i (fun k Hk => transp_mm _ _ _ _ _) (fun k _ => eq_refl)).
      rewrite mv_assoc. cbn [op]. apply mv_ext; [reflexivity|]. intros k Hk. rewrite (writes_vec _ _ _ _ _ k WJ Hk).
      rewrite (mv_ext n _ _ _ (vec 0 x) k (fun j _ => bd_op true _ _ _ k j) (fun j _ => eq_refl)), bd_matvec by lia. unfold catf. rewrite N1. destruct (k <? s) eqn:Ek; [ring|].
      rewrite (mv_ext (n - s) _ (op true (tdc_mat M0 F2)) _ (fun j => vec 0 x (s + j)) (k - s) (fun j _ => eq_refl)). 1: ring.
      intros j Hj. apply vec_tailz; lia.
    + destruct (Hdmv false 1%R F0 x 0%R z H0 ltac:(lia) ltac:(lia)) as (z1 & E & W). 
      change (@one R R_arith) with 1%R; change (@zero R R_arith) with 0%R. rewrite E. cbn [obind]. rewrite N0 in W.
      assert (Lz1 : zlen z1 = n) by (destruct W as (Q & _); lia).
      destruct (IH1 false alpha z1 beta y K1 ltac:(lia) ltac:(lia)) as (F1' & y1 & E1 & S1 & W1). rewrite E1. cbn [obind].
      assert (Ly1 : zlen y1 = zlen y) by (destruct W1 as (Q & _); lia).
      destruct (IH2 false alpha (tailz s z1) beta (tailz s y1) K2) as (F2' & y2 & E2 & S2 & W2); [rewrite zlen_tailz by lia; lia|rewrite zlen_tailz by lia; lia|].
      rewrite E2. cbn [obind].
      apply tail_writes in W2; [|lia|lia|lia]. rewrite N2' in W2. rewrite N1 in W1.
      pose proof (writes_join n s y y1 _ _ _ ltac:(lia) W1 W2) as WJ.
      rewrite set_perms_self. eexists _, _. split; [reflexivity|]. split; [cbn [same_tree]; repeat split; auto; lia|].
      eapply writes_ext; [|exact WJ]. intros i Hi. cbn [tdc_mat op]. rewrite mv_assoc, bd_matvec by lia. rewrite N1. unfold catf.
      assert (Vz : forall k, 0 <= k < n -> vec 0 z1 k = matvec n (M0 F0) (vec 0 x) k).
      { intros k Hk. rewrite (writes_vec _ _ _ _ _ k W Hk). cbn [op]. ring. }
      destruct (i <? s) eqn:Ei.
      * f_equal. f_equal. cbn [op]. apply mv_ext; [reflexivity|]. intros k Hk. apply Vz; lia.
      * f_equal.
        { f_equal. cbn [op]. apply mv_ext; [reflexivity|]. intros k Hk. rewrite vec_tailz by lia. apply Vz; lia. }
        { f_equal. rewrite vec_tailz by lia. replace (s + (i - s)) with i by ring.
          unfold vec. apply nth_eq. destruct W1 as (_ & _ & O). apply O. lia. }
Qed.
End Products.
