(** * Self-dual pairs of tridiagonal eigenproblems: the normalised eigenvectors computed by
    eigen_eval form orthogonal matrices that are transposes of each other *)
From Coq Require Import ZArith List Lia Bool Reals Lra ZifyBool ZifyNat.
From Verif Require Import Base SpecSum PSum.
Open Scope Z_scope.

Definition tapp (n : Z) (a b x : Z -> R) (p : Z) : R :=
  (a p * x p + (if p + 1 <? n then b p * x (p + 1)%Z else 0) + (if 0 <? p then b (p - 1)%Z * x (p - 1)%Z else 0))%R.
Definition tri (n : Z) (a b lam : Z -> R) (M : Z -> Z -> R) : Prop :=
  forall v p, 0 <= v < n -> 0 <= p < n -> (lam v * M v p = tapp n a b (M v) p)%R.
Definition dot (n : Z) (x y : Z -> R) : R := sumZ n (fun p => (x p * y p)%R).
Lemma dot_ext n x y x' y' : (forall p, 0 <= p < n -> x p = x' p) -> (forall p, 0 <= p < n -> y p = y' p) -> dot n x y = dot n x' y'.
Proof. intros H K. apply sumZ_ext. intros p Hp. rewrite H, K by lia. reflexivity. Qed.
Lemma dot_comm n x y : dot n x y = dot n y x.
Proof. apply sumZ_ext. intros. ring. Qed.
Lemma dot_scal n c x y : dot n (fun p => (c * x p)%R) y = (c * dot n x y)%R.
Proof. unfold dot. rewrite <- sumZ_scal. apply sumZ_ext. intros. ring. Qed.
Lemma dot_scal_r n c x y : dot n x (fun p => (c * y p)%R) = (c * dot n x y)%R.
Proof. rewrite dot_comm, dot_scal, dot_comm. reflexivity. Qed.

Lemma tapp_sym n a b x y : 1 <= n -> dot n x (tapp n a b y) = dot n (tapp n a b x) y.
Proof.
  intros Hn. unfold dot. assert (D : sumZ n (fun p => (x p * tapp n a b y p - tapp n a b x p * y p)%R) = 0%R).
  { assert (G : forall m, 0 <= m -> m + 1 < n -> sumZ (m + 1) (fun p => (x p * tapp n a b y p - tapp n a b x p * y p)%R) = (b m * (x m * y (m + 1)%Z - x (m + 1)%Z * y m))%R).
    { intros m Hm. pattern m. apply natlike_ind; [| |exact Hm]; cbv beta.
      - intros H. rewrite sumZ_S, sumZ_0 by lia. unfold tapp. replace (0 + 1 <? n) with true by lia. change (0 <? 0) with false. cbv iota. ring.
      - intros k Hk IH H. rewrite sumZ_S by lia. unfold Z.succ in *. rewrite IH by lia. unfold tapp. replace (k + 1 + 1 <? n) with true by lia. replace (0 <? k + 1) with true by lia. cbv iota.
        replace (k + 1 - 1) with k by lia. ring. }
    destruct (Z.eq_dec n 1) as [->|].
    - rewrite (sumZ_S 0), sumZ_0 by lia. unfold tapp. change (0 + 1 <? 1) with false. change (0 <? 0) with false. cbv iota. ring.
    - replace n with (n - 1 + 1) at 1 by lia. rewrite sumZ_S by lia. replace (n - 1) with (n - 2 + 1) at 1 by lia. rewrite G by lia.
      unfold tapp. replace (n - 1 + 1 <? n) with false by lia. replace (0 <? n - 1) with true by lia. cbv iota. replace (n - 2 + 1) with (n - 1) by lia. replace (n - 1 - 1) with (n - 2) by lia. ring. }
  rewrite sumZ_minus in D. lra.
Qed.

Section Orth.
Variables (n : Z) (a b lam : Z -> R) (M : Z -> Z -> R).
Hypothesis Hn : 1 <= n.
Hypothesis HT : tri n a b lam M.
Hypothesis Hb : forall p, 0 <= p < n - 1 -> (0 < b p)%R.
Hypothesis Hl : forall v w, 0 <= v < w -> w < n -> (lam w < lam v)%R.
Hypothesis Hlast : forall v, 0 <= v < n -> M v (n - 1) <> 0%R.

Lemma tri_orth v w : 0 <= v < n -> 0 <= w < n -> v <> w -> dot n (M v) (M w) = 0%R.
Proof.
  intros Hv Hw Ne. assert (E := tapp_sym n a b (M v) (M w) Hn).
  rewrite (dot_ext n (M v) (tapp n a b (M w)) (M v) (fun p => (lam w * M w p)%R)) in E by (intros p Hp; first [reflexivity | now rewrite HT by lia]).
  rewrite (dot_ext n (tapp n a b (M v)) (M w) (fun p => (lam v * M v p)%R) (M w)) in E by (intros p Hp; first [reflexivity | now rewrite HT by lia]).
  rewrite dot_scal, dot_scal_r in E.
  assert (lam v <> lam w). { destruct (Z_lt_dec v w); [pose proof (Hl v w ltac:(lia) ltac:(lia))|pose proof (Hl w v ltac:(lia) ltac:(lia))]; lra. }
  assert (((lam w - lam v) * dot n (M v) (M w) = 0)%R) by lra. apply Rmult_integral in H0. destruct H0; auto. lra.
Qed.
(** the first entry of an eigenvector does not vanish either *)
Lemma tri_first v : 0 <= v < n -> M v 0 <> 0%R.
Proof.
  intros Hv E0.
  assert (G : forall k, 0 <= k -> k < n -> M v k = 0%R /\ (k + 1 < n -> M v (k + 1) = 0%R)).
  { intros k Hk. pattern k. apply natlike_ind; [| |exact Hk]; cbv beta.
    - intros _. split; auto. intros H. assert (E := HT v 0 Hv ltac:(lia)). unfold tapp in E. replace (0 + 1 <? n) with true in E by lia. change (0 <? 0) with false in E. cbv iota in E. rewrite E0 in E.
      pose proof (Hb 0 ltac:(lia)). assert ((b 0 * M v (0 + 1)%Z = 0)%R) by lra. apply Rmult_integral in H1. destruct H1; auto. lra.
    - intros k0 Hk0 IH H. unfold Z.succ in *. destruct (IH ltac:(lia)) as (I0 & I1). specialize (I1 ltac:(lia)). split; auto. intros H2.
      assert (E := HT v (k0 + 1) Hv ltac:(lia)). unfold tapp in E. replace (k0 + 1 + 1 <? n) with true in E by lia. replace (0 <? k0 + 1) with true in E by lia. cbv iota in E.
      replace (k0 + 1 - 1) with k0 in E by lia. rewrite I0, I1 in E. pose proof (Hb (k0 + 1) ltac:(lia)). assert ((b (k0 + 1)%Z * M v (k0 + 1 + 1)%Z = 0)%R) by lra. apply Rmult_integral in H1. destruct H1; auto. lra. }
  destruct (G (n - 1) ltac:(lia) ltac:(lia)) as (X & _). exact (Hlast v Hv X).
Qed.
Lemma dot_pos v : 0 <= v < n -> (0 < dot n (M v) (M v))%R.
Proof.
  intros Hv. unfold dot. replace n with (n - 1 + 1) by lia. rewrite sumZ_S by lia.
  assert ((0 <= sumZ (n - 1) (fun p => (M v p * M v p)%R))%R) by (apply sumZ_pos; intros; nra).
  pose proof (Hlast v Hv). assert ((0 < M v (n - 1)%Z * M v (n - 1)%Z)%R) by nra. lra.
Qed.

(** the recurrence of eigen_eval, run from the last entry *)
Lemma tri_eigv (A B C : Z -> R) : (forall k, 1 <= k < n -> A k = (1 / b (k - 1)%Z)%R) -> (forall k, 1 <= k < n -> B k = (- a k)%R) -> (forall k, 1 <= k < n - 1 -> C k = (- b k)%R) ->
  forall v k, 0 <= v < n -> 0 <= k < n -> eigv n A B C k (lam v) = (M v k / M v (n - 1)%Z)%R.
Proof.
  intros HA HB HC v k Hv Hk. unfold eigv. pose proof (Hlast v Hv) as NL.
  assert (G : forall d, Z.of_nat d <= n - 1 -> eigv2 n A B C d (lam v) = ((M v (n - 1 - Z.of_nat d) / M v (n - 1))%R, if (0 <? Z.of_nat d) then (M v (n - Z.of_nat d) / M v (n - 1))%R else 0%R)).
  { induction d as [|d IH]; intros Hd.
    - cbn [eigv2]. change (Z.of_nat 0) with 0. replace (n - 1 - 0) with (n - 1) by lia. change (0 <? 0) with false. cbv iota. f_equal. field. auto.
    - cbn [eigv2]. rewrite IH by lia. cbv zeta. replace (0 <? Z.of_nat (S d)) with true by lia. f_equal; [|do 2 f_equal; lia].
      set (q := n - 1 - Z.of_nat d). replace (n - 1 - Z.of_nat (S d)) with (q - 1) by lia. replace (n - Z.of_nat d) with (q + 1) by lia.
      assert (E := HT v q Hv ltac:(lia)). unfold tapp in E. replace (0 <? q) with true in E by lia. cbv iota in E.
      rewrite HA, HB by lia. pose proof (Hb (q - 1) ltac:(lia)) as BP.
      destruct (0 <? Z.of_nat d) eqn:D0.
      + rewrite HC by lia. replace (q + 1 <? n) with true in E by lia. 
        assert (X : (b (q - 1)%Z * M v (q - 1)%Z = (lam v + - a q) * M v q + - b q * M v (q + 1)%Z)%R) by lra.
        replace (M v (q - 1)%Z) with (1 / b (q - 1)%Z * (b (q - 1)%Z * M v (q - 1)%Z))%R by (field; lra). rewrite X. field. split; auto. lra.
      + replace (q + 1 <? n) with false in E by lia.
        assert (X : (b (q - 1)%Z * M v (q - 1)%Z = (lam v + - a q) * M v q)%R) by lra.
        replace (M v (q - 1)%Z) with (1 / b (q - 1)%Z * (b (q - 1)%Z * M v (q - 1)%Z))%R by (field; lra). rewrite X. field. split; auto. lra. }
  rewrite G by lia. cbn [fst]. do 2 f_equal. lia.
Qed.
End Orth.

(** a pair of problems whose eigenvector matrices are transposes *)
Section Dual.
Variables (n : Z) (a b lam a' b' lam' : Z -> R) (M : Z -> Z -> R).
Let Mt := fun v p => M p v.
Hypothesis Hn : 1 <= n.
Hypothesis HT : tri n a b lam M.
Hypothesis HT' : tri n a' b' lam' Mt.
Hypothesis Hb : forall p, 0 <= p < n - 1 -> (0 < b p)%R.
Hypothesis Hb' : forall p, 0 <= p < n - 1 -> (0 < b' p)%R.
Hypothesis Hl : forall v w, 0 <= v < w -> w < n -> (lam w < lam v)%R.
Hypothesis Hl' : forall v w, 0 <= v < w -> w < n -> (lam' w < lam' v)%R.
Hypothesis Hlast : forall v, 0 <= v < n -> M v (n - 1) <> 0%R.
Hypothesis Hlast' : forall v, 0 <= v < n -> M (n - 1) v <> 0%R.

Definition DD : R := dot n (M 0) (M 0).
Lemma norms_agree v p : 0 <= v < n -> 0 <= p < n -> M v p <> 0%R -> dot n (M v) (M v) = dot n (Mt p) (Mt p).
Proof.
  intros Hv Hp N.
  assert (E : sumZ n (fun w => (dot n (M v) (M w) * M w p)%R) = sumZ n (fun q => (M v q * dot n (Mt q) (Mt p))%R)).
  { unfold dot, Mt. transitivity (sumZ n (fun w => sumZ n (fun q => (M v q * M w q * M w p)%R))).
    - apply sumZ_ext. intros w Hw. rewrite <- sumZ_scal_r. reflexivity.
    - rewrite sumZ_swap. apply sumZ_ext. intros q Hq. rewrite <- sumZ_scal. apply sumZ_ext. intros. ring. }
  rewrite (sumZ_single n v) in E; [|lia|intros w Hw Nw; rewrite (tri_orth n a b lam M) by auto; ring].
  rewrite (sumZ_single n p) in E; [|lia|intros q Hq Nq; rewrite (tri_orth n a' b' lam' Mt) by auto; ring].
  apply (Rmult_eq_reg_r (M v p)); auto. lra.
Qed.
Lemma norm_row v : 0 <= v < n -> dot n (M v) (M v) = DD.
Proof.
  intros Hv. unfold DD. rewrite (norms_agree v (n - 1)), (norms_agree 0 (n - 1)) by (auto; try lia; apply Hlast; lia). reflexivity.
Qed.
Lemma norm_col p : 0 <= p < n -> dot n (Mt p) (Mt p) = DD.
Proof. intros Hp. rewrite <- (norms_agree (n - 1) p) by (auto; try lia; apply Hlast'; lia). apply norm_row. lia. Qed.
Lemma DD_pos : (0 < DD)%R.
Proof. unfold DD. apply (dot_pos n b lam M); auto; lia. Qed.
Lemma rows_orth v w : 0 <= v < n -> 0 <= w < n -> dot n (M v) (M w) = (if v =? w then DD else 0)%R.
Proof. intros Hv Hw. destruct (v =? w) eqn:E. - replace w with v by lia. now apply norm_row. - apply (tri_orth n a b lam M); auto. lia. Qed.
Lemma cols_orth v w : 0 <= v < n -> 0 <= w < n -> dot n (Mt v) (Mt w) = (if v =? w then DD else 0)%R.
Proof. intros Hv Hw. destruct (v =? w) eqn:E. - replace w with v by lia. now apply norm_col. - apply (tri_orth n a' b' lam' Mt); auto. lia. Qed.
(** every vector is the combination of the rows given by its coefficients *)
Lemma expand y p : 0 <= p < n -> sumZ n (fun v => (dot n (M v) y * M v p)%R) = (DD * y p)%R.
Proof.
  intros Hp. unfold dot at 1. transitivity (sumZ n (fun q => (y q * dot n (Mt q) (Mt p))%R)).
  - transitivity (sumZ n (fun v => sumZ n (fun q => (M v q * y q * M v p)%R))).
    + apply sumZ_ext. intros. now rewrite <- sumZ_scal_r.
    + rewrite sumZ_swap. apply sumZ_ext. intros q Hq. unfold dot, Mt. rewrite <- sumZ_scal. apply sumZ_ext. intros. ring.
  - rewrite (sumZ_single n p); auto. + rewrite cols_orth by auto. replace (p =? p) with true by lia. ring. + intros q Hq Nq. rewrite cols_orth by auto. replace (q =? p) with false by lia. ring.
Qed.
(** Perron: the eigenvector of the largest eigenvalue has entries of one sign *)
Lemma perron : exists c : R, forall p, 0 <= p < n -> Rabs (M 0 p) = (c * M 0 p)%R.
Proof.
  set (y := fun p => Rabs (M 0 p)). pose proof DD_pos as DP.
  assert (TY : forall p, 0 <= p < n -> (lam 0 * y p <= tapp n a b y p)%R).
  { intros p Hp. unfold y. assert (E := HT 0 p ltac:(lia) Hp). unfold tapp in *.
    assert (X : ((lam 0 - a p) * M 0 p = (if p + 1 <? n then b p * M 0 (p + 1)%Z else 0) + (if 0 <? p then b (p - 1)%Z * M 0 (p - 1)%Z else 0))%R) by lra.
    assert (U : (Rabs (if p + 1 <? n then b p * M 0 (p + 1)%Z else 0) = if p + 1 <? n then b p * Rabs (M 0 (p + 1)%Z) else 0)%R).
    { destruct (p + 1 <? n) eqn:L; [|apply Rabs_R0]. rewrite Rabs_mult, (Rabs_pos_eq (b p)) by (left; apply Hb; lia). reflexivity. }
    assert (V : (Rabs (if 0 <? p then b (p - 1)%Z * M 0 (p - 1)%Z else 0) = if 0 <? p then b (p - 1)%Z * Rabs (M 0 (p - 1)%Z) else 0)%R).
    { destruct (0 <? p) eqn:L; [|apply Rabs_R0]. rewrite Rabs_mult, (Rabs_pos_eq (b (p - 1)%Z)) by (left; apply Hb; lia). reflexivity. }
    apply (f_equal Rabs) in X. rewrite Rabs_mult in X.
    pose proof (Rabs_triang (if p + 1 <? n then b p * M 0 (p + 1)%Z else 0) (if 0 <? p then b (p - 1)%Z * M 0 (p - 1)%Z else 0)) as T. rewrite U, V in T.
    pose proof (Rle_abs (lam 0 - a p)). pose proof (Rabs_pos (M 0 p)). nra. }
  set (c := fun v => dot n (M v) y).
  assert (CT : forall v, 0 <= v < n -> dot n (M v) (tapp n a b y) = (lam v * c v)%R).
  { intros v Hv. rewrite (tapp_sym n a b) by auto. rewrite (dot_ext n _ y (fun p => (lam v * M v p)%R) y) by (intros p Hp; first [reflexivity|now rewrite <- HT by lia]). now rewrite dot_scal. }
  assert (Q1 : (DD * dot n y (tapp n a b y) = sumZ n (fun v => lam v * (c v * c v)))%R).
  { unfold dot. rewrite <- sumZ_scal. transitivity (sumZ n (fun p => sumZ n (fun v => (c v * M v p * tapp n a b y p)%R))).
    - apply sumZ_ext. intros p Hp. rewrite <- Rmult_assoc, <- expand by auto. rewrite <- sumZ_scal_r. reflexivity.
    - rewrite sumZ_swap. apply sumZ_ext. intros v Hv. transitivity (c v * dot n (M v) (tapp n a b y))%R; [unfold dot; rewrite <- sumZ_scal; apply sumZ_ext; intros; ring|]. rewrite CT by auto. ring. }
  assert (Q2 : (DD * dot n y y = sumZ n (fun v => c v * c v))%R).
  { unfold dot at 1. rewrite <- sumZ_scal. transitivity (sumZ n (fun p => sumZ n (fun v => (c v * M v p * y p)%R))).
    - apply sumZ_ext. intros p Hp. rewrite <- Rmult_assoc, <- expand by auto. rewrite <- sumZ_scal_r. reflexivity.
    - rewrite sumZ_swap. apply sumZ_ext. intros v Hv. transitivity (c v * dot n (M v) y)%R; [unfold dot; rewrite <- sumZ_scal; apply sumZ_ext; intros; ring|]. reflexivity. }
  assert (Q3 : (0 <= dot n y (tapp n a b y) - lam 0 * dot n y y)%R).
  { unfold dot. rewrite <- sumZ_scal, <- sumZ_minus. apply sumZ_pos. intros p Hp. pose proof (TY p Hp). assert ((0 <= y p)%R) by apply Rabs_pos. nra. }
  assert (Q4 : sumZ n (fun v => ((lam 0 - lam v) * (c v * c v))%R) = 0%R).
  { assert (P : (0 <= sumZ n (fun v => ((lam 0 - lam v) * (c v * c v))%R))%R).
    { apply sumZ_pos. intros v Hv. assert ((0 <= c v * c v)%R) by nra. assert ((0 <= lam 0 - lam v)%R). { destruct (Z.eq_dec v 0) as [->|]; [lra|]. pose proof (Hl 0 v ltac:(lia) ltac:(lia)). lra. } nra. }
    assert (X : (sumZ n (fun v => (lam 0 - lam v) * (c v * c v)) = lam 0 * (DD * dot n y y) - DD * dot n y (tapp n a b y))%R).
    { rewrite Q1, Q2, <- sumZ_scal, <- sumZ_minus. apply sumZ_ext. intros. ring. }
    nra. }
  assert (C0 : forall v, 0 < v < n -> c v = 0%R).
  { intros v Hv. destruct (Req_dec (c v) 0) as [|N]; auto. exfalso.
    assert (LP := Hl 0 v ltac:(lia) ltac:(lia)). 
    assert (X : ((lam 0 - lam v) * (c v * c v) <= sumZ n (fun v => (lam 0 - lam v) * (c v * c v)))%R).
    { rewrite (sumZ_split n v) by lia. rewrite (sumZ_first (n - v)) by lia. replace (v + 0) with v by lia.
      assert (forall w, 0 <= w < n -> (0 <= (lam 0 - lam w) * (c w * c w))%R).
      { intros w Hw. assert ((0 <= c w * c w)%R) by nra. assert ((0 <= lam 0 - lam w)%R). { destruct (Z.eq_dec w 0) as [->|]; [lra|]. pose proof (Hl 0 w ltac:(lia) ltac:(lia)). lra. } nra. }
      assert ((0 <= sumZ v (fun w => (lam 0 - lam w) * (c w * c w)))%R) by (apply sumZ_pos; intros; apply H; lia).
      assert ((0 <= sumZ (n - v - 1) (fun i => (lam 0 - lam (v + (1 + i))%Z) * (c (v + (1 + i))%Z * c (v + (1 + i))%Z)))%R) by (apply sumZ_pos; intros; apply H; lia). lra. }
    assert ((0 < c v * c v)%R) by nra. nra. }
  exists (c 0%Z / DD)%R. intros p Hp. assert (E := expand y p Hp). rewrite (sumZ_single n 0) in E; [|lia|intros v Hv Nv; fold (c v); rewrite C0 by lia; ring].
  fold (c 0) in E. change (Rabs (M 0 p)) with (y p). apply (Rmult_eq_reg_l DD); [|lra]. rewrite <- E. field. lra.
Qed.
Lemma same_sign p : 0 <= p < n -> (0 < M 0 0 * M 0 p)%R.
Proof.
  intros Hp. destruct perron as (c & Hc). assert (N0 : M 0 0 <> 0%R) by (apply (tri_first n a b lam M); auto; lia).
  assert (Np : M 0 p <> 0%R) by (apply (tri_first n a' b' lam' Mt); auto).
  assert (E0 := Hc 0 ltac:(lia)). assert (Ep := Hc p Hp). 
  assert (P0 := Rabs_pos_lt _ N0). assert (Pp := Rabs_pos_lt _ Np). rewrite E0 in P0. rewrite Ep in Pp. nra.
Qed.
Definition kap (sign : Z) : R := (IZR sign * (if Rlt_dec 0 (M 0%Z 0%Z) then 1 else -1) / sqrt DD)%R.
Lemma kap_sq sign : sign = 1 \/ sign = -1 -> (kap sign * kap sign * DD = 1)%R.
Proof.
  intros Hs. unfold kap. pose proof DD_pos as DP. assert (S0 := sqrt_lt_R0 _ DP). assert (SS := sqrt_sqrt DD ltac:(lra)).
  replace (IZR sign * (if Rlt_dec 0 (M 0%Z 0%Z) then 1 else -1) / sqrt DD * (IZR sign * (if Rlt_dec 0 (M 0%Z 0%Z) then 1 else -1) / sqrt DD) * DD)%R
    with ((IZR sign * (if Rlt_dec 0 (M 0%Z 0%Z) then 1 else -1)) * (IZR sign * (if Rlt_dec 0 (M 0%Z 0%Z) then 1 else -1)) * (DD / (sqrt DD * sqrt DD)))%R by (field; lra).
  rewrite SS. replace (DD / DD)%R with 1%R by (field; lra). destruct Hs as [->| ->]; destruct (Rlt_dec 0 (M 0%Z 0%Z)); ring.
Qed.
End Dual.

Section Value.
Variables (n : Z) (a b lam a' b' lam' : Z -> R) (M : Z -> Z -> R).
Let Mt := fun v p => M p v.
Hypothesis Hn : 1 <= n.
Hypothesis HT : tri n a b lam M.
Hypothesis HT' : tri n a' b' lam' Mt.
Hypothesis Hb : forall p, 0 <= p < n - 1 -> (0 < b p)%R.
Hypothesis Hb' : forall p, 0 <= p < n - 1 -> (0 < b' p)%R.
Hypothesis Hl : forall v w, 0 <= v < w -> w < n -> (lam w < lam v)%R.
Hypothesis Hl' : forall v w, 0 <= v < w -> w < n -> (lam' w < lam' v)%R.
Hypothesis Hlast : forall v, 0 <= v < n -> M v (n - 1) <> 0%R.
Hypothesis Hlast' : forall v, 0 <= v < n -> M (n - 1) v <> 0%R.

Lemma DD_t : DD n Mt = DD n M.
Proof. apply (norm_col n a b lam a' b' lam' M); auto. lia. Qed.
Lemma kap_t sign : kap n Mt sign = kap n M sign.
Proof. unfold kap. rewrite DD_t. reflexivity. Qed.
Lemma dual_value A B C c sign v : (forall k, 1 <= k < n -> A k = (1 / b (k - 1)%Z)%R) -> (forall k, 1 <= k < n -> B k = (- a k)%R) -> (forall k, 1 <= k < n - 1 -> C k = (- b k)%R) ->
  sign = 1 \/ sign = -1 -> 0 <= v < n ->
  eig_value n A B C c sign (lam v) = (kap n M sign * dot n (M v) c)%R.
Proof.
  intros HA HB HC Hs Hv. unfold eig_value. cbv zeta.
  assert (EV : forall k, 0 <= k < n -> eigv n A B C k (lam v) = (M v k / M v (n - 1)%Z)%R) by (intros; apply (tri_eigv n a b lam M); auto).
  pose proof (Hlast v Hv) as NL. set (L := M v (n - 1)) in *.
  assert (DP : (0 < DD n M)%R) by (apply (DD_pos n b lam b' lam' M); auto). assert (SP := sqrt_lt_R0 _ DP).
  rewrite (sumZ_ext n (fun k => (eigv n A B C k (lam v) * c k)%R) (fun k => (1 / L * (M v k * c k))%R)) by (intros; rewrite EV by auto; field; auto).
  rewrite (sumZ_ext n (fun k => (eigv n A B C k (lam v) * eigv n A B C k (lam v))%R) (fun k => ((1 / L * (1 / L)) * (M v k * M v k))%R)) by (intros; rewrite EV by auto; field; auto).
  rewrite !sumZ_scal. change (sumZ n (fun k => (M v k * c k)%R)) with (dot n (M v) c). change (sumZ n (fun k => (M v k * M v k)%R)) with (dot n (M v) (M v)).
  rewrite (norm_row n a b lam a' b' lam' M) by auto. rewrite EV by lia.
  rewrite sqrt_mult by nra. replace (sqrt (1 / L * (1 / L))) with (Rabs (1 / L)) by (symmetry; apply (sqrt_Rsqr_abs (1 / L))).
  assert (SG : (0 < M 0%Z 0%Z * M v 0%Z)%R) by (apply (same_sign n a' b' lam' a b lam Mt); auto).
  assert (NA : (0 < Rabs (1 / L))%R) by (apply Rabs_pos_lt; unfold Rdiv; rewrite Rmult_1_l; now apply Rinv_neq_0_compat).
  unfold kap.
  assert (LL : (L < 0 \/ 0 < L)%R) by lra.
  destruct LL as [LL|LL].
  - assert (IL : (1 / L < 0)%R) by (unfold Rdiv; rewrite Rmult_1_l; now apply Rinv_lt_0_compat). rewrite (Rabs_left (1 / L)) by auto.
    assert (MV : (M v 0%Z / L = M v 0%Z * (1 / L))%R) by (field; auto). rewrite MV.
    destruct (Rlt_dec 0 (M 0%Z 0%Z)); destruct Hs as [->| ->]; destruct (Rlt_dec _ _); try (exfalso; nra); field; lra.
  - assert (IL : (0 < 1 / L)%R) by (unfold Rdiv; rewrite Rmult_1_l; now apply Rinv_0_lt_compat). rewrite (Rabs_pos_eq (1 / L)) by lra.
    assert (MV : (M v 0%Z / L = M v 0%Z * (1 / L))%R) by (field; auto). rewrite MV.
    destruct (Rlt_dec 0 (M 0%Z 0%Z)); destruct Hs as [->| ->]; destruct (Rlt_dec _ _); try (exfalso; nra); field; lra.
Qed.
End Value.
