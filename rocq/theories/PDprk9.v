(** * Proofs: the roots of the secular functions exist and interlace the poles *)
From Coq Require Import ZArith List Lia Bool ZifyBool ZifyNat Reals Lra Ranalysis5 FunctionalExtensionality.
From Verif Require Import Arith Base BaseFacts SpecSum PSum SpecLin PTri SpecSort MDprk SpecDprk PDprk.
Import ListNotations.
Open Scope Z_scope.

Lemma continuity_pt_id x : continuity_pt (fun t => t) x. Proof. apply derivable_continuous_pt, derivable_pt_id. Qed.
Lemma cont_sumn k (f : Z -> R -> R) x : (forall i, 0 <= i < Z.of_nat k -> continuity_pt (f i) x) -> continuity_pt (fun t => sumZ (Z.of_nat k) (fun i => f i t)) x.
Proof.
  induction k as [|k IH]; intros H.
  - apply continuity_pt_const. intros u v. now rewrite !sumZ_0 by lia.
  - assert (E : (fun t => sumZ (Z.of_nat (S k)) (fun i => f i t)) = (fun t => sumZ (Z.of_nat k) (fun i => f i t) + f (Z.of_nat k) t)%R).
    + apply functional_extensionality. intros t. rewrite Nat2Z.inj_succ. unfold Z.succ. now rewrite sumZ_S by lia.
    + rewrite E. apply continuity_pt_plus; [apply IH; intros; apply H; lia|apply H; lia].
Qed.
Lemma cont_sum n (f : Z -> R -> R) x : (forall i, 0 <= i < n -> continuity_pt (f i) x) -> continuity_pt (fun t => sumZ n (fun i => f i t)) x.
Proof.
  intros H. destruct (Z_le_dec 0 n).
  - rewrite <- (Z2Nat.id n) by lia. apply cont_sumn. intros. apply H. lia.
  - apply continuity_pt_const. intros u v. now rewrite !sumZ_0 by lia.
Qed.
Lemma cont_pole w p x : p <> x -> continuity_pt (fun t => (w / (p - t))%R) x.
Proof.
  intros H. apply continuity_pt_mult; [apply continuity_pt_const; intros u v; auto|]. apply continuity_pt_inv; [|lra].
  apply continuity_pt_minus; [apply continuity_pt_const; intros u v; auto|]. apply continuity_pt_id.
Qed.

Definition gsec (c0 : R) (N : Z) (w p : Z -> R) (t : R) : R := (c0 + sumZ N (fun i => w i / (p i - t)))%R.
Section Gap.
Variables (c0 : R) (N : Z) (w p : Z -> R).
Lemma sum_out i (f : Z -> R) : 0 <= i < N -> sumZ N f = (f i + sumZ N (fun k => if k =? i then 0 else f k))%R.
Proof.
  intros Hi. rewrite (sumZ_ext N f (fun k => (if k =? i then f k else 0) + (if k =? i then 0 else f k))%R) by (intros k Hk; destruct (k =? i); lra).
  rewrite sumZ_plus. f_equal. rewrite (sumZ_single N i) by (auto; intros k Hk Hne; now replace (k =? i) with false by lia). now rewrite Z.eqb_refl.
Qed.
Lemma gap i j : 0 <= i < N -> 0 <= j < N -> (p i < p j)%R -> (0 < w i)%R -> (0 < w j)%R -> (forall k, 0 <= k < N -> k <> i -> k <> j -> (p k < p i)%R \/ (p j < p k)%R) ->
  {t | (p i < t < p j)%R /\ gsec c0 N w p t = 0%R}.
Proof.
  intros Hi Hj Hp Hwi Hwj Ho.
  set (oth := fun t => sumZ N (fun k => (if k =? i then 0 else if k =? j then 0 else w k / (p k - t))%R)).
  set (h := fun t => ((t - p i) * (p j - t) * (c0 + oth t) + (w j * (t - p i) - w i * (p j - t)))%R).
  destruct (IVT_interv h (p i) (p j)) as (t & Ht & E); auto.
  - intros a Ha. unfold h. apply continuity_pt_plus.
    + apply continuity_pt_mult; [apply continuity_pt_mult|].
      * apply continuity_pt_minus; [apply continuity_pt_id|apply continuity_pt_const; intros u v; auto].
      * apply continuity_pt_minus; [apply continuity_pt_const; intros u v; auto|apply continuity_pt_id].
      * apply continuity_pt_plus; [apply continuity_pt_const; intros u v; auto|]. apply cont_sum. intros k Hk.
        destruct (Z.eqb_spec k i); [apply continuity_pt_const; intros u v; auto|]. destruct (Z.eqb_spec k j); [apply continuity_pt_const; intros u v; auto|].
        apply cont_pole. destruct (Ho k Hk); auto; lra.
    + apply continuity_pt_minus; (apply continuity_pt_mult; [apply continuity_pt_const; now intros u v|]; apply continuity_pt_minus; first [apply continuity_pt_id|apply continuity_pt_const; now intros u v]).
  - unfold h. nra.
  - unfold h. nra.
  - assert (t <> p i). { intros ->. unfold h in E. nra. } assert (t <> p j). { intros ->. unfold h in E. nra. }
    exists t. split; [lra|]. unfold gsec. rewrite (sum_out i) by auto. rewrite (sum_out j) by auto.
    replace (j =? i) with false by (destruct (Z.eqb_spec j i); auto; subst; lra).
    rewrite (sumZ_ext N (fun k => if k =? j then 0 else if k =? i then 0 else w k / (p k - t))%R (fun k => if k =? i then 0 else if k =? j then 0 else w k / (p k - t))%R) by (intros k Hk; destruct (k =? i), (k =? j); auto).
    fold (oth t). unfold h in E.
    assert (X : ((t - p i) * (p j - t) * (c0 + (w i / (p i - t) + (w j / (p j - t) + oth t))) = 0)%R).
    { rewrite <- E. field. split; lra. }
    apply Rmult_integral in X. destruct X as [X|X]; auto. apply Rmult_integral in X. destruct X; lra.
Qed.
Lemma right_end i : 0 <= i < N -> (0 < c0)%R -> (forall k, 0 <= k < N -> (0 < w k)%R) -> (forall k, 0 <= k < N -> k <> i -> (p k < p i)%R) ->
  {t | (p i < t)%R /\ gsec c0 N w p t = 0%R}.
Proof.
  intros Hi Hc Hw Ho.
  set (oth := fun t => sumZ N (fun k => (if k =? i then 0 else w k / (p k - t))%R)).
  set (h := fun t => ((t - p i) * (c0 + oth t) - w i)%R). set (W := sumZ N w).
  assert (HW : (0 <= W)%R) by (apply sumZ_pos; intros k Hk; specialize (Hw k Hk); lra).
  set (b := (p i + W / c0 + 1)%R). assert (Hq : (0 <= W / c0)%R) by (apply Rmult_le_pos; auto; apply Rlt_le, Rinv_0_lt_compat; auto).
  destruct (IVT_interv h (p i) b) as (t & Ht & E).
  - intros a Ha. unfold h. apply continuity_pt_minus; [|apply continuity_pt_const; intros u v; auto]. apply continuity_pt_mult.
    + apply continuity_pt_minus; [apply continuity_pt_id|apply continuity_pt_const; intros u v; auto].
    + apply continuity_pt_plus; [apply continuity_pt_const; intros u v; auto|]. apply cont_sum. intros k Hk.
      destruct (Z.eqb_spec k i); [apply continuity_pt_const; intros u v; auto|]. apply cont_pole. specialize (Ho k Hk n). lra.
  - unfold b. lra.
  - unfold h. specialize (Hw i Hi). lra.
  - assert (X : (0 < gsec c0 N w p b)%R).
    { unfold gsec. assert (Y : (sumZ N (fun k => w k * (/ (W / c0 + 1))) >= - sumZ N (fun k => w k / (p k - b)))%R).
      { apply Rle_ge. rewrite <- (Rplus_0_r (- _)). apply Rplus_le_reg_l with (r := sumZ N (fun k => (w k / (p k - b))%R)). rewrite <- Rplus_assoc, Rplus_opp_r, Rplus_0_l.
        rewrite <- sumZ_plus. apply sumZ_pos. intros k Hk. specialize (Hw k Hk). unfold Rdiv at 1. rewrite <- Rmult_plus_distr_l. apply Rmult_le_pos; [lra|].
        assert (H : (p k - b <= - (W / c0 + 1))%R). { unfold b. destruct (Z.eq_dec k i); [subst; lra|]. specialize (Ho k Hk n). lra. }
        assert (H2 : (0 < W / c0 + 1)%R) by lra. set (s := (W / c0 + 1)%R) in *. replace (p k - b)%R with (- (b - p k))%R by ring. rewrite Rinv_opp.
        assert (/ (b - p k) <= / s)%R by (apply Rinv_le_contravar; lra). lra. }
      rewrite sumZ_scal_r in Y. fold W in Y. assert (W * / (W / c0 + 1) < c0)%R; [|lra].
      apply Rmult_lt_reg_r with (r := (W / c0 + 1)%R); [lra|]. rewrite Rmult_assoc, Rinv_l by lra. assert (c0 * (W / c0) = W)%R by (field; lra). lra. }
    unfold gsec in X. rewrite (sum_out i) in X by auto. fold (oth b) in X. assert (Hb : (0 < b - p i)%R) by (unfold b; lra).
    assert (Y : h b = ((b - p i) * (c0 + (w i / (p i - b) + oth b)))%R) by (unfold h; field; lra). rewrite Y. apply Rmult_lt_0_compat; auto.
  - assert (t <> p i). { intros ->. unfold h in E. specialize (Hw i Hi). lra. }
    exists t. split; [lra|]. unfold gsec. rewrite (sum_out i) by auto. fold (oth t).
    assert (X : ((t - p i) * (c0 + (w i / (p i - t) + oth t)) = 0)%R). { rewrite <- E. unfold h. field. lra. }
    apply Rmult_integral in X. destruct X; auto. lra.
Qed.
(** the function increases between poles *)
Lemma gsec_incr s t : (s < t)%R -> (forall k, 0 <= k < N -> (0 < w k)%R /\ ((p k < s)%R \/ (t < p k)%R)) -> 0 < N -> (gsec c0 N w p s < gsec c0 N w p t)%R.
Proof.
  intros Hst Hk HN. unfold gsec. apply Rplus_lt_compat_l.
  assert (X : forall k, 0 <= k < N -> (0 < w k / (p k - t) - w k / (p k - s))%R).
  { intros k H. destruct (Hk k H) as (Hw & Hp). replace (w k / (p k - t) - w k / (p k - s))%R with (w k * (t - s) / ((p k - t) * (p k - s)))%R by (field; destruct Hp; lra).
    apply Rmult_lt_0_compat; [nra|]. apply Rinv_0_lt_compat. destruct Hp; nra. }
  assert (Y : (0 < sumZ N (fun k => w k / (p k - t) - w k / (p k - s)))%R).
  { rewrite (sum_out 0) by lia. specialize (X 0 ltac:(lia)) as X0. assert (0 <= sumZ N (fun k => if k =? 0 then 0 else w k / (p k - t) - w k / (p k - s)))%R; [|lra].
    apply sumZ_pos. intros k H. destruct (k =? 0); [lra|]. specialize (X k H). lra. }
  rewrite sumZ_minus in Y. lra.
Qed.
End Gap.
Lemma left_end c0 N w p i : 0 <= i < N -> (c0 < 0)%R -> (forall k, 0 <= k < N -> (0 < w k)%R) -> (forall k, 0 <= k < N -> k <> i -> (p i < p k)%R) ->
  {t | (t < p i)%R /\ gsec c0 N w p t = 0%R}.
Proof.
  intros Hi Hc Hw Ho. destruct (right_end (- c0) N w (fun k => (- p k)%R) i) as (t & Ht & E); auto; [lra|intros k Hk Hne; specialize (Ho k Hk Hne); lra|].
  exists (- t)%R. split; [lra|]. unfold gsec in *. rewrite (sumZ_ext N _ (fun k => (-1) * (w k / (p k - - t)))%R) in E.
  - rewrite sumZ_scal in E. lra.
  - intros k Hk. replace (- p k - t)%R with (- (p k - - t))%R by ring. unfold Rdiv. rewrite Rinv_opp. ring.
Qed.

Lemma gsec_rank1 A t : (/ dp_rho A + pole_sum A t)%R = gsec (/ dp_rho A) (dp_n A) (fun i => (nR (dp_z A) i * nR (dp_z A) i)%R) (nR (dp_d A)) t.
Proof. reflexivity. Qed.
Definition wp (A : dpr1 R) (sigma : R) (k : Z) : R := if k <? dp_n A then (nR (dp_z A) k * nR (dp_z A) k)%R else (/ sigma)%R.
Definition pp (A : dpr1 R) (sigma : R) (k : Z) : R := if k <? dp_n A then nR (dp_d A) k else (dp_rho A / sigma)%R.
Lemma gsec_pencil A sigma t : 0 <= dp_n A -> (sigma <> 0)%R -> (dp_rho A - sigma * t <> 0)%R -> pencil_secular_function A sigma t = gsec 0 (dp_n A + 1) (wp A sigma) (pp A sigma) t.
Proof.
  intros Hn Hs Ht. unfold gsec, pencil_secular_function. rewrite sumZ_S by lia. unfold wp at 2, pp at 2. replace (dp_n A <? dp_n A) with false by lia.
  rewrite (sumZ_ext (dp_n A) (fun i => wp A sigma i / (pp A sigma i - t))%R (fun i => (nR (dp_z A) i * nR (dp_z A) i / (nR (dp_d A) i - t))%R)).
  - fold (pole_sum A t). rewrite Rplus_0_l, Rplus_comm. f_equal. field. repeat split; auto. replace (dp_rho A - t * sigma)%R with (dp_rho A - sigma * t)%R by ring. auto.
  - intros i Hi. unfold wp, pp. now replace (i <? dp_n A) with true by lia.
Qed.

Lemma dec_forall (P : Z -> Prop) n : (forall i, {P i} + {~ P i}) -> {forall i, 0 <= i < n -> P i} + {~ forall i, 0 <= i < n -> P i}.
Proof.
  intros D. assert (X : forall k, {forall i, 0 <= i < Z.of_nat k -> P i} + {~ forall i, 0 <= i < Z.of_nat k -> P i}).
  { induction k as [|k IH]; [left; intros; lia|]. destruct IH as [IH|IH].
    - destruct (D (Z.of_nat k)) as [H|H]; [left|right].
      + intros i Hi. destruct (Z.eq_dec i (Z.of_nat k)); [now subst|apply IH; lia].
      + intros H'. apply H, H'. lia.
    - right. intros H. apply IH. intros i Hi. apply H. lia. }
  destruct (X (Z.to_nat n)) as [H|H]; [left|right].
  - intros i Hi. apply H. lia.
  - intros H'. apply H. intros i Hi. apply H'. lia.
Qed.
Section Roots.
Variables (rho sigma : R).
Hypothesis Hrs : {sigma = 0%R /\ (0 < rho)%R} + {sigma = 0%R /\ (rho < 0)%R} + {(0 < sigma)%R}.
Definition rcond (A : dpr1 R) : Prop := dp_rho A = rho /\ 0 <= dp_n A /\ (forall i, 0 <= i < dp_n A -> forall j, 0 <= j < dp_n A -> i < j -> (nR (dp_d A) i < nR (dp_d A) j)%R) /\
  (forall i, 0 <= i < dp_n A -> nR (dp_z A) i <> 0%R /\ (rho - sigma * nR (dp_d A) i)%R <> 0%R).
Lemma rcond_dec A : {rcond A} + {~ rcond A}.
Proof.
  unfold rcond. destruct (Req_EM_T (dp_rho A) rho); [|right; tauto]. destruct (Z_le_dec 0 (dp_n A)); [|right; tauto].
  destruct (dec_forall (fun i => forall j, 0 <= j < dp_n A -> i < j -> (nR (dp_d A) i < nR (dp_d A) j)%R) (dp_n A)) as [H|H]; [| |right; tauto].
  - intros i. apply dec_forall. intros j. destruct (Z_lt_dec i j); [|left; intros; lia]. destruct (Rlt_dec (nR (dp_d A) i) (nR (dp_d A) j)); [left; auto|right; auto].
  - destruct (dec_forall (fun i => nR (dp_z A) i <> 0%R /\ (rho - sigma * nR (dp_d A) i)%R <> 0%R) (dp_n A)) as [H'|H']; [|left; auto|right; tauto].
    intros i. destruct (Req_EM_T (nR (dp_z A) i) 0); [right; tauto|]. destruct (Req_EM_T (rho - sigma * nR (dp_d A) i) 0); [right; tauto|left; auto].
Qed.
(** on which side of d_j the j-th root lies, and the point that separates the two sides *)
Definition side (A : dpr1 R) (j : Z) : bool :=
  match Hrs with inleft (left _) => true | inleft (right _) => false | inright _ => if Rlt_dec (nR (dp_d A) j) (rho / sigma) then true else false end.
Definition bracket (A : dpr1 R) (j : Z) (t : R) : Prop :=
  let n := dp_n A in let d := nR (dp_d A) in
  if side A j then (d j < t)%R /\ (forall k, j < k < n -> (t < d k)%R) /\ (forall k, 0 <= k < n -> side A k = false -> (t < rho / sigma)%R)
  else (t < d j)%R /\ (forall k, 0 <= k < j -> (d k < t)%R) /\ (forall k, 0 <= k < n -> side A k = true -> (rho / sigma < t)%R).
Lemma bracket_order A j k s t : rcond A -> 0 <= j < dp_n A -> 0 <= k < dp_n A -> j < k -> bracket A j s -> bracket A k t -> (s < t)%R.
Proof.
  intros (_ & _ & Hd & _) Hj Hk Hjk. unfold bracket. cbv zeta. destruct (side A j) eqn:Ej, (side A k) eqn:Ek; intros (A1 & A2 & A3) (B1 & B2 & B3).
  - specialize (A2 k ltac:(lia)). lra.
  - specialize (A3 k Hk Ek). specialize (B3 j Hj Ej). lra.
  - exfalso. revert Ej Ek. unfold side. destruct Hrs as [[|]|]; try discriminate. destruct (Rlt_dec (nR (dp_d A) j) (rho / sigma)); [discriminate|].
    destruct (Rlt_dec (nR (dp_d A) k) (rho / sigma)); [|discriminate]. specialize (Hd j Hj k Hk Hjk). lra.
  - specialize (B2 j ltac:(lia)). lra.
Qed.
Lemma root_ex A j : rcond A -> 0 <= j < dp_n A -> {t | bracket A j t /\ pencil_root A sigma t}.
Proof.
  intros (Hrho & Hn & Hd & Hz) Hj. set (n := dp_n A) in *. set (d := nR (dp_d A)) in *. set (z := nR (dp_z A)) in *.
  assert (Hw : forall k, 0 <= k < n -> (0 < z k * z k)%R). { intros k Hk. destruct (Hz k Hk) as (X & _). nra. }
  assert (Hd' : forall i k, 0 <= i < n -> 0 <= k < n -> i < k -> (d i < d k)%R) by (intros; apply Hd; auto).
  assert (Hoff : forall t i k, 0 <= k < n -> (k = i + 1 -> (t < d k)%R) -> (i < n -> (0 <= i)-> (d i < t)%R) -> forall l, 0 <= l < n -> i < l -> k = i + 1 -> (t < d l)%R).
  { intros t i k Hk H1 H2 l Hl Hil ->. specialize (H1 eq_refl). destruct (Z.eq_dec l (i + 1)); [now subst|]. specialize (Hd' (i + 1) l ltac:(lia) Hl ltac:(lia)). lra. }
  unfold bracket, side. fold n. fold d. destruct Hrs as [[(Hs & Hr)|(Hs & Hr)]|Hs].
  - (* sigma = 0, rho > 0 *)
    assert (Hf : forall t, (forall i, 0 <= i < n -> d i <> t) -> gsec (/ rho) n (fun i => (z i * z i)%R) d t = 0%R -> pencil_root A sigma t).
    { intros t Ho E. split; [exact Ho|]. rewrite Hs, Hrho. split; [lra|]. unfold pencil_secular_function. replace (dp_rho A - 0 * t)%R with (dp_rho A) by ring. rewrite gsec_rank1, Hrho. exact E. }
    destruct (Z_lt_dec (j + 1) n) as [Hl|Hl].
    + destruct (gap (/ rho) n (fun i => (z i * z i)%R) d j (j + 1)) as (t & Ht & E); auto; try lia.
      { apply Hd'; lia. } { apply Hw. lia. }
      { intros k Hk H1 H2. destruct (Z_lt_dec k j); [left; apply Hd'; lia|right; apply Hd'; lia]. }
      exists t. assert (X : forall k, j < k < n -> (t < d k)%R). { intros k Hk. destruct (Z.eq_dec k (j + 1)); [subst; lra|]. specialize (Hd' (j + 1) k ltac:(lia) ltac:(lia) ltac:(lia)). lra. }
      split; [split; [lra|split; [exact X|intros; discriminate]]|]. apply Hf; auto. intros i Hi Ei. destruct (Z.eq_dec i j); [subst; lra|]. destruct (Z_lt_dec i j); [specialize (Hd' i j Hi Hj l); lra|]. specialize (X i ltac:(lia)). lra.
    + destruct (right_end (/ rho) n (fun i => (z i * z i)%R) d j) as (t & Ht & E); auto.
      { now apply Rinv_0_lt_compat. } { intros k Hk Hne. apply Hd'; lia. }
      exists t. split; [split; [lra|split; [intros; lia|intros; discriminate]]|]. apply Hf; auto. intros i Hi Ei. destruct (Z.eq_dec i j); [subst; lra|]. specialize (Hd' i j Hi Hj ltac:(lia)). lra.
  - assert (Hf : forall t, (forall i, 0 <= i < n -> d i <> t) -> gsec (/ rho) n (fun i => (z i * z i)%R) d t = 0%R -> pencil_root A sigma t).
    { intros t Ho E. split; [exact Ho|]. rewrite Hs, Hrho. split; [lra|]. unfold pencil_secular_function. replace (dp_rho A - 0 * t)%R with (dp_rho A) by ring. rewrite gsec_rank1, Hrho. exact E. }
    destruct (Z_lt_dec 0 j) as [Hl|Hl].
    + destruct (gap (/ rho) n (fun i => (z i * z i)%R) d (j - 1) j) as (t & Ht & E); auto; try lia.
      { apply Hd'; lia. } { apply Hw. lia. }
      { intros k Hk H1 H2. destruct (Z_lt_dec k j); [left; apply Hd'; lia|right; apply Hd'; lia]. }
      exists t. assert (X : forall k, 0 <= k < j -> (d k < t)%R). { intros k Hk. destruct (Z.eq_dec k (j - 1)); [subst; lra|]. specialize (Hd' k (j - 1) ltac:(lia) ltac:(lia) ltac:(lia)). lra. }
      split; [split; [lra|split; [exact X|intros; discriminate]]|]. apply Hf; auto. intros i Hi Ei. destruct (Z.eq_dec i j); [subst; lra|]. destruct (Z_lt_dec i j); [specialize (X i ltac:(lia)); lra|]. specialize (Hd' j i Hj Hi ltac:(lia)). lra.
    + destruct (left_end (/ rho) n (fun i => (z i * z i)%R) d j) as (t & Ht & E); auto.
      { now apply Rinv_lt_0_compat. } { intros k Hk Hne. apply Hd'; lia. }
      exists t. split; [split; [lra|split; [intros; lia|intros; discriminate]]|]. apply Hf; auto. intros i Hi Ei. destruct (Z.eq_dec i j); [subst; lra|]. specialize (Hd' j i Hj Hi ltac:(lia)). lra.
  - set (c := (rho / sigma)%R). assert (Hc : forall t, (rho - sigma * t = sigma * (c - t))%R) by (intros; unfold c; field; lra).
    assert (Hdc : forall i, 0 <= i < n -> d i <> c). { intros i Hi E. destruct (Hz i Hi) as (_ & X). apply X. rewrite Hc. fold d. rewrite E. ring. }
    assert (Hf : forall t, (forall i, 0 <= i < n -> d i <> t) -> t <> c -> gsec 0 (n + 1) (wp A sigma) (pp A sigma) t = 0%R -> pencil_root A sigma t).
    { intros t Ho Htc E. assert (X : (dp_rho A - sigma * t <> 0)%R). { rewrite Hrho, Hc. intros X. apply Rmult_integral in X. lra. } split; [exact Ho|]. split; auto. rewrite gsec_pencil; auto. lra. }
    assert (P1 : forall k, 0 <= k < n -> pp A sigma k = d k) by (intros k Hk; unfold pp; fold n; now replace (k <? n) with true by lia).
    assert (P2 : pp A sigma n = c) by (unfold pp; fold n; replace (n <? n) with false by lia; now rewrite Hrho).
    assert (W : forall k, 0 <= k < n + 1 -> (0 < wp A sigma k)%R).
    { intros k Hk. unfold wp. fold n. destruct (Z.ltb_spec k n); [apply Hw; lia|]. now apply Rinv_0_lt_compat. }
    destruct (Rlt_dec (d j) c) as [Hjc|Hjc].
    + assert (B : forall t, (d j < t)%R -> (t < c)%R -> (forall k, j < k < n -> (t < d k)%R) -> gsec 0 (n + 1) (wp A sigma) (pp A sigma) t = 0%R ->
        {t | ((d j < t)%R /\ (forall k, j < k < n -> (t < d k)%R) /\ (forall k, 0 <= k < n -> (if Rlt_dec (d k) c then true else false) = false -> (t < c)%R)) /\ pencil_root A sigma t}).
      { intros t H1 H2 H3 E. exists t. split; [repeat split; auto|]. apply Hf; auto; [|lra]. intros i Hi Ei. destruct (Z.eq_dec i j); [subst; lra|]. destruct (Z_lt_dec i j); [specialize (Hd' i j Hi Hj l); lra|]. specialize (H3 i ltac:(lia)). lra. }
      destruct (Z_lt_dec (j + 1) n) as [Hl|Hl]; [destruct (Rlt_dec (d (j + 1)) c) as [Hl2|Hl2]|].
      * destruct (gap 0 (n + 1) (wp A sigma) (pp A sigma) j (j + 1)) as (t & Ht & E); try lia; try (apply W; lia); rewrite ?P1 by lia.
        { apply Hd'; lia. }
        { intros k Hk H1 H2. destruct (Z.eq_dec k n); [subst k; rewrite P2; auto|]. rewrite P1 by lia. destruct (Z_lt_dec k j); [left; apply Hd'; lia|right; apply Hd'; lia]. }
        rewrite !P1 in Ht by lia. apply (B t); auto; try lra. intros k Hk. destruct (Z.eq_dec k (j + 1)); [subst; lra|]. specialize (Hd' (j + 1) k ltac:(lia) ltac:(lia) ltac:(lia)). lra.
      * destruct (gap 0 (n + 1) (wp A sigma) (pp A sigma) j n) as (t & Ht & E); try lia; try (apply W; lia); rewrite ?P2, ?P1 by lia; auto.
        { intros k Hk H1 H2. rewrite P1 by lia. destruct (Z_lt_dec k j); [left; apply Hd'; lia|right]. assert (d (j + 1)%Z <= d k)%R. { destruct (Z.eq_dec k (j + 1)); [subst; lra|]. specialize (Hd' (j + 1) k ltac:(lia) ltac:(lia) ltac:(lia)). lra. } specialize (Hdc (j + 1) ltac:(lia)). lra. }
        rewrite P2, P1 in Ht by lia. apply (B t); auto; try lra. intros k Hk. assert (d (j + 1)%Z <= d k)%R. { destruct (Z.eq_dec k (j + 1)); [subst; lra|]. specialize (Hd' (j + 1) k ltac:(lia) ltac:(lia) ltac:(lia)). lra. } lra.
      * destruct (gap 0 (n + 1) (wp A sigma) (pp A sigma) j n) as (t & Ht & E); try lia; try (apply W; lia); rewrite ?P2, ?P1 by lia; auto.
        { intros k Hk H1 H2. rewrite P1 by lia. left. apply Hd'; lia. }
        rewrite P2, P1 in Ht by lia. apply (B t); auto; try lra. intros; lia.
    + assert (Hcj : (c < d j)%R) by (specialize (Hdc j Hj); lra).
      assert (B : forall t, (t < d j)%R -> (c < t)%R -> (forall k, 0 <= k < j -> (d k < t)%R) -> gsec 0 (n + 1) (wp A sigma) (pp A sigma) t = 0%R ->
        {t | ((t < d j)%R /\ (forall k, 0 <= k < j -> (d k < t)%R) /\ (forall k, 0 <= k < n -> (if Rlt_dec (d k) c then true else false) = true -> (c < t)%R)) /\ pencil_root A sigma t}).
      { intros t H1 H2 H3 E. exists t. split; [repeat split; auto|]. apply Hf; auto; [|lra]. intros i Hi Ei. destruct (Z.eq_dec i j); [subst; lra|]. destruct (Z_lt_dec i j); [specialize (H3 i ltac:(lia)); lra|]. specialize (Hd' j i Hj Hi ltac:(lia)). lra. }
      destruct (Z_lt_dec 0 j) as [Hl|Hl]; [destruct (Rlt_dec c (d (j - 1))) as [Hl2|Hl2]|].
      * destruct (gap 0 (n + 1) (wp A sigma) (pp A sigma) (j - 1) j) as (t & Ht & E); try lia; try (apply W; lia); rewrite ?P1 by lia.
        { apply Hd'; lia. }
        { intros k Hk H1 H2. destruct (Z.eq_dec k n); [subst k; rewrite P2; auto|]. rewrite P1 by lia. destruct (Z_lt_dec k j); [left; apply Hd'; lia|right; apply Hd'; lia]. }
        rewrite !P1 in Ht by lia. apply (B t); auto; try lra. intros k Hk. destruct (Z.eq_dec k (j - 1)); [subst; lra|]. specialize (Hd' k (j - 1) ltac:(lia) ltac:(lia) ltac:(lia)). lra.
      * destruct (gap 0 (n + 1) (wp A sigma) (pp A sigma) n j) as (t & Ht & E); try lia; try (apply W; lia); rewrite ?P2, ?P1 by lia; auto.
        { intros k Hk H1 H2. rewrite P1 by lia. destruct (Z_lt_dec k j); [left|right; apply Hd'; lia]. assert (d k <= d (j - 1)%Z)%R. { destruct (Z.eq_dec k (j - 1)); [subst; lra|]. specialize (Hd' k (j - 1) ltac:(lia) ltac:(lia) ltac:(lia)). lra. } specialize (Hdc (j - 1) ltac:(lia)). lra. }
        rewrite P2, P1 in Ht by lia. apply (B t); auto; try lra. intros k Hk. assert (d k <= d (j - 1)%Z)%R. { destruct (Z.eq_dec k (j - 1)); [subst; lra|]. specialize (Hd' k (j - 1) ltac:(lia) ltac:(lia) ltac:(lia)). lra. } lra.
      * destruct (gap 0 (n + 1) (wp A sigma) (pp A sigma) n j) as (t & Ht & E); try lia; try (apply W; lia); rewrite ?P2, ?P1 by lia; auto.
        { intros k Hk H1 H2. rewrite P1 by lia. right. apply Hd'; lia. }
        rewrite P2, P1 in Ht by lia. apply (B t); auto; try lra. intros; lia.
Qed.
Definition root_fun (A : dpr1 R) (j : Z) : R :=
  match rcond_dec A with
  | left H => match Z_le_dec 0 j, Z_lt_dec j (dp_n A) with left H1, left H2 => proj1_sig (root_ex A j H (conj H1 H2)) | _, _ => 0%R end
  | right _ => 0%R
  end.
Definition root_finder (fm : R) (A : dpr1 R) (lo hi : list R) : option (list R * list R) :=
  Some (ztab (dp_n A) (fun _ => (1 + sqrt fm)%R), ztab (dp_n A) (fun j => (root_fun A j - (1 + sqrt fm))%R)).
Lemma root_fun_spec A j : rcond A -> 0 <= j < dp_n A -> bracket A j (root_fun A j) /\ pencil_root A sigma (root_fun A j).
Proof.
  intros H Hj. unfold root_fun. destruct (rcond_dec A) as [H'|H']; [|contradiction]. destruct (Z_le_dec 0 j); [|lia]. destruct (Z_lt_dec j (dp_n A)); [|lia].
  destruct (root_ex A j H' (conj l l0)) as (t & B & P). exact (conj B P).
Qed.
Lemma root_finder_exact fm : exact_roots fm rho sigma (root_finder fm).
Proof.
  intros A lo hi ok Hr _ _ Hinc Hz. assert (RC : rcond A).
  { split; auto. split; [destruct ok; lia|]. split; auto. intros i Hi j Hj Hij. apply Hinc; lia. }
  unfold root_finder. eexists _, _. split; [reflexivity|]. destruct ok as (Hn & _). rewrite !zlen_ztab by auto. split; auto. split; auto.
  assert (V : forall j, 0 <= j < dp_n A -> (nR (ztab (dp_n A) (fun j => (root_fun A j - (1 + sqrt fm))%R)) j + nR (ztab (dp_n A) (fun _ => (1 + sqrt fm)%R)) j)%R = root_fun A j).
  { intros j Hj. rewrite !(nthZ_zget 0%R _ j _ (zget_ztab _ _ _ Hj)). lra. }
  split; [|split].
  - intros j Hj. rewrite V by auto. now apply root_fun_spec.
  - intros j k Hj Hk Hne. rewrite !V by auto. destruct (root_fun_spec A j RC Hj) as (B1 & _). destruct (root_fun_spec A k RC Hk) as (B2 & _).
    destruct (Z_lt_dec j k); [pose proof (bracket_order A j k _ _ RC Hj Hk l B1 B2); lra|]. pose proof (bracket_order A k j _ _ RC Hk Hj ltac:(lia) B2 B1). lra.
  - intros j Hj. rewrite !(nthZ_zget 0%R _ j _ (zget_ztab _ _ _ Hj)). pose proof (sqrt_pos fm). rewrite Rabs_right; lra.
Qed.
End Roots.
Lemma roots_exist_proof fm rho sigma : (sigma = 0 /\ rho <> 0 \/ 0 < sigma)%R -> exists f, exact_roots fm rho sigma f.
Proof.
  intros H. assert (X : {sigma = 0%R /\ (0 < rho)%R} + {sigma = 0%R /\ (rho < 0)%R} + {(0 < sigma)%R}).
  { destruct (Rlt_dec 0 sigma); [right; auto|]. left. destruct (Rlt_dec 0 rho); [left|right]; destruct H as [(? & ?)|]; try lra; split; auto; lra. }
  exists (root_finder rho sigma X fm). apply root_finder_exact.
Qed.
Lemma interlacing_proof A : dp_ok A -> (0 < dp_rho A)%R -> increasing (dp_d A) 0 (dp_n A - 1) -> (forall i, 0 <= i < dp_n A -> nR (dp_z A) i <> 0%R) ->
  (forall i, 0 <= i < dp_n A -> exists! t, (nR (dp_d A) i < t)%R /\ (i + 1 < dp_n A -> (t < nR (dp_d A) (i + 1))%R) /\ secular_function A t = 0%R) /\
  (forall t, (forall i, 0 <= i < dp_n A -> (t < nR (dp_d A) i)%R) -> (0 < secular_function A t)%R).
Proof.
  intros (Hn & _) Hr Hinc Hz. assert (Hw : forall k, 0 <= k < dp_n A -> (0 < nR (dp_z A) k * nR (dp_z A) k)%R) by (intros k Hk; specialize (Hz k Hk); nra).
  split.
  - intros i Hi. assert (HR : {0%R = 0%R /\ (0 < dp_rho A)%R} + {0%R = 0%R /\ (dp_rho A < 0)%R} + {(0 < 0)%R}) by (left; left; auto).
    destruct (root_ex (dp_rho A) 0%R (inleft (left (conj eq_refl Hr))) A i) as (t & B & (P1 & P2 & P3)); auto.
    { split; auto. split; auto. split; [intros j Hj k Hk Hjk; apply Hinc; lia|]. intros j Hj. split; auto. lra. }
    unfold bracket, side in B. destruct B as (B1 & B2 & _). assert (E : secular_function A t = 0%R).
    { unfold secular_function. unfold pencil_secular_function in P3. now replace (dp_rho A - 0 * t)%R with (dp_rho A) in P3 by ring. }
    exists t. split; [split; auto; split; auto; intros; apply B2; lia|]. intros t' (C1 & C2 & C3).
    assert (Hb : forall s, (nR (dp_d A) i < s)%R -> (i + 1 < dp_n A -> (s < nR (dp_d A) (i + 1))%R) -> forall k, 0 <= k < dp_n A -> (k <= i -> (nR (dp_d A) k < s)%R) /\ (i < k -> (s < nR (dp_d A) k)%R)).
    { intros s S1 S2 k Hk. split; intros Hki.
      - destruct (Z.eq_dec k i); [now subst|]. specialize (Hinc k i ltac:(lia) ltac:(lia) ltac:(lia)). lra.
      - specialize (S2 ltac:(lia)). destruct (Z.eq_dec k (i + 1)); [now subst|]. specialize (Hinc (i + 1) k ltac:(lia) ltac:(lia) ltac:(lia)). lra. }
    assert (M : forall s u, (nR (dp_d A) i < s)%R -> (s < u)%R -> (i + 1 < dp_n A -> (u < nR (dp_d A) (i + 1))%R) -> (secular_function A s < secular_function A u)%R).
    { intros s u S1 S2 S3. unfold secular_function. rewrite !gsec_rank1. apply gsec_incr; auto; [|lia]. intros k Hk. split; auto. destruct (Z_le_dec k i); [left|right].
      - apply (Hb s); auto. intros. specialize (S3 ltac:(lia)). lra.
      - apply (Hb u); auto; [lra|lia]. }
    destruct (Rtotal_order t t') as [L|[L|L]]; auto.
    + specialize (M t t' B1 L C2). lra.
    + specialize (M t' t C1 L). assert (i + 1 < dp_n A -> (t < nR (dp_d A) (i + 1))%R) by (intros; apply B2; lia). specialize (M H). lra.
  - intros t Ht. unfold secular_function. assert (0 < / dp_rho A)%R by now apply Rinv_0_lt_compat. assert (0 <= pole_sum A t)%R; [|lra].
    apply sumZ_pos. intros k Hk. apply Rlt_le. apply Rmult_lt_0_compat; auto. apply Rinv_0_lt_compat. specialize (Ht k Hk). lra.
Qed.
