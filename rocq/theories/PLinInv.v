(** * Square matrices: a left inverse is a right inverse *)
From Coq Require Import ZArith List Lia Bool Reals Lra ZifyBool ZifyNat.
From Verif Require Import Base SpecSum SpecLin PSum PTri.
Open Scope Z_scope.

Definition skip (p j : Z) : Z := if j <? p then j else j + 1.
Lemma sum_skip n p f : 0 <= p < n -> sumZ n f = (f p + sumZ (n - 1) (fun j => f (skip p j)))%R.
Proof.
  intros Hp. rewrite (sumZ_split n p) by lia. rewrite (sumZ_first (n - p)) by lia.
  rewrite (sumZ_split (n - 1) p) by lia.
  replace (p + 0) with p by ring.
  replace (sumZ p (fun j => f (skip p j))) with (sumZ p f) by (apply sumZ_ext; intros; unfold skip; replace (i <? p) with true by lia; reflexivity).
  replace (n - 1 - p) with (n - p - 1) by ring.
  replace (sumZ (n - p - 1) (fun i => f (skip p (p + i)))) with (sumZ (n - p - 1) (fun i => f (p + (1 + i)))).
  - ring.
  - apply sumZ_ext; intros; unfold skip. replace (p + i <? p) with false by lia. f_equal; ring.
Qed.
Lemma all_zero_or n (f : Z -> R) : (forall j, 0 <= j < n -> f j = 0%R) \/ (exists j, 0 <= j < n /\ f j <> 0%R).
Proof.
  destruct (Z.le_gt_cases n 0) as [H|H]; [left; intros; lia|].
  replace n with (Z.of_nat (Z.to_nat n)) by lia. generalize (Z.to_nat n) as k. clear H n. induction k as [|k IH].
  - left; intros; lia.
  - destruct IH as [IH|(j & Hj & E)]; [|right; exists j; split; [lia|exact E]].
    destruct (Req_EM_T (f (Z.of_nat k)) 0) as [E|E]; [|right; exists (Z.of_nat k); split; [lia|exact E]].
    left; intros j Hj. destruct (Z.eq_dec j (Z.of_nat k)) as [->|]; [exact E|apply IH; lia].
Qed.
(** fewer equations than unknowns *)
Lemma homogeneous m : forall n (A : Z -> Z -> R), Z.of_nat m < n ->
  exists v, (exists j, 0 <= j < n /\ v j <> 0%R) /\ forall i, 0 <= i < Z.of_nat m -> matvec n A v i = 0%R.
Proof.
  induction m as [|m IH]; intros n A Hm.
  - exists (fun _ => 1%R). split; [exists 0; split; [lia|lra]|intros; lia].
  - destruct (all_zero_or n (A (Z.of_nat m))) as [Hz|(p & Hp & Ep)].
    + destruct (IH n A) as (v & Hv & Hs); [lia|]. exists v. split; [exact Hv|].
      intros i Hi. destruct (Z.eq_dec i (Z.of_nat m)) as [->|]; [|apply Hs; lia].
      apply sumZ_zero. intros j Hj. rewrite Hz by lia. ring.
    + set (a := A (Z.of_nat m)).
      destruct (IH (n - 1) (fun i j => (A i (skip p j) - A i p * a (skip p j) / a p)%R)) as (v & (j0 & Hj0 & Ej0) & Hs); [lia|].
      set (S0 := sumZ (n - 1) (fun j => (a (skip p j) * v j)%R)).
      exists (fun j => if j =? p then (- S0 / a p)%R else v (if j <? p then j else j - 1)). split.
      * exists (skip p j0). unfold skip. split; [destruct (j0 <? p) eqn:E; lia|].
        destruct (j0 <? p) eqn:E.
        { replace (j0 =? p) with false by lia. rewrite E. exact Ej0. }
        { replace (j0 + 1 =? p) with false by lia. replace (j0 + 1 <? p) with false by lia. replace (j0 + 1 - 1) with j0 by ring. exact Ej0. }
      * intros i Hi. unfold matvec. rewrite (sum_skip n p) by lia. rewrite Z.eqb_refl.
        rewrite (sumZ_ext (n - 1) _ (fun j => (A i (skip p j) * v j)%R)).
        2:{ intros j Hj. unfold skip. destruct (j <? p) eqn:E.
            - replace (j =? p) with false by lia. rewrite E. reflexivity.
            - replace (j + 1 =? p) with false by lia. replace (j + 1 <? p) with false by lia. replace (j + 1 - 1) with j by ring. reflexivity. }
        destruct (Z.eq_dec i (Z.of_nat m)) as [->|Hne].
        { fold a. fold S0. field. exact Ep. }
        { specialize (Hs i ltac:(lia)). unfold matvec in Hs.
          rewrite (sumZ_ext (n - 1) _ (fun j => (A i (skip p j) * v j - (A i p / a p) * (a (skip p j) * v j))%R)) in Hs by (intros; field; exact Ep).
          rewrite sumZ_minus, sumZ_scal in Hs. fold S0 in Hs.
          apply Rminus_diag_uniq in Hs. rewrite Hs. field. exact Ep. }
Qed.
Lemma surjective n (A : Z -> Z -> R) b : 0 <= n -> (forall v, (forall i, 0 <= i < n -> matvec n A v i = 0%R) -> forall i, 0 <= i < n -> v i = 0%R) ->
  exists v, forall i, 0 <= i < n -> matvec n A v i = b i.
Proof.
  intros Hn Hinj.
  destruct (homogeneous (Z.to_nat n) (n + 1) (fun i j => if j <? n then A i j else b i)) as (v & (j0 & Hj0 & Ej0) & Hs); [lia|].
  rewrite Z2Nat.id in Hs by lia.
  assert (Hs' : forall i, 0 <= i < n -> (matvec n A v i + b i * v n = 0)%R).
  { intros i Hi. specialize (Hs i Hi). unfold matvec in *. rewrite sumZ_S in Hs by lia. cbv beta in Hs.
    replace (n <? n) with false in Hs by lia.
    rewrite (sumZ_ext n _ (fun k => (A i k * v k)%R)) in Hs by (intros k Hk; replace (k <? n) with true by lia; reflexivity). exact Hs. }
  destruct (Req_EM_T (v n) 0) as [E|E].
  - exfalso. apply Ej0. destruct (Z.eq_dec j0 n) as [->|]; [exact E|]. apply (Hinj v); [|lia].
    intros i Hi. specialize (Hs' i Hi). rewrite E in Hs'. lra.
  - exists (fun i => (v i * (- / v n))%R). intros i Hi. specialize (Hs' i Hi).
    unfold matvec in *. rewrite (sumZ_ext n _ (fun k => ((A i k * v k) * (- / v n))%R)) by (intros; ring). rewrite sumZ_scal_r.
    apply (Rmult_eq_reg_r (v n)); [|exact E]. replace (sumZ n (fun i0 => (A i i0 * v i0)%R) * - / v n * v n)%R with (- sumZ n (fun k => (A i k * v k)%R))%R by (field; exact E). lra.
Qed.
Theorem left_right_inverse n (X Y : Z -> Z -> R) : 0 <= n -> (forall i j, 0 <= i < n -> 0 <= j < n -> matmul n X Y i j = delta i j) ->
  forall i j, 0 <= i < n -> 0 <= j < n -> matmul n Y X i j = delta i j.
Proof.
  intros Hn H.
  assert (Hc : forall v i, 0 <= i < n -> matvec n X (matvec n Y v) i = v i).
  { intros v i Hi. unfold matvec.
    rewrite (sumZ_ext n _ (fun k => sumZ n (fun j => (X i k * Y k j * v j)%R))) by (intros; rewrite <- sumZ_scal; apply sumZ_ext; intros; ring).
    rewrite sumZ_swap. rewrite (sumZ_ext n _ (fun j => (delta i j * v j)%R)).
    2:{ intros j Hj. rewrite sumZ_scal_r. f_equal. exact (H i j Hi Hj). }
    rewrite (sumZ_single n i) by (try lia; intros k Hk Hne; unfold delta; replace (i =? k) with false by lia; ring).
    unfold delta. rewrite Z.eqb_refl. ring. }
  intros i j Hi Hj.
  destruct (surjective n Y (fun k => delta k j) Hn) as (v & Hv).
  { intros v Hv k Hk. rewrite <- (Hc v k Hk). unfold matvec at 1. apply sumZ_zero. intros l Hl. rewrite Hv by lia. ring. }
  assert (E : forall k, 0 <= k < n -> X k j = v k).
  { intros k Hk. rewrite <- (Hc v k Hk). unfold matvec at 1.
    rewrite (sumZ_single n j); [rewrite Hv by lia; unfold delta; rewrite Z.eqb_refl; ring|lia|].
    intros l Hl Hne. rewrite Hv by lia. unfold delta. replace (l =? j) with false by lia. ring. }
  rewrite <- (Hv i Hi). unfold matmul, matvec. apply sumZ_ext. intros k Hk. rewrite E by lia. reflexivity.
Qed.
