(** * Closing lemmas for Properties_Sort.v *)
From Coq Require Import ZArith List Lia Bool ZifyBool ZifyNat Reals Lra.
From Verif Require Import Arith Base BaseFacts MSort SpecSort PPerm PSort PSearch.
Import ListNotations.
Open Scope Z_scope.

Lemma quicksort_proof F (by_ : F -> F -> bool) fuel a bs p lo hi :
  asymmetric by_ -> 0 <= lo -> hi < zlen a -> Forall (fun b => hi < zlen b) bs -> hi < zlen p -> Z.max 0 (hi - lo + 1) < Z.of_nat fuel ->
  exists a' bs' p' sg tau, quicksort by_ fuel (SortSt a bs p) lo hi = Some (SortSt a' bs' p') /\ permutes lo hi sg tau /\
    rearranged sg a a' /\ Forall2 (rearranged sg) bs bs' /\ rearranged sg p p' /\ (strict_weak by_ -> sorted_by by_ a' lo hi).
Proof.
  intros Ha H0 H1 H2 H3 Hf. destruct (quicksort_val by_ Ha fuel (SortSt a bs p) lo hi) as ([a' bs' p'] & E & (sg & tau & P & (A & B & C)) & S); try lia; [split; [|split]; auto|].
  exists a', bs', p', sg, tau. auto 10.
Qed.
Lemma quicksort_safe_proof F (by_ : F -> F -> bool) fuel a bs p lo hi :
  asymmetric by_ -> 0 <= lo -> hi < zlen a -> Forall (fun b => hi < zlen b) bs -> hi < zlen p -> Z.max 0 (hi - lo + 1) < Z.of_nat fuel ->
  exists a' bs' p' sg tau, quicksort by_ fuel (SortSt a bs p) lo hi = Some (SortSt a' bs' p') /\ permutes lo hi sg tau /\
    rearranged sg a a' /\ Forall2 (rearranged sg) bs bs' /\ rearranged sg p p'.
Proof.
  intros H1 H2 H3 H4 H5 H6. destruct (quicksort_proof F by_ fuel a bs p lo hi H1 H2 H3 H4 H5 H6) as (a' & bs' & p' & sg & tau & E & A & B & C & D & _).
  exists a', bs', p', sg, tau. auto.
Qed.
Lemma quicksort_sorts_proof F (by_ : F -> F -> bool) fuel a bs p lo hi :
  strict_weak by_ -> 0 <= lo -> hi < zlen a -> Forall (fun b => hi < zlen b) bs -> hi < zlen p -> Z.max 0 (hi - lo + 1) < Z.of_nat fuel ->
  exists a' bs' p', quicksort by_ fuel (SortSt a bs p) lo hi = Some (SortSt a' bs' p') /\ sorted_by by_ a' lo hi.
Proof.
  intros H1 H2 H3 H4 H5 H6. destruct (quicksort_proof F by_ fuel a bs p lo hi (proj1 H1) H2 H3 H4 H5 H6) as (a' & bs' & p' & sg & tau & E & _ & _ & _ & _ & S).
  exists a', bs', p'. auto.
Qed.
Lemma quicksort_perm_proof F (by_ : F -> F -> bool) fuel a bs n :
  asymmetric by_ -> 0 <= n <= zlen a -> Forall (fun b => n <= zlen b) bs -> n < Z.of_nat fuel ->
  exists a' bs' p', quicksort by_ fuel (SortSt a bs (ztab n (fun k => k))) 0 (n - 1) = Some (SortSt a' bs' p') /\
    is_perm n p' /\ perm false a p' n = Some (a', p') /\ perm true a' p' n = Some (a, p') /\
    Forall2 (fun b b' => perm true b' p' n = Some (b, p')) bs bs'.
Proof.
  intros Ha Hn Hb Hf.
  destruct (quicksort_proof F by_ fuel a bs (ztab n (fun k => k)) 0 (n - 1)) as (a' & bs' & p' & sg & tau & E & P & RA & RB & RP & _); auto; try lia.
  { eapply Forall_impl; [|exact Hb]. cbv beta; intros; lia. } { rewrite zlen_ztab; lia. }
  destruct P as (P1 & P2 & P3 & P4). destruct RP as (LP & VP). rewrite zlen_ztab in LP by lia.
  assert (Vp : forall k, 0 <= k < n -> nthZ 0 p' k = sg k).
  { intros k Hk. apply nthZ_zget. rewrite VP. rewrite zget_ztab. 2:{ specialize (P3 k). lia. } auto. }
  assert (IP : is_perm n p').
  { split; [lia|]. split.
    - intros i Hi. rewrite Vp by auto. specialize (P3 i). lia.
    - intros i j Hi Hj Eq. rewrite !Vp in Eq by auto. rewrite <- (P2 i), <- (P2 j). now rewrite Eq. }
  assert (U : forall b b' : list F, n <= zlen b -> rearranged sg b b' -> perm true b' p' n = Some (b, p')).
  { intros b b' Lb (LR & VR). destruct (perm_proof true b' p' n IP) as (x & Ex & Lx & Vx & Ox); [lia|]. rewrite Ex. f_equal. f_equal.
    apply zget_ext. intros k. assert (C : 0 <= k < n \/ k < 0 \/ n <= k) by lia. destruct C as [C|C].
    - assert (T : 0 <= tau k < n). { destruct (Z_lt_dec (tau k) 0) as [N|N]; [specialize (P4 (tau k)); rewrite P1 in P4; lia|]. destruct (Z_lt_dec (tau k) n); [lia|]. specialize (P4 (tau k)). rewrite P1 in P4. lia. }
      specialize (Vx (tau k) T). cbv beta iota in Vx. rewrite Vp, P1 in Vx by auto. rewrite Vx, VR, P1. auto.
    - destruct (Z_lt_dec k 0); [|rewrite Ox by lia; rewrite VR, P4 by lia; auto].
      rewrite !zget_none by lia. auto. }
  exists a', bs', p'. split; auto. split; auto. split; [|split].
  - destruct (perm_proof false a p' n IP) as (x & Ex & Lx & Vx & Ox); [lia|]. rewrite Ex. f_equal. f_equal. destruct RA as (LA & VA).
    apply zget_ext. intros k. rewrite VA. assert (C : 0 <= k < n \/ k < 0 \/ n <= k) by lia. destruct C as [C|C].
    + specialize (Vx k C). cbv beta iota in Vx. now rewrite Vx, Vp by auto.
    + rewrite P4 by lia. destruct (Z_lt_dec k 0); [rewrite !zget_none by lia; auto|apply Ox; lia].
  - apply U; auto. lia.
  - clear E. induction RB; constructor; inversion Hb; subst; auto.
Qed.

Lemma lt_strict_weak_proof : strict_weak R_ltb /\ strict_weak (fun x y => R_ltb (Rabs x) (Rabs y)).
Proof.
  assert (K : strict_weak R_ltb).
  { split.
    - intros x y H. apply R_ltb_true in H. unfold R_ltb. destruct (Rlt_dec y x); auto; lra.
    - intros x y z H. apply R_ltb_true in H. unfold R_ltb. destruct (Rlt_dec x z), (Rlt_dec z y); auto; lra. }
  split; [exact K|]. destruct K as (K1 & K2). split.
  - intros x y. apply K1.
  - intros x y z. apply K2.
Qed.

Lemma le_out_of_bounds_proof : exists by_ : Z -> Z -> bool, exists a p, zlen a = 4 /\ zlen p = 4 /\ (forall x y, by_ x y = (x <=? y)) /\
  forall fuel, quicksort by_ (S fuel) (SortSt a [] p) 0 3 = None.
Proof.
  exists Z.leb, [1; 1; 1; 1], [0; 1; 2; 3]. do 3 (split; [auto|]). intros fuel. cbn [quicksort].
  replace (partition_ Z.leb (SortSt [1; 1; 1; 1] [] [0; 1; 2; 3]) 0 3) with (@None (sortst Z * Z)) by (vm_compute; reflexivity). reflexivity.
Qed.

Lemma indsplit_duplicates_proof : exists x start stop i1 i2 k, nondecreasing x start (stop - 1) /\ 0 <= start < stop /\ stop <= zlen x /\
  indsplit x start stop (nthZ 0%R x start) (nthZ 0%R x (stop - 1)) = Some (i1, i2) /\ fst i1 <= k < snd i1 /\
  ~ (nthZ 0 x k < (nthZ 0 x start + nthZ 0 x (stop - 1)) / 2)%R.
Proof.
  exists [0; 1; 1; 1; 2]%R, 0, 5, (0, 2), (2, 5), 1.
  split.
  { intros i j Hi Hij Hj. assert (Ci : i = 0 \/ i = 1 \/ i = 2 \/ i = 3) by lia. assert (Cj : j = 1 \/ j = 2 \/ j = 3 \/ j = 4) by lia.
    destruct Ci as [->|[->|[->| ->]]]; destruct Cj as [->|[->|[->| ->]]]; try lia; cbv [nthZ zget Z.ltb Z.compare Z.to_nat Pos.to_nat Pos.iter_op Nat.add nth_error Pos.compare Pos.compare_cont]; lra. }
  split; [lia|]. split; [unfold zlen; cbn; lia|]. split; [|split; [cbn; lia|]].
  2:{ replace (nthZ 0%R [0; 1; 1; 1; 2]%R 1) with 1%R by reflexivity. replace (nthZ 0%R [0; 1; 1; 1; 2]%R 0) with 0%R by reflexivity. replace (nthZ 0%R [0; 1; 1; 1; 2]%R (5 - 1)) with 2%R by reflexivity. lra. }
  unfold indsplit, binarysearch. change (Z.to_nat (5 - 0) + 2)%nat with 7%nat. cbn [bs_loop]. change (0 <=? 5) with true. cbv iota. change ((0 + 5) / 2) with 2.
  change (zget [0; 1; 1; 1; 2]%R 2) with (Some 1%R). cbn [obind].
  replace (nthZ 0%R [0; 1; 1; 1; 2]%R 0) with 0%R by reflexivity. replace (nthZ 0%R [0; 1; 1; 1; 2]%R (5 - 1)) with 2%R by reflexivity.
  change (div (add 0%R 2%R) (add one one)) with ((0 + 2) / (1 + 1))%R. replace ((0 + 2) / (1 + 1))%R with 1%R by lra.
  assert (Q : ltb 1%R 1%R = false). { change (R_ltb 1 1 = false). unfold R_ltb. destruct (Rlt_dec 1 1); auto; lra. }
  rewrite Q. cbn [obind]. change (zget [0; 1; 1; 1; 2]%R 2) with (Some 1%R). cbn [obind]. rewrite Q. reflexivity.
Qed.
Lemma increasing_example_proof : increasing [0; 1; 5]%R 0 2 /\ nondecreasing [0; 1; 5]%R 0 2.
Proof.
  split; intros i j Hi Hij Hj; assert (Ci : i = 0 \/ i = 1) by lia; assert (Cj : j = 1 \/ j = 2) by lia; destruct Ci as [->| ->]; destruct Cj as [->| ->]; try lia; cbv [nthZ zget Z.ltb Z.compare Z.to_nat Pos.to_nat Pos.iter_op Nat.add nth_error Pos.compare Pos.compare_cont]; lra.
Qed.
Lemma is_perm_example_proof : is_perm 3 [2; 0; 1].
Proof.
  split; [unfold zlen; cbn; lia|]. split.
  - intros i Hi. assert (C : i = 0 \/ i = 1 \/ i = 2) by lia. destruct C as [->|[->| ->]]; vm_compute; split; congruence.
  - intros i j Hi Hj. assert (C : i = 0 \/ i = 1 \/ i = 2) by lia. assert (D : j = 0 \/ j = 1 \/ j = 2) by lia.
    destruct C as [->|[->| ->]]; destruct D as [->|[->| ->]]; vm_compute; congruence.
Qed.
