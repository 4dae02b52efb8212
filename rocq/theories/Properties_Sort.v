(** * Property theorems: permuting, sorting, searching (C25-C27)

    Source: src/dprk_source.c, src/hierarchical_source.c.  Vocabulary: SpecSort.v. *)
From Coq Require Import ZArith List Reals Lra Lia Bool.
From Verif Require Import Arith Base BaseFacts MSort SpecSort PPerm PSort PSearch PSortThms.
Import ListNotations.
Open Scope Z_scope.

(** ** C25 *)
(** perm('N'): x_new[i] = x[p[i]]; perm('T'): x_new[p[i]] = x[i]; p is left as it was; entries
    from n on are untouched.  For every element type, so bit-exact. *)
Theorem C25_perm : forall F (trans : bool) (x : list F) p n, is_perm n p -> n <= zlen x ->
  exists x', perm trans x p n = Some (x', p) /\ zlen x' = zlen x /\
    (forall i, 0 <= i < n -> if trans then zget x' (nthZ 0 p i) = zget x i else zget x' i = zget x (nthZ 0 p i)) /\
    (forall k, k < 0 \/ n <= k -> zget x' k = zget x k).
Proof. exact (fun F => @perm_proof F). Qed.
Print Assumptions C25_perm.
(** each direction undoes the other *)
Theorem C25_perm_inverse : forall F (trans : bool) (x : list F) p n, is_perm n p -> n <= zlen x ->
  (do xp <- perm trans x p n; let '(x', p') := xp in perm (negb trans) x' p' n) = Some (x, p).
Proof. exact (fun F => @perm_inverse_proof F). Qed.
Print Assumptions C25_perm_inverse.
Example C25_computed :
  perm false [10; 11; 12; 13; 14] [2; 0; 1; 4; 3] 5 = Some ([12; 10; 11; 14; 13], [2; 0; 1; 4; 3]) /\
  perm true [12; 10; 11; 14; 13] [2; 0; 1; 4; 3] 5 = Some ([10; 11; 12; 13; 14], [2; 0; 1; 4; 3]).
Proof. vm_compute. repeat split. Qed.
Example C25_nonvacuous : is_perm 3 [2; 0; 1].
Proof. exact is_perm_example_proof. Qed.

(** ** C26 *)
(** with any asymmetric comparison (IEEE [<] is one even when NaNs are present): the sort
    terminates, stays inside lo .. hi, and moves the keys, every companion array and the index
    array by one and the same permutation of lo .. hi *)
Theorem C26_safe_consistent : forall F (by_ : F -> F -> bool) fuel a bs p lo hi,
  asymmetric by_ -> 0 <= lo -> hi < zlen a -> Forall (fun b => hi < zlen b) bs -> hi < zlen p ->
  Z.max 0 (hi - lo + 1) < Z.of_nat fuel ->
  exists a' bs' p' sg tau, quicksort by_ fuel (SortSt a bs p) lo hi = Some (SortSt a' bs' p') /\
    permutes lo hi sg tau /\ rearranged sg a a' /\ Forall2 (rearranged sg) bs bs' /\ rearranged sg p p'.
Proof. exact quicksort_safe_proof. Qed.
Print Assumptions C26_safe_consistent.
(** with a strict weak order the keys end up in that order *)
Theorem C26_sorts : forall F (by_ : F -> F -> bool) fuel a bs p lo hi,
  strict_weak by_ -> 0 <= lo -> hi < zlen a -> Forall (fun b => hi < zlen b) bs -> hi < zlen p ->
  Z.max 0 (hi - lo + 1) < Z.of_nat fuel ->
  exists a' bs' p', quicksort by_ fuel (SortSt a bs p) lo hi = Some (SortSt a' bs' p') /\ sorted_by by_ a' lo hi.
Proof. exact quicksort_sorts_proof. Qed.
Print Assumptions C26_sorts.
(** starting from the identity, the reported index array p' is a permutation, gathering the
    original keys through it gives the sorted ones, and perm('T') restores keys and companions *)
Theorem C26_reported_permutation : forall F (by_ : F -> F -> bool) fuel a bs n,
  asymmetric by_ -> 0 <= n <= zlen a -> Forall (fun b => n <= zlen b) bs -> n < Z.of_nat fuel ->
  exists a' bs' p', quicksort by_ fuel (SortSt a bs (ztab n (fun k => k))) 0 (n - 1) = Some (SortSt a' bs' p') /\
    is_perm n p' /\ perm false a p' n = Some (a', p') /\ perm true a' p' n = Some (a, p') /\
    Forall2 (fun b b' => perm true b' p' n = Some (b, p')) bs bs'.
Proof. exact quicksort_perm_proof. Qed.
Print Assumptions C26_reported_permutation.
(** the comparisons the library sorts with, lt and ltabs, are strict weak orders on the reals *)
Theorem C26_library_orders : strict_weak R_ltb /\ strict_weak (fun x y => R_ltb (Rabs x) (Rabs y)).
Proof. exact lt_strict_weak_proof. Qed.
Print Assumptions C26_library_orders.
(** finding: the exported comparisons le/ge/leabs/geabs must not be passed to the sort; on equal
    keys the partition scan leaves the array *)
Theorem C26_le_refuted : exists by_ : Z -> Z -> bool, exists a p, zlen a = 4 /\ zlen p = 4 /\ (forall x y, by_ x y = (x <=? y)) /\
  forall fuel, quicksort by_ (S fuel) (SortSt a [] p) 0 3 = None.
Proof. exact le_out_of_bounds_proof. Qed.
Print Assumptions C26_le_refuted.
Example C26_computed :
  quicksort Z.ltb 8 (SortSt [3; 1; 2; 3; 0; 9; 1] [[30; 10; 20; 31; 0; 90; 11]] [0; 1; 2; 3; 4; 5; 6]) 0 6
  = Some (SortSt [0; 1; 1; 2; 3; 3; 9] [[0; 11; 10; 20; 30; 31; 90]] [4; 6; 1; 2; 0; 3; 5]).
Proof. vm_compute. reflexivity. Qed.

(** ** C27 *)
(** the bisection splits a sorted range at the midpoint of its end values: the two pieces
    partition it, each node is on its side, no node outside start .. stop-1 is read; the first
    piece is proper, and both are nonempty when the end values differ *)
Theorem C27_indsplit : forall x start stop, 0 <= start -> start < stop -> stop <= zlen x -> nondecreasing x start (stop - 1) ->
  let c := ((nthZ 0 x start + nthZ 0 x (stop - 1)) / 2)%R in
  exists m, indsplit x start stop (nthZ 0%R x start) (nthZ 0%R x (stop - 1)) = Some ((start, m), (m, stop)) /\
    start <= m < stop /\
    (forall k, start <= k < m -> (nthZ 0 x k <= c)%R) /\ (forall k, m <= k < stop -> (c <= nthZ 0 x k)%R) /\
    (increasing x start (stop - 1) -> forall k, start <= k < m -> (nthZ 0 x k < c)%R) /\
    ((nthZ 0 x start < nthZ 0 x (stop - 1))%R -> start < m).
Proof. exact indsplit_proof. Qed.
Print Assumptions C27_indsplit.
(** any target, when x[stop] is readable too *)
Theorem C27_binarysearch : forall x y start stop, 0 <= start -> start <= stop -> stop < zlen x -> nondecreasing x start stop ->
  exists j, binarysearch x start stop y = Some j /\ start <= j <= stop + 1 /\
    (forall k, start <= k < j -> (nthZ 0%R x k <= y)%R) /\ (forall k, j <= k <= stop -> (y <= nthZ 0%R x k)%R).
Proof. exact binarysearch_incl. Qed.
Print Assumptions C27_binarysearch.
(** finding: the documented strict bound "x[i] < (a+b)/2 for i in i1" fails for repeated nodes *)
Theorem C27_strict_bound_refuted : exists x start stop i1 i2 k, nondecreasing x start (stop - 1) /\ 0 <= start < stop /\ stop <= zlen x /\
  indsplit x start stop (nthZ 0%R x start) (nthZ 0%R x (stop - 1)) = Some (i1, i2) /\ fst i1 <= k < snd i1 /\
  ~ (nthZ 0 x k < (nthZ 0 x start + nthZ 0 x (stop - 1)) / 2)%R.
Proof. exact indsplit_duplicates_proof. Qed.
Print Assumptions C27_strict_bound_refuted.
Example C27_nonvacuous : increasing [0; 1; 5]%R 0 2 /\ nondecreasing [0; 1; 5]%R 0 2.
Proof. exact increasing_example_proof. Qed.
Example C27_computed :
  @indsplit Z Z_arith [0; 1; 2; 5; 8; 10] 0 6 0 10 = Some ((0, 3), (3, 6)) /\
  @indsplit Z Z_arith [0; 6; 7; 8; 9; 10] 0 6 0 10 = Some ((0, 1), (1, 6)) /\
  @indsplit Z Z_arith [7] 0 1 7 7 = Some ((0, 0), (0, 1)).
Proof. vm_compute. repeat split. Qed.
