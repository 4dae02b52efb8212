(** * Vocabulary for permutations and sorting *)
From Coq Require Import ZArith List.
From Verif Require Import Base.
Open Scope Z_scope.

(** the first [n] entries of [p] list each of 0 .. n-1 exactly once *)
Definition is_perm (n : Z) (p : list Z) : Prop :=
  0 <= n <= zlen p /\
  (forall i, 0 <= i < n -> 0 <= nthZ 0 p i < n) /\
  (forall i j, 0 <= i < n -> 0 <= j < n -> nthZ 0 p i = nthZ 0 p j -> i = j).

(** [sg] permutes the positions lo .. hi and fixes every other one; [tau] is its inverse *)
Definition permutes (lo hi : Z) (sg tau : Z -> Z) : Prop :=
  (forall k, sg (tau k) = k) /\ (forall k, tau (sg k) = k) /\
  (forall k, lo <= k <= hi -> lo <= sg k <= hi) /\ (forall k, k < lo \/ hi < k -> sg k = k).
(** [a'] is [a] with entry k replaced by the entry at position [sg k] *)
Definition rearranged {F} (sg : Z -> Z) (a a' : list F) : Prop :=
  zlen a' = zlen a /\ forall k, zget a' k = zget a (sg k).

(** strict weak order; [by_ x y]: x goes before y *)
Definition asymmetric {F} (by_ : F -> F -> bool) : Prop := forall x y, by_ x y = true -> by_ y x = false.
Definition strict_weak {F} (by_ : F -> F -> bool) : Prop :=
  asymmetric by_ /\ forall x y z, by_ x y = true -> by_ x z = true \/ by_ z y = true.
(** no later entry of lo .. hi goes before an earlier one *)
Definition sorted_by {F} (by_ : F -> F -> bool) (a : list F) (lo hi : Z) : Prop :=
  forall i j x y, lo <= i -> i < j -> j <= hi -> zget a i = Some x -> zget a j = Some y -> by_ y x = false.

(** ** sequences of reals *)
From Coq Require Import Reals.
Definition nondecreasing (x : list R) (lo hi : Z) : Prop :=
  forall i j, lo <= i -> i < j -> j <= hi -> (nthZ 0%R x i <= nthZ 0%R x j)%R.
Definition increasing (x : list R) (lo hi : Z) : Prop :=
  forall i j, lo <= i -> i < j -> j <= hi -> (nthZ 0%R x i < nthZ 0%R x j)%R.
