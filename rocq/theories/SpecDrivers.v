(** * Vocabulary for statements about the drivers *)
From Coq Require Import ZArith List Reals.
From Verif Require Import Base Arith MPermute MRotations SpecRot.
Open Scope Z_scope.

(** Squared Frobenius norm: sum of squares of all entries of the coefficient array. *)
Definition frobenius2 (A : list R) : R := sumsq (zlen A) A 0 1.

(** The column exchange a driver may be built with: the portable one, or the vector one
    for any vector length and unrolling. *)
Definition column_exchange {F} (swp : list F -> Z -> Z -> Z -> option (list F)) : Prop :=
  swp = swap_warp_default \/ (exists S L, 0 < S /\ 0 < L /\ swp = swap_warp_kernel (Z.to_nat S) S L).

(** [p] and [q], run on arrays [A], [B] (the second is scratch), both succeed and leave the
    same coefficients in [A]. *)
Definition same_coefficients {F} (p : list F -> list F -> option (list F * list F)) (q : list F -> option (list F)) (A B : list F) : Prop :=
  exists A' B', p A B = Some (A', B') /\ zlen B' = zlen B /\ q A = Some A'.
(** [p] succeeds on [A] and keeps the Frobenius norm. *)
Definition keeps_frobenius (p : list R -> option (list R)) (A : list R) : Prop :=
  exists A', p A = Some A' /\ zlen A' = zlen A /\ frobenius2 A' = frobenius2 A.
