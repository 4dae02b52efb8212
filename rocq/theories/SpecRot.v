(** * Vocabulary for statements about rotation kernels *)
From Coq Require Import ZArith List Reals.
From Verif Require Import Base Arith MRotations.
Open Scope Z_scope.

(** A column of [n] entries with stride [S] starting at [oA], and the [w] adjacent
    columns starting at [oA, .., oA+w-1], lie inside the array [A]. *)
Definition columns_fit {F} (A : list F) (oA S n w : Z) : Prop :=
  forall r i, 0 <= r < n -> 0 <= i < w -> 0 <= oA + r * S + i < zlen A.

(** Sum of squares of the entries of a column. *)
Fixpoint sumsq_n (k : nat) (A : list R) (oA S : Z) : R :=
  match k with
  | O => 0%R
  | Datatypes.S k' => (sumsq_n k' A oA S + nthZ 0%R A (oA + Z.of_nat k' * S) * nthZ 0%R A (oA + Z.of_nat k' * S))%R
  end.
Definition sumsq (n : Z) (A : list R) (oA S : Z) : R := sumsq_n (Z.to_nat n) A oA S.

(** Positions that are not on the column (or the [w] columns) are unchanged, and the
    array keeps its length. *)
Definition only_columns_changed {F} (A A' : list F) (oA S n w : Z) : Prop :=
  zlen A' = zlen A /\
  forall p, (forall r i, 0 <= r < n -> 0 <= i < w -> p <> oA + r * S + i) -> zget A' p = zget A p.

(** The plan has tables of the size allocated by the planners. *)
Definition tri_tables {F} (RP : rotplan F) : Prop :=
  0 <= rp_n RP /\ zlen (rp_s RP) = rp_n RP * (rp_n RP + 1) / 2 /\ zlen (rp_c RP) = rp_n RP * (rp_n RP + 1) / 2.
Definition sq_tables {F} (RP : rotplan F) : Prop :=
  0 <= rp_n RP /\ zlen (rp_s RP) = rp_n RP * rp_n RP /\ zlen (rp_c RP) = rp_n RP * rp_n RP.

(** The stored pair for [(l,m)] is a genuine rotation: [s^2 + c^2 = 1]. *)
Definition unit_pair (s c : list R) (i : Z) : Prop :=
  exists x y, zget s i = Some x /\ zget c i = Some y /\ (x * x + y * y = 1)%R.
(** All pairs used by the kernels are rotations. *)
Definition unit_tri (RP : rotplan R) : Prop :=
  forall l m, 0 <= m -> 0 <= l -> l + m < rp_n RP -> unit_pair (rp_s RP) (rp_c RP) (sidx (rp_n RP) l m).
Definition unit_sq (RP : rotplan R) : Prop :=
  forall l m, 0 <= m -> 0 <= l < rp_n RP - (m + 1) / 2 -> unit_pair (rp_s RP) (rp_c RP) (sdidx (rp_n RP) l m).
(** Tables of a spin-weighted plan. *)
Definition spin_tables {F} (P : spinplan F) : Prop :=
  0 <= sp_n P /\ (zlen (sp_s1 P) = sp_n P * sp_n P /\ zlen (sp_c1 P) = sp_n P * sp_n P) /\
  (zlen (sp_s2 P) = Z.abs (sp_s P) * sp_n P * sp_n P /\ zlen (sp_c2 P) = Z.abs (sp_s P) * sp_n P * sp_n P).
Definition unit_spin (P : spinplan R) : Prop :=
  (forall l m, 0 <= m -> 0 <= l -> l + m < sp_n P -> unit_pair (sp_s1 P) (sp_c1 P) (s1idx (sp_n P) l m)) /\
  (forall l j m, 0 <= m -> 0 <= j < Z.abs (sp_s P) -> 0 <= l -> l + j + m < sp_n P ->
     unit_pair (sp_s2 P) (sp_c2 P) (s2idx (sp_n P) (Z.abs (sp_s P)) l j m)).
(** [p] then [q] is the identity on [A], and so is [q] then [p]. *)
Definition mutually_inverse_on {F} (p q : list F -> option (list F)) (A : list F) : Prop :=
  (exists B, p A = Some B /\ q B = Some A) /\ (exists B, q A = Some B /\ p B = Some A).
(** [p] succeeds on [A], changes only the [w] columns, and keeps the sum of squares of each. *)
Definition isometry_on_columns (p : list R -> option (list R)) (A : list R) (oA S n w : Z) : Prop :=
  exists B, p A = Some B /\ only_columns_changed A B oA S n w /\
    forall i, 0 <= i < w -> sumsq n B (oA + i) S = sumsq n A (oA + i) S.
(** [p] and [q] both succeed on [A] and give the same array. *)
Definition same_result {F} (p q : list F -> option (list F)) (A : list F) : Prop :=
  exists B, p A = Some B /\ q A = Some B.
