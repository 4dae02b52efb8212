(** * The matrices represented by tridiagonal and bidiagonal storage *)
From Coq Require Import ZArith List Reals Bool.
From Verif Require Import Base SpecSum SpecLin MTridiag.
Open Scope Z_scope.

(** symmetric: diagonal a, first off-diagonals b *)
Definition st_mat (A : symtri R) (i j : Z) : R :=
  if i =? j then nthZ 0%R (st_a A) i
  else if j =? i + 1 then nthZ 0%R (st_b A) i
  else if i =? j + 1 then nthZ 0%R (st_b A) j else 0%R.
Definition st_ok {F} (A : symtri F) : Prop := 1 <= st_n A /\ st_n A <= zlen (st_a A) /\ st_n A - 1 <= zlen (st_b A).
(** skew-symmetric: superdiagonal b, subdiagonal -b *)
Definition kt_mat (A : skewtri R) (i j : Z) : R :=
  if j =? i + 1 then nthZ 0%R (kt_b A) i
  else if i =? j + 1 then (- nthZ 0%R (kt_b A) j)%R else 0%R.
Definition kt_ok {F} (A : skewtri F) : Prop := 1 <= kt_n A /\ kt_n A - 1 <= zlen (kt_b A).
(** upper bidiagonal: diagonal c, superdiagonal d *)
Definition bi_mat (B : bidiag R) (i j : Z) : R :=
  if i =? j then nthZ 0%R (bi_c B) i
  else if j =? i + 1 then nthZ 0%R (bi_d B) i else 0%R.
Definition bi_ok {F} (B : bidiag F) : Prop := 1 <= bi_n B /\ bi_n B <= zlen (bi_c B) /\ bi_n B - 1 <= zlen (bi_d B).
