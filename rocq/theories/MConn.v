(** * Model of the pencils of the connection problems, src/banded_source.c 2299-2478

    The connection matrix between two families is the matrix of eigenvectors of a triangular
    banded pencil (A, B).  Integer subexpressions are in [Z]; ONE(FLT) is [one].  A sequence of
    set_triangular_banded_index calls on column j is [tset_col j].  copysign(x, y) is modelled by
    the sign of y as a number (a negative zero y is not distinguished). *)
From Coq Require Import ZArith List Bool.
From Verif Require Import Arith Base MBanded MClassical.
Import ListNotations.
Open Scope Z_scope.

Section Model.
Context {F : Type} {AF : Arith F}.
Local Infix "+!" := add (at level 50, left associativity).
Local Infix "-!" := sub (at level 50, left associativity).
Local Infix "*!" := mul (at level 40, left associativity).
Local Infix "/!" := div (at level 40, left associativity).
Local Notation "# z" := (ofZ z) (at level 8, z at level 0, format "# z").

Definition tset_col (j : Z) (col : list (Z * F)) (A : tbanded F) : option (tbanded F) :=
  fold_left (fun A iv => do A <- A; tb_set A (snd iv) (fst iv) j) col (Some A).
(** if (n > c) set column c; for (i = lo; i < n; i++) set column i: the columns are visited in order *)
Definition tset_cols (n : Z) (col : Z -> list (Z * F)) (A : tbanded F) : option (tbanded F) :=
  for_up 0 n (fun j A => tset_col j (col j) A) A.
Definition copysignA (x y : F) : F := if ltb y zero then opp (absA x) else absA x.
(** 149-158 malloc_triangular_banded; [data] is the fresh block, of arbitrary contents *)
Definition malloc_tbanded (data : list F) (n b : Z) : tbanded F := TBanded data n b.

(** 2315-2324 create_A_legendre_to_chebyshev *)
Definition leg2cheb_A_col (i : Z) : list (Z * F) :=
  if i =? 0 then [] else if i =? 1 then [(1, #2)]
  else [(i - 2, #(-i) *! (#i -! one)); (i, #i *! (#i +! one))].
Definition create_A_legendre_to_chebyshev (norm : bool) (n : Z) : option (tbanded F) := tset_cols n leg2cheb_A_col (calloc_tbanded n 2).
(** 2326-2337 create_B_legendre_to_chebyshev *)
Definition leg2cheb_B_col (norm : bool) (i : Z) : list (Z * F) :=
  if i =? 0 then [(0, if norm then sqrtA #2 else #2)] else if i =? 1 then [(1, #1)]
  else [(i - 2, #(-1)); (i, #1)].
Definition create_B_legendre_to_chebyshev (norm : bool) (n : Z) : option (tbanded F) := tset_cols n (leg2cheb_B_col norm) (calloc_tbanded n 2).
(** 2339-2358 create_A_chebyshev_to_legendre; TWO(FLT)/5 is #2 /! #5 *)
Definition cheb2leg_A_col (norm : bool) (i : Z) : list (Z * F) :=
  if i =? 0 then []
  else if norm then
    if i =? 1 then [(1, sqrtA (#2 /! #5))]
    else [(i - 2, #(-(i+1)) *! sqrtA (((#i -! one) *! #i) /! ((#(2*i) -! one) *! #(2*i+1))) *! #(i+1));
          (i, #i *! sqrtA (((#i +! one) *! #(i+2)) /! ((#(2*i) +! one) *! #(2*i+3))) *! #i)]
  else
    if i =? 1 then [(1, one /! #3)]
    else [(i - 2, #(-(i+1)) /! (#(2*i) +! one) *! #(i+1)); (i, #i /! (#(2*i) +! one) *! #i)].
Definition create_A_chebyshev_to_legendre (norm : bool) (n : Z) : option (tbanded F) := tset_cols n (cheb2leg_A_col norm) (calloc_tbanded n 2).
(** 2360-2383 create_B_chebyshev_to_legendre *)
Definition cheb2leg_B_col (norm : bool) (i : Z) : list (Z * F) :=
  if norm then
    if i =? 0 then [(0, sqrtA (#2 /! #3))] else if i =? 1 then [(1, sqrtA (#2 /! #5))]
    else [(i - 2, opp (sqrtA (((#i -! one) *! #i) /! ((#(2*i) -! one) *! #(2*i+1)))));
          (i, sqrtA (((#i +! one) *! #(i+2)) /! ((#(2*i) +! one) *! #(2*i+3))))]
  else
    if i =? 0 then [(0, #1)] else if i =? 1 then [(1, one /! #3)]
    else [(i - 2, #(-1) /! (#(2*i) +! one)); (i, #1 /! (#(2*i) +! one))].
Definition create_B_chebyshev_to_legendre (norm : bool) (n : Z) : option (tbanded F) := tset_cols n (cheb2leg_B_col norm) (calloc_tbanded n 2).
(** 2385-2404 create_A_ultraspherical_to_ultraspherical *)
Definition ultra_A_col (norm : bool) (lam mu : F) (i : Z) : list (Z * F) :=
  if i =? 0 then []
  else if norm then
    if i =? 1 then [(1, (#1 +! #2 *! lam) *! copysignA (sqrtA ((#2 *! mu +! #1) /! (#2 *! mu +! #4))) mu)]
    else [(i - 2, opp (#i +! #2 *! mu) *! (#i +! #2 *! (mu -! lam)) *! copysignA (sqrtA ((#i *! (#i -! one)) /! (#4 *! (#i +! mu) *! (#i +! mu -! #1)))) mu);
          (i, #i *! (#i +! #2 *! lam) *! copysignA (sqrtA (((#i +! #2 *! mu) *! (#i +! #2 *! mu +! #1)) /! (#4 *! (#i +! mu) *! (#i +! mu +! #1)))) mu)]
  else
    if i =? 1 then [(1, (#1 +! #2 *! lam) *! mu /! (#1 +! mu))]
    else [(i - 2, opp (#i +! #2 *! mu) *! (#i +! #2 *! (mu -! lam)) *! mu /! (#i +! mu)); (i, #i *! (#i +! #2 *! lam) *! mu /! (#i +! mu))].
Definition create_A_ultraspherical_to_ultraspherical (norm : bool) (n : Z) (lam mu : F) : option (tbanded F) :=
  tset_cols n (ultra_A_col norm lam mu) (calloc_tbanded n 2).
(** 2406-2429 create_B_ultraspherical_to_ultraspherical *)
Definition ultra_B_col (norm : bool) (mu : F) (i : Z) : list (Z * F) :=
  if norm then
    if i =? 0 then [(0, sqrtA ((#2 *! mu +! #1) /! (#2 *! mu +! #2)))]
    else if i =? 1 then [(1, copysignA (sqrtA ((#2 *! mu +! #1) /! (#2 *! mu +! #4))) mu)]
    else [(i - 2, opp (copysignA (sqrtA ((#i *! (#i -! one)) /! (#4 *! (#i +! mu) *! (#i +! mu -! #1)))) mu));
          (i, copysignA (sqrtA (((#i +! #2 *! mu) *! (#i +! #2 *! mu +! #1)) /! (#4 *! (#i +! mu) *! (#i +! mu +! #1)))) mu)]
  else
    if i =? 0 then [(0, #1)] else if i =? 1 then [(1, mu /! (#1 +! mu))]
    else [(i - 2, opp mu /! (#i +! mu)); (i, mu /! (#i +! mu))].
Definition create_B_ultraspherical_to_ultraspherical (norm : bool) (n : Z) (mu : F) : option (tbanded F) :=
  tset_cols n (ultra_B_col norm mu) (calloc_tbanded n 2).
(** 2431-2451 create_A_jacobi_to_jacobi; [d1] and [d2] are the blocks malloc gives to D1 and D2 *)
Definition create_A_jacobi_to_jacobi (d1 d2 : list F) (norm : bool) (n : Z) (al be ga de : F) : option (tbanded F) :=
  do D1 <- create_jacobi_derivative d1 norm n n 1 ga de;
  do D2 <- create_jacobi_derivative d2 norm n n 2 ga de;
  do L1 <- create_jacobi_lowering norm n n (ga +! #1) (de +! #1);
  do M1 <- create_jacobi_multiplication norm n n (ga +! #1) (de +! #1);
  do A <- gbmm #(-1) L1 D2 #0 (calloc_banded n n 0 2);
  do A <- banded_add_inplace #1 (al -! be) D1 A;
  do A <- gbmm (al +! be +! #2) M1 D1 #1 A;
  banded_to_tb A.
(** 2453-2456 create_B_jacobi_to_jacobi *)
Definition create_B_jacobi_to_jacobi (norm : bool) (n : Z) (ga de : F) : option (tbanded F) :=
  do B <- create_jacobi_raising norm n n ga de; banded_to_tb B.
(** 2458-2473 create_A_laguerre_to_laguerre *)
Definition laguerre_A_col (norm : bool) (al be : F) (i : Z) : list (Z * F) :=
  if norm then [(i - 1, (al -! be -! #i) *! sqrtA #i); (i, #i *! sqrtA (#i +! be +! #1))]
  else [(i - 1, al -! be -! #i); (i, #i)].
Definition create_A_laguerre_to_laguerre (data : list F) (norm : bool) (n : Z) (al be : F) : option (tbanded F) :=
  tset_cols n (laguerre_A_col norm al be) (malloc_tbanded data n 1).
(** 2475-2478 create_B_laguerre_to_laguerre *)
Definition create_B_laguerre_to_laguerre (norm : bool) (n : Z) (be : F) : option (tbanded F) :=
  do B <- create_laguerre_raising norm n n be; banded_to_tb B.
End Model.
