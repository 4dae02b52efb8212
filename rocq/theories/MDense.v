(** * Model of the dense planners of src/transforms.c 48-211 and of ft_plan_sph2fourier

    A dense planner builds a pencil and the diagonal of a connection matrix, fills in the rest of the
    n by n matrix column by column and returns it.  [cv] is the conversion from long double to double
    (the loop V[i] = Vl[i]).  [d1], [d2], [data] and [junk] are the contents of fresh blocks, as in
    MTransforms.v; the block of calloc holds zeros.  [pi] is M_PIl. *)
From Coq Require Import ZArith List Bool.
From Verif Require Import Arith Base MBanded MEig MClassical MConn MTransforms MRotations.
Import ListNotations.
Open Scope Z_scope.

Section Dense.
Context {F : Type} {AF : Arith F}.
Local Infix "+!" := add (at level 50, left associativity).
Local Infix "-!" := sub (at level 50, left associativity).
Local Infix "*!" := mul (at level 40, left associativity).
Local Infix "/!" := div (at level 40, left associativity).
Local Notation "# z" := (ofZ z) (at level 8, z at level 0, format "# z").
Variables (eps : F) (cv : F -> F) (tgamma pow2 : F -> F) (pi : F) (d1 d2 data junk : list F).

(** the common part, e.g. 53-62: [diag] writes the diagonal with stride n+1 *)
Definition dense_of (n : Z) (A B : tbanded F) (diag : Z -> list F -> option (list F)) : option (list F) :=
  do D <- diag (n + 1) (zmake (n * n) zero);
  do V <- triangular_banded_eigenvectors eps A B D;
  Some (map cv V).
(** 50-63 *)
Definition dense_legendre_to_chebyshev (normleg normcheb : bool) (n : Z) : option (list F) :=
  do A <- create_A_legendre_to_chebyshev normcheb n;
  do B <- create_B_legendre_to_chebyshev normcheb n;
  dense_of n A B (leg2cheb_diag tgamma normleg normcheb n).
(** 65-78 *)
Definition dense_chebyshev_to_legendre (normcheb normleg : bool) (n : Z) : option (list F) :=
  do A <- create_A_chebyshev_to_legendre normleg n;
  do B <- create_B_chebyshev_to_legendre normleg n;
  dense_of n A B (cheb2leg_diag tgamma normcheb normleg n).
(** 80-93 *)
Definition dense_ultraspherical_to_ultraspherical (norm1 norm2 : bool) (n : Z) (lambda mu : F) : option (list F) :=
  do A <- create_A_ultraspherical_to_ultraspherical norm2 n lambda mu;
  do B <- create_B_ultraspherical_to_ultraspherical norm2 n mu;
  dense_of n A B (ultra_diag tgamma norm1 norm2 n lambda mu).
(** 95-108 *)
Definition dense_jacobi_to_jacobi (norm1 norm2 : bool) (n : Z) (alpha beta gamma delta : F) : option (list F) :=
  do A <- create_A_jacobi_to_jacobi d1 d2 norm2 n alpha beta gamma delta;
  do B <- create_B_jacobi_to_jacobi norm2 n gamma delta;
  dense_of n A B (jacobi_diag tgamma pow2 norm1 norm2 n alpha beta gamma delta).
(** 110-123 *)
Definition dense_laguerre_to_laguerre (norm1 norm2 : bool) (n : Z) (alpha beta : F) : option (list F) :=
  do A <- create_A_laguerre_to_laguerre data norm2 n alpha beta;
  do B <- create_B_laguerre_to_laguerre norm2 n beta;
  dense_of n A B (laguerre_diag tgamma norm1 norm2 n alpha beta).

(** 133-135 and 149-151: V[i+j*n] *= scl[sel i j] on and above the diagonal *)
Definition scale_dense (n : Z) (sel : Z -> Z -> Z) (scl V : list F) : option (list F) :=
  for_up 0 n (fun j V => for_up 0 (j + 1) (fun i V =>
    do v <- zget V (i + j * n); do s <- zget scl (sel i j); zset V (i + j * n) (v *! s)) V) V.
(** 191-193 and 206-208: the same on every second entry of a column, upwards from the diagonal *)
Definition scale_dense_parity (n : Z) (sel : Z -> Z -> Z) (scl V : list F) : option (list F) :=
  for_up 0 n (fun j V => for_dnst j 0 2 (fun i V =>
    do v <- zget V (i + j * n); do s <- zget scl (sel i j); zset V (i + j * n) (v *! s)) V) V.
Definition by_row (i j : Z) : Z := i.
Definition by_column (i j : Z) : Z := j.
(** 161-162, 176-177: scl[i] = i ? a : b *)
Definition two_values (n : Z) (a b : F) : option (list F) :=
  for_up 0 n (fun i x => zset x i (if i =? 0 then b else a)) junk.
(** 125-139 *)
Definition dense_jacobi_to_ultraspherical (normjac normultra : bool) (n : Z) (alpha beta lambda : F) : option (list F) :=
  do V <- dense_jacobi_to_jacobi normjac normultra n alpha beta (lambda -! half) (lambda -! half);
  if normultra then Some V else
    do sclrow <- scl_array junk n #1 (fun i p => (lambda +! #i -! half) /! (#2 *! lambda +! #i -! #1) *! p);
    scale_dense n by_row sclrow V.
(** 141-155 *)
Definition dense_ultraspherical_to_jacobi (normultra normjac : bool) (n : Z) (lambda alpha beta : F) : option (list F) :=
  do V <- dense_jacobi_to_jacobi normultra normjac n (lambda -! half) (lambda -! half) alpha beta;
  if normultra then Some V else
    do sclcol <- scl_array junk n #1 (fun i p => (#2 *! lambda +! #i -! #1) /! (lambda +! #i -! half) *! p);
    scale_dense n by_column sclcol V.
(** 157-169 *)
Definition dense_jacobi_to_chebyshev (normjac normcheb : bool) (n : Z) (alpha beta : F) : option (list F) :=
  do V <- dense_jacobi_to_jacobi normjac true n alpha beta (opp half) (opp half);
  if normcheb then Some V else
    do sclrow <- two_values n (sqrtA (#2 /! pi)) (sqrtA (#1 /! pi));
    scale_dense n by_row sclrow V.
(** 171-183 *)
Definition dense_chebyshev_to_jacobi (normcheb normjac : bool) (n : Z) (alpha beta : F) : option (list F) :=
  do V <- dense_jacobi_to_jacobi true normjac n (opp half) (opp half) alpha beta;
  if normcheb then Some V else
    do sclcol <- two_values n (sqrtA (pi /! #2)) (sqrtA pi);
    scale_dense n by_column sclcol V.
(** 185-197 *)
Definition dense_ultraspherical_to_chebyshev (normultra normcheb : bool) (n : Z) (lambda : F) : option (list F) :=
  do V <- dense_ultraspherical_to_jacobi normultra true n lambda (opp half) (opp half);
  if normcheb then Some V else
    do sclrow <- two_values n (sqrtA (#2 /! pi)) (sqrtA (#1 /! pi));
    scale_dense_parity n by_row sclrow V.
(** 199-211 *)
Definition dense_chebyshev_to_ultraspherical (normcheb normultra : bool) (n : Z) (lambda : F) : option (list F) :=
  do V <- dense_jacobi_to_ultraspherical true normultra n (opp half) (opp half) lambda;
  if normcheb then Some V else
    do sclcol <- two_values n (sqrtA (pi /! #2)) (sqrtA pi);
    scale_dense_parity n by_column sclcol V.

(** drivers.c 816-831 ft_plan_sph2fourier: the rotation plan, P[0], P[1], Pinv[0], Pinv[1] (the work array B
    has no contents yet); [jk] is the content of the fresh blocks of the rotation plan *)
Definition plan_sph2fourier_tables (jk : F) (n : Z) : option (rotplan F * (list F * list F) * (list F * list F)) :=
  do RP <- plan_rotsphere jk n;
  do P0 <- dense_legendre_to_chebyshev true false n;
  do P1 <- dense_ultraspherical_to_ultraspherical true false n (#3 /! #2) #1;
  do Q0 <- dense_chebyshev_to_legendre false true n;
  do Q1 <- dense_ultraspherical_to_ultraspherical false true n #1 (#3 /! #2);
  Some (RP, (P0, P1), (Q0, Q1)).
End Dense.
