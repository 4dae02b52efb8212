(** * Model of the planners of the connection transforms, src/transforms_source.c 1-165

    Every planner builds a pencil and a diagonal, plans the eigenvector transform and drops its
    precision.  FLT2 and FLT are both the type F and [cv] converts from FLT2 to FLT; conversions from
    FLT to FLT2, which are exact, are not visible.  [d1], [d2], [data] and [junk] are the contents of
    fresh blocks: the derivative operators of create_A_jacobi_to_jacobi, the block of
    malloc_triangular_banded, and the arrays D, sclrow and sclcol.  A planner returns the plan
    without its fields lambda, which are not used after planning.  The fuel given to tb_eig_FMM
    exceeds the depth of its recursion. *)
From Coq Require Import ZArith List Bool.
From Verif Require Import Arith Base MBanded MHier MButter MEigPlan MClassical MConn.
Import ListNotations.
Open Scope Z_scope.

Section Transforms.
Context {F : Type} {AF : Arith F}.
Local Infix "+!" := add (at level 50, left associativity).
Local Infix "-!" := sub (at level 50, left associativity).
Local Infix "*!" := mul (at level 40, left associativity).
Local Infix "/!" := div (at level 40, left associativity).
Local Notation "# z" := (ofZ z) (at level 8, z at level 0, format "# z").
Variables (BS T tn BLK : Z) (eps tol : F).
Variables (low : list F -> Z * Z -> Z * Z -> option (lowrank F)) (cv : F -> F).
Variables (tgamma pow2 : F -> F).
Variables (d1 d2 data junk : list F).

(** 0.5 *)
Definition half : F := #1 /! #2.
(** the common part, e.g. 6-7 *)
Definition plan_of (A B : tbanded F) (D : list F) : option (tbeig F) :=
  do r <- tb_eig_FMM BS T tn BLK eps tol low (S (Z.to_nat (tb_n A))) A B D 0;
  do r <- drop_tb BS T BLK tol low cv (fst r) (snd r);
  Some (fst r).
(** 1-13 *)
Definition plan_legendre_to_chebyshev (normleg normcheb : bool) (n : Z) : option (tbeig F) :=
  do A <- create_A_legendre_to_chebyshev normcheb n;
  do B <- create_B_legendre_to_chebyshev normcheb n;
  do D <- leg2cheb_diag tgamma normleg normcheb n 1 junk;
  plan_of A B D.
(** 15-27 *)
Definition plan_chebyshev_to_legendre (normcheb normleg : bool) (n : Z) : option (tbeig F) :=
  do A <- create_A_chebyshev_to_legendre normleg n;
  do B <- create_B_chebyshev_to_legendre normleg n;
  do D <- cheb2leg_diag tgamma normcheb normleg n 1 junk;
  plan_of A B D.
(** 29-41 *)
Definition plan_ultraspherical_to_ultraspherical (norm1 norm2 : bool) (n : Z) (lambda mu : F) : option (tbeig F) :=
  do A <- create_A_ultraspherical_to_ultraspherical norm2 n lambda mu;
  do B <- create_B_ultraspherical_to_ultraspherical norm2 n mu;
  do D <- ultra_diag tgamma norm1 norm2 n lambda mu 1 junk;
  plan_of A B D.
(** 43-55 *)
Definition plan_jacobi_to_jacobi (norm1 norm2 : bool) (n : Z) (alpha beta gamma delta : F) : option (tbeig F) :=
  do A <- create_A_jacobi_to_jacobi d1 d2 norm2 n alpha beta gamma delta;
  do B <- create_B_jacobi_to_jacobi norm2 n gamma delta;
  do D <- jacobi_diag tgamma pow2 norm1 norm2 n alpha beta gamma delta 1 junk;
  plan_of A B D.
(** 57-69 *)
Definition plan_laguerre_to_laguerre (norm1 norm2 : bool) (n : Z) (alpha beta : F) : option (tbeig F) :=
  do A <- create_A_laguerre_to_laguerre data norm2 n alpha beta;
  do B <- create_B_laguerre_to_laguerre norm2 n beta;
  do D <- laguerre_diag tgamma norm1 norm2 n alpha beta 1 junk;
  plan_of A B D.

(** the arrays sclrow and sclcol: if (n > 0) scl[0] = v0; for (i = 1; i < n; i++) scl[i] = step i scl[i-1] *)
Definition scl_array (n : Z) (v0 : F) (step : Z -> F -> F) : option (list F) :=
  do x <- (if 0 <? n then zset junk 0 v0 else Some junk);
  for_up 1 n (fun i x => do p <- zget x (i - 1); zset x i (step i p)) x.
(** 71-83 *)
Definition plan_jacobi_to_ultraspherical (normjac normultra : bool) (n : Z) (alpha beta lambda : F) : option (tbeig F) :=
  do E <- plan_jacobi_to_jacobi normjac normultra n alpha beta (lambda -! half) (lambda -! half);
  if normultra then Some E else
    do sclrow <- scl_array n #1 (fun i p => (lambda +! #i -! half) /! (#2 *! lambda +! #i -! #1) *! p);
    scale_rows_tb BS #1 sclrow 0 E.
(** 85-97 *)
Definition plan_ultraspherical_to_jacobi (normultra normjac : bool) (n : Z) (lambda alpha beta : F) : option (tbeig F) :=
  do E <- plan_jacobi_to_jacobi normultra normjac n (lambda -! half) (lambda -! half) alpha beta;
  if normultra then Some E else
    do sclcol <- scl_array n #1 (fun i p => (#2 *! lambda +! #i -! #1) /! (lambda +! #i -! half) *! p);
    scale_columns_tb BS #1 sclcol 0 E.
(** 101-109 (also 135-143): the rows of a plan to the orthonormal Chebyshev polynomials, for the standard ones *)
Definition chebyshev_rows (n : Z) (E : tbeig F) : option (tbeig F) :=
  let sqrt_1_pi := cv (#1 /! tgamma half) in
  let sqrt_2_pi := cv (sqrtA #2 /! tgamma half) in
  do sclrow <- scl_array n sqrt_1_pi (fun _ _ => sqrt_2_pi);
  scale_rows_tb BS #1 sclrow 0 E.
(** 118-126 (also 152-160) *)
Definition chebyshev_columns (n : Z) (E : tbeig F) : option (tbeig F) :=
  let sqrtpi := tgamma half in
  let sqrtpi2 := sqrtpi /! sqrtA #2 in
  do sclcol <- scl_array n (cv sqrtpi) (fun _ _ => cv sqrtpi2);
  scale_columns_tb BS #1 sclcol 0 E.
(** 99-113 *)
Definition plan_jacobi_to_chebyshev (normjac normcheb : bool) (n : Z) (alpha beta : F) : option (tbeig F) :=
  do E <- plan_jacobi_to_jacobi normjac true n alpha beta (opp half) (opp half);
  if normcheb then Some E else chebyshev_rows n E.
(** 115-129 *)
Definition plan_chebyshev_to_jacobi (normcheb normjac : bool) (n : Z) (alpha beta : F) : option (tbeig F) :=
  do E <- plan_jacobi_to_jacobi true normjac n (opp half) (opp half) alpha beta;
  if normcheb then Some E else chebyshev_columns n E.
(** 131-145 *)
Definition plan_ultraspherical_to_chebyshev (normultra normcheb : bool) (n : Z) (lambda : F) : option (tbeig F) :=
  do E <- plan_ultraspherical_to_jacobi normultra true n lambda (opp half) (opp half);
  if normcheb then Some E else chebyshev_rows n E.
(** 147-161 *)
Definition plan_chebyshev_to_ultraspherical (normcheb normultra : bool) (n : Z) (lambda : F) : option (tbeig F) :=
  do E <- plan_jacobi_to_ultraspherical true normultra n (opp half) (opp half) lambda;
  if normcheb then Some E else chebyshev_columns n E.
End Transforms.
