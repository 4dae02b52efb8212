(** * Model of ft_plan_tri2cheb and ft_plan_disk2cxf (src/drivers.c 901-919, 959-987)

    The plan is the rotation plan and the tables P[0], P[1], Pinv[0], Pinv[1]; the work array B has no
    contents yet.  [jk], [d1], [d2] and [junk] are the contents of fresh blocks (the same ones for every
    call of a dense planner). *)
From Coq Require Import ZArith List Bool.
From Verif Require Import Arith Base MRotations MTransforms MDense.
Import ListNotations.
Open Scope Z_scope.

Section Plans.
Context {F : Type} {AF : Arith F}.
Local Infix "+!" := add (at level 50, left associativity).
Local Infix "*!" := mul (at level 40, left associativity).
Local Infix "/!" := div (at level 40, left associativity).
Local Notation "# z" := (ofZ z) (at level 8, z at level 0, format "# z").
Variables (eps : F) (cv : F -> F) (tgamma pow2 : F -> F) (pi : F) (d1 d2 junk : list F).
Local Notation j2j := (dense_jacobi_to_jacobi eps cv tgamma pow2 d1 d2 true true).

(** drivers.c 901-919 *)
Definition plan_tri2cheb_tables (jk : F) (n : Z) (alpha beta gamma : F) : option (rotplan F * (list F * list F) * (list F * list F)) :=
  do RP <- plan_rottriangle jk n alpha beta gamma;
  do P0 <- j2j n (beta +! gamma +! #1) alpha (opp half) (opp half);
  do P1 <- j2j n gamma beta (opp half) (opp half);
  do Q0 <- j2j n (opp half) (opp half) (beta +! gamma +! #1) alpha;
  do Q1 <- j2j n (opp half) (opp half) gamma beta;
  Some (RP, (P0, P1), (Q0, Q1)).
(** the conditions of 924 and 945, (beta + gamma != -1.5) || (alpha != -0.5), and of 926 and 943 *)
Definition tri_flag0 (alpha beta gamma : F) : bool := negb (eqb (beta +! gamma) (opp (#3 /! #2))) || negb (eqb alpha (opp half)).
Definition tri_flag1 (beta gamma : F) : bool := negb (eqb gamma (opp half)) || negb (eqb beta (opp half)).

(** P[..][k] *= c *)
Definition scale_at (k : Z) (c : F) (V : list F) : option (list F) := do v <- zget V k; zset V k (v *! c).
(** 974-980; the constants M_2_PI_POW_0P5 and M_PI_2_POW_0P5 are taken as the square roots they denote *)
Definition disk_scaling (n : Z) (c0 c1 i0 i1 : F) (T : list F * list F * (list F * list F)) : option (list F * list F * (list F * list F)) :=
  for_up 0 n (fun j T => for_up 0 (j + 1) (fun i T =>
    let '((P0, P1), (Q0, Q1)) := T in
    do P0 <- scale_at (i + j * n) c0 P0;
    do P1 <- scale_at (i + j * n) c1 P1;
    do Q0 <- scale_at (i + j * n) i0 Q0;
    do Q1 <- scale_at (i + j * n) i1 Q1;
    Some ((P0, P1), (Q0, Q1))) T) T.
(** drivers.c 959-987 *)
Definition plan_disk2cxf_tables (jk : F) (n : Z) (alpha beta : F) : option (rotplan F * (list F * list F) * (list F * list F)) :=
  do RP <- plan_rotdisk jk n alpha beta;
  do P0 <- dense_jacobi_to_chebyshev eps cv tgamma pow2 pi d1 d2 junk true false n beta alpha;
  do P1 <- j2j n beta (alpha +! #1) (opp half) half;
  do Q0 <- dense_chebyshev_to_jacobi eps cv tgamma pow2 pi d1 d2 junk false true n beta alpha;
  do Q1 <- j2j n (opp half) half beta (alpha +! #1);
  let cst0 := pow2 (half *! (alpha +! beta +! #2)) in
  let cst1 := cst0 *! sqrtA (#2 /! pi) in
  let cst0inv := pow2 (opp half *! (alpha +! beta +! #2)) in
  let cst1inv := cst0inv *! sqrtA (pi /! #2) in
  do T <- disk_scaling n cst0 cst1 cst0inv cst1inv ((P0, P1), (Q0, Q1));
  Some (RP, fst T, snd T).
End Plans.
