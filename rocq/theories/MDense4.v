(** * Model of ft_plan_tet2cheb (src/drivers.c 1173-1195) and of the conditions of ft_execute_tet2cheb

    The plan is the two rotation plans and the tables P[0], P[1], P[2], Pinv[0], Pinv[1], Pinv[2]; the work array B
    has no contents yet.  [jk], [d1] and [d2] are the contents of fresh blocks (the same ones for every
    call of a planner). *)
From Coq Require Import ZArith List Bool.
From Verif Require Import Arith Base MRotations MTransforms MDense.
Import ListNotations.
Open Scope Z_scope.

Section Plans.
Context {F : Type} {AF : Arith F}.
Local Infix "+!" := add (at level 50, left associativity).
Local Infix "/!" := div (at level 40, left associativity).
Local Notation "# z" := (ofZ z) (at level 8, z at level 0, format "# z").
Variables (eps : F) (cv : F -> F) (tgamma pow2 : F -> F) (d1 d2 : list F).
Local Notation j2j := (dense_jacobi_to_jacobi eps cv tgamma pow2 d1 d2 true true).

(** drivers.c 1173-1195 *)
Definition plan_tet2cheb_tables (jk : F) (n : Z) (alpha beta gamma delta : F)
  : option (rotplan F * rotplan F * (list F * list F * list F) * (list F * list F * list F)) :=
  do RP0 <- plan_rottriangle jk n alpha beta (gamma +! delta +! #1);
  do RP1 <- plan_rottriangle jk n beta gamma delta;
  do P0 <- j2j n (beta +! gamma +! delta +! #2) alpha (opp half) (opp half);
  do P1 <- j2j n (gamma +! delta +! #1) beta (opp half) (opp half);
  do P2 <- j2j n delta gamma (opp half) (opp half);
  do Q0 <- j2j n (opp half) (opp half) (beta +! gamma +! delta +! #2) alpha;
  do Q1 <- j2j n (opp half) (opp half) (gamma +! delta +! #1) beta;
  do Q2 <- j2j n (opp half) (opp half) delta gamma;
  Some (RP0, RP1, (P0, P1, P2), (Q0, Q1, Q2)).
(** the conditions of 1200 and 1238, of 1203 and 1235, and of 1206 and 1231 *)
Definition tet_flag0 (alpha beta gamma delta : F) : bool := negb (eqb (beta +! gamma +! delta) (opp (#5 /! #2))) || negb (eqb alpha (opp half)).
Definition tet_flag1 (beta gamma delta : F) : bool := negb (eqb (gamma +! delta) (opp (#3 /! #2))) || negb (eqb beta (opp half)).
Definition tet_flag2 (gamma delta : F) : bool := negb (eqb delta (opp half)) || negb (eqb gamma (opp half)).
End Plans.
