(** * Model of ft_plan_rectdisk2cheb (src/drivers.c 1123-1141)

    The plan is the rotation plan and the tables P[0], P[1], P[2], Pinv[0], Pinv[1], Pinv[2]; the work array B
    has no contents yet.  [jk], [d1], [d2] and [junk] are the contents of fresh blocks (the same ones for every
    call of a dense planner). *)
From Coq Require Import ZArith List Bool.
From Verif Require Import Arith Base MRotations MTransforms MDense.
Import ListNotations.
Open Scope Z_scope.

Section Plans.
Context {F : Type} {AF : Arith F}.
Local Infix "+!" := add (at level 50, left associativity).
Local Notation "# z" := (ofZ z) (at level 8, z at level 0, format "# z").
Variables (eps : F) (cv : F -> F) (tgamma pow2 : F -> F) (pi : F) (d1 d2 junk : list F).

(** drivers.c 1123-1141 *)
Definition plan_rectdisk2cheb_tables (jk : F) (n : Z) (beta : F) : option (rotplan F * (list F * list F * list F) * (list F * list F * list F)) :=
  do RP <- plan_rotrectdisk jk n beta;
  do P0 <- dense_ultraspherical_to_chebyshev eps cv tgamma pow2 pi d1 d2 junk true false n (beta +! #1);
  do P1 <- dense_ultraspherical_to_ultraspherical eps cv tgamma true false n (beta +! #2) #1;
  do P2 <- dense_ultraspherical_to_chebyshev eps cv tgamma pow2 pi d1 d2 junk true false n (beta +! half);
  do Q0 <- dense_chebyshev_to_ultraspherical eps cv tgamma pow2 pi d1 d2 junk false true n (beta +! #1);
  do Q1 <- dense_ultraspherical_to_ultraspherical eps cv tgamma false true n #1 (beta +! #2);
  do Q2 <- dense_chebyshev_to_ultraspherical eps cv tgamma pow2 pi d1 d2 junk false true n (beta +! half);
  Some (RP, (P0, P1, P2), (Q0, Q1, Q2)).
End Plans.
