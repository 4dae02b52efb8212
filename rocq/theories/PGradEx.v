(** * Gradient: a case that meets the hypotheses *)
From Coq Require Import ZArith List Reals Lra Lia Bool ZifyBool.
From Verif Require Import Arith Base BaseFacts SpecSum SpecGrad.
Import ListNotations.
Open Scope Z_scope.
Lemma degrees_ex a b c d e f g h k : degrees_up_to 3 5 [a; b; c; d; e; 0; f; g; 0; h; 0; 0; k; 0; 0]%R.
Proof.
  intros i q Hi Hq H. assert (Ei : i = 0 \/ i = 1 \/ i = 2) by lia. assert (Eq : q = 0 \/ q = 1 \/ q = 2 \/ q = 3 \/ q = 4) by lia.
  destruct Ei as [E|[E|E]], Eq as [E'|[E'|[E'|[E'|E']]]]; subst i q; cbn in H; try (exfalso; lia); reflexivity.
Qed.
Lemma C61_example : let U := [1; 2; 3; 4; 5; 0; 6; 7; 0; 8; 0; 0; 9; 0; 0]%R in
  1 <= 3 /\ Z.odd 5 = true /\ 0 <= 5 / 2 <= 3 /\ zlen U = 3 * 5 /\ degrees_up_to 3 5 U.
Proof. cbv zeta. split; [lia|]. split; [reflexivity|]. split; [lia|]. split; [reflexivity|]. apply degrees_ex. Qed.
Lemma C62_example : let U1 := [0; 2; 3; 4; 5; 0; 6; 7; 0; 8; 0; 0; 9; 0; 0]%R in let U2 := [0; 1; 1; 1; 2; 0; 3; 5; 0; 8; 0; 0; 1; 0; 0]%R in
  1 <= 3 /\ Z.odd 5 = true /\ 0 <= 5 / 2 <= 3 - 1 /\ zlen U1 = 3 * 5 /\ zlen U2 = 3 * 5 /\ degrees_up_to 3 5 U1 /\ degrees_up_to 3 5 U2 /\ nthZ 0%R U1 0 = 0%R /\ nthZ 0%R U2 0 = 0%R.
Proof. cbv zeta. split; [lia|]. split; [reflexivity|]. split; [lia|]. split; [reflexivity|]. split; [reflexivity|]. split; [apply degrees_ex|]. split; [apply degrees_ex|]. split; reflexivity. Qed.
