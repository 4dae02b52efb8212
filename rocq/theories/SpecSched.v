(** * Vocabulary for statements about parallel loops *)
From Coq Require Import ZArith List Permutation.
From Verif Require Import Base MDrivers MSched.
Import ListNotations.
Open Scope Z_scope.

(** [assign] gives each thread the list of iterations it runs, in its order; together the
    threads run every iteration of [for (i = lo; i < hi; i += st)] exactly once.  Any number
    of threads, any distribution, any order. *)
Definition schedule_of (lo hi st : Z) (assign : list (list Z)) : Prop :=
  Permutation (concat assign) (loop_iterations lo hi st).

(** The threads of the region start on memory [A].  However their individual loads and stores
    interleave: no access is out of bounds and no thread gets stuck; no execution goes on for
    ever; and whenever all threads have finished, the memory is [A']. *)
Definition always_ends_in {F} (body : Z -> thread F) (assign : list (list Z)) (A A' : list F) : Prop :=
  (forall ps B, psteps (region body assign, A) (ps, B) ->
     (forall p, In p ps -> p = Ret tt \/ exists p' B', tstep p B = Some (p', B')) /\
     (finished ps -> B = A')) /\
  ~ (exists run : nat -> pool F * list F,
       run 0%nat = (region body assign, A) /\ forall i, pstep (run i) (run (S i))).
