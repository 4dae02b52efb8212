(** * Vocabulary of the lifecycle properties: blocks of memory that are allocated and not yet freed

    A block is named by a positive integer and NULL is 0.  [live] lists the blocks that have been
    allocated and not freed; [next] has never been handed out.  [clock], [ints] and [trees] are the
    numbers and tree shapes that a run takes from floating-point data (how many eigenvalues coincide,
    where a set of points is split, ...): they are arbitrary, so a statement for every heap is a
    statement for every outcome of those computations. *)
From Coq Require Import ZArith List.
Import ListNotations.
Open Scope Z_scope.

(** the shape of a hierarchical matrix: a dense block, a low-rank block, or four sub-blocks *)
Inductive shape : Type :=
| Dense : shape
| LowRank : shape
| Split : shape -> shape -> shape -> shape -> shape.

Record heap : Type := Heap
  { next : Z; live : list Z; clock : Z; ints : Z -> Z; trees : Z -> shape }.

(** every live block is a proper address below [next], listed once *)
Definition wf (h : heap) : Prop :=
  0 < next h /\ NoDup (live h) /\ forall p, In p (live h) -> 0 < p < next h.

(** A program returns a value and the heap it leaves, or [None] when it frees a block that is not
    live, reads a block that is not live, or reads a field that was never written. *)
Definition prog (A : Type) := heap -> option (A * heap).

(** going from [h] to [h1], exactly the blocks B were allocated and nothing was freed *)
Definition grows (h h1 : heap) (B : list Z) : Prop :=
  wf h1 /\ NoDup B /\ (forall p, In p B -> ~ In p (live h)) /\
  (forall p, In p (live h1) <-> In p (live h) \/ In p B).
(** from [h] to [h1], exactly the blocks B were freed, all of them live before *)
Definition shrinks (h h1 : heap) (B : list Z) : Prop :=
  wf h1 /\ (forall p, In p B -> In p (live h)) /\
  (forall p, In p (live h1) <-> In p (live h) /\ ~ In p B).

(** Creating an object always succeeds and adds a set B of new blocks to the live ones.  In any later
    heap in which those blocks are still live, destroying the object succeeds and frees exactly B. *)
Definition lifecycle {A : Type} (create : prog A) (destroy : A -> prog unit) : Prop :=
  forall h, wf h ->
  exists P h1 B, create h = Some (P, h1) /\ grows h h1 B /\
  forall h', wf h' -> (forall p, In p B -> In p (live h')) ->
  exists h'', destroy P h' = Some (tt, h'') /\ shrinks h' h'' B.

(** Creating an object and destroying it leaves exactly k blocks that were not live before. *)
Definition leaks {A : Type} (k : Z) (create : prog A) (destroy : A -> prog unit) : Prop :=
  forall h, wf h ->
  exists P h1 h2 B, create h = Some (P, h1) /\ destroy P h1 = Some (tt, h2) /\ grows h h2 B /\
  Z.of_nat (length B) = k.

(** Creating an object and destroying it leaves at least k blocks that were not live before. *)
Definition leaks_at_least {A : Type} (k : Z) (create : prog A) (destroy : A -> prog unit) : Prop :=
  forall h, wf h ->
  exists P h1 h2 B, create h = Some (P, h1) /\ destroy P h1 = Some (tt, h2) /\ grows h h2 B /\
  k <= Z.of_nat (length B).

(** A function that returns nothing to be destroyed leaves the live blocks as they were. *)
Definition clean {A : Type} (f : prog A) : Prop :=
  forall h, wf h -> exists v h1, f h = Some (v, h1) /\ grows h h1 [].

(** A history of a program that uses several kinds of objects: create one, or destroy the i-th of
    those that are open.  [run] returns the open objects, each with its kind. *)
Section History.
Variables (kind : Type) (obj : kind -> Type).
Variables (create : forall k, prog (obj k)) (destroy : forall k, obj k -> prog unit).
Inductive event : Type := Create (k : kind) | Destroy (i : nat).
Fixpoint remove_nth {A : Type} (i : nat) (l : list A) : list A :=
  match l, i with
  | [], _ => []
  | _ :: l, O => l
  | a :: l, S i => a :: remove_nth i l
  end.
Definition run_event (e : event) (open : list {k : kind & obj k}) : prog (list {k : kind & obj k}) :=
  fun h =>
  match e with
  | Create k =>
    match create k h with Some (P, h1) => Some (open ++ [existT obj k P], h1) | None => None end
  | Destroy i =>
    match nth_error open i with
    | None => Some (open, h)
    | Some (existT _ k P) =>
      match destroy k P h with Some (_, h1) => Some (remove_nth i open, h1) | None => None end
    end
  end.
Fixpoint run (es : list event) (open : list {k : kind & obj k}) (h : heap) :
  option (list {k : kind & obj k} * heap) :=
  match es with
  | [] => Some (open, h)
  | e :: es => match run_event e open h with Some (open, h) => run es open h | None => None end
  end.
End History.
Arguments Create {kind} k.
Arguments Destroy {kind} i.
