(** * Model of allocation: malloc, calloc, free and reading a field

    The library allocates with malloc and calloc (VMALLOC and VFREE are malloc and free,
    src/ftinternal.h 285-287) and does not check for NULL; allocation is taken to succeed, except that
    a request of a negative number of elements, which becomes a huge size_t, returns NULL.  malloc(0)
    returns a block that must be freed, which is the case of the two allowed by C that asks more. *)
From Coq Require Import ZArith List Bool.
From Verif Require Import SpecHeap.
Import ListNotations.
Open Scope Z_scope.

Definition ret {A : Type} (a : A) : prog A := fun h => Some (a, h).
Definition bind {A B : Type} (m : prog A) (f : A -> prog B) : prog B :=
  fun h => match m h with Some (a, h1) => f a h1 | None => None end.
Definition ub {A : Type} : prog A := fun _ => None.
Declare Scope prog_scope.
Notation "x <- m ;; f" := (bind m (fun x => f)) (at level 100, m at next level, right associativity) : prog_scope.
Notation "m ;; f" := (bind m (fun _ => f)) (at level 100, right associativity) : prog_scope.
Open Scope prog_scope.

Definition NULL : Z := 0.
Definition inb (p : Z) (l : list Z) : bool := existsb (Z.eqb p) l.
(** malloc(k*sizeof(T)) and calloc(k, sizeof(T)) *)
Definition malloc (k : Z) : prog Z := fun h =>
  if k <? 0 then Some (NULL, h)
  else Some (next h, Heap (next h + 1) (next h :: live h) (clock h) (ints h) (trees h)).
(** malloc(sizeof(struct)) *)
Definition new : prog Z := malloc 1.
(** free(p): nothing for NULL, undefined for a block that is not live *)
Definition free (p : Z) : prog unit := fun h =>
  if p =? NULL then Some (tt, h)
  else if inb p (live h) then Some (tt, Heap (next h) (remove Z.eq_dec p (live h)) (clock h) (ints h) (trees h))
  else None.
(** reading or writing a field of the struct or an entry of the array at p *)
Definition use (p : Z) : prog unit := fun h => if inb p (live h) then Some (tt, h) else None.
(** a number and a shape that depend on floating-point data *)
Definition pick : prog Z := fun h =>
  Some (ints h (clock h), Heap (next h) (live h) (clock h + 1) (ints h) (trees h)).
Definition pick_shape : prog shape := fun h =>
  Some (trees h (clock h), Heap (next h) (live h) (clock h + 1) (ints h) (trees h)).
(** a field that may not have been written *)
Definition field {A : Type} (o : option A) : prog A := match o with Some a => ret a | None => ub end.
(** for (i = 0; i < n; i++) a[i] = f(i), the array being the list of the values *)
Fixpoint tabulate_n {A : Type} (f : Z -> prog A) (i : Z) (n : nat) : prog (list A) :=
  match n with O => ret [] | S n => a <- f i;; l <- tabulate_n f (i + 1) n;; ret (a :: l) end.
Definition tabulate {A : Type} (lo hi : Z) (f : Z -> prog A) : prog (list A) :=
  tabulate_n f lo (Z.to_nat (hi - lo)).
(** for (i = 0; i < n; i++) f(a[i]), reading past the end of the array being undefined *)
Fixpoint each_n {A : Type} (f : A -> prog unit) (l : list A) (n : nat) : prog unit :=
  match n, l with
  | O, _ => ret tt
  | S n, a :: l => f a;; each_n f l n
  | S n, [] => ub
  end.
Definition each {A : Type} (n : Z) (f : A -> prog unit) (l : list A) : prog unit := each_n f l (Z.to_nat n).
