(** * Base: checked arrays and loops

    The machine vocabulary shared by every model file.  It models no particular
    line of /repo: it fixes how C arrays, pointers and [for] loops are read.

    - A C array (the block returned by one [malloc]/[calloc], or a caller's buffer)
      is a list, indexed by [Z].
    - Reading or writing outside the block is undefined behaviour: the checked
      accessors [zget] and [zset] return [None], and [None] propagates.
    - A pointer [A + off] is the array together with an offset.
    - [for] loops are bounded iterations whose trip count is computed from the bounds,
      exactly as for C loops whose counter is not written in the body.          *)
From Coq Require Import ZArith List Lia Bool.
Import ListNotations.
Open Scope Z_scope.

(** ** Option monad: [None] is undefined behaviour *)
Definition obind {A B} (x : option A) (f : A -> option B) : option B :=
  match x with Some a => f a | None => None end.
Notation "'do' x <- e ; f" := (obind e (fun x => f))
  (at level 200, x pattern, e at level 100, f at level 200, right associativity).
Definition oguard (b : bool) : option unit := if b then Some tt else None.

(** ** Arrays *)
Section Arr.
Context {F : Type}.

Definition zlen (a : list F) : Z := Z.of_nat (length a).

Definition zget (a : list F) (i : Z) : option F :=
  if i <? 0 then None else nth_error a (Z.to_nat i).

Fixpoint upd (a : list F) (n : nat) (v : F) : list F :=
  match a, n with
  | [], _ => []
  | _ :: t, O => v :: t
  | x :: t, S n' => x :: upd t n' v
  end.

Definition zupd (a : list F) (i : Z) (v : F) : list F :=
  if i <? 0 then a else upd a (Z.to_nat i) v.

Definition zset (a : list F) (i : Z) (v : F) : option (list F) :=
  if (0 <=? i) && (i <? zlen a) then Some (upd a (Z.to_nat i) v) else None.

(** total read with a default, used in statements only next to a length bound *)
Definition nthZ (d : F) (a : list F) (i : Z) : F :=
  match zget a i with Some v => v | None => d end.

End Arr.

(** a fresh block of [n] copies of [v] ([calloc], or [malloc] with junk [v]) *)
Definition zmake {F} (n : Z) (v : F) : list F := repeat v (Z.to_nat n).
(** the array whose entry [i] is [f i] *)
Definition ztab {F} (n : Z) (f : Z -> F) : list F :=
  map (fun k => f (Z.of_nat k)) (seq 0 (Z.to_nat n)).

(** ** Loops *)
Fixpoint itero {S} (n : nat) (f : nat -> S -> option S) (s : S) : option S :=
  match n with
  | O => Some s
  | Datatypes.S n' => do s' <- itero n' f s; f n' s'
  end.

(** [for (i = lo; i < hi; i++)] *)
Definition for_up {S} (lo hi : Z) (body : Z -> S -> option S) (s : S) : option S :=
  itero (Z.to_nat (hi - lo)) (fun k => body (lo + Z.of_nat k)) s.
(** [for (i = hi; i >= lo; i--)] *)
Definition for_dn {S} (hi lo : Z) (body : Z -> S -> option S) (s : S) : option S :=
  itero (Z.to_nat (hi - lo + 1)) (fun k => body (hi - Z.of_nat k)) s.
(** [for (i = lo; i < hi; i += st)], [st > 0] *)
Definition for_upst {S} (lo hi st : Z) (body : Z -> S -> option S) (s : S) : option S :=
  itero (Z.to_nat ((hi - lo + st - 1) / st)) (fun k => body (lo + Z.of_nat k * st)) s.
(** [for (i = hi; i >= lo; i -= st)], [st > 0] *)
Definition for_dnst {S} (hi lo st : Z) (body : Z -> S -> option S) (s : S) : option S :=
  itero (Z.to_nat ((hi - lo + st) / st)) (fun k => body (hi - Z.of_nat k * st)) s.
(** the value of the counter after [for (i = lo; i < hi; i += st)] *)
Definition end_upst (lo hi st : Z) : Z := lo + Z.max 0 ((hi - lo + st - 1) / st) * st.
(** the value of the counter after [for (i = hi; i >= lo; i -= st)] *)
Definition end_dnst (hi lo st : Z) : Z := hi - Z.max 0 ((hi - lo + st) / st) * st.
