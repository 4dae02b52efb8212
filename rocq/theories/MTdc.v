(** * Model of src/tdc_source.c: divide and conquer for symmetric-definite tridiagonal pencils

    TDC_EIGEN_BLOCKSIZE (tdc.c 5, 128) is the argument [bs].  The tree's fields V, lambda exist in
    leaves (n < bs), F0, F1, F2, z in nodes, so the test n < TDC_EIGEN_BLOCKSIZE on a tree is the
    match on the constructor.  A pointer y+s is the tail [tailz s y], put back after the call.
    The dense and the FMM versions (54-171 and 173-290, 292-310 and 312-330) have the same text up
    to the type of F0 and the two functions called on it: [deig] for
    symmetric_definite_dpr1_eig(_FMM) and [dmv0] for dvmv/dfmv.  symmetric_definite_tridiagonal_eig,
    which iterates, is the argument [leig] (T, S, V, lambda).  Memory from malloc is zeroed here;
    every entry is written before it is read. *)
From Coq Require Import ZArith List Bool.
From Verif Require Import Arith Base MTridiag MHier MDprk MDprk2.
Import ListNotations.
Open Scope Z_scope.

(** tdc_source.h: tdcstruct, tdcstruct_FMM *)
Inductive tdc F E := TLeaf (n : Z) (V lambda : list F) | TNode (n : Z) (F0 : E) (F1 F2 : tdc F E) (z : list F).
Arguments TLeaf {F E}. Arguments TNode {F E}.
Definition tdc_n {F E} (t : tdc F E) : Z := match t with TLeaf n _ _ => n | TNode n _ _ _ _ => n end.

Section Model.
Context {F : Type} {AF : Arith F}.

(** 79-89 T1 and 91-101 S1: the leading s by s block, last diagonal entry less |rho| *)
Definition tear_first (s : Z) (rho : F) (T : symtri F) : option (symtri F) :=
  do ab <- for_up 0 (s - 1) (fun i ab =>
    let '(a, b) := ab in
    do ai <- zget (st_a T) i; do a <- zset a i ai;
    do bi <- zget (st_b T) i; do b <- zset b i bi;
    Some (a, b)) (zmake s zero, zmake (s - 1) zero);
  let '(a, b) := ab in
  do al <- zget (st_a T) (s - 1);
  do a <- zset a (s - 1) (add al (mul (ofZ (-1)) (absA rho)));
  Some (SymTri a b s).
(** 103-113 T2 and 115-125 S2: the trailing block, first diagonal entry less |rho| *)
Definition tear_second (n s : Z) (rho : F) (T : symtri F) : option (symtri F) :=
  do ab <- for_up s (n - 1) (fun i ab =>
    let '(a, b) := ab in
    do ai <- zget (st_a T) (i + 1); do a <- zset a (i - s + 1) ai;
    do bi <- zget (st_b T) i; do b <- zset b (i - s) bi;
    Some (a, b)) (zmake (n - s) zero, zmake (n - s - 1) zero);
  let '(a, b) := ab in
  do al <- zget (st_a T) s;
  do a <- zset a 0 (add al (mul (ofZ (-1)) (absA rho)));
  Some (SymTri a b (n - s)).
(** 76-77 rho and sigma *)
Definition tear_rho (s : Z) (T : symtri F) : option F :=
  do b <- zget (st_b T) (s - 1); Some (mul (ofZ 1) (absA b)).

Section Tdc.
Context {V : Type}.
Variable dmv0 : bool -> F -> dpeig F V -> list F -> F -> list F -> option (list F * list F * list Z * list Z).
(** F0 after dvmv or dfmv, which modify (and restore) the permutations *)
Definition set_perms (E : dpeig F V) (p q : list Z) : dpeig F V :=
  DpEig (de_v E) (de_V E) (de_lambda E) (de_lo E) (de_hi E) p q (de_num E) (de_iz E) (de_id E).
(** 292-310 tdmv and 312-330 tfmv: returns F (z is scratch) and y *)
Fixpoint tmv (trans : bool) (alpha : F) (t : tdc F (dpeig F V)) (x : list F) (beta : F) (y : list F) : option (tdc F (dpeig F V) * list F) :=
  match t with
  | TLeaf n Vm lambda => do y <- gemv trans n n alpha Vm 0 n x 0 beta y 0; Some (TLeaf n Vm lambda, y)
  | TNode n F0 F1 F2 z =>
    let s := Z.shiftr n 1 in
    if trans then
      do r <- tmv trans one F1 x zero z; let '(F1, z) := r in
      do r <- tmv trans one F2 (tailz s x) zero (tailz s z); let '(F2, z2) := r in
      let z := headz s z ++ z2 in
      do r <- dmv0 trans alpha F0 z beta y; let '(z, y, p, q) := r in
      Some (TNode n (set_perms F0 p q) F1 F2 z, y)
    else
      do r <- dmv0 trans one F0 x zero z; let '(x, z, p, q) := r in
      do r <- tmv trans alpha F1 z beta y; let '(F1, y) := r in
      do r <- tmv trans alpha F2 (tailz s z) beta (tailz s y); let '(F2, y2) := r in
      Some (TNode n (set_perms F0 p q) F1 F2 z, headz s y ++ y2)
  end.

Variable bs : Z.
Variable leig : symtri F -> symtri F -> list F -> list F -> option (list F * list F).
Variable deig : dpr1 F -> idpr1 F -> option (dpeig F V).
(** 58-60 the identity *)
Definition identity (n : Z) : option (list F) := for_up 0 n (fun i Vm => zset Vm (i + i * n) one) (zmake (n * n) zero).
(** 135-138, 141-144 F->lambda or F->F0->lambda *)
Definition tdc_lambda (t : tdc F (dpeig F V)) : list F := match t with TLeaf _ _ l => l | TNode _ F0 _ _ _ => de_lambda F0 end.
(** 128-157 from F1 and F2 to A and B; returns F1 and F2 too (their scratch is used) *)
Definition merge_problem (n s : Z) (rho sigma : F) (y : list F) (F1 F2 : tdc F (dpeig F V)) : option (dpr1 F * idpr1 F * tdc F (dpeig F V) * tdc F (dpeig F V)) :=
  let z := zmake n zero in
  do r <- tmv true one F1 y zero z; let '(F1, z) := r in
  do r <- tmv true one F2 (tailz s y) zero (tailz s z); let '(F2, z2) := r in
  let z := headz s z ++ z2 in
  do d <- for_up 0 s (fun i d => do l <- zget (tdc_lambda F1) i; zset d i l) (zmake n zero);
  do d <- for_up 0 (n - s) (fun i d => do l <- zget (tdc_lambda F2) i; zset d (i + s) l) d;
  do zb <- copy n z;
  Some (Dpr1 d z rho n, IDpr1 zb sigma n, F1, F2).
(** 71-74 the vector y *)
Definition tear_vector (n s : Z) : option (list F) := do y <- zset (zmake n zero) (s - 1) (ofZ (-1)); zset y s (ofZ 1).
(** 54-171 sdtdc_eig and 173-290 sdtdc_eig_FMM; [fuel] bounds the depth of the recursion *)
Fixpoint sdtdc_eig (fuel : nat) (T S : symtri F) : option (tdc F (dpeig F V)) :=
  match fuel with
  | O => None
  | Datatypes.S fuel =>
    let n := st_n T in
    if n <? bs then
      do Vm <- identity n;
      do r <- leig T S Vm (zmake n zero); let '(Vm, lambda) := r in
      Some (TLeaf n Vm lambda)
    else
      let s := Z.shiftr n 1 in
      do y <- tear_vector n s;
      do rho <- tear_rho s T; do sigma <- tear_rho s S;
      do T1 <- tear_first s rho T; do S1 <- tear_first s sigma S;
      do T2 <- tear_second n s rho T; do S2 <- tear_second n s sigma S;
      do F1 <- sdtdc_eig fuel T1 S1;
      do F2 <- sdtdc_eig fuel T2 S2;
      do r <- merge_problem n s rho sigma y F1 F2;
      let '(A, B, F1, F2) := r in
      do F0 <- deig A B;
      Some (TNode n F0 F1 F2 y)
  end.
End Tdc.
(** 292-310 *)
Definition tdmv := tmv (V := list F) dvmv.
(** 312-330 *)
Definition tfmv := tmv (V := hmat F) dfmv.
End Model.
