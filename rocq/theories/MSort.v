(** * Model of the permutation, sorting and searching routines
    src/dprk_source.c 1261-1490 and src/hierarchical_source.c 902-928.

    [while] loops and recursive calls carry a fuel argument; running out of fuel is [None].
    The theorems exhibit a fuel for which the result is [Some], so termination is proved. *)
From Coq Require Import ZArith List Bool.
From Verif Require Import Arith Base.
Import ListNotations.
Open Scope Z_scope.

(** dprk_source.c 1480-1490 swap, swapi *)
Definition swap {F} (a : list F) (i j : Z) : option (list F) :=
  do t <- zget a i;
  do y <- zget a j;
  do a <- zset a i y;
  zset a j t.

Section Perm.
Context {F : Type}.
(** 1271-1275: [k = p[j] = p[j]+n] has been executed; the while loop on [p[k] < 0] *)
Fixpoint perm_cycle_n (fuel : nat) (n : Z) (x : list F) (p : list Z) (j k : Z) : option (list F * list Z) :=
  match fuel with
  | O => None
  | S fuel' =>
    do pk <- zget p k;
    if pk <? 0 then
      do x <- swap x j k;
      let j := k in
      do p <- zset p j (pk + n);
      do k <- zget p j;
      perm_cycle_n fuel' n x p j k
    else Some (x, p)
  end.
(** 1284-1287: the transposed while loop *)
Fixpoint perm_cycle_t (fuel : nat) (n : Z) (x : list F) (p : list Z) (i j : Z) : option (list F * list Z) :=
  match fuel with
  | O => None
  | S fuel' =>
    do pj <- zget p j;
    if pj <? 0 then
      do x <- swap x i j;
      do p <- zset p j (pj + n);
      do j <- zget p j;
      perm_cycle_t fuel' n x p i j
    else Some (x, p)
  end.
(** 1263-1292 perm; returns both arrays because [p] is modified and restored *)
Definition perm (trans : bool) (x : list F) (p : list Z) (n : Z) : option (list F * list Z) :=
  do p <- for_up 0 n (fun i p => do pi <- zget p i; zset p i (pi - n)) p;
  for_up 0 n (fun i xp =>
    let '(x, p) := xp in
    do pi <- zget p i;
    if 0 <=? pi then Some (x, p)
    else
      do p <- zset p i (pi + n);
      do k <- zget p i;
      if trans then perm_cycle_t (Z.to_nat n + 1) n x p i k
      else perm_cycle_n (Z.to_nat n + 1) n x p i k) (x, p).
End Perm.

(** ** quicksort_1arg .. quicksort_4arg
    The four versions (1300-1345, 1352-1401, 1403-1447, 1449-1478) are textual copies that also
    swap 0, 1, 2 or 3 companion arrays; [bs] is the list of those companions. *)
Section Quicksort.
Context {F : Type}.
Variable by_ : F -> F -> bool.
Record sortst := SortSt { so_a : list F; so_bs : list (list F); so_p : list Z }.
(** all the swap and swapi calls of one branch *)
Fixpoint swap_bs (bs : list (list F)) (i j : Z) : option (list (list F)) :=
  match bs with
  | [] => Some []
  | b :: bs => do b <- swap b i j; do bs <- swap_bs bs i j; Some (b :: bs)
  end.
Definition swap_all (s : sortst) (i j : Z) : option sortst :=
  do a <- swap (so_a s) i j;
  do bs <- swap_bs (so_bs s) i j;
  do p <- swap (so_p s) i j;
  Some (SortSt a bs p).
Definition swap_if (x y : Z) (i j : Z) (s : sortst) : option sortst :=
  do u <- zget (so_a s) x; do v <- zget (so_a s) y;
  if by_ u v then swap_all s i j else Some s.
(** selectpivot_*arg *)
Definition selectpivot (s : sortst) (lo hi : Z) : option (sortst * F) :=
  let mid := (lo + hi) / 2 in
  do s <- swap_if mid lo lo mid s;
  do s <- swap_if hi lo lo hi s;
  do s <- swap_if mid hi mid hi s;
  do v <- zget (so_a s) hi;
  Some (s, v).
(** [do i += 1; while (by(a[i], pivot));] *)
Fixpoint scan_up (fuel : nat) (a : list F) (pivot : F) (i : Z) : option Z :=
  match fuel with
  | O => None
  | S fuel' => let i := i + 1 in do ai <- zget a i; if by_ ai pivot then scan_up fuel' a pivot i else Some i
  end.
(** [do j -= 1; while (by(pivot, a[j]));] *)
Fixpoint scan_dn (fuel : nat) (a : list F) (pivot : F) (j : Z) : option Z :=
  match fuel with
  | O => None
  | S fuel' => let j := j - 1 in do aj <- zget a j; if by_ pivot aj then scan_dn fuel' a pivot j else Some j
  end.
(** the [while (1)] loop of partition_*arg *)
Fixpoint part_loop (fuel : nat) (s : sortst) (pivot : F) (i j : Z) : option (sortst * Z) :=
  match fuel with
  | O => None
  | S fuel' =>
    do i <- scan_up (length (so_a s) + 1) (so_a s) pivot i;
    do j <- scan_dn (length (so_a s) + 1) (so_a s) pivot j;
    if j <=? i then Some (s, j)
    else
      do s <- swap_all s i j;
      part_loop fuel' s pivot i j
  end.
(** partition_*arg *)
Definition partition_ (s : sortst) (lo hi : Z) : option (sortst * Z) :=
  let i := lo - 1 in let j := hi + 1 in
  do sp <- selectpivot s lo hi;
  let '(s, pivot) := sp in
  part_loop (Z.to_nat (hi - lo + 2)) s pivot i j.
(** quicksort_*arg *)
Fixpoint quicksort (fuel : nat) (s : sortst) (lo hi : Z) : option sortst :=
  match fuel with
  | O => None
  | S fuel' =>
    if lo <? hi then
      do sm <- partition_ s lo hi;
      let '(s, mid) := sm in
      do s <- quicksort fuel' s lo mid;
      quicksort fuel' s (mid + 1) hi
    else Some s
  end.
End Quicksort.
Arguments sortst : clear implicits.

(** ** hierarchical_source.c 902-912 binarysearch
    [j] is uninitialised until the first probe: [j = None] models that, and reading [x[j]]
    then is undefined behaviour.  Fuel as above. *)
Section Search.
Context {F : Type} {AF : Arith F}.
Fixpoint bs_loop (fuel : nat) (x : list F) (start stop : Z) (y : F) (j : option Z) : option (option Z) :=
  match fuel with
  | O => None
  | S fuel' =>
    if start <=? stop then
      let j := (start + stop) / 2 in
      do xj <- zget x j;
      if ltb xj y then bs_loop fuel' x (j + 1) stop y (Some j)
      else if ltb y xj then bs_loop fuel' x start (j - 1) y (Some j)
      else Some (Some j)
    else Some j
  end.
Definition binarysearch (x : list F) (start stop : Z) (y : F) : option Z :=
  do oj <- bs_loop (Z.to_nat (stop - start) + 2) x start stop y None;
  do j <- oj;
  do xj <- zget x j;
  if ltb xj y then Some (j + 1) else Some j.
(** 922-928 indsplit: returns the two ranges *)
Definition indsplit (x : list F) (start stop : Z) (a b : F) : option ((Z * Z) * (Z * Z)) :=
  do m <- binarysearch x start stop (div (add a b) (add one one));
  Some ((start, m), (m, stop)).
End Search.
