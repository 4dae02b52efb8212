(** * Model of the eigenvalue and eigenvector routines for upper-triangular banded pencils
    src/banded_source.c 771-880.  [eps] is the value of [Y(eps)()]. *)
From Coq Require Import ZArith List Bool.
From Verif Require Import Arith Base MBanded.
Import ListNotations.
Open Scope Z_scope.

Section Eig.
Context {F : Type} {AF : Arith F}.
Variable eps : F.

(** 773-776 triangular_banded_eigenvalues, A V = B V Lambda *)
Definition triangular_banded_eigenvalues (A B : tbanded F) (lambda : list F) : option (list F) :=
  for_up 0 (tb_n A) (fun j lambda =>
    do a <- tb_get A j j; do b <- tb_get B j j; zset lambda j (div a b)) lambda.

(** 785-790 (and 895-898): the sums [t] and [kt] over k of one back substitution row; the vector
    starts at [o] *)
Definition eigrow (A B : tbanded F) (n b : Z) (lam : F) (V : list F) (o i : Z) : option (F * F) :=
  for_up (i + 1) (Z.min (i + b + 1) n) (fun k s =>
    let '(t, kt) := s in
    do a <- tb_get A i k; do c <- tb_get B i k; do v <- zget V (o + k);
    Some (add t (mul (sub a (mul lam c)) v),
          add kt (mul (add (absA a) (absA (mul lam c))) (absA v)))) (zero, zero).
(** 786-796 (and 893-905): one entry V[i] *)
Definition eigentry (A B : tbanded F) (n b : Z) (lam : F) (V : list F) (o i : Z) : option (list F) :=
  do s <- eigrow A B n b lam V o i;
  let '(t, kt) := s in
  do a <- tb_get A i i; do c <- tb_get B i i;
  let d := sub (mul lam c) a in
  let kd := add (absA (mul lam c)) (absA a) in
  if ltb (absA d) (mul (mul (ofZ 4) kd) eps) || ltb (absA t) (mul (mul (ofZ 4) kt) eps)
  then zset V (o + i) zero
  else zset V (o + i) (div t d).
(** 779-800 triangular_banded_eigenvectors: column j of V is V[0+j*n .. n-1+j*n] *)
Definition triangular_banded_eigenvectors (A B : tbanded F) (V : list F) : option (list F) :=
  let n := tb_n A in
  let b := Z.max (tb_b A) (tb_b B) in
  for_up 1 n (fun j V =>
    do a <- tb_get A j j; do c <- tb_get B j j;
    let lam := div a c in
    for_dn (j - 1) 0 (fun i V => eigentry A B n b lam V (j * n) i) V) V.

(** 804-812 triangular_banded_quadratic_eigenvalues, A V + B V Lambda = C V Lambda^2 *)
Definition quadratic_root (a b c : F) : F :=
  div (add b (sqrtA (add (mul b b) (mul (mul (ofZ 4) a) c)))) (mul (ofZ 2) c).
Definition triangular_banded_quadratic_eigenvalues (A B C : tbanded F) (lambda : list F) : option (list F) :=
  for_up 0 (tb_n A) (fun j lambda =>
    do a <- tb_get A j j; do b <- tb_get B j j; do c <- tb_get C j j;
    zset lambda j (quadratic_root a b c)) lambda.
(** 824-828 *)
Definition qeigrow (A B C : tbanded F) (n b : Z) (lam : F) (V : list F) (o i : Z) : option (F * F) :=
  for_up (i + 1) (Z.min (i + b + 1) n) (fun k s =>
    let '(t, kt) := s in
    do x <- tb_get A i k; do y <- tb_get B i k; do z <- tb_get C i k; do v <- zget V (o + k);
    Some (add t (mul (add x (mul lam (sub y (mul lam z)))) v),
          add kt (mul (add (absA x) (absA (mul lam (add (absA y) (absA (mul lam z)))))) (absA v)))) (zero, zero).
(** 823-833; the guard is a conjunction here *)
Definition qeigentry (A B C : tbanded F) (n b : Z) (lam : F) (V : list F) (o i : Z) : option (list F) :=
  do s <- qeigrow A B C n b lam V o i;
  let '(t, kt) := s in
  do x <- tb_get A i i; do y <- tb_get B i i; do z <- tb_get C i i;
  let d := sub (mul lam (sub (mul lam z) y)) x in
  let kd := add (absA (mul lam (add (absA (mul lam z)) (absA y)))) (absA x) in
  if ltb (absA d) (mul (mul (ofZ 4) kd) eps) && ltb (absA t) (mul (mul (ofZ 4) kt) eps)
  then zset V (o + i) zero
  else zset V (o + i) (div t d).
(** 815-836 triangular_banded_quadratic_eigenvectors *)
Definition triangular_banded_quadratic_eigenvectors (A B C : tbanded F) (V : list F) : option (list F) :=
  let n := tb_n A in
  let b := Z.max (Z.max (tb_b A) (tb_b B)) (tb_b C) in
  for_up 1 n (fun j V =>
    do x <- tb_get A j j; do y <- tb_get B j j; do z <- tb_get C j j;
    let lam := quadratic_root x y z in
    for_dn (j - 1) 0 (fun i V => qeigentry A B C n b lam V (j * n) i) V) V.
End Eig.

(** ** Nearly equal pairs of two sorted lists *)
Section Inter.
Context {F : Type} {AF : Arith F}.
Variable epsilon : F.
(** [MAX] of the C headers: [((a) > (b) ? a : b)] *)
Definition maxA (a b : F) : F := if ltb b a then a else b.
(** 845, 867: the test *)
Definition near (x y : F) : bool := ltb (absA (sub x y)) (mul epsilon (maxA (absA x) (absA y))).

(** 844-855: the while loop of count_intersections for one y[j]; the fuel is m - i.
    State: (istart, idx, thefirst) *)
Fixpoint count_row (fuel : nat) (x : list F) (i : Z) (yj : F) (istart idx : Z) (thefirst : bool) : option (Z * Z) :=
  match fuel with
  | O => Some (istart, idx)
  | S fuel' =>
    do xi <- zget x i;
    if near xi yj then
      count_row fuel' x (i + 1) yj (if thefirst then i else istart) (idx + 1) false
    else if ltb yj xi then Some (istart, idx)
    else count_row fuel' x (i + 1) yj istart idx thefirst
  end.
(** 838-857 count_intersections *)
Definition count_intersections (m : Z) (x : list F) (n : Z) (y : list F) : option Z :=
  do s <- for_up 0 n (fun j s =>
    let '(istart, idx) := s in
    do yj <- zget y j;
    count_row (Z.to_nat (m - istart)) x istart yj istart idx true) (0, 0);
  Some (snd s).
(** 866-879: the same loop writing p and q *)
Fixpoint produce_row (fuel : nat) (x : list F) (i : Z) (yj : F) (j istart idx : Z) (thefirst : bool) (p q : list Z)
  : option (Z * Z * list Z * list Z) :=
  match fuel with
  | O => Some (istart, idx, p, q)
  | S fuel' =>
    do xi <- zget x i;
    if near xi yj then
      do p <- zset p idx i;
      do q <- zset q idx j;
      produce_row fuel' x (i + 1) yj j (if thefirst then i else istart) (idx + 1) false p q
    else if ltb yj xi then Some (istart, idx, p, q)
    else produce_row fuel' x (i + 1) yj j istart idx thefirst p q
  end.
(** 860-880 produce_intersection_indices; returns p and q *)
Definition produce_intersection_indices (m : Z) (x : list F) (n : Z) (y : list F) (p q : list Z) : option (list Z * list Z) :=
  do s <- for_up 0 n (fun j s =>
    let '(istart, idx, p, q) := s in
    do yj <- zget y j;
    produce_row (Z.to_nat (m - istart)) x istart yj j istart idx true p q) (0, 0, p, q);
  let '(istart, idx, p, q) := s in Some (p, q).
End Inter.
