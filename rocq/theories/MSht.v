(** * Model of the tridiagonal pencils of src/tridiagonal_source.c 398-479

    [md], [ld] are the conversions of m and l; integer literals are converted by [ofZ]; [mu-md] is
    evaluated in floating point.  [shft] is 0 for PARITY 'E' and 1 for 'O' (any other character
    leaves it uninitialised; not modelled). *)
From Coq Require Import ZArith List Bool.
From Verif Require Import Arith Base MTridiag.
Import ListNotations.
Open Scope Z_scope.
Section Model.
Context {F : Type} {AF : Arith F}.
Local Infix "+!" := add (at level 50, left associativity).
Local Infix "-!" := sub (at level 50, left associativity).
Local Infix "*!" := mul (at level 40, left associativity).
Local Infix "/!" := div (at level 40, left associativity).
(** the loop for (l = 1+shft; l < top; l += 2) x[(l-1)/2] = f(l) *)
Definition sht_fill (shft top : Z) (f : F -> F) (x : list F) : option (list F) :=
  for_upst (1 + shft) top 2 (fun l x => zset x ((l - 1) / 2) (f (ofZ l))) x.
(** 416, 445: the value of rat *)
Definition sht_rat (md ld : F) : F :=
  (ld /! (ofZ 2 *! ld +! ofZ 2 *! md +! ofZ 1)) *! ((ld +! ofZ 1) /! (ofZ 2 *! ld +! ofZ 2 *! md +! ofZ 3)) *!
  ((ld +! ofZ 2 *! md +! ofZ 2) /! (ofZ 2 *! ld +! ofZ 2 *! md +! ofZ 3)) *! ((ld +! ofZ 2 *! md +! ofZ 3) /! (ofZ 2 *! ld +! ofZ 2 *! md +! ofZ 5)).
(** 398-424 create_A_shtsdtev *)
Definition create_A_shtsdtev (n mu m : Z) (odd : bool) : option (symtri F) :=
  let shft := if odd then 1 else 0 in let md := ofZ m in
  do a <- sht_fill shft (2 * n + 1 + shft) (fun ld =>
    let num := ofZ 2 *! ld *! (ld +! ofZ 1) *! (ld *! ld +! ld -! ofZ 1) +!
      md *! (ofZ 8 *! ld *! ld *! ld +! ofZ 8 *! ld *! ld -! ofZ 4 *! ld +! md *! (ofZ 14 *! ld *! ld +! ofZ 6 *! ld -! ofZ 6 +! md *! (ofZ 12 *! ld +! ofZ 2 +! ofZ 4 *! md))) in
    let den := (ofZ 2 *! ld +! ofZ 2 *! md -! ofZ 1) *! (ofZ 2 *! ld +! ofZ 2 *! md +! ofZ 3) in
    num /! den +! (ofZ mu -! md) *! (ofZ mu +! md)) (zmake n zero);
  do b <- sht_fill shft (2 * n - 1 + shft) (fun ld =>
    opp (ld +! md +! ofZ 1) *! (ld +! md +! ofZ 2) *! sqrtA (sht_rat md ld)) (zmake (n - 1) zero);
  Some (SymTri a b n).
(** 426-452 create_B_shtsdtev *)
Definition create_B_shtsdtev (n m : Z) (odd : bool) : option (symtri F) :=
  let shft := if odd then 1 else 0 in let md := ofZ m in
  do a <- sht_fill shft (2 * n + 1 + shft) (fun ld =>
    let num := ofZ 2 *! (ld *! (ld +! ofZ 1) +! md *! (ofZ 2 *! ld +! ofZ 3 +! ofZ 2 *! md)) in
    let den := (ofZ 2 *! ld +! ofZ 2 *! md -! ofZ 1) *! (ofZ 2 *! ld +! ofZ 2 *! md +! ofZ 3) in
    num /! den) (zmake n zero);
  do b <- sht_fill shft (2 * n - 1 + shft) (fun ld => opp (sqrtA (sht_rat md ld))) (zmake (n - 1) zero);
  Some (SymTri a b n).
(** 454-479 create_R_shtsdtev *)
Definition create_R_shtsdtev (n m : Z) (odd : bool) : option (bidiag F) :=
  let shft := if odd then 1 else 0 in let md := ofZ m in
  do c <- sht_fill shft (2 * n + 1 + shft) (fun ld =>
    sqrtA (((ld +! ofZ 2 *! md) /! (ofZ 2 *! ld +! ofZ 2 *! md -! ofZ 1)) *! ((ld +! ofZ 2 *! md +! ofZ 1) /! (ofZ 2 *! ld +! ofZ 2 *! md +! ofZ 1)))) (zmake n zero);
  do d <- sht_fill shft (2 * n - 1 + shft) (fun ld =>
    opp (sqrtA ((ld /! (ofZ 2 *! ld +! ofZ 2 *! md +! ofZ 1)) *! ((ld +! ofZ 1) /! (ofZ 2 *! ld +! ofZ 2 *! md +! ofZ 3))))) (zmake (n - 1) zero);
  Some (BiDiag c d n).
End Model.
