(** * Model of src/banded_source.c: storage, products and triangular solves

    FLT is the element type.  [exit_failure] terminates the program: the guarded routines
    return [None] there (no result is produced).  A pointer argument [x] is an array with an
    offset [o].  Input and output arrays do not overlap unless said otherwise. *)
From Coq Require Import ZArith List Bool.
From Verif Require Import Arith Base.
Import ListNotations.
Open Scope Z_scope.

(** banded_source.h X(banded): m x n, l sub- and u superdiagonals *)
Record banded F := Banded { bd_data : list F; bd_m : Z; bd_n : Z; bd_l : Z; bd_u : Z }.
(** banded_source.h X(triangular_banded): n x n upper triangular, b superdiagonals *)
Record tbanded F := TBanded { tb_data : list F; tb_n : Z; tb_b : Z }.
Arguments Banded {F}. Arguments bd_data {F}. Arguments bd_m {F}. Arguments bd_n {F}. Arguments bd_l {F}. Arguments bd_u {F}.
Arguments TBanded {F}. Arguments tb_data {F}. Arguments tb_n {F}. Arguments tb_b {F}.

Section Model.
Context {F : Type} {AF : Arith F}.

(** banded_source.c 140-149 calloc_banded *)
Definition calloc_banded (m n l u : Z) : banded F := Banded (zmake (n * (l + u + 1)) zero) m n l u.
(** 160-167 calloc_triangular_banded *)
Definition calloc_tbanded (n b : Z) : tbanded F := TBanded (zmake (n * (b + 1)) zero) n b.
(** 238-243 create_I_triangular_banded *)
Definition create_I_tbanded (n b : Z) : option (tbanded F) :=
  do data <- for_up 0 n (fun j data => zset data (b + j * (b + 1)) one) (zmake (n * (b + 1)) zero);
  Some (TBanded data n b).

(** 169-183 realloc_triangular_banded *)
Definition realloc_tbanded (A : tbanded F) (b : Z) : option (tbanded F) :=
  let n := tb_n A in
  let data := zmake (n * (b + 1)) zero in
  do data <-
    (if tb_b A <? b then
       for_up 0 n (fun j data => for_up 0 (tb_b A + 1) (fun i data =>
         do v <- zget (tb_data A) (i + j * (tb_b A + 1));
         zset data (i + b - tb_b A + j * (b + 1)) v) data) data
     else if b <? tb_b A then
       for_up 0 n (fun j data => for_up 0 (b + 1) (fun i data =>
         do v <- zget (tb_data A) (i + tb_b A - b + j * (tb_b A + 1));
         zset data (i + j * (b + 1)) v) data) data
     else Some data);
  Some (TBanded data n b).

(** 186-192 view_triangular_banded: [skipn] is the pointer offset into the shared block *)
Definition view_tbanded (A : tbanded F) (start stop : Z) : tbanded F :=
  TBanded (skipn (Z.to_nat (start * (tb_b A + 1))) (tb_data A)) (stop - start) (tb_b A).
(** 194-202 convert_triangular_banded_to_banded *)
Definition tb_to_banded (A : tbanded F) : banded F := Banded (tb_data A) (tb_n A) (tb_n A) 0 (tb_b A).
(** 204-223 convert_banded_to_triangular_banded *)
Definition banded_to_tb (A : banded F) : option (tbanded F) :=
  if bd_l A =? 0 then Some (TBanded (bd_data A) (bd_n A) (bd_u A))
  else
    do data <- for_up 0 (bd_n A) (fun j data => for_up 0 (bd_u A + 1 + Z.min 0 (bd_l A)) (fun i data =>
                 do v <- zget (bd_data A) (i + j * (bd_l A + bd_u A + 1));
                 zset data (i + j * (bd_u A + 1)) v) data) (zmake ((bd_u A + 1) * bd_n A) zero);
    Some (TBanded data (bd_n A) (bd_u A)).

(** 245-252 get_banded_index *)
Definition bd_in (A : banded F) (i j : Z) : bool :=
  (0 <=? i) && (0 <=? j) && (- bd_l A <=? j - i) && (j - i <=? bd_u A) && (i <? bd_m A) && (j <? bd_n A).
Definition bd_get (A : banded F) (i j : Z) : option F :=
  if bd_in A i j then zget (bd_data A) (bd_u A + i + j * (bd_l A + bd_u A)) else Some zero.
(** 254-259 set_banded_index *)
Definition bd_set (A : banded F) (v : F) (i j : Z) : option (banded F) :=
  if bd_in A i j then
    do data <- zset (bd_data A) (bd_u A + i + j * (bd_l A + bd_u A)) v;
    Some (Banded data (bd_m A) (bd_n A) (bd_l A) (bd_u A))
  else Some A.
(** 261-268 get_triangular_banded_index *)
Definition tb_in (A : tbanded F) (i j : Z) : bool :=
  (0 <=? i) && (0 <=? j) && (0 <=? j - i) && (j - i <=? tb_b A) && (i <? tb_n A) && (j <? tb_n A).
Definition tb_get (A : tbanded F) (i j : Z) : option F :=
  if tb_in A i j then zget (tb_data A) (i + (j + 1) * tb_b A) else Some zero.
(** 270-275 set_triangular_banded_index *)
Definition tb_set (A : tbanded F) (v : F) (i j : Z) : option (tbanded F) :=
  if tb_in A i j then
    do data <- zset (tb_data A) (i + (j + 1) * tb_b A) v;
    Some (TBanded data (tb_n A) (tb_b A))
  else Some A.

(** 278-285 gbmv: y <- alpha*A*x + beta*y *)
Definition gbmv (alpha : F) (A : banded F) (x : list F) (beta : F) (y : list F) : option (list F) :=
  do y <- for_up 0 (bd_m A) (fun i y => do yi <- zget y i; zset y i (mul beta yi)) y;
  for_up 0 (bd_m A) (fun i y =>
    for_up (Z.max 0 (i - bd_l A)) (Z.min (bd_n A) (i + bd_u A + 1)) (fun j y =>
      do yi <- zget y i; do a <- bd_get A i j; do xj <- zget x j;
      zset y i (add yi (mul (mul alpha a) xj))) y) y.

(** 288-304 gbmm: C <- alpha*A*B + beta*C; C is not A or B *)
Definition gbmm (alpha : F) (A B : banded F) (beta : F) (C : banded F) : option (banded F) :=
  let m := bd_m A in let n := bd_n A in let p := bd_n B in
  let l := bd_l C in let u := bd_u C in
  let l1 := bd_l A in let u1 := bd_u A in let l2 := bd_l B in let u2 := bd_u B in
  if negb (bd_m C =? m) || negb (bd_m B =? n) || negb (bd_n C =? p) then None
  else if (bd_l C <? l1 + l2) || (bd_u C <? u1 + u2) then None
  else
    for_up 0 p (fun j C =>
      for_up (Z.max 0 (j - u)) (Z.min m (j + l + 1)) (fun i C =>
        do ab <- for_up (Z.max (Z.max 0 (i - l1)) (j - u2)) (Z.min (Z.min n (i + u1 + 1)) (j + l2 + 1)) (fun k ab =>
                   do a <- bd_get A i k; do b <- bd_get B k j; Some (add ab (mul a b))) zero;
        do c <- bd_get C i j;
        bd_set C (add (mul alpha ab) (mul beta c)) i j) C) C.

(** 307-329 tridiagonal_banded_multiplication: B <- (alpha*A+beta*I)*B, in place *)
Definition tridiagonal_banded_multiplication (alpha : F) (A : banded F) (beta : F) (B : banded F) (l u : Z) : option (banded F) :=
  let m := bd_m B in let n := bd_n B in
  if negb (bd_m A =? bd_n A) || negb (m =? n) || negb (bd_m A =? m) || negb (bd_l A =? 1) || negb (bd_u A =? 1)
     || (bd_l B <=? l) || (bd_u B <=? u) then None
  else
    for_up 0 n (fun j B =>
      let i0 := Z.max 0 (j - u - 1) in
      do a00 <- bd_get A i0 i0; do b0 <- bd_get B i0 j; do a01 <- bd_get A i0 (i0 + 1); do b1 <- bd_get B (i0 + 1) j;
      let t := add (mul (add (mul alpha a00) beta) b0) (mul (mul alpha a01) b1) in
      do st <- for_up i0 (Z.min m (j + l + 1)) (fun i st =>
                 let '(B, t) := st in
                 let s := t in
                 do al <- bd_get A (i + 1) i; do bi <- bd_get B i j;
                 do ad <- bd_get A (i + 1) (i + 1); do bi1 <- bd_get B (i + 1) j;
                 do au <- bd_get A (i + 1) (i + 2); do bi2 <- bd_get B (i + 2) j;
                 let t := add (add (mul (mul alpha al) bi) (mul (add (mul alpha ad) beta) bi1)) (mul (mul alpha au) bi2) in
                 do B <- bd_set B s i j;
                 Some (B, t)) (B, t);
      let '(B, t) := st in
      bd_set B t (Z.max i0 (Z.min m (j + l + 1))) j) B.

(** 332-341 banded_add: C <- alpha*A + beta*B, three different matrices *)
Definition banded_add (alpha : F) (A : banded F) (beta : F) (B : banded F) (C : banded F) : option (banded F) :=
  let m := bd_m C in let n := bd_n C in let l := bd_l C in let u := bd_u C in
  if negb (bd_m A =? m) || negb (bd_m B =? m) || negb (bd_n A =? n) || negb (bd_n B =? n) then None
  else if (l <? Z.max (bd_l A) (bd_l B)) || (u <? Z.max (bd_u A) (bd_u B)) then None
  else
    for_up 0 n (fun j C => for_up (Z.max 0 (j - u)) (Z.min m (j + l + 1)) (fun i C =>
      do a <- bd_get A i j; do b <- bd_get B i j;
      bd_set C (add (mul alpha a) (mul beta b)) i j) C) C.
(** the same with C and A the same matrix (as called at 366) *)
Definition banded_add_inplace (alpha : F) (beta : F) (B : banded F) (C : banded F) : option (banded F) :=
  let m := bd_m C in let n := bd_n C in let l := bd_l C in let u := bd_u C in
  if negb (bd_m B =? m) || negb (bd_n B =? n) then None
  else if (l <? bd_l B) || (u <? bd_u B) then None
  else
    for_up 0 n (fun j C => for_up (Z.max 0 (j - u)) (Z.min m (j + l + 1)) (fun i C =>
      do a <- bd_get C i j; do b <- bd_get B i j;
      bd_set C (add (mul alpha a) (mul beta b)) i j) C) C.

(** 344-355 banded_uniform_scaling_add: A <- alpha*A + beta*I *)
Definition banded_uniform_scaling_add (alpha : F) (A : banded F) (beta : F) : option (banded F) :=
  let m := bd_m A in let n := bd_n A in let l := bd_l A in let u := bd_u A in
  if negb (m =? n) then None
  else
    for_up 0 n (fun j A =>
      do A <- for_up (Z.max 0 (j - u)) j (fun i A => do a <- bd_get A i j; bd_set A (mul alpha a) i j) A;
      do a <- bd_get A j j;
      do A <- bd_set A (add (mul alpha a) beta) j j;
      for_up (j + 1) (Z.min m (j + l + 1)) (fun i A => do a <- bd_get A i j; bd_set A (mul alpha a) i j) A) A.

(** 357-378 operator_orthogonal_polynomial_clenshaw; the copy loop 367-368 runs over the
    m*(2n-1) entries of the data block; the pointer rotation 369-372 is on values *)
Definition operator_clenshaw (n : Z) (c : list F) (incc : Z) (A B C : list F) (X : banded F) (phi0 : F) : option (banded F) :=
  let m := bd_m X in
  let Z0 := calloc_banded m m (n - 1) (n - 1) in
  do st <- for_dn (n - 1) 0 (fun k st =>
             let '(Bk, Bk1, Bk2) := st in
             do ak <- zget A k; do bk <- zget B k; do ck1 <- zget C (k + 1); do ck <- zget c (k * incc);
             do Bk <- tridiagonal_banded_multiplication ak X bk Bk (n - k - 2) (n - k - 2);
             do Bk2 <- banded_uniform_scaling_add (opp ck1) Bk2 ck;
             do Bk <- banded_add_inplace one one Bk2 Bk;
             do data <- for_up 0 (m * (2 * n - 1)) (fun i d => do v <- zget (bd_data Bk) i; zset d i v) (bd_data Bk2);
             let Bt := Banded data (bd_m Bk2) (bd_n Bk2) (bd_l Bk2) (bd_u Bk2) in
             Some (Bt, Bk, Bk1)) (Z0, Z0, Z0);
  let '(Bk, _, _) := st in
  banded_uniform_scaling_add phi0 Bk zero.

(** ** Row-oriented triangular multiply and solve loops
    The routines below share the shape  t = 0; for (k = lo; k < hi; k++) t += a(i,k)*x[k];
    followed by  x[i] = t  or  x[i] = (x[i]-t)/a(i,i). *)
Definition rowdot (get : Z -> option F) (x : list F) (o lo hi : Z) : option F :=
  for_up lo hi (fun k t => do a <- get k; do xk <- zget x (o + k); Some (add t (mul a xk))) zero.
Definition row_mul (get : Z -> Z -> option F) (lo hi : Z -> Z) (o i : Z) (x : list F) : option (list F) :=
  do t <- rowdot (get i) x o (lo i) (hi i); zset x (o + i) t.
Definition row_sol (get : Z -> Z -> option F) (lo hi : Z -> Z) (o i : Z) (x : list F) : option (list F) :=
  do t <- rowdot (get i) x o (lo i) (hi i);
  do xi <- zget x (o + i); do d <- get i i; zset x (o + i) (div (sub xi t) d).

(** TRANS = 'N' is [false], 'T' is [true] (any other character does nothing) *)
(** 381-400 tbmv *)
Definition tbmv (trans : bool) (A : tbanded F) (x : list F) (o : Z) : option (list F) :=
  let n := tb_n A in let b := tb_b A in let data := tb_data A in
  if trans then
    for_dn (n - 1) 0 (row_mul (fun i k => zget data (k + (i + 1) * b)) (fun i => Z.max (i - b) 0) (fun i => i + 1) o) x
  else
    for_up 0 n (row_mul (fun i k => zget data (i + (k + 1) * b)) (fun i => i) (fun i => Z.min (i + b + 1) n) o) x.
(** 403-422 tbsv *)
Definition tbsv (trans : bool) (A : tbanded F) (x : list F) (o : Z) : option (list F) :=
  let n := tb_n A in let b := tb_b A in let data := tb_data A in
  if trans then
    for_up 0 n (row_sol (fun i k => zget data (k + (i + 1) * b)) (fun i => Z.max (i - b) 0) (fun i => i) o) x
  else
    for_dn (n - 1) 0 (row_sol (fun i k => zget data (i + (k + 1) * b)) (fun i => i + 1) (fun i => Z.min (i + b + 1) n) o) x.
(** 425-444 tssv *)
Definition tssv_get (A B : tbanded F) (gamma : F) (i k : Z) : option F :=
  do a <- tb_get A i k; do b <- tb_get B i k; Some (sub a (mul gamma b)).
Definition tssv (trans : bool) (A B : tbanded F) (gamma : F) (x : list F) (o : Z) : option (list F) :=
  let n := tb_n A in let b := Z.max (tb_b A) (tb_b B) in
  if trans then
    for_up 0 n (row_sol (fun i k => tssv_get A B gamma k i) (fun i => Z.max (i - b) 0) (fun i => i) o) x
  else
    for_dn (n - 1) 0 (row_sol (tssv_get A B gamma) (fun i => i + 1) (fun i => Z.min (i + b + 1) n) o) x.
(** 680-700 brmv, R = F->factors *)
Definition brmv (trans : bool) (R : banded F) (x : list F) (o : Z) : option (list F) :=
  let n := bd_n R in let l := bd_l R in let u := bd_u R in let data := bd_data R in
  if trans then
    for_dn (n - 1) 0 (row_mul (fun i k => zget data (u + k + i * (l + u))) (fun i => Z.max (i - u) 0) (fun i => i + 1) o) x
  else
    for_up 0 n (row_mul (fun i k => zget data (u + i + k * (l + u))) (fun i => i) (fun i => Z.min (i + u + 1) n) o) x.
(** 703-723 brsv *)
Definition brsv (trans : bool) (R : banded F) (x : list F) (o : Z) : option (list F) :=
  let n := bd_n R in let l := bd_l R in let u := bd_u R in let data := bd_data R in
  if trans then
    for_up 0 n (row_sol (fun i k => zget data (u + k + i * (l + u))) (fun i => Z.max (i - u) 0) (fun i => i) o) x
  else
    for_dn (n - 1) 0 (row_sol (fun i k => zget data (u + i + k * (l + u))) (fun i => i + 1) (fun i => Z.min (i + u + 1) n) o) x.
(** 726-746 blmv, L = F->factors *)
Definition blmv (trans : bool) (L : banded F) (x : list F) (o : Z) : option (list F) :=
  let n := bd_n L in let l := bd_l L in let u := bd_u L in let data := bd_data L in
  if trans then
    for_up 0 n (row_mul (fun i k => zget data (u + k + i * (l + u))) (fun i => i) (fun i => Z.min (i + l + 1) n) o) x
  else
    for_dn (n - 1) 0 (row_mul (fun i k => zget data (u + i + k * (l + u))) (fun i => Z.max (i - l) 0) (fun i => i + 1) o) x.
(** 749-769 blsv *)
Definition blsv (trans : bool) (L : banded F) (x : list F) (o : Z) : option (list F) :=
  let n := bd_n L in let l := bd_l L in let u := bd_u L in let data := bd_data L in
  if trans then
    for_dn (n - 1) 0 (row_sol (fun i k => zget data (u + k + i * (l + u))) (fun i => i + 1) (fun i => Z.min (i + l + 1) n) o) x
  else
    for_up 0 n (row_sol (fun i k => zget data (u + i + k * (l + u))) (fun i => Z.max (i - l) 0) (fun i => i) o) x.

(** ** Dense upper triangular, 1160-1193, and transforms_mpfr.c 17-54, 71-113
    [ma a y x] is the update x + a*y, [ms a y x] the update x - a*y: one multiplication and one
    addition in banded_source.c, mpfr_fma and mpfr_fms;mpfr_neg (one rounding) in transforms_mpfr.c.
    MPFR's products A*x are commutative, as is the order x*A written here. *)
(** 1160-1175 trmv, transforms_mpfr.c 17-32 ft_mpfr_trmv *)
Definition trmv_gen (ma : F -> F -> F -> F) (trans : bool) (n : Z) (A : list F) (oA LDA : Z) (x : list F) (o : Z) : option (list F) :=
  if trans then
    for_dn (n - 1) 0 (fun i x =>
      do a <- zget A (oA + (i + i * LDA)); do xi <- zget x (o + i);
      do x <- zset x (o + i) (mul xi a);
      for_dn (i - 1) 0 (fun j x =>
        do xi <- zget x (o + i); do a <- zget A (oA + (j + i * LDA)); do xj <- zget x (o + j);
        zset x (o + i) (ma a xj xi)) x) x
  else
    for_up 0 n (fun j x =>
      do x <- for_up 0 j (fun i x =>
                do xi <- zget x (o + i); do a <- zget A (oA + (i + j * LDA)); do xj <- zget x (o + j);
                zset x (o + i) (ma a xj xi)) x;
      do xj <- zget x (o + j); do a <- zget A (oA + (j + j * LDA)); zset x (o + j) (mul xj a)) x.
(** 1178-1193 trsv, transforms_mpfr.c 35-54 ft_mpfr_trsv *)
Definition trsv_gen (ms : F -> F -> F -> F) (trans : bool) (n : Z) (A : list F) (oA LDA : Z) (x : list F) (o : Z) : option (list F) :=
  if trans then
    for_up 0 n (fun i x =>
      do x <- for_up 0 i (fun j x =>
                do xi <- zget x (o + i); do a <- zget A (oA + (j + i * LDA)); do xj <- zget x (o + j);
                zset x (o + i) (ms a xj xi)) x;
      do xi <- zget x (o + i); do a <- zget A (oA + (i + i * LDA)); zset x (o + i) (div xi a)) x
  else
    for_dn (n - 1) 0 (fun j x =>
      do xj <- zget x (o + j); do a <- zget A (oA + (j + j * LDA));
      do x <- zset x (o + j) (div xj a);
      for_up 0 j (fun i x =>
        do xi <- zget x (o + i); do a <- zget A (oA + (i + j * LDA)); do xj <- zget x (o + j);
        zset x (o + i) (ms a xj xi)) x) x.
Definition trmv := trmv_gen (fun a y x => add x (mul a y)).
Definition trsv := trsv_gen (fun a y x => sub x (mul a y)).

(** a routine applied to each of the N columns of B (sequential order; the omp loop is C12):
    1211-1215 trmm, 1234-1238 trsm, 1363-1385 bfmm/bfsm, 1492-1502 mpmm/mpsm *)
Definition columnwise (f : list F -> Z -> option (list F)) (B : list F) (LDB N : Z) : option (list F) :=
  for_up 0 N (fun j B => f B (j * LDB)) B.
Definition trmm trans n A LDA B LDB N := columnwise (fun B o => trmv trans n A 0 LDA B o) B LDB N.
Definition trsm trans n A LDA B LDB N := columnwise (fun B o => trsv trans n A 0 LDA B o) B LDB N.

(** 1460-1474 mpmv, 1476-1490 mpsv; [nv], [K], [R] are the fields of the plan *)
Definition mpmv (trans : bool) (nv : Z) (K R : tbanded F) (x : list F) (o : Z) : option (list F) :=
  if nv <? 1 then tbsv trans R x o
  else if trans then do x <- tbmv true R x o; tbsv true K x o
  else do x <- tbsv false K x o; tbmv false R x o.
Definition mpsv (trans : bool) (nv : Z) (K R : tbanded F) (x : list F) (o : Z) : option (list F) :=
  if nv <? 1 then tbmv trans R x o
  else if trans then do x <- tbmv true K x o; tbsv true R x o
  else do x <- tbsv false R x o; tbmv false K x o.
Definition mpmm trans nv K R B LDB N := columnwise (mpmv trans nv K R) B LDB N.
Definition mpsm trans nv K R B LDB N := columnwise (mpsv trans nv K R) B LDB N.

End Model.
