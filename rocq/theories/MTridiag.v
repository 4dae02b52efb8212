(** * Model of src/tridiagonal_source.c: tridiagonal and bidiagonal kernels *)
From Coq Require Import ZArith List Bool.
From Verif Require Import Arith Base.
Import ListNotations.
Open Scope Z_scope.

(** tridiagonal_source.h: symmetric_tridiagonal (a: diagonal, b: off-diagonal),
    skew_symmetric_tridiagonal (b), bidiagonal (c: diagonal, d: superdiagonal) *)
Record symtri F := SymTri { st_a : list F; st_b : list F; st_n : Z }.
Record skewtri F := SkewTri { kt_b : list F; kt_n : Z }.
Record bidiag F := BiDiag { bi_c : list F; bi_d : list F; bi_n : Z }.
Arguments SymTri {F}. Arguments st_a {F}. Arguments st_b {F}. Arguments st_n {F}.
Arguments SkewTri {F}. Arguments kt_b {F}. Arguments kt_n {F}.
Arguments BiDiag {F}. Arguments bi_c {F}. Arguments bi_d {F}. Arguments bi_n {F}.

Section Model.
Context {F : Type} {AF : Arith F}.

(** tridiagonal_source.c 26-44 symmetric_tridiagonal_cholesky; the two malloc blocks are
    filled with zeros (every entry is written before it is read, or an access fails) *)
Definition symtri_cholesky (A : symtri F) : option (bidiag F) :=
  let n := st_n A in
  let c := zmake n zero in
  let d := zmake (n - 1) zero in
  do a0 <- zget (st_a A) 0;
  do c <- zset c 0 (sqrtA a0);
  do cd <- for_up 0 (n - 1) (fun i cd =>
             let '(c, d) := cd in
             do bi <- zget (st_b A) i; do ci <- zget c i;
             do d <- zset d i (div bi ci);
             do ai <- zget (st_a A) (i + 1); do di <- zget d i;
             do c <- zset c (i + 1) (sqrtA (sub ai (mul di di)));
             Some (c, d)) (c, d);
  let '(c, d) := cd in
  Some (BiDiag c d n).

(** y[i] = beta*y[i] for i < n *)
Definition scale_y (n : Z) (beta : F) (y : list F) : option (list F) :=
  for_up 0 n (fun i y => do yi <- zget y i; zset y i (mul beta yi)) y.

(** 47-58 stmv (TRANS is 'N' or 'T': the same code) *)
Definition stmv (alpha : F) (A : symtri F) (x : list F) (beta : F) (y : list F) : option (list F) :=
  let n := st_n A in let a := st_a A in let b := st_b A in
  do y <- scale_y n beta y;
  do y0 <- zget y 0; do a0 <- zget a 0; do x0 <- zget x 0; do b0 <- zget b 0; do x1 <- zget x 1;
  do y <- zset y 0 (add y0 (mul alpha (add (mul a0 x0) (mul b0 x1))));
  do y <- for_up 1 (n - 1) (fun i y =>
            do yi <- zget y i; do bm <- zget b (i - 1); do xm <- zget x (i - 1);
            do ai <- zget a i; do xi <- zget x i; do bi <- zget b i; do xp <- zget x (i + 1);
            zset y i (add yi (mul alpha (add (add (mul bm xm) (mul ai xi)) (mul bi xp))))) y;
  do yn <- zget y (n - 1); do bn <- zget b (n - 2); do xm <- zget x (n - 2); do an <- zget a (n - 1); do xn <- zget x (n - 1);
  zset y (n - 1) (add yn (mul alpha (add (mul bn xm) (mul an xn)))).

(** 61-78 ktmv: [trans] is TRANS == 'T' *)
Definition ktmv (trans : bool) (alpha : F) (A : skewtri F) (x : list F) (beta : F) (y : list F) : option (list F) :=
  let n := kt_n A in let b := kt_b A in
  do y <- scale_y n beta y;
  if trans then
    do y0 <- zget y 0; do b0 <- zget b 0; do x1 <- zget x 1;
    do y <- zset y 0 (sub y0 (mul (mul alpha b0) x1));
    do y <- for_up 1 (n - 1) (fun i y =>
              do yi <- zget y i; do bm <- zget b (i - 1); do xm <- zget x (i - 1); do bi <- zget b i; do xp <- zget x (i + 1);
              zset y i (add yi (mul alpha (sub (mul bm xm) (mul bi xp))))) y;
    do yn <- zget y (n - 1); do bn <- zget b (n - 2); do xm <- zget x (n - 2);
    zset y (n - 1) (add yn (mul (mul alpha bn) xm))
  else
    do y0 <- zget y 0; do b0 <- zget b 0; do x1 <- zget x 1;
    do y <- zset y 0 (add y0 (mul (mul alpha b0) x1));
    do y <- for_up 1 (n - 1) (fun i y =>
              do yi <- zget y i; do bm <- zget b (i - 1); do xm <- zget x (i - 1); do bi <- zget b i; do xp <- zget x (i + 1);
              zset y i (sub yi (mul alpha (sub (mul bm xm) (mul bi xp))))) y;
    do yn <- zget y (n - 1); do bn <- zget b (n - 2); do xm <- zget x (n - 2);
    zset y (n - 1) (sub yn (mul (mul alpha bn) xm)).

(** 81-94 bdmv *)
Definition bdmv (trans : bool) (B : bidiag F) (x : list F) : option (list F) :=
  let n := bi_n B in let c := bi_c B in let d := bi_d B in
  if trans then
    do x <- for_dn (n - 1) 1 (fun i x =>
              do dm <- zget d (i - 1); do xm <- zget x (i - 1); do ci <- zget c i; do xi <- zget x i;
              zset x i (add (mul dm xm) (mul ci xi))) x;
    do x0 <- zget x 0; do c0 <- zget c 0; zset x 0 (mul x0 c0)
  else
    do x <- for_up 0 (n - 1) (fun i x =>
              do ci <- zget c i; do xi <- zget x i; do di <- zget d i; do xp <- zget x (i + 1);
              zset x i (add (mul ci xi) (mul di xp))) x;
    do xn <- zget x (n - 1); do cn <- zget c (n - 1); zset x (n - 1) (mul xn cn).

(** 97-110 bdsv *)
Definition bdsv (trans : bool) (B : bidiag F) (x : list F) : option (list F) :=
  let n := bi_n B in let c := bi_c B in let d := bi_d B in
  if trans then
    do x0 <- zget x 0; do c0 <- zget c 0; do x <- zset x 0 (div x0 c0);
    for_up 1 n (fun i x =>
      do xi <- zget x i; do dm <- zget d (i - 1); do xm <- zget x (i - 1); do ci <- zget c i;
      zset x i (div (sub xi (mul dm xm)) ci)) x
  else
    do xn <- zget x (n - 1); do cn <- zget c (n - 1); do x <- zset x (n - 1) (div xn cn);
    for_dn (n - 2) 0 (fun i x =>
      do xi <- zget x i; do di <- zget d i; do xp <- zget x (i + 1); do ci <- zget c i;
      zset x i (div (sub xi (mul di xp)) ci)) x.

(** 378-396 skew_to_symmetric_tridiagonal: A^T A = B (+) C; the caller supplies the blocks of
    B and C *)
Definition skew_to_symmetric (A : skewtri F) (Ba Bb Ca Cb : list F) : option (list F * list F * list F * list F) :=
  let n := kt_n A in let b := kt_b A in
  do Ba <- (if 0 <? n then do b0 <- zget b 0; zset Ba 0 (mul b0 b0) else Some Ba);
  do Ba <- for_up 1 (n / 2) (fun i Ba =>
             do p <- zget b (2 * i - 1); do q <- zget b (2 * i); zset Ba i (add (mul p p) (mul q q))) Ba;
  do Ba <- (if n mod 2 =? 1 then do p <- zget b (n - 2); zset Ba (n / 2) (mul p p) else Some Ba);
  do Bb <- for_up 0 ((n - 1) / 2) (fun i Bb =>
             do p <- zget b (2 * i); do q <- zget b (2 * i + 1); zset Bb i (mul (opp p) q)) Bb;
  do Ca <- for_up 0 ((n - 1) / 2) (fun i Ca =>
             do p <- zget b (2 * i); do q <- zget b (2 * i + 1); zset Ca i (add (mul p p) (mul q q))) Ca;
  do Ca <- (if n mod 2 =? 0 then do p <- zget b (n - 2); zset Ca (n / 2 - 1) (mul p p) else Some Ca);
  do Cb <- for_up 0 (n / 2 - 1) (fun i Cb =>
             do p <- zget b (2 * i + 1); do q <- zget b (2 * i + 2); zset Cb i (mul (opp p) q)) Cb;
  Some (Ba, Bb, Ca, Cb).

End Model.
