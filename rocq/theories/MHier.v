(** * Model of src/hierarchical_source.c: dense, low-rank and hierarchical matrices

    A pointer argument is an array with an offset.  Input and output arrays do not overlap
    (the library never passes overlapping ones).  [TRANS] is a boolean: 'T' is [true], 'N' is
    [false]; other characters, for which the C code does nothing, are not modelled.  The CBLAS
    variants of gemm (lines 623-637) are external code and not modelled.  The
    [#pragma omp parallel for] loops run in index order here; schedules are treated in
    MSched.v. *)
From Coq Require Import ZArith List Bool.
From Verif Require Import Arith Base MSort.
Import ListNotations.
Open Scope Z_scope.

(** hierarchical_source.h X(densematrix) *)
Record dense F := Dense { de_A : list F; de_m : Z; de_n : Z }.
(** X(lowrankmatrix): U S V^T when [lr_three] (N == '3'), U V^T otherwise (N == '2');
    [lr_t1], [lr_t2] are the scratch vectors, of which the products only overwrite copies here:
    their contents on return are never read by the library *)
Record lowrank F := LowRank { lr_U : list F; lr_S : list F; lr_V : list F; lr_t1 : list F; lr_t2 : list F;
  lr_m : Z; lr_n : Z; lr_r : Z; lr_three : bool }.
Arguments Dense {F}. Arguments de_A {F}. Arguments de_m {F}. Arguments de_n {F}.
Arguments LowRank {F}. Arguments lr_U {F}. Arguments lr_S {F}. Arguments lr_V {F}. Arguments lr_t1 {F}. Arguments lr_t2 {F}.
Arguments lr_m {F}. Arguments lr_n {F}. Arguments lr_r {F}. Arguments lr_three {F}.
(** X(hierarchicalmatrix): an M by N array of blocks; the constructor of a block is its hash
    entry (0: none, 1: hierarchical, 2: dense, 3: low rank); block (m,n) is number m+n*M *)
Inductive hmat F :=
| HNone | HDense (A : dense F) | HLow (L : lowrank F) | HTree (m n M N : Z) (blocks : list (hmat F)).
Arguments HNone {F}. Arguments HDense {F}. Arguments HLow {F}. Arguments HTree {F}.

Section Model.
Context {F : Type} {AF : Arith F}.

(** 386-411 size_densematrix, size_lowrankmatrix, size_hierarchicalmatrix, blocksize default *)
Definition hrows (H : hmat F) : Z := match H with HNone => 1 | HDense A => de_m A | HLow L => lr_m L | HTree m _ _ _ _ => m end.
Definition hcols (H : hmat F) : Z := match H with HNone => 1 | HDense A => de_n A | HLow L => lr_n L | HTree _ n _ _ _ => n end.
(** 404-411 blocksize_hierarchicalmatrix(H, m, n, 1) and (.., 2) *)
Definition block_rows (bl : list (hmat F)) (M m n : Z) : option Z := do b <- zget bl (m + n * M); Some (hrows b).
Definition block_cols (bl : list (hmat F)) (M m n : Z) : option Z := do b <- zget bl (m + n * M); Some (hcols b).

(** the treatment of beta that opens gemv, gemm, ghmv, ghmm (593-599, 609-615, ..) *)
Definition scale_vec (n : Z) (beta : F) (y : list F) (oy : Z) : option (list F) :=
  if eqb beta one then Some y
  else if eqb beta zero then for_up 0 n (fun i y => zset y (oy + i) zero) y
  else for_up 0 n (fun i y => do yi <- zget y (oy + i); zset y (oy + i) (mul beta yi)) y.
(** 588-622 gemv *)
Definition gemv (trans : bool) (m n : Z) (alpha : F) (A : list F) (oA lda : Z) (x : list F) (ox : Z) (beta : F) (y : list F) (oy : Z) : option (list F) :=
  if trans then
    do y <- scale_vec n beta y oy;
    for_up 0 n (fun i y =>
      do t <- for_up 0 m (fun j t => do a <- zget A (oA + (j + i * lda)); do xj <- zget x (ox + j); Some (add t (mul a xj))) zero;
      do yi <- zget y (oy + i);
      zset y (oy + i) (add yi (mul alpha t))) y
  else
    do y <- scale_vec m beta y oy;
    for_up 0 n (fun j y =>
      do xj <- zget x (ox + j);
      let t := mul alpha xj in
      for_up 0 m (fun i y =>
        do yi <- zget y (oy + i);
        do a <- zget A (oA + (i + j * lda));
        zset y (oy + i) (add yi (mul a t))) y) y.
(** 638-676 gemm, the portable version: the body of the loop over the p columns is the text of
    gemv with B+k*LDB for x and C+k*LDC for y *)
Definition gemm (trans : bool) (m n p : Z) (alpha : F) (A : list F) (oA lda : Z) (B : list F) (oB ldb : Z) (beta : F) (C : list F) (oC ldc : Z) : option (list F) :=
  for_up 0 p (fun k C => gemv trans m n alpha A oA lda B (oB + k * ldb) beta C (oC + k * ldc)) C.
(** 680-682 demv, 684-686 demm *)
Definition demv (trans : bool) (alpha : F) (A : dense F) (x : list F) (ox : Z) (beta : F) (y : list F) (oy : Z) : option (list F) :=
  gemv trans (de_m A) (de_n A) alpha (de_A A) 0 (de_m A) x ox beta y oy.
Definition demm (trans : bool) (p : Z) (alpha : F) (A : dense F) (B : list F) (oB ldb : Z) (beta : F) (C : list F) (oC ldc : Z) : option (list F) :=
  gemm trans (de_m A) (de_n A) p alpha (de_A A) 0 (de_m A) B oB ldb beta C oC ldc.
(** 689-715 lrmv; the scratch of the calling thread starts at t1+r*thread, here at 0 *)
Definition lrmv (trans : bool) (alpha : F) (L : lowrank F) (x : list F) (ox : Z) (beta : F) (y : list F) (oy : Z) : option (list F) :=
  let m := lr_m L in let n := lr_n L in let r := lr_r L in
  if trans then
    do t1 <- gemv true m r one (lr_U L) 0 m x ox zero (lr_t1 L) 0;
    if lr_three L then
      do t2 <- gemv true r r one (lr_S L) 0 r t1 0 zero (lr_t2 L) 0;
      gemv false n r alpha (lr_V L) 0 n t2 0 beta y oy
    else gemv false n r alpha (lr_V L) 0 n t1 0 beta y oy
  else
    do t1 <- gemv true n r one (lr_V L) 0 n x ox zero (lr_t1 L) 0;
    if lr_three L then
      do t2 <- gemv false r r one (lr_S L) 0 r t1 0 zero (lr_t2 L) 0;
      gemv false m r alpha (lr_U L) 0 m t2 0 beta y oy
    else gemv false m r alpha (lr_U L) 0 m t1 0 beta y oy.
(** 717-723 check_temps_lowrankmatrix: enlarges a scratch array to r*p entries; the new entries
    are indeterminate ([zero] here; the theorems hold for any scratch contents) *)
Definition check_temps (r p : Z) (t : list F) : list F := t ++ zmake (r * p - zlen t) zero.
(** 726-753 lrmm *)
Definition lrmm (trans : bool) (p : Z) (alpha : F) (L : lowrank F) (B : list F) (oB ldb : Z) (beta : F) (C : list F) (oC ldc : Z) : option (list F) :=
  let m := lr_m L in let n := lr_n L in let r := lr_r L in
  let s1 := check_temps r p (lr_t1 L) in let s2 := check_temps r p (lr_t2 L) in
  if trans then
    do t1 <- gemm true m r p one (lr_U L) 0 m B oB ldb zero s1 0 r;
    if lr_three L then
      do t2 <- gemm true r r p one (lr_S L) 0 r t1 0 r zero s2 0 r;
      gemm false n r p alpha (lr_V L) 0 n t2 0 r beta C oC ldc
    else gemm false n r p alpha (lr_V L) 0 n t1 0 r beta C oC ldc
  else
    do t1 <- gemm true n r p one (lr_V L) 0 n B oB ldb zero s1 0 r;
    if lr_three L then
      do t2 <- gemm false r r p one (lr_S L) 0 r t1 0 r zero s2 0 r;
      gemm false m r p alpha (lr_U L) 0 m t2 0 r beta C oC ldc
    else gemm false m r p alpha (lr_U L) 0 m t1 0 r beta C oC ldc.

(** the doubly nested loop of ghmv (768-779 with outer n and inner m, 791-802 with outer m and
    inner n): [q] advances by the outer block size, [p] by the inner one *)
Definition block_loop (outer inner : Z) (osz isz : Z -> option Z) (call : Z -> Z -> Z -> Z -> list F -> option (list F)) (y : list F) : option (list F) :=
  do yq <- for_up 0 outer (fun o yq =>
    let '(y, q) := yq in
    do yp <- for_up 0 inner (fun i yp =>
      let '(y, p) := yp in
      do y <- call o i q p y;
      do s <- isz i;
      Some (y, p + s)) (y, 0);
    do s <- osz o;
    Some (fst yp, q + s)) (y, 0);
  Some (fst yq).
(** 756-804 ghmv; a leaf is the corresponding case of the switch *)
Fixpoint ghmv (trans : bool) (alpha : F) (H : hmat F) (x : list F) (ox : Z) (beta : F) (y : list F) (oy : Z) {struct H} : option (list F) :=
  match H with
  | HNone => Some y
  | HDense A => demv trans alpha A x ox beta y oy
  | HLow L => lrmv trans alpha L x ox beta y oy
  | HTree m n M N bl =>
    let calls := map (fun b x ox y oy => ghmv trans alpha b x ox one y oy) bl in
    if trans then
      do y <- scale_vec n beta y oy;
      block_loop M N (fun a => block_rows bl M a (N - 1)) (fun b => block_cols bl M 0 b)
        (fun a b q p y => do call <- zget calls (a + b * M); call x (ox + q) y (oy + p)) y
    else
      do y <- scale_vec m beta y oy;
      block_loop N M (fun b => block_cols bl M 0 b) (fun a => block_rows bl M a (N - 1))
        (fun b a q p y => do call <- zget calls (a + b * M); call x (ox + q) y (oy + p)) y
  end.
(** 810-815: the offset tables mrows and ncols *)
Definition offsets (n : Z) (size : Z -> option Z) : option (list Z) :=
  for_up 1 n (fun k t => do v <- zget t (k - 1); do s <- size (k - 1); zset t k (v + s)) (zmake n 0).
(** 807-897 ghmm *)
Fixpoint ghmm (trans : bool) (alpha : F) (H : hmat F) (p : Z) (B : list F) (oB ldb : Z) (beta : F) (C : list F) (oC ldc : Z) {struct H} : option (list F) :=
  match H with
  | HNone => Some C
  | HDense A => demm trans p alpha A B oB ldb beta C oC ldc
  | HLow L => lrmm trans p alpha L B oB ldb beta C oC ldc
  | HTree m n M N bl =>
    let calls := map (fun b p oB C oC => ghmm trans alpha b p B oB ldb one C oC ldc) bl in
    let pcols := [0; p / 2; p] in
    do mrows <- offsets M (fun a => block_rows bl M a (N - 1));
    do ncols <- offsets N (fun b => block_cols bl M 0 b);
    let size := if trans then n else m in
    do C <- for_up 0 p (fun j C => scale_vec size beta C (oC + j * ldc)) C;
    let part := fun c0 w C =>
      if trans then
        for_up 0 N (fun b C => for_up 0 M (fun a C =>
          do call <- zget calls (a + b * M); do mr <- zget mrows a; do nc <- zget ncols b;
          call w (oB + mr + c0 * ldb) C (oC + nc + c0 * ldc)) C) C
      else
        for_up 0 M (fun a C => for_up 0 N (fun b C =>
          do call <- zget calls (a + b * M); do mr <- zget mrows a; do nc <- zget ncols b;
          call w (oB + nc + c0 * ldb) C (oC + mr + c0 * ldc)) C) C in
    if (if trans then m else n) <=? p then
      for_up 0 2 (fun k C => do c0 <- zget pcols k; do c1 <- zget pcols (k + 1); part c0 (c1 - c0) C) C
    else part 0 p C
  end.

(** 492-534 scale_rows/columns of the leaves.  [A += m] advances through the columns *)
Definition scale_rows_mat (m n : Z) (alpha : F) (x : list F) (ox : Z) (A : list F) : option (list F) :=
  for_up 0 n (fun j A => for_up 0 m (fun i A =>
    do a <- zget A (i + j * m); do xi <- zget x (ox + i); zset A (i + j * m) (mul a (mul alpha xi))) A) A.
Definition scale_rows_dense (alpha : F) (x : list F) (ox : Z) (A : dense F) : option (dense F) :=
  do d <- scale_rows_mat (de_m A) (de_n A) alpha x ox (de_A A); Some (Dense d (de_m A) (de_n A)).
Definition scale_columns_dense (alpha : F) (x : list F) (ox : Z) (A : dense F) : option (dense F) :=
  do d <- for_up 0 (de_n A) (fun j D =>
    do xj <- zget x (ox + j);
    let axj := mul alpha xj in
    for_up 0 (de_m A) (fun i D => do a <- zget D (i + j * de_m A); zset D (i + j * de_m A) (mul a axj)) D) (de_A A);
  Some (Dense d (de_m A) (de_n A)).
Definition scale_rows_lowrank (alpha : F) (x : list F) (ox : Z) (L : lowrank F) : option (lowrank F) :=
  do U <- scale_rows_mat (lr_m L) (lr_r L) alpha x ox (lr_U L);
  Some (LowRank U (lr_S L) (lr_V L) (lr_t1 L) (lr_t2 L) (lr_m L) (lr_n L) (lr_r L) (lr_three L)).
Definition scale_columns_lowrank (alpha : F) (x : list F) (ox : Z) (L : lowrank F) : option (lowrank F) :=
  do V <- scale_rows_mat (lr_n L) (lr_r L) alpha x ox (lr_V L);
  Some (LowRank (lr_U L) (lr_S L) V (lr_t1 L) (lr_t2 L) (lr_m L) (lr_n L) (lr_r L) (lr_three L)).
(** 546-560 scale_rows_hierarchicalmatrix *)
Fixpoint scale_rows (alpha : F) (H : hmat F) (x : list F) (ox : Z) {struct H} : option (hmat F) :=
  match H with
  | HNone => Some HNone
  | HDense A => do A <- scale_rows_dense alpha x ox A; Some (HDense A)
  | HLow L => do L <- scale_rows_lowrank alpha x ox L; Some (HLow L)
  | HTree m n M N bl =>
    let calls := map (fun b x ox => scale_rows alpha b x ox) bl in
    do bl' <- for_up 0 N (fun b bl' =>
      do st <- for_up 0 M (fun a st =>
        let '(bl', p) := st in
        do call <- zget calls (a + b * M);
        do h <- call x (ox + p);
        do bl' <- zset bl' (a + b * M) h;
        do s <- block_rows bl M a (N - 1);
        Some (bl', p + s)) (bl', 0);
      Some (fst st)) bl;
    Some (HTree m n M N bl')
  end.
(** 562-575 scale_columns_hierarchicalmatrix *)
Fixpoint scale_columns (alpha : F) (H : hmat F) (x : list F) (ox : Z) {struct H} : option (hmat F) :=
  match H with
  | HNone => Some HNone
  | HDense A => do A <- scale_columns_dense alpha x ox A; Some (HDense A)
  | HLow L => do L <- scale_columns_lowrank alpha x ox L; Some (HLow L)
  | HTree m n M N bl =>
    let calls := map (fun b x ox => scale_columns alpha b x ox) bl in
    do st <- for_up 0 N (fun b st =>
      let '(bl', q) := st in
      do bl' <- for_up 0 M (fun a bl' =>
        do call <- zget calls (a + b * M);
        do h <- call x (ox + q);
        zset bl' (a + b * M) h) bl';
      do s <- block_cols bl M 0 b;
      Some (bl', q + s)) (bl, 0);
    Some (HTree m n M N (fst st))
  end.
End Model.

(** 239-313 sample_hierarchicalmatrix (and 315-389, sample_accurately_hierarchicalmatrix, which
    differs only in how a dense leaf is filled).  A unitrange is a pair (start, stop).
    [leaf i j] is sample_densematrix (or its accurate version); [low i j] is
    sample_lowrankmatrix.  [geometric] is SPLITTING == 'G'; otherwise 'I'.  [BLOCKSIZE] is the
    macro.  The four if/else-if/else chains are one function [sample_block]. *)
Section Sample.
Context {F : Type} {AF : Arith F}.
Variables (BLOCKSIZE : Z) (geometric : bool) (x y : list F).
Variable leaf : Z * Z -> Z * Z -> option (dense F).
Variable low : Z * Z -> Z * Z -> option (lowrank F).
(** 223-233 dist *)
Definition dist (i j : Z * Z) : option F :=
  do yj0 <- zget y (fst j); do xi1 <- zget x (snd i - 1);
  if ltb xi1 yj0 then Some (sub yj0 xi1)
  else
    do xi0 <- zget x (fst i);
    if leb xi0 yj0 then Some zero
    else
      do yj1 <- zget y (snd j - 1);
      if leb xi0 yj1 then Some zero else Some (sub xi0 yj1).
(** 236 diam *)
Definition diam (v : list F) (i : Z * Z) : option F := do b <- zget v (snd i - 1); do a <- zget v (fst i); Some (sub b a).
Definition len (i : Z * Z) : Z := snd i - fst i.
(** 248-254 index splitting *)
Definition halve (i : Z * Z) : (Z * Z) * (Z * Z) := let c := fst i + (snd i - fst i) / 2 in ((fst i, c), (c, snd i)).
Definition split (v : list F) (i : Z * Z) : option ((Z * Z) * (Z * Z)) :=
  if geometric then
    do a <- zget v (fst i); do b <- zget v (snd i - 1); indsplit v (fst i) (snd i) a b
  else Some (halve i).
Fixpoint sample (fuel : nat) (i j : Z * Z) : option (hmat F) :=
  match fuel with
  | O => None
  | S fuel' =>
    do ii <- split x i; do jj <- split y j;
    let sample_block := fun i j =>
      if (len i <? BLOCKSIZE) || (len j <? BLOCKSIZE) then do A <- leaf i j; Some (HDense A)
      else
        do d <- dist i j; do dx <- diam x i; do dy <- diam y j;
        if leb (if ltb dx dy then dx else dy) d then do L <- low i j; Some (HLow L)
        else sample fuel' i j in
    let '(i1, i2) := ii in let '(j1, j2) := jj in
    do b0 <- sample_block i1 j1;
    do b1 <- sample_block i2 j1;
    do b2 <- sample_block i1 j2;
    do b3 <- sample_block i2 j2;
    Some (HTree (len i) (len j) 2 2 [b0; b1; b2; b3])
  end.
(** 121-130 sample_densematrix *)
Definition sample_dense (f : F -> F -> F) (i j : Z * Z) : option (dense F) :=
  let M := len i in
  do A <- for_up (fst j) (snd j) (fun n A => for_up (fst i) (snd i) (fun m A =>
    do xm <- zget x m; do yn <- zget y n; zset A (m - fst i + M * (n - fst j)) (f xm yn)) A) (zmake (M * len j) zero);
  Some (Dense A M (len j)).
End Sample.
