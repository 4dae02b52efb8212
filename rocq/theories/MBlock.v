(** * Model of src/blockbanded_source.c: 2x2-block upper-triangular matrices

    [m2] is the C type FLT[2][2].  A pointer argument [x] is an array with an offset [o].
    [tn] is FT_GET_THREAD_NUM(), [BS] is TB_EIGEN_BLOCKSIZE.  [exit_failure] is [None].
    TRANS = 'N' is [false], 'T' is [true]; DBLOCK and RBLOCK '1' are [false], '2' are [true]
    (other characters make the C code do nothing, or use stale scratch; not modelled). *)
From Coq Require Import ZArith List Bool.
From Verif Require Import Arith Base MBanded MHier MEig MButter.
Import ListNotations.
Open Scope Z_scope.

Record m2 F := M2 { m00 : F; m01 : F; m10 : F; m11 : F }.
Arguments M2 {F}. Arguments m00 {F}. Arguments m01 {F}. Arguments m10 {F}. Arguments m11 {F}.
(** blockbanded_source.h struct block_2x2_triangular_banded: data[p][q], n, b *)
Record btband F := BTBand { bt00 : tbanded F; bt01 : tbanded F; bt10 : tbanded F; bt11 : tbanded F; bt_n : Z; bt_b : Z }.
Arguments BTBand {F}. Arguments bt00 {F}. Arguments bt01 {F}. Arguments bt10 {F}. Arguments bt11 {F}. Arguments bt_n {F}. Arguments bt_b {F}.
(** blockbanded_source.h struct btb_eigen_FMM: F, s, c, t, n *)
Record btbeig F := BtbEig { bf_F : tbeig F; bf_s : list F; bf_c : list F; bf_t : list F; bf_n : Z }.
Arguments BtbEig {F}. Arguments bf_F {F}. Arguments bf_s {F}. Arguments bf_c {F}. Arguments bf_t {F}. Arguments bf_n {F}.

Section Block.
Context {F : Type} {AF : Arith F}.

(** 17-38 create_block_2x2_triangular_banded: blocks of smaller bandwidth are enlarged *)
Definition widen (b : Z) (T : tbanded F) : option (tbanded F) := if tb_b T =? b then Some T else realloc_tbanded T b.
Definition create_btband (d00 d01 d10 d11 : tbanded F) : option (btband F) :=
  let n := tb_n d00 in
  if negb (tb_n d01 =? n) || negb (tb_n d10 =? n) || negb (tb_n d11 =? n) then None
  else
    let b := Z.max (Z.max (tb_b d00) (tb_b d01)) (Z.max (tb_b d10) (tb_b d11)) in
    do d00 <- widen b d00; do d01 <- widen b d01; do d10 <- widen b d10; do d11 <- widen b d11;
    Some (BTBand d00 d01 d10 d11 n b).

(** the block data[i%2][j%2] *)
Definition bt_block (A : btband F) (p q : Z) : tbanded F :=
  if p =? 0 then (if q =? 0 then bt00 A else bt01 A) else if q =? 0 then bt10 A else bt11 A.
(** 49-51 get_block_2x2_triangular_banded_index (i, j >= 0) *)
Definition bt_get1 (A : btband F) (i j : Z) : option F := tb_get (bt_block A (i mod 2) (j mod 2)) (i / 2) (j / 2).
(** 40-47 convert_block_2x2_triangular_banded_to_triangular_banded; the fresh block holds [junk] *)
Definition btband_to_tb (junk : F) (A : btband F) : option (tbanded F) :=
  let n := bt_n A in let b := bt_b A in
  for_up 0 (2 * n) (fun j B => for_up (Z.max (j - 2 * b - 1) 0) (j + 1) (fun k B =>
    do v <- bt_get1 A k j; tb_set B v k j) B) (TBanded (zmake (2 * n * (2 * b + 1 + 1)) junk) (2 * n) (2 * b + 1)).
(** 57-62 block_get_block_2x2_triangular_banded_index *)
Definition bt_get (A : btband F) (i j : Z) : option (m2 F) :=
  do a <- tb_get (bt00 A) i j; do b <- tb_get (bt01 A) i j; do c <- tb_get (bt10 A) i j; do d <- tb_get (bt11 A) i j;
  Some (M2 a b c d).
(** 64-69 block_set_block_2x2_triangular_banded_index *)
Definition bt_set (A : btband F) (v : m2 F) (i j : Z) : option (btband F) :=
  do a <- tb_set (bt00 A) (m00 v) i j; do b <- tb_set (bt01 A) (m01 v) i j;
  do c <- tb_set (bt10 A) (m10 v) i j; do d <- tb_set (bt11 A) (m11 v) i j;
  Some (BTBand a b c d (bt_n A) (bt_b A)).

(** 72-78 inverse_2x2 *)
Definition inverse_2x2 (A : m2 F) : m2 F :=
  let d := sub (mul (m00 A) (m11 A)) (mul (m01 A) (m10 A)) in
  M2 (div (m11 A) d) (div (opp (m01 A)) d) (div (opp (m10 A)) d) (div (m00 A) d).
Definition m2_t (A : m2 F) : m2 F := M2 (m00 A) (m10 A) (m01 A) (m11 A).
(** A[0][0]*x0 + A[0][1]*x1 and A[1][0]*x0 + A[1][1]*x1 *)
Definition m2_row0 (A : m2 F) (x0 x1 : F) : F := add (mul (m00 A) x0) (mul (m01 A) x1).
Definition m2_row1 (A : m2 F) (x0 x1 : F) : F := add (mul (m10 A) x0) (mul (m11 A) x1).
Definition set_pair (x : list F) (o i : Z) (t0 t1 : F) : option (list F) :=
  do x <- zset x (o + 2 * i) t0; zset x (o + (2 * i + 1)) t1.

(** the sums t[0], t[1] over k in [lo, hi): 86-92, 97-103, 117-122, 131-136 *)
Definition blk_dot (get : Z -> option (m2 F)) (x : list F) (o lo hi : Z) : option (F * F) :=
  for_up lo hi (fun k t =>
    do a <- get k; do x0 <- zget x (o + 2 * k); do x1 <- zget x (o + (2 * k + 1));
    Some (add (fst t) (m2_row0 a x0 x1), add (snd t) (m2_row1 a x0 x1))) (zero, zero).
Definition blk_mul (get : Z -> Z -> option (m2 F)) (lo hi : Z -> Z) (o i : Z) (x : list F) : option (list F) :=
  do t <- blk_dot (get i) x o (lo i) (hi i); set_pair x o i (fst t) (snd t).
Definition blk_sol (get : Z -> Z -> option (m2 F)) (inv : m2 F -> m2 F) (diag : Z -> option (m2 F)) (lo hi : Z -> Z) (o i : Z) (x : list F) : option (list F) :=
  do t <- blk_dot (get i) x o (lo i) (hi i);
  do a <- diag i; let b := inv a in
  do x0 <- zget x (o + 2 * i); do x1 <- zget x (o + (2 * i + 1));
  let t0 := sub x0 (fst t) in let t1 := sub x1 (snd t) in
  set_pair x o i (m2_row0 b t0 t1) (m2_row1 b t0 t1).
Definition bt_get_t (A : btband F) (i k : Z) : option (m2 F) := do a <- bt_get A k i; Some (m2_t a).
(** 81-107 btbmv *)
Definition btbmv (trans : bool) (A : btband F) (x : list F) (o : Z) : option (list F) :=
  let n := bt_n A in let b := bt_b A in
  if trans then for_dn (n - 1) 0 (blk_mul (bt_get_t A) (fun i => Z.max (i - b) 0) (fun i => i + 1) o) x
  else for_up 0 n (blk_mul (bt_get A) (fun i => i) (fun i => Z.min (i + b + 1) n) o) x.
(** 110-146 btbsv *)
Definition btbsv (trans : bool) (A : btband F) (x : list F) (o : Z) : option (list F) :=
  let n := bt_n A in let b := bt_b A in
  if trans then for_up 0 n (blk_sol (bt_get_t A) (fun a => m2_t (inverse_2x2 a)) (fun i => bt_get A i i) (fun i => Z.max (i - b) 0) (fun i => i) o) x
  else for_dn (n - 1) 0 (blk_sol (bt_get A) inverse_2x2 (fun i => bt_get A i i) (fun i => i + 1) (fun i => Z.min (i + b + 1) n) o) x.

(** 150-177 real_quadratic_formula *)
Definition real_quadratic_formula (a b c : F) : option (F * F) :=
  let d := sub (mul b b) (mul (mul (ofZ 4) a) c) in
  if ltb d zero then None else
  let d := sqrtA d in
  if ltb zero a then
    if ltb zero b then Some (div (opp (add b d)) (mul (ofZ 2) a), div (mul (ofZ (-2)) c) (add b d))
    else Some (div (mul (ofZ 2) c) (sub d b), div (sub d b) (mul (ofZ 2) a))
  else if ltb a zero then
    if ltb zero b then Some (div (mul (ofZ (-2)) c) (add b d), div (opp (add b d)) (mul (ofZ 2) a))
    else Some (div (sub d b) (mul (ofZ 2) a), div (mul (ofZ 2) c) (sub d b))
  else None.
(** 179-185 generalized_eigenvalues_2x2 *)
Definition generalized_eigenvalues_2x2 (A B : m2 F) : option (F * F) :=
  let a := sub (mul (m00 B) (m11 B)) (mul (m01 B) (m10 B)) in
  let b := sub (sub (add (mul (m01 A) (m10 B)) (mul (m10 A) (m01 B))) (mul (m00 A) (m11 B))) (mul (m11 A) (m00 B)) in
  let c := sub (mul (m00 A) (m11 A)) (mul (m01 A) (m10 A)) in
  real_quadratic_formula a b c.
(** 187-194 block_2x2_triangular_banded_eigenvalues *)
Definition btband_eigenvalues (A B : btband F) (lambda : list F) : option (list F) :=
  for_up 0 (bt_n A) (fun j lambda =>
    do a <- bt_get A j j; do b <- bt_get B j j; do l <- generalized_eigenvalues_2x2 a b;
    set_pair lambda 0 j (fst l) (snd l)) lambda.
(** 196-201 scaled_diff_2x2 *)
Definition scaled_diff_2x2 (A : m2 F) (lambda : F) (B : m2 F) : m2 F :=
  M2 (sub (m00 A) (mul lambda (m00 B))) (sub (m01 A) (mul lambda (m01 B))) (sub (m10 A) (mul lambda (m10 B))) (sub (m11 A) (mul lambda (m11 B))).
Definition bt_diff (A B : btband F) (lam : F) (i k : Z) : option (m2 F) :=
  do a <- bt_get A i k; do b <- bt_get B i k; Some (scaled_diff_2x2 a lam b).
(** 211-212: the second entry of the eigenvector of a diagonal block with first entry [v] *)
Definition eig_second (a b : m2 F) (lam v : F) : F :=
  div (mul (sub (mul (m10 b) lam) (m10 a)) v) (sub (m11 a) (mul (m11 b) lam)).
(** 215-229: one pair of entries of the column that starts at [o] *)
Definition blk_eig (A B : btband F) (n bnd : Z) (lam : F) (o i : Z) (V : list F) : option (list F) :=
  do t <- blk_dot (bt_diff A B lam i) V o (i + 1) (Z.min (i + bnd + 1) n);
  do c <- bt_diff A B lam i i;
  let d := inverse_2x2 c in
  set_pair V o i (opp (m2_row0 d (fst t) (snd t))) (opp (m2_row1 d (fst t) (snd t))).
(** 204-232 block_2x2_triangular_banded_eigenvectors *)
Definition btband_eigenvectors (A B : btband F) (V : list F) : option (list F) :=
  let n := bt_n A in let bnd := Z.max (bt_b A) (bt_b B) in
  for_up 0 n (fun j V =>
    do a <- bt_get A j j; do b <- bt_get B j j; do l <- generalized_eigenvalues_2x2 a b;
    do v <- zget V (2 * j + 2 * j * 2 * n);
    do V <- zset V (2 * j + 1 + 2 * j * 2 * n) (eig_second a b (fst l) v);
    do v <- zget V (2 * j + (2 * j + 1) * 2 * n);
    do V <- zset V (2 * j + 1 + (2 * j + 1) * 2 * n) (eig_second a b (snd l) v);
    for_dn (j - 1) 0 (fun i V =>
      do V <- blk_eig A B n bnd (fst l) (2 * j * 2 * n) i V;
      blk_eig A B n bnd (snd l) ((2 * j + 1) * 2 * n) i V) V) V.

(** ** Dense 2x2-block upper triangular *)
(** the block (i, j) of the matrix stored by columns *)
Definition dense_blk (A : list F) (LDA i j : Z) : option (m2 F) :=
  do a <- zget A (2 * i + 2 * j * LDA); do b <- zget A (2 * i + (2 * j + 1) * LDA);
  do c <- zget A (2 * i + 1 + 2 * j * LDA); do d <- zget A (2 * i + 1 + (2 * j + 1) * LDA);
  Some (M2 a b c d).
(** x[2i..] op= a * x[2j..]: 349-350, 364-365, 387-388, 395-396 *)
Definition blk_update (f : F -> F -> F) (a : m2 F) (o i j : Z) (x : list F) : option (list F) :=
  do x0 <- zget x (o + 2 * j); do x1 <- zget x (o + (2 * j + 1));
  do y0 <- zget x (o + 2 * i); do x <- zset x (o + 2 * i) (f y0 (m2_row0 a x0 x1));
  do x0 <- zget x (o + 2 * j); do x1 <- zget x (o + (2 * j + 1));
  do y1 <- zget x (o + (2 * i + 1)); zset x (o + (2 * i + 1)) (f y1 (m2_row1 a x0 x1)).
(** x[2i..] = a * x[2i..]: 352-355, 360-363, 382-385, 402-405 *)
Definition blk_apply (a : m2 F) (o i : Z) (x : list F) : option (list F) :=
  do x0 <- zget x (o + 2 * i); do x1 <- zget x (o + (2 * i + 1));
  set_pair x o i (m2_row0 a x0 x1) (m2_row1 a x0 x1).
(** 343-369 btrmv *)
Definition btrmv (trans : bool) (n : Z) (A : list F) (LDA : Z) (x : list F) (o : Z) : option (list F) :=
  if trans then
    for_dn (n - 1) 0 (fun i x =>
      do a <- dense_blk A LDA i i; do x <- blk_apply (m2_t a) o i x;
      for_dn (i - 1) 0 (fun j x => do a <- dense_blk A LDA j i; blk_update add (m2_t a) o i j x) x) x
  else
    for_up 0 n (fun j x =>
      do x <- for_up 0 j (fun i x => do a <- dense_blk A LDA i j; blk_update add a o i j x) x;
      do a <- dense_blk A LDA j j; blk_apply a o j x) x.
(** 372-408 btrsv *)
Definition btrsv (trans : bool) (n : Z) (A : list F) (LDA : Z) (x : list F) (o : Z) : option (list F) :=
  if trans then
    for_up 0 n (fun i x =>
      do x <- for_up 0 i (fun j x => do a <- dense_blk A LDA j i; blk_update sub (m2_t a) o i j x) x;
      do a <- dense_blk A LDA i i; blk_apply (inverse_2x2 (m2_t a)) o i x) x
  else
    for_dn (n - 1) 0 (fun j x =>
      do a <- dense_blk A LDA j j; do x <- blk_apply (inverse_2x2 a) o j x;
      for_up 0 j (fun i x => do a <- dense_blk A LDA i j; blk_update sub a o i j x) x) x.
(** 411-415 btrmm, 418-422 btrsm *)
Definition btrmm trans n A LDA B LDB N := columnwise (fun B o => btrmv trans n A LDA B o) B LDB N.
Definition btrsm trans n A LDA B LDB N := columnwise (fun B o => btrsv trans n A LDA B o) B LDB N.

(** ** Plans *)
Variables (BS tn : Z).
(** 433-438, 457-462 ([sg] = false) and 443-448, 467-472 ([sg] = true): the rotations of the pairs *)
Definition rotate_pairs (inv : bool) (n : Z) (s c : list F) (x : list F) (o : Z) : option (list F) :=
  for_up 0 n (fun i x =>
    do si <- zget s i; do ci <- zget c i; do x0 <- zget x (o + 2 * i); do x1 <- zget x (o + (2 * i + 1));
    if inv then set_pair x o i (add (mul ci x0) (mul si x1)) (sub (mul ci x1) (mul si x0))
    else set_pair x o i (sub (mul ci x0) (mul si x1)) (add (mul ci x1) (mul si x0))) x.
(** 425-450 bbfmv *)
Definition bbfmv (trans : bool) (E : btbeig F) (x : list F) (o : Z) : option (list F) :=
  if trans then do x <- rotate_pairs true (bf_n E) (bf_s E) (bf_c E) x o; bfmv BS tn true (bf_F E) x o
  else do x <- bfmv BS tn false (bf_F E) x o; rotate_pairs false (bf_n E) (bf_s E) (bf_c E) x o.
(** 453-478 bbfsv *)
Definition bbfsv (trans : bool) (E : btbeig F) (x : list F) (o : Z) : option (list F) :=
  if trans then do x <- bfsv BS tn true (bf_F E) x o; rotate_pairs false (bf_n E) (bf_s E) (bf_c E) x o
  else do x <- rotate_pairs true (bf_n E) (bf_s E) (bf_c E) x o; bfsv BS tn false (bf_F E) x o.
(** 480-490 bbfmm, bbfsm *)
Definition bbfmm trans E B LDB N := columnwise (bbfmv trans E) B LDB N.
Definition bbfsm trans E B LDB N := columnwise (bbfsv trans E) B LDB N.
(** 497-508, 522-533: x into the even or odd places of the scratch array at [ot], zeros elsewhere *)
Definition spread (second : bool) (n : Z) (x : list F) (o : Z) (t : list F) (ot : Z) : option (list F) :=
  for_up 0 n (fun i t => do v <- zget x (o + i);
    if second then set_pair t ot i zero v else set_pair t ot i v zero) t.
(** 510-515, 535-540: the even or odd places back to x *)
Definition collect (second : bool) (n : Z) (t : list F) (ot : Z) (x : list F) (o : Z) : option (list F) :=
  for_up 0 n (fun i x => do v <- zget t (ot + (2 * i + (if second then 1 else 0))); zset x (o + i) v) x.
(** 493-516 bbbfmv, 519-542 bbbfsv; the scratch array is in the plan, its final contents are not returned *)
Definition bbbfmv (trans dblock rblock : bool) (E : btbeig F) (x : list F) (o : Z) : option (list F) :=
  let n := bf_n E in let ot := 2 * n * tn in
  do t <- spread dblock n x o (bf_t E) ot; do t <- bbfmv trans E t ot; collect rblock n t ot x o.
Definition bbbfsv (trans dblock rblock : bool) (E : btbeig F) (x : list F) (o : Z) : option (list F) :=
  let n := bf_n E in let ot := 2 * n * tn in
  do t <- spread rblock n x o (bf_t E) ot; do t <- bbfsv trans E t ot; collect dblock n t ot x o.
(** 544-556 bbbfmm, bbbfsm *)
Definition bbbfmm trans d r E B LDB N := columnwise (bbbfmv trans d r E) B LDB N.
Definition bbbfsm trans d r E B LDB N := columnwise (bbbfsv trans d r E) B LDB N.
End Block.
