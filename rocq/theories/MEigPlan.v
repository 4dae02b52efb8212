(** * Model of the divide-and-conquer eigenvector planners of triangular banded pencils
    src/banded_source.c 882-1081 (get_sparse_from_eigenvectors, tb_eig_FMM, tb_eig_ADI) and
    src/hierarchical_source.c 941-946 (thresholded_cauchykernel).

    [BS] is TB_EIGEN_BLOCKSIZE, [BLK] the BLOCKSIZE of hierarchical_source.c, [T] is
    FT_GET_MAX_THREADS() and [tn] FT_GET_THREAD_NUM() during planning.  [eps] is Y(eps)() and [tol]
    the product 16*sqrt(eps); they are two parameters so that the tolerance that separates close
    from distant eigenvalues is visible in the theorems.  [low x i j] is
    sample_lowrankmatrix(thresholded_cauchykernel, x, x, i, j); [adi] is ddfadi (3204-3222).
    tb_eig_FMM returns the plan and the fields lambda of all its nodes ([ltree]); tb_eig_ADI returns
    the plan and the field lambda of the root.  [o] is the pointer offset into D.  While a node is
    built its array lambda is kept as two parts (s and n-s entries), which the code only accesses
    through lambda and lambda+s until they are sampled; free() is not modelled.

    src/drop_precision.c 132-191 (drop_precision_sparse, drop_precision_tb_eigen_FMM): [cv] is the
    conversion from the higher to the lower precision, both of which are the type F. *)
From Coq Require Import ZArith List Bool.
From Verif Require Import Arith Base MBanded MHier MSort MEig MButter.
Import ListNotations.
Open Scope Z_scope.

(** the fields lambda of the nodes of a struct tb_eigen_FMM *)
Inductive ltree F := LLeaf (la : list F) | LNode (la : list F) (L1 L2 : ltree F).
Arguments LLeaf {F}. Arguments LNode {F}.
Definition lroot {F} (L : ltree F) : list F := match L with LLeaf la => la | LNode la _ _ => la end.

Section EigPlan.
Context {F : Type} {AF : Arith F}.
Variables (BS T tn BLK : Z) (eps tol : F).
Variable low : list F -> Z * Z -> Z * Z -> option (lowrank F).
Variable adi : Z -> list F -> Z -> list F -> Z -> list F -> list F -> option (lowrank F).

(** hierarchical_source.c 941-946 *)
Definition thresholded_cauchykernel (x y : F) : F := if near tol x y then zero else div one (sub x y).

(** 887-905: the eigenvector that belongs to column j, with entry j equal to D[j]; the work array is
    zeroed before each use (888-889) *)
Definition eig_column (A B : tbanded F) (D : list F) (o n b j : Z) : option (list F) :=
  do d <- zget D (o + j);
  do V <- zset (zmake n zero) j d;
  do a <- tb_get A j j; do c <- tb_get B j j;
  for_dn (j - 1) 0 (fun i V => eigentry eps A B n b (div a c) V 0 i) V.
(** 882-913 get_sparse_from_eigenvectors *)
Definition sparse_from_eigenvectors (F1 : tbeig F) (A B : tbanded F) (D : list F) (o : Z) (p1 p2 p3 p4 : list Z) (n s b idx : Z) : option (sparse F) :=
  for_up 0 idx (fun l Sp =>
    do c4 <- zget p4 l; do c2 <- zget p2 c4;
    do V <- eig_column A B D o n b (c2 + s);
    do V <- bfsv BS tn false F1 V 0;
    do a3 <- zget p3 l; do a1 <- zget p1 a3;
    do p <- zset (sp_p Sp) l a1;
    do q <- zset (sp_q Sp) l c2;
    do v <- zget V a1;
    do v <- zset (sp_v Sp) l v;
    Some (Sparse p q v idx)) (Sparse (zmake idx 0) (zmake idx 0) (zmake idx zero) idx).

(** 919-927, 1013-1022: a leaf; [diag i] is D[i], or 1 in tb_eig_ADI *)
Definition eig_leaf (A B : tbanded F) (diag : Z -> option F) : option (list F * list F) :=
  let n := tb_n A in
  do V <- for_up 0 n (fun i V => do d <- diag i; zset V (i + i * n) d) (zmake (n * n) zero);
  do lambda <- triangular_banded_eigenvalues A B (zmake n zero);
  do V <- triangular_banded_eigenvectors eps A B V;
  Some (V, lambda).
(** 946-951 ([e] is 1), 1042-1048 ([e] is -1): column j of X is F1^{-1} B1^{-1} e_{s-b+j} *)
Definition eig_X (e : F) (solve : list F -> Z -> option (list F)) (B1 : tbanded F) (s b : Z) : option (list F) :=
  for_up 0 b (fun j X =>
    do X <- zset X (s - b + j + j * s) e;
    do X <- tbsv false B1 X (j * s);
    solve X (j * s)) (zmake (s * b) zero).
(** 953-960 (the same in 1050-1057): the last b rows of the upper right block of M, as columns *)
Definition eig_rows (M : tbanded F) (m s b : Z) (Y : list F) : option (list F) :=
  for_up 0 b (fun j Y => for_up j b (fun k Y => do v <- tb_get M (k + s - b) (j + s); zset Y (j + k * m) v) Y) Y.
(** 953-969 (1050-1067): Y *)
Definition eig_Y (mulT : list F -> Z -> option (list F)) (A B : tbanded F) (n s : Z) (lambda2 : list F) : option (list F) :=
  let b1 := tb_b A in let b2 := tb_b B in let b := Z.max b1 b2 in let m := n - s in
  do Y <- eig_rows A m s b1 (zmake (m * b) zero);
  do Y2 <- eig_rows B m s b2 (zmake (m * b2) zero);
  do Y <- columnwise mulT Y m b1;
  do Y2 <- columnwise mulT Y2 m b2;
  for_up 0 b2 (fun j Y => for_up 0 m (fun i Y =>
    do y <- zget Y (i + (j + b - b2) * m); do la <- zget lambda2 i; do y2 <- zget Y2 (i + j * m);
    zset Y (i + (j + b - b2) * m) (sub y (mul la y2))) Y) Y.
(** 971-974: sort the eigenvalues, remembering where they came from *)
Definition eig_sort (lambda : list F) (m : Z) : option (list F * list Z) :=
  do st <- quicksort (fun x y => ltb x y) (S (S (Z.to_nat m))) (SortSt lambda [] (ztab m (fun k => k))) 0 (m - 1);
  Some (so_a st, so_p st).

(** 915-1009 tb_eig_FMM; the fuel bounds the recursion depth *)
Fixpoint tb_eig_FMM (fuel : nat) (A B : tbanded F) (D : list F) (o : Z) : option (tbeig F * ltree F) :=
  match fuel with
  | O => None
  | S fuel =>
    let n := tb_n A in
    let b := Z.max (tb_b A) (tb_b B) in
    if n <? BS then
      do r <- eig_leaf A B (fun i => zget D (o + i));
      Some (TBLeaf n (fst r), LLeaf (snd r))
    else
      let s := n / 2 in let m := n - s in
      let A1 := view_tbanded A 0 s in let B1 := view_tbanded B 0 s in
      let A2 := view_tbanded A s n in let B2 := view_tbanded B s n in
      do r1 <- tb_eig_FMM fuel A1 B1 D o;
      do r2 <- tb_eig_FMM fuel A2 B2 D (o + s);
      let '(F1, L1) := r1 in let '(F2, L2) := r2 in
      let lambda1 := lroot L1 in let lambda2 := lroot L2 in
      do X <- eig_X one (bfsv BS tn false F1) B1 s b;
      do Y <- eig_Y (bfmv BS tn true F2) A B n s lambda2;
      do q1 <- eig_sort lambda1 s;
      do q2 <- eig_sort lambda2 m;
      let '(sort1, p1) := q1 in let '(sort2, p2) := q2 in
      do idx <- count_intersections tol s sort1 m sort2;
      do p34 <- produce_intersection_indices tol s sort1 m sort2 (zmake idx 0) (zmake idx 0);
      do Sp <- sparse_from_eigenvectors F1 A B D o p1 p2 (fst p34) (snd p34) n s b idx;
      let x := sort1 ++ sort2 in
      do F0 <- sample BLK true x x (sample_dense x x thresholded_cauchykernel) (low x) (S (Z.to_nat n)) (0, s) (s, n);
      do u1 <- perm true sort1 p1 s;
      do u2 <- perm true sort2 p2 m;
      Some (TBNode n b F0 X Y (snd u1) (snd u2) Sp (zmake (s * T) zero) (zmake (m * T) zero) F1 F2, LNode (fst u1 ++ fst u2) L1 L2)
  end.

(** 1011-1081 tb_eig_ADI *)
Fixpoint tb_eig_ADI (fuel : nat) (A B : tbanded F) : option (tbadi F * list F) :=
  match fuel with
  | O => None
  | S fuel =>
    let n := tb_n A in
    let b := Z.max (tb_b A) (tb_b B) in
    if n <? BS then
      do r <- eig_leaf A B (fun _ => Some one);
      Some (ADLeaf n (fst r), snd r)
    else
      let s := n / 2 in let m := n - s in
      let A1 := view_tbanded A 0 s in let B1 := view_tbanded B 0 s in
      let A2 := view_tbanded A s n in let B2 := view_tbanded B s n in
      do r1 <- tb_eig_ADI fuel A1 B1;
      do r2 <- tb_eig_ADI fuel A2 B2;
      let '(F1, lambda1) := r1 in let '(F2, lambda2) := r2 in
      do X <- eig_X (opp one) (bfsv_ADI BS false F1) B1 s b;
      do Y <- eig_Y (bfmv_ADI BS true F2) A B n s lambda2;
      do F0 <- adi s lambda1 m lambda2 b X Y;
      Some (ADNode n F0 F1 F2, lambda1 ++ lambda2)
  end.

(** drop_precision.c: every entry is copied by a loop of this form *)
Definition copy_entries {G : Type} (d : G) (cv : G -> G) (src : list G) (o n : Z) : option (list G) :=
  for_up 0 n (fun i a => do v <- zget src (o + i); zset a i (cv v)) (zmake n d).
Variable cv : F -> F.
(** drop_precision.c 132-140 *)
Definition drop_sparse (Sp : sparse F) : option (sparse F) :=
  do p <- copy_entries 0 (fun k => k) (sp_p Sp) 0 (sp_nnz Sp);
  do q <- copy_entries 0 (fun k => k) (sp_q Sp) 0 (sp_nnz Sp);
  do v <- copy_entries zero cv (sp_v Sp) 0 (sp_nnz Sp);
  Some (Sparse p q v (sp_nnz Sp)).
(** drop_precision.c 142-191; thresholded_cauchykernel2 (142) is the kernel of the higher precision *)
Fixpoint drop_tb (E : tbeig F) (L : ltree F) : option (tbeig F * ltree F) :=
  match E, L with
  | TBLeaf n V, LLeaf la =>
    if n <? BS then
      do V <- copy_entries zero cv V 0 (n * n);
      do la <- copy_entries zero cv la 0 n;
      Some (TBLeaf n V, LLeaf la)
    else None
  | TBNode n b F0 X Y p1 p2 Sp t1 t2 F1 F2, LNode la L1 L2 =>
    if n <? BS then None else
    let s := n / 2 in let m := n - s in
    do p1 <- copy_entries 0 (fun k => k) p1 0 s;
    do p2 <- copy_entries 0 (fun k => k) p2 0 m;
    do la1 <- copy_entries zero cv la 0 s;
    do la2 <- copy_entries zero cv la s m;
    do u1 <- perm false la1 p1 s;
    do u2 <- perm false la2 p2 m;
    let x := fst u1 ++ fst u2 in
    do F0 <- sample BLK true x x (sample_dense x x thresholded_cauchykernel) (low x) (S (Z.to_nat n)) (0, s) (s, n);
    do u1 <- perm true (fst u1) (snd u1) s;
    do u2 <- perm true (fst u2) (snd u2) m;
    do r1 <- drop_tb F1 L1;
    do r2 <- drop_tb F2 L2;
    do Sp <- drop_sparse Sp;
    do X <- copy_entries zero cv X 0 (s * b);
    do Y <- copy_entries zero cv Y 0 (m * b);
    Some (TBNode n b F0 X Y (snd u1) (snd u2) Sp (zmake (s * T) zero) (zmake (m * T) zero) (fst r1) (fst r2),
          LNode (fst u1 ++ fst u2) (snd r1) (snd r2))
  | _, _ => None
  end.
End EigPlan.
