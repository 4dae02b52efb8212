(** * Model of the divide-and-conquer eigenvector plans of triangular banded pencils
    src/banded_source.c 1083-1157 (scaling), 1242-1386 (multiply and solve);
    struct tb_eigen_FMM, tb_eigen_ADI and sparse of src/banded_source.h.

    [BS] is TB_EIGEN_BLOCKSIZE.  Leaves hold [V]; inner nodes hold the other fields; reading a field
    that the constructor did not initialise is [None].  The scratch arrays t1 and t2 belong to the
    node; their contents after a call are not returned (the theorems hold for any contents).
    [tn] is FT_GET_THREAD_NUM(). *)
From Coq Require Import ZArith List Bool.
From Verif Require Import Arith Base MBanded MHier.
Import ListNotations.
Open Scope Z_scope.

(** struct sparse: nnz triples (p, q, v) *)
Record sparse F := Sparse { sp_p : list Z; sp_q : list Z; sp_v : list F; sp_nnz : Z }.
Arguments Sparse {F}. Arguments sp_p {F}. Arguments sp_q {F}. Arguments sp_v {F}. Arguments sp_nnz {F}.
Inductive tbeig F :=
| TBLeaf (n : Z) (V : list F)
| TBNode (n b : Z) (F0 : hmat F) (X Y : list F) (p1 p2 : list Z) (Sp : sparse F) (t1 t2 : list F) (F1 F2 : tbeig F).
Arguments TBLeaf {F}. Arguments TBNode {F}.
Inductive tbadi F :=
| ADLeaf (n : Z) (V : list F)
| ADNode (n : Z) (F0 : lowrank F) (F1 F2 : tbadi F).
Arguments ADLeaf {F}. Arguments ADNode {F}.
Definition tbeig_n {F} (E : tbeig F) : Z := match E with TBLeaf n _ => n | TBNode n _ _ _ _ _ _ _ _ _ _ _ => n end.
Definition tbadi_n {F} (E : tbadi F) : Z := match E with ADLeaf n _ => n | ADNode n _ _ _ => n end.

Section Butter.
Context {F : Type} {AF : Arith F}.
Variables (BS tn : Z).

(** 1254-1255, 1270-1271, 1317-1318, 1329-1330: t[i] = Z[p[i]+oz]*x[p[i]+ox] *)
Definition gather_mul (m : Z) (p : list Z) (Z_ : list F) (oz : Z) (x : list F) (ox : Z) (t : list F) (ot : Z) : option (list F) :=
  for_up 0 m (fun i t => do a <- zget p i; do c <- zget Z_ (a + oz); do v <- zget x (a + ox); zset t (ot + i) (mul c v)) t.
(** 1257-1258, 1273-1274, 1320-1321, 1332-1333: x[p[i]+ox] += t[i]*Z[p[i]+oz] *)
Definition scatter_mul (m : Z) (p : list Z) (Z_ : list F) (oz : Z) (t : list F) (ot : Z) (x : list F) (ox : Z) : option (list F) :=
  for_up 0 m (fun i x => do a <- zget p i; do u <- zget t (ot + i); do c <- zget Z_ (a + oz); do v <- zget x (a + ox);
    zset x (a + ox) (add v (mul u c))) x.
(** 1260-1261, 1276-1277 (+=) and 1323-1324, 1335-1336 (-=) *)
Definition sparse_mul (minus : bool) (nnz : Z) (pd ps : list Z) (v : list F) (x : list F) (od os : Z) : option (list F) :=
  for_up 0 nnz (fun l x => do d <- zget pd l; do s <- zget ps l; do w <- zget v l; do xs <- zget x (s + os); do xd <- zget x (d + od);
    zset x (d + od) (if minus then sub xd (mul w xs) else add xd (mul w xs))) x.
(** 1253-1261, 1269-1277, 1316-1324, 1328-1336: one coupling step between the halves.
    The four occurrences differ in the direction ([trans]), in the factor given to ghmv ([alpha])
    and in the sign of the sparse part. *)
Definition couple (trans : bool) (alpha : F) (minus : bool) (n s b : Z) (F0 : hmat F) (X Y : list F) (p1 p2 : list Z) (Sp : sparse F)
    (t1 t2 : list F) (x : list F) (o : Z) : option (list F) :=
  if trans then
    do r <- for_up 0 b (fun k st =>
      let '(x, t1, t2) := st in
      do t1 <- gather_mul s p1 X (k * s) x o t1 (s * tn);
      do t2 <- ghmv true alpha F0 t1 (s * tn) zero t2 ((n - s) * tn);
      do x <- scatter_mul (n - s) p2 Y (k * (n - s)) t2 ((n - s) * tn) x (o + s);
      Some (x, t1, t2)) (x, t1, t2);
    sparse_mul minus (sp_nnz Sp) (sp_q Sp) (sp_p Sp) (sp_v Sp) (fst (fst r)) (o + s) o
  else
    do r <- for_up 0 b (fun k st =>
      let '(x, t1, t2) := st in
      do t2 <- gather_mul (n - s) p2 Y (k * (n - s)) x (o + s) t2 ((n - s) * tn);
      do t1 <- ghmv false alpha F0 t2 ((n - s) * tn) zero t1 (s * tn);
      do x <- scatter_mul s p1 X (k * s) t1 (s * tn) x o;
      Some (x, t1, t2)) (x, t1, t2);
    sparse_mul minus (sp_nnz Sp) (sp_p Sp) (sp_q Sp) (sp_v Sp) (fst (fst r)) o (o + s).

(** 1242-1280 bfmv *)
Fixpoint bfmv (trans : bool) (E : tbeig F) (x : list F) (o : Z) : option (list F) :=
  match E with
  | TBLeaf n V => if n <? BS then trmv trans n V 0 n x o else None
  | TBNode n b F0 X Y p1 p2 Sp t1 t2 F1 F2 =>
    if n <? BS then None else
    let s := n / 2 in
    if trans then
      do x <- bfmv trans F1 x o;
      do x <- bfmv trans F2 x (o + s);
      couple true (opp one) false n s b F0 X Y p1 p2 Sp t1 t2 x o
    else
      do x <- couple false (opp one) false n s b F0 X Y p1 p2 Sp t1 t2 x o;
      do x <- bfmv trans F1 x o;
      bfmv trans F2 x (o + s)
  end.
(** 1303-1341 bfsv *)
Fixpoint bfsv (trans : bool) (E : tbeig F) (x : list F) (o : Z) : option (list F) :=
  match E with
  | TBLeaf n V => if n <? BS then trsv trans n V 0 n x o else None
  | TBNode n b F0 X Y p1 p2 Sp t1 t2 F1 F2 =>
    if n <? BS then None else
    let s := n / 2 in
    if trans then
      do x <- couple true one true n s b F0 X Y p1 p2 Sp t1 t2 x o;
      do x <- bfsv trans F1 x o;
      bfsv trans F2 x (o + s)
    else
      do x <- bfsv trans F1 x o;
      do x <- bfsv trans F2 x (o + s);
      couple false one true n s b F0 X Y p1 p2 Sp t1 t2 x o
  end.
(** 1283-1300 bfmv_ADI; lrmv reads all of its input half before it writes the other half *)
Fixpoint bfmv_ADI (trans : bool) (E : tbadi F) (x : list F) (o : Z) : option (list F) :=
  match E with
  | ADLeaf n V => if n <? BS then trmv trans n V 0 n x o else None
  | ADNode n F0 F1 F2 =>
    if n <? BS then None else
    let s := n / 2 in
    if trans then
      do x <- bfmv_ADI trans F1 x o;
      do x <- bfmv_ADI trans F2 x (o + s);
      lrmv true one F0 x o one x (o + s)
    else
      do x <- lrmv false one F0 x (o + s) one x o;
      do x <- bfmv_ADI trans F1 x o;
      bfmv_ADI trans F2 x (o + s)
  end.
(** 1344-1361 bfsv_ADI *)
Fixpoint bfsv_ADI (trans : bool) (E : tbadi F) (x : list F) (o : Z) : option (list F) :=
  match E with
  | ADLeaf n V => if n <? BS then trsv trans n V 0 n x o else None
  | ADNode n F0 F1 F2 =>
    if n <? BS then None else
    let s := n / 2 in
    if trans then
      do x <- lrmv true (opp one) F0 x o one x (o + s);
      do x <- bfsv_ADI trans F1 x o;
      bfsv_ADI trans F2 x (o + s)
    else
      do x <- bfsv_ADI trans F1 x o;
      do x <- bfsv_ADI trans F2 x (o + s);
      lrmv false (opp one) F0 x (o + s) one x o
  end.
(** 1363-1385 bfmm, bfsm, bfmm_ADI, bfsm_ADI: independent columns *)
Definition bfmm trans E B LDB N := columnwise (bfmv trans E) B LDB N.
Definition bfsm trans E B LDB N := columnwise (bfsv trans E) B LDB N.
Definition bfmm_ADI trans E B LDB N := columnwise (bfmv_ADI trans E) B LDB N.
Definition bfsm_ADI trans E B LDB N := columnwise (bfsv_ADI trans E) B LDB N.

(** 1087-1089: V[i,j] *= alpha*x[i] for i <= j; 1117-1121: V[i,j] *= scl, scl = alpha*x[j] *)
Definition scale_leaf (cols : bool) (alpha : F) (x : list F) (o n : Z) (V : list F) : option (list F) :=
  for_up 0 n (fun j V => for_up 0 (j + 1) (fun i V =>
    do v <- zget V (i + j * n); do xi <- zget x (o + (if cols then j else i)); zset V (i + j * n) (mul v (mul alpha xi))) V) V.
(** 1083-1096 scale_rows_tb_eigen_FMM *)
Fixpoint scale_rows_tb (alpha : F) (x : list F) (o : Z) (E : tbeig F) : option (tbeig F) :=
  match E with
  | TBLeaf n V => if n <? BS then do V <- scale_leaf false alpha x o n V; Some (TBLeaf n V) else None
  | TBNode n b F0 X Y p1 p2 Sp t1 t2 F1 F2 =>
    if n <? BS then None else
    let s := n / 2 in
    do F1 <- scale_rows_tb alpha x o F1;
    do F2 <- scale_rows_tb alpha x (o + s) F2;
    Some (TBNode n b F0 X Y p1 p2 Sp t1 t2 F1 F2)
  end.
(** 1113-1134 scale_columns_tb_eigen_FMM; the sparse part S is not touched *)
Fixpoint scale_columns_tb (alpha : F) (x : list F) (o : Z) (E : tbeig F) : option (tbeig F) :=
  match E with
  | TBLeaf n V => if n <? BS then do V <- scale_leaf true alpha x o n V; Some (TBLeaf n V) else None
  | TBNode n b F0 X Y p1 p2 Sp t1 t2 F1 F2 =>
    if n <? BS then None else
    let s := n / 2 in
    do XY <- for_up 0 b (fun k XY =>
      let '(X, Y) := XY in
      do X <- for_up 0 s (fun i X => do u <- zget X (i + k * s); do xi <- zget x (o + i); zset X (i + k * s) (div u xi)) X;
      do Y <- for_up 0 (n - s) (fun i Y => do u <- zget Y (i + k * (n - s)); do xi <- zget x (o + (i + s)); zset Y (i + k * (n - s)) (mul u xi)) Y;
      Some (X, Y)) (X, Y);
    let '(X, Y) := XY in
    do F1 <- scale_columns_tb alpha x o F1;
    do F2 <- scale_columns_tb alpha x (o + s) F2;
    Some (TBNode n b F0 X Y p1 p2 Sp t1 t2 F1 F2)
  end.
(** 1098-1111 scale_rows_tb_eigen_ADI *)
Fixpoint scale_rows_ad (alpha : F) (x : list F) (o : Z) (E : tbadi F) : option (tbadi F) :=
  match E with
  | ADLeaf n V => if n <? BS then do V <- scale_leaf false alpha x o n V; Some (ADLeaf n V) else None
  | ADNode n F0 F1 F2 =>
    if n <? BS then None else
    let s := n / 2 in
    do F1 <- scale_rows_ad alpha x o F1;
    do F2 <- scale_rows_ad alpha x (o + s) F2;
    Some (ADNode n F0 F1 F2)
  end.
(** 1136-1157 scale_columns_tb_eigen_ADI *)
Fixpoint scale_columns_ad (alpha : F) (x : list F) (o : Z) (E : tbadi F) : option (tbadi F) :=
  match E with
  | ADLeaf n V => if n <? BS then do V <- scale_leaf true alpha x o n V; Some (ADLeaf n V) else None
  | ADNode n F0 F1 F2 =>
    if n <? BS then None else
    let s := n / 2 in
    do F0 <- scale_columns_lowrank one x (o + s) F0;
    do t <- for_up 0 s (fun i t => do xi <- zget x (o + i); zset t i (div one xi)) (zmake s zero);
    do F0 <- scale_rows_lowrank one t 0 F0;
    do F1 <- scale_columns_ad alpha x o F1;
    do F2 <- scale_columns_ad alpha x (o + s) F2;
    Some (ADNode n F0 F1 F2)
  end.
End Butter.
