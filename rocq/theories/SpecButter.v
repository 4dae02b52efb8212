(** * The matrix represented by a divide-and-conquer eigenvector plan *)
From Coq Require Import ZArith List Reals Bool.
From Verif Require Import Base SpecSum SpecLin SpecBanded MHier SpecHier MButter.
Open Scope Z_scope.

(** 1 if i = j, else 0 *)
Definition eqR (i j : Z) : R := if i =? j then 1%R else 0%R.
(** the block matrix [[V1, V1 W], [0, V2]] with V1 of order s *)
Definition block_mat (s : Z) (V1 W V2 : Z -> Z -> R) (i j : Z) : R :=
  if i <? s then (if j <? s then V1 i j else matmul s V1 W i (j - s))
  else if j <? s then 0%R else V2 (i - s) (j - s).
(** the sparse matrix: the sum of its triples *)
Definition sp_mat (S : sparse R) (a c : Z) : R :=
  sumZ (sp_nnz S) (fun l => (eqR (nthZ 0%Z (sp_p S) l) a * eqR (nthZ 0%Z (sp_q S) l) c * nthZ 0%R (sp_v S) l)%R).
(** row i of C goes to row p1 i, column i' to column p2 i' *)
Definition reindexed (s m : Z) (p1 p2 : list Z) (C : Z -> Z -> R) (a c : Z) : R :=
  sumZ s (fun i => sumZ m (fun i' => eqR (nthZ 0%Z p1 i) a * eqR (nthZ 0%Z p2 i') c * C i i'))%R.
(** - C o (X Y^T) + S, with X of s rows, Y of m rows, b columns each *)
Definition coupling (s m b : Z) (F0 : hmat R) (X Y : list R) (p1 p2 : list Z) (S : sparse R) (a c : Z) : R :=
  (- (reindexed s m p1 p2 (h_mat F0) a c * sumZ b (fun k => mat 0 s X a k * mat 0 m Y c k)) + sp_mat S a c)%R.
Fixpoint tb_V (E : tbeig R) : Z -> Z -> R :=
  match E with
  | TBLeaf n V => upper (mat 0 n V)
  | TBNode n b F0 X Y p1 p2 Sp t1 t2 F1 F2 =>
    block_mat (n / 2) (tb_V F1) (coupling (n / 2) (n - n / 2) b F0 X Y p1 p2 Sp) (tb_V F2)
  end.
Fixpoint ad_V (E : tbadi R) : Z -> Z -> R :=
  match E with
  | ADLeaf n V => upper (mat 0 n V)
  | ADNode n F0 F1 F2 => block_mat (n / 2) (ad_V F1) (lr_mat F0) (ad_V F2)
  end.
(** the first m entries of p are indices of 0 .. m-1 *)
Definition indices (m : Z) (p : list Z) : Prop := m <= zlen p /\ forall i, 0 <= i < m -> 0 <= nthZ 0 p i < m.
Definition sp_ok {F} (s m : Z) (S : sparse F) : Prop :=
  0 <= sp_nnz S /\ sp_nnz S <= zlen (sp_p S) /\ sp_nnz S <= zlen (sp_q S) /\ sp_nnz S <= zlen (sp_v S) /\
  (forall l, 0 <= l < sp_nnz S -> 0 <= nthZ 0 (sp_p S) l < s /\ 0 <= nthZ 0 (sp_q S) l < m).
(** the sizes fit: BS is the leaf size, tn the thread number *)
Fixpoint tb_wf {F} (BS tn : Z) (E : tbeig F) : Prop :=
  match E with
  | TBLeaf n V => 0 <= n < BS /\ n * n <= zlen V
  | TBNode n b F0 X Y p1 p2 Sp t1 t2 F1 F2 =>
    let s := n / 2 in let m := n - n / 2 in
    0 <= n /\ BS <= n /\ 0 <= b /\ h_ok F0 /\ hrows F0 = s /\ hcols F0 = m /\
    s * b <= zlen X /\ m * b <= zlen Y /\ indices s p1 /\ indices m p2 /\ sp_ok s m Sp /\
    s * (tn + 1) <= zlen t1 /\ m * (tn + 1) <= zlen t2 /\
    tbeig_n F1 = s /\ tbeig_n F2 = m /\ tb_wf BS tn F1 /\ tb_wf BS tn F2
  end.
Fixpoint ad_wf {F} (BS : Z) (E : tbadi F) : Prop :=
  match E with
  | ADLeaf n V => 0 <= n < BS /\ n * n <= zlen V
  | ADNode n F0 F1 F2 =>
    let s := n / 2 in let m := n - n / 2 in
    0 <= n /\ BS <= n /\ lr_ok F0 /\ lr_m F0 = s /\ lr_n F0 = m /\ tbadi_n F1 = s /\ tbadi_n F2 = m /\ ad_wf BS F1 /\ ad_wf BS F2
  end.
(** no coincident eigenvalues: the sparse corrections are empty *)
Fixpoint no_sparse {F} (E : tbeig F) : Prop :=
  match E with TBLeaf _ _ => True | TBNode _ _ _ _ _ _ _ Sp _ _ F1 F2 => sp_nnz Sp = 0 /\ no_sparse F1 /\ no_sparse F2 end.
