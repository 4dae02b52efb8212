(** * Threads: parallel regions as interleavings of individual loads and stores

    A loop body is a [prog]: a sequence of single loads and stores of the shared array whose
    addresses and values may depend on what was loaded before.  A parallel region is a pool
    of such programs, one per thread; one step of the region is one load or store of one
    thread, chosen arbitrarily.  Memory is sequentially consistent; since the theorems show
    that no two threads touch a common entry that either of them writes, there is no data
    race and C11 gives the same results as any weaker ordering. *)
From Coq Require Import ZArith List Permutation.
From Verif Require Import Base Arith MPermute MRotations MDrivers MBanded.
Import ListNotations.
Open Scope Z_scope.

Inductive prog (F T : Type) : Type :=
| Ret (x : T)                         (* finished with value [x] *)
| Fault                               (* undefined behaviour inside the thread *)
| Load (a : Z) (k : F -> prog F T)    (* read entry [a], continue with its value *)
| Store (a : Z) (v : F) (k : prog F T).
Arguments Ret {F T}. Arguments Fault {F T}. Arguments Load {F T}. Arguments Store {F T}.

Section Prog.
Context {F : Type}.
Fixpoint pbind {T U} (p : prog F T) (f : T -> prog F U) : prog F U :=
  match p with
  | Ret x => f x
  | Fault => Fault
  | Load a k => Load a (fun v => pbind (k v) f)
  | Store a v k => Store a v (pbind k f)
  end.
(** thread-private computation that may be undefined *)
Definition plift {T} (o : option T) : prog F T := match o with Some x => Ret x | None => Fault end.
Definition pload (a : Z) : prog F F := Load a Ret.
Definition pstore (a : Z) (v : F) : prog F unit := Store a v (Ret tt).
(** loops carrying a thread-private state *)
Fixpoint piter {S} (n : nat) (f : nat -> S -> prog F S) (s : S) : prog F S :=
  match n with O => Ret s | Datatypes.S n' => pbind (piter n' f s) (f n') end.
Definition pfor_up {S} (lo hi : Z) (b : Z -> S -> prog F S) (s : S) : prog F S :=
  piter (Z.to_nat (hi - lo)) (fun k => b (lo + Z.of_nat k)) s.
Definition pfor_dn {S} (hi lo : Z) (b : Z -> S -> prog F S) (s : S) : prog F S :=
  piter (Z.to_nat (hi - lo + 1)) (fun k => b (hi - Z.of_nat k)) s.
Definition pfor_upst {S} (lo hi st : Z) (b : Z -> S -> prog F S) (s : S) : prog F S :=
  piter (Z.to_nat ((hi - lo + st - 1) / st)) (fun k => b (lo + Z.of_nat k * st)) s.
Definition pfor_dnst {S} (hi lo st : Z) (b : Z -> S -> prog F S) (s : S) : prog F S :=
  piter (Z.to_nat ((hi - lo + st) / st)) (fun k => b (hi - Z.of_nat k * st)) s.

(** running one program alone *)
Fixpoint exec {T} (p : prog F T) (A : list F) : option (T * list F) :=
  match p with
  | Ret x => Some (x, A)
  | Fault => None
  | Load a k => do v <- zget A a; exec (k v) A
  | Store a v k => do A <- zset A a v; exec k A
  end.

(** ** Pools *)
Definition thread := prog F unit.
Definition pool := list thread.
(** one load or store of one thread; [None] is a fault *)
Definition tstep (p : thread) (A : list F) : option (thread * list F) :=
  match p with
  | Ret _ => None
  | Fault => None
  | Load a k => do v <- zget A a; Some (k v, A)
  | Store a v k => do A <- zset A a v; Some (k, A)
  end.
(** some thread of the pool makes one step *)
Inductive pstep : pool * list F -> pool * list F -> Prop :=
| PStep l p r A p' A' : tstep p A = Some (p', A') -> pstep (l ++ p :: r, A) (l ++ p' :: r, A').
Inductive psteps : pool * list F -> pool * list F -> Prop :=
| Psteps_refl s : psteps s s
| Psteps_step s t u : pstep s t -> psteps t u -> psteps s u.
Definition finished (ps : pool) : Prop := forall p, In p ps -> p = Ret tt.
End Prog.
Arguments thread : clear implicits. Arguments pool : clear implicits.

Notation "'pdo' x <- e ; f" := (pbind e (fun x => f)) (at level 60, x pattern, e at level 61, right associativity).

(** The iterations of a loop distributed over threads: thread number [t] runs the list
    [nth t assign] in order. *)
Definition seq_iters {F} (body : Z -> thread F) (its : list Z) : thread F :=
  fold_right (fun i p => pdo _ <- body i; p) (Ret tt) its.
Definition region {F} (body : Z -> thread F) (assign : list (list Z)) : pool F :=
  map (seq_iters body) assign.

(** ** The loop bodies of the parallel regions *)
Section Bodies.
Context {F : Type} `{Arith F}.
Variable rot : F -> F -> F -> F -> F * F.
Notation prg := (prog F unit).

(** src/rotations/rotations_default.c:3-8 [apply_givens]: two loads, two stores *)
Definition p_apply_rot (S C : F) (ix iy : Z) : prg :=
  pdo x <- pload ix; pdo y <- pload iy;
  pdo _ <- pstore ix (fst (rot S C x y));
  pstore iy (snd (rot S C x y)).
(** the kernels, with the control structure of MRotations.v (the cited C lines are there);
    tables are read-only and thread-private *)
Definition p_sph_hi2lo (RP : rotplan F) (m1 m2 oA S : Z) : prg :=
  let n := rp_n RP in
  pfor_dnst (m2 - 2) m1 2 (fun j _ => pfor_dn (n - 3 - j) 0 (fun k _ =>
    pdo sc <- plift (tab RP (sidx n k j));
    p_apply_rot (fst sc) (snd sc) (oA + k * S) (oA + (k + 2) * S)) tt) tt.
Definition p_sph_lo2hi (RP : rotplan F) (m1 m2 oA S : Z) : prg :=
  let n := rp_n RP in
  pfor_upst m1 m2 2 (fun j _ => pfor_up 0 (n - 3 - j + 1) (fun k _ =>
    pdo sc <- plift (tab RP (sidx n k j));
    p_apply_rot (fst sc) (snd sc) (oA + k * S) (oA + (k + 2) * S)) tt) tt.
Definition p_tri_hi2lo (RP : rotplan F) (m1 m2 oA S : Z) : prg :=
  let n := rp_n RP in
  pfor_dn (m2 - 1) m1 (fun j _ => pfor_dn (n - 2 - j) 0 (fun k _ =>
    pdo sc <- plift (tab RP (sidx n k j));
    p_apply_rot (fst sc) (snd sc) (oA + k * S) (oA + (k + 1) * S)) tt) tt.
Definition p_tri_lo2hi (RP : rotplan F) (m1 m2 oA S : Z) : prg :=
  let n := rp_n RP in
  pfor_up m1 m2 (fun j _ => pfor_up 0 (n - 2 - j + 1) (fun k _ =>
    pdo sc <- plift (tab RP (sidx n k j));
    p_apply_rot (fst sc) (snd sc) (oA + k * S) (oA + (k + 1) * S)) tt) tt.
Definition p_disk_hi2lo (RP : rotplan F) (m1 m2 oA S : Z) : prg :=
  let n := rp_n RP in
  pfor_dnst (m2 - 2) m1 2 (fun j _ => pfor_dn (n - 2 - (j + 1) / 2) 0 (fun k _ =>
    pdo sc <- plift (tab RP (sdidx n k j));
    p_apply_rot (fst sc) (snd sc) (oA + k * S) (oA + (k + 1) * S)) tt) tt.
Definition p_disk_lo2hi (RP : rotplan F) (m1 m2 oA S : Z) : prg :=
  let n := rp_n RP in
  pfor_upst m1 m2 2 (fun j _ => pfor_up 0 (n - 2 - (j + 1) / 2 + 1) (fun k _ =>
    pdo sc <- plift (tab RP (sdidx n k j));
    p_apply_rot (fst sc) (snd sc) (oA + k * S) (oA + (k + 1) * S)) tt) tt.
Definition p_tet_hi2lo (RP : rotplan F) (L m oA : Z) : prg :=
  let n := rp_n RP in
  pfor_dn (m - 1) 0 (fun j _ => pfor_dn (L - 2 - j) 0 (fun l _ =>
    pdo sc <- plift (tab RP (sidx n l j));
    pfor_up 0 n (fun k _ => p_apply_rot (fst sc) (snd sc) (oA + k + n * l) (oA + k + n * (l + 1))) tt) tt) tt.
Definition p_tet_lo2hi (RP : rotplan F) (L m oA : Z) : prg :=
  let n := rp_n RP in
  pfor_up 0 m (fun j _ => pfor_up 0 (L - 2 - j + 1) (fun l _ =>
    pdo sc <- plift (tab RP (sidx n l j));
    pfor_up 0 n (fun k _ => p_apply_rot (fst sc) (snd sc) (oA + k + n * l) (oA + k + n * (l + 1))) tt) tt) tt.

(** bodies of the driver loops (see MDrivers.v); [k m1 m2 oA S] is a kernel *)
Definition pkern := Z -> Z -> Z -> Z -> prg.
Definition p_sph_body (k : pkern) (N m : Z) : prg :=
  pdo _ <- k (m mod 2) m (N * (2 * m - 1)) 1; k (m mod 2) m (N * (2 * m)) 1.
Definition p_sphv_body (k : pkern) (N m : Z) : prg :=
  pdo _ <- k (m mod 2) m (N * (2 * m + 1)) 1; k (m mod 2) m (N * (2 * m + 2)) 1.
Definition p_tri_body (k : pkern) (N m : Z) : prg := k 0 m (N * m) 1.
Definition p_rectdisk_body (k : pkern) (N m : Z) : prg := k (m mod 2) m (N * m) 1.
Definition p_tet_hi2lo_body (k : pkern) (kt : Z -> Z -> Z -> prg) (N L m : Z) : prg :=
  pdo _ <- pfor_up 0 (L - m) (fun l _ => k 0 (l + m) (N * (l + L * m)) 1) tt; kt L m (N * L * m).
Definition p_tet_lo2hi_body (k : pkern) (kt : Z -> Z -> Z -> prg) (N L m : Z) : prg :=
  pdo _ <- kt L m (N * L * m); pfor_up 0 (L - m) (fun l _ => k 0 (l + m) (N * (l + L * m)) 1) tt.

(** ** vector kernels: one vector load (store) is [VS] loads (stores); control structure and
    citations as in MRotations.v *)
Fixpoint p_vload (V : nat) (p : Z) : prog F (list F) :=
  match V with
  | O => Ret nil
  | Datatypes.S V' => pdo v <- pload p; pdo r <- p_vload V' (p + 1); Ret (v :: r)%list
  end.
Fixpoint p_vstore (p : Z) (vs : list F) : prg :=
  match vs with
  | nil => Ret tt
  | (v :: r)%list => pdo _ <- pstore p v; p_vstore (p + 1) r
  end.
Definition p_vapply_rot (VS : nat) (S C : F) (ix iy : Z) : prg :=
  pdo x <- p_vload VS ix; pdo y <- p_vload VS iy;
  pdo _ <- p_vstore ix (vrot1 rot S C x y);
  p_vstore iy (vrot2 rot S C x y).
Definition p_load_block (VS : nat) (K oA S b : Z) : prog F (list (list F)) :=
  pfor_up 0 K (fun l X => pdo v <- p_vload VS (oA + (b + l) * S); plift (zset X l v)) (zmake K nil).
Definition p_store_block (K : Z) (X : list (list F)) (oA S b : Z) : prg :=
  pfor_up 0 K (fun l _ => pdo v <- plift (zget X l); p_vstore (oA + (b + l) * S) v) tt.

Definition P_SPH_HI2LO (VS : nat) (L : Z) (RP : rotplan F) (m1 m2 oA S : Z) : prg :=
  let n := rp_n RP in
  pdo _ <- pfor_up 1 (Z.of_nat VS / 2) (fun s _ =>
    pdo _ <- p_sph_hi2lo RP m2 (m2 + 2 * s) (oA + 2 * s) S;
    p_sph_hi2lo RP m2 (m2 + 2 * s) (oA + 2 * s + 1) S) tt;
  pdo _ <- pfor_dnst (m2 - 2) (m1 + 2 * L - 2) (2 * L) (fun j _ =>
    pdo _ <- pfor_dnst (n - 3 - j) (L - 1) L (fun k _ =>
      pdo X <- p_load_block VS (3 * L) oA S (k + 1 - L);
      pdo X <- plift (for_up 0 L (fun lj X =>
        for_up 0 L (fun lk X =>
          let row := k - lk + 2 * lj in
          let col := j - 2 * lj in
          do sc <- tab RP (sidx n row col);
          reg_rot rot (fst sc) (snd sc) X (L - 1 - lk + 2 * lj) (L + 1 - lk + 2 * lj)) X) X);
      p_store_block (3 * L) X oA S (k + 1 - L)) tt;
    let k := end_dnst (n - 3 - j) (L - 1) L in
    pfor_up 0 L (fun lj _ =>
      pfor_dn (k + 2 * lj) 0 (fun lk _ =>
        let row := lk in
        let col := j - 2 * lj in
        pdo sc <- plift (tab RP (sidx n row col));
        p_vapply_rot VS (fst sc) (snd sc) (oA + row * S) (oA + (row + 2) * S)) tt) tt) tt;
  pfor_dnst (end_dnst (m2 - 2) (m1 + 2 * L - 2) (2 * L)) m1 2 (fun j _ =>
    pfor_dn (n - 3 - j) 0 (fun k _ =>
      pdo sc <- plift (tab RP (sidx n k j));
      p_vapply_rot VS (fst sc) (snd sc) (oA + k * S) (oA + (k + 2) * S)) tt) tt.

Definition P_SPH_LO2HI (VS : nat) (L : Z) (RP : rotplan F) (m1 m2 oA S : Z) : prg :=
  let n := rp_n RP in
  let jend := m2 - 2 * L - 2 * Z.of_nat VS + 4 in
  pdo _ <- pfor_upst m1 jend (2 * L) (fun j _ =>
    let k0 := 2 * L + Z.rem (n - L - 2 - j) L in
    pdo _ <- pfor_up 0 L (fun lj _ =>
      pfor_up 0 (k0 - 2 * lj) (fun lk _ =>
        let row := lk in
        let col := j + 2 * lj in
        pdo sc <- plift (tab RP (sidx n row col));
        p_vapply_rot VS (fst sc) (snd sc) (oA + row * S) (oA + (row + 2) * S)) tt) tt;
    pfor_upst k0 (n - L - 2 - j + 1) L (fun k _ =>
      pdo X <- p_load_block VS (3 * L) oA S (k + 2 - 2 * L);
      pdo X <- plift (for_up 0 L (fun lj X =>
        for_up 0 L (fun lk X =>
          let row := k + lk - 2 * lj in
          let col := j + 2 * lj in
          do sc <- tab RP (sidx n row col);
          reg_rot rot (fst sc) (snd sc) X (2 * L - 2 + lk - 2 * lj) (2 * L + lk - 2 * lj)) X) X);
      p_store_block (3 * L) X oA S (k + 2 - 2 * L)) tt) tt;
  pdo _ <- pfor_upst (end_upst m1 jend (2 * L)) m2 2 (fun j _ =>
    pfor_up 0 (n - 3 - j + 1) (fun k _ =>
      pdo sc <- plift (tab RP (sidx n k j));
      p_vapply_rot VS (fst sc) (snd sc) (oA + k * S) (oA + (k + 2) * S)) tt) tt;
  pfor_up 1 (Z.of_nat VS / 2) (fun s _ =>
    pdo _ <- p_sph_lo2hi RP m2 (m2 + 2 * s) (oA + 2 * s) S;
    p_sph_lo2hi RP m2 (m2 + 2 * s) (oA + 2 * s + 1) S) tt.

Definition P_TRI_HI2LO (VS : nat) (L : Z) (RP : rotplan F) (m1 m2 oA S : Z) : prg :=
  let n := rp_n RP in
  pdo _ <- pfor_up 1 (Z.of_nat VS) (fun s _ => p_tri_hi2lo RP m2 (m2 + s) (oA + s) S) tt;
  pdo _ <- pfor_dnst (m2 - 1) (m1 + L - 1) L (fun j _ =>
    pdo _ <- pfor_dnst (n - 2 - j) (L - 1) L (fun k _ =>
      pdo X <- p_load_block VS (2 * L) oA S (k + 1 - L);
      pdo X <- plift (for_up 0 L (fun lj X =>
        for_up 0 L (fun lk X =>
          let row := k - lk + lj in
          let col := j - lj in
          do sc <- tab RP (sidx n row col);
          reg_rot rot (fst sc) (snd sc) X (L - 1 - lk + lj) (L - lk + lj)) X) X);
      p_store_block (2 * L) X oA S (k + 1 - L)) tt;
    let k := end_dnst (n - 2 - j) (L - 1) L in
    pfor_up 0 L (fun lj _ =>
      pfor_dn (k + lj) 0 (fun lk _ =>
        let row := lk in
        let col := j - lj in
        pdo sc <- plift (tab RP (sidx n row col));
        p_vapply_rot VS (fst sc) (snd sc) (oA + row * S) (oA + (row + 1) * S)) tt) tt) tt;
  pfor_dn (end_dnst (m2 - 1) (m1 + L - 1) L) m1 (fun j _ =>
    pfor_dn (n - 2 - j) 0 (fun k _ =>
      pdo sc <- plift (tab RP (sidx n k j));
      p_vapply_rot VS (fst sc) (snd sc) (oA + k * S) (oA + (k + 1) * S)) tt) tt.

Definition P_TRI_LO2HI (VS : nat) (L : Z) (RP : rotplan F) (m1 m2 oA S : Z) : prg :=
  let n := rp_n RP in
  let jend := m2 - L - Z.of_nat VS + 2 in
  pdo _ <- pfor_upst m1 jend L (fun j _ =>
    let k0 := L + Z.rem (n - L - 1 - j) L in
    pdo _ <- pfor_up 0 L (fun lj _ =>
      pfor_up 0 (k0 - lj) (fun lk _ =>
        let row := lk in
        let col := j + lj in
        pdo sc <- plift (tab RP (sidx n row col));
        p_vapply_rot VS (fst sc) (snd sc) (oA + row * S) (oA + (row + 1) * S)) tt) tt;
    pfor_upst k0 (n - L - 1 - j + 1) L (fun k _ =>
      pdo X <- p_load_block VS (2 * L) oA S (k + 1 - L);
      pdo X <- plift (for_up 0 L (fun lj X =>
        for_up 0 L (fun lk X =>
          let row := k + lk - lj in
          let col := j + lj in
          do sc <- tab RP (sidx n row col);
          reg_rot rot (fst sc) (snd sc) X (L - 1 + lk - lj) (L + lk - lj)) X) X);
      p_store_block (2 * L) X oA S (k + 1 - L)) tt) tt;
  pdo _ <- pfor_up (end_upst m1 jend L) m2 (fun j _ =>
    pfor_up 0 (n - 2 - j + 1) (fun k _ =>
      pdo sc <- plift (tab RP (sidx n k j));
      p_vapply_rot VS (fst sc) (snd sc) (oA + k * S) (oA + (k + 1) * S)) tt) tt;
  pfor_up 1 (Z.of_nat VS) (fun s _ => p_tri_lo2hi RP m2 (m2 + s) (oA + s) S) tt.

Definition P_DISK_HI2LO (VS : nat) (L : Z) (RP : rotplan F) (m1 m2 oA S : Z) : prg :=
  let n := rp_n RP in
  pdo _ <- pfor_up 1 (Z.of_nat VS / 2) (fun s _ =>
    pdo _ <- p_disk_hi2lo RP m2 (m2 + 2 * s) (oA + 2 * s) S;
    p_disk_hi2lo RP m2 (m2 + 2 * s) (oA + 2 * s + 1) S) tt;
  pdo _ <- pfor_dnst (m2 - 2) (m1 + 2 * L - 1) (2 * L) (fun j _ =>
    pdo _ <- pfor_dnst (n - 2 - (j + 1) / 2) (L - 1) L (fun k _ =>
      pdo X <- p_load_block VS (2 * L) oA S (k + 1 - L);
      pdo X <- plift (for_up 0 L (fun lj X =>
        for_up 0 L (fun lk X =>
          let row := k - lk + lj in
          let col := j - 2 * lj in
          do sc <- tab RP (sdidx n row col);
          reg_rot rot (fst sc) (snd sc) X (L - 1 - lk + lj) (L - lk + lj)) X) X);
      p_store_block (2 * L) X oA S (k + 1 - L)) tt;
    let k := end_dnst (n - 2 - (j + 1) / 2) (L - 1) L in
    pfor_up 0 L (fun lj _ =>
      pfor_dn (k + lj) 0 (fun lk _ =>
        let row := lk in
        let col := j - 2 * lj in
        pdo sc <- plift (tab RP (sdidx n row col));
        p_vapply_rot VS (fst sc) (snd sc) (oA + row * S) (oA + (row + 1) * S)) tt) tt) tt;
  pfor_dnst (end_dnst (m2 - 2) (m1 + 2 * L - 1) (2 * L)) m1 2 (fun j _ =>
    pfor_dn (n - 2 - (j + 1) / 2) 0 (fun k _ =>
      pdo sc <- plift (tab RP (sdidx n k j));
      p_vapply_rot VS (fst sc) (snd sc) (oA + k * S) (oA + (k + 1) * S)) tt) tt.

Definition P_DISK_LO2HI (VS : nat) (L : Z) (RP : rotplan F) (m1 m2 oA S : Z) : prg :=
  let n := rp_n RP in
  let jend := m2 - 2 * L - 2 * Z.of_nat VS + 4 in
  pdo _ <- pfor_upst m1 jend (2 * L) (fun j _ =>
    let k0 := L + Z.rem (n - L - 1 - (j + 1) / 2) L in
    pdo _ <- pfor_up 0 L (fun lj _ =>
      pfor_up 0 (k0 - lj) (fun lk _ =>
        let row := lk in
        let col := j + 2 * lj in
        pdo sc <- plift (tab RP (sdidx n row col));
        p_vapply_rot VS (fst sc) (snd sc) (oA + row * S) (oA + (row + 1) * S)) tt) tt;
    pfor_upst k0 (n - L - 1 - (j + 1) / 2 + 1) L (fun k _ =>
      pdo X <- p_load_block VS (2 * L) oA S (k + 1 - L);
      pdo X <- plift (for_up 0 L (fun lj X =>
        for_up 0 L (fun lk X =>
          let row := k + lk - lj in
          let col := j + 2 * lj in
          do sc <- tab RP (sdidx n row col);
          reg_rot rot (fst sc) (snd sc) X (L - 1 + lk - lj) (L + lk - lj)) X) X);
      p_store_block (2 * L) X oA S (k + 1 - L)) tt) tt;
  pdo _ <- pfor_upst (end_upst m1 jend (2 * L)) m2 2 (fun j _ =>
    pfor_up 0 (n - 2 - (j + 1) / 2 + 1) (fun k _ =>
      pdo sc <- plift (tab RP (sdidx n k j));
      p_vapply_rot VS (fst sc) (snd sc) (oA + k * S) (oA + (k + 1) * S)) tt) tt;
  pfor_up 1 (Z.of_nat VS / 2) (fun s _ =>
    pdo _ <- p_disk_lo2hi RP m2 (m2 + 2 * s) (oA + 2 * s) S;
    p_disk_lo2hi RP m2 (m2 + 2 * s) (oA + 2 * s + 1) S) tt.

(** bodies of the vector loops: src/drivers.c:120-124 ([EXECUTE_SPH]), 333-334 ([EXECUTE_TRI]) *)
Definition p_sph_simd_body (k : pkern) (N S m : Z) : prg :=
  pdo _ <- k (m mod 2) m (N * (2 * m - 1)) S; k ((m + 1) mod 2) (m + 1) (N * (2 * m - 1 + S)) S.
Definition p_tri_simd_body (k : pkern) (N S m : Z) : prg := k 0 m (N * m) S.

(** src/banded_source.c:1160-1175 [trmv], 1178-1193 [trsv] on one column of [B] (see
    MBanded.v); the triangular matrix [T] is read-only.  Loop bodies of [trmm], [trsm] *)
Definition p_trmv (trans : bool) (n : Z) (T : list F) (oT LDT o : Z) : prg :=
  if trans then
    pfor_dn (n - 1) 0 (fun i _ =>
      pdo a <- plift (zget T (oT + (i + i * LDT))); pdo xi <- pload (o + i);
      pdo _ <- pstore (o + i) (mul xi a);
      pfor_dn (i - 1) 0 (fun j _ =>
        pdo xi <- pload (o + i); pdo a <- plift (zget T (oT + (j + i * LDT))); pdo xj <- pload (o + j);
        pstore (o + i) (add xi (mul a xj))) tt) tt
  else
    pfor_up 0 n (fun j _ =>
      pdo _ <- pfor_up 0 j (fun i _ =>
        pdo xi <- pload (o + i); pdo a <- plift (zget T (oT + (i + j * LDT))); pdo xj <- pload (o + j);
        pstore (o + i) (add xi (mul a xj))) tt;
      pdo xj <- pload (o + j); pdo a <- plift (zget T (oT + (j + j * LDT))); pstore (o + j) (mul xj a)) tt.
Definition p_trsv (trans : bool) (n : Z) (T : list F) (oT LDT o : Z) : prg :=
  if trans then
    pfor_up 0 n (fun i _ =>
      pdo _ <- pfor_up 0 i (fun j _ =>
        pdo xi <- pload (o + i); pdo a <- plift (zget T (oT + (j + i * LDT))); pdo xj <- pload (o + j);
        pstore (o + i) (sub xi (mul a xj))) tt;
      pdo xi <- pload (o + i); pdo a <- plift (zget T (oT + (i + i * LDT))); pstore (o + i) (div xi a)) tt
  else
    pfor_dn (n - 1) 0 (fun j _ =>
      pdo xj <- pload (o + j); pdo a <- plift (zget T (oT + (j + j * LDT)));
      pdo _ <- pstore (o + j) (div xj a);
      pfor_up 0 j (fun i _ =>
        pdo xi <- pload (o + i); pdo a <- plift (zget T (oT + (i + j * LDT))); pdo xj <- pload (o + j);
        pstore (o + i) (sub xi (mul a xj))) tt) tt.
End Bodies.

(** ** Spin-weighted kernels (MRotations.v, default version): a complex rotation is a
    rotation of the real parts followed by one of the imaginary parts *)
Section SpinBodies.
Context {F : Type} `{Arith F}.
Variables (rot rot_t : F -> F -> F -> F -> F * F).
Notation prg := (prog F unit).
Definition p_apply_rotc (r : F -> F -> F -> F -> F * F) (s c : F) (ix iy : Z) : prg :=
  pdo _ <- p_apply_rot r s c ix iy; p_apply_rot r s c (ix + 1) (iy + 1).
Definition p_spinsph_hi2lo (SRP : spinplan F) (m oA S : Z) : prg :=
  let n := sp_n SRP in let s := sp_s SRP in
  let ass := Z.abs s in let am := Z.abs m in
  let dm := Z.abs (am - ass) in
  let r := if 0 <=? m * s then rot else rot_t in
  pdo _ <- pfor_dn (Z.min am ass - 1) 0 (fun j _ =>
    pfor_dn (n - 2 - dm - j) 0 (fun k _ =>
      pdo sc <- plift (tab2 (sp_s2 SRP) (sp_c2 SRP) (s2idx n ass k j dm));
      p_apply_rotc r (fst sc) (snd sc) (oA + k * (2 * S)) (oA + (k + 1) * (2 * S))) tt) tt;
  pfor_dnst (dm - 2) (Z.rem (am + ass) 2) 2 (fun j _ =>
    pfor_dn (n - 3 - j) 0 (fun k _ =>
      pdo sc <- plift (tab2 (sp_s1 SRP) (sp_c1 SRP) (s1idx n k j));
      p_apply_rotc rot (fst sc) (snd sc) (oA + k * (2 * S)) (oA + (k + 2) * (2 * S))) tt) tt.
Definition p_spinsph_lo2hi (SRP : spinplan F) (m oA S : Z) : prg :=
  let n := sp_n SRP in let s := sp_s SRP in
  let ass := Z.abs s in let am := Z.abs m in
  let dm := Z.abs (am - ass) in
  let r := if 0 <=? m * s then rot_t else rot in
  pdo _ <- pfor_upst (Z.rem (am + ass) 2) (dm - 2 + 1) 2 (fun j _ =>
    pfor_up 0 (n - 3 - j + 1) (fun k _ =>
      pdo sc <- plift (tab2 (sp_s1 SRP) (sp_c1 SRP) (s1idx n k j));
      p_apply_rotc rot_t (fst sc) (snd sc) (oA + k * (2 * S)) (oA + (k + 2) * (2 * S))) tt) tt;
  pfor_up 0 (Z.min am ass) (fun j _ =>
    pfor_up 0 (n - 2 - dm - j + 1) (fun k _ =>
      pdo sc <- plift (tab2 (sp_s2 SRP) (sp_c2 SRP) (s2idx n ass k j dm));
      p_apply_rotc r (fst sc) (snd sc) (oA + k * (2 * S)) (oA + (k + 1) * (2 * S))) tt) tt.
Definition p_spin_body (k : Z -> Z -> Z -> prg) (N m : Z) : prg :=
  pdo _ <- k (- m) (2 * (N * (2 * m - 1))) 1; k m (2 * (N * (2 * m))) 1.
End SpinBodies.
