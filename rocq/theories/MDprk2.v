(** * Model of src/dprk_source.c: deflation and the eigensolver drivers

    [eps] and [floatmin] (Y(eps)(), Y(floatmin)()) are arguments.  The root finder
    symmetric_dpr1_eigvals / symmetric_definite_dpr1_eigvals, which iterates until a floating-point
    stopping test holds, is the argument [eigvals]; it takes and returns lambdalo and lambdahi.
    A pointer lambda+k is the tail [skipn k lambda].  The loops that only print a warning
    (464-467, 508-515) are left out: they read entries the other loops read too. *)
From Coq Require Import ZArith List Bool.
From Verif Require Import Arith Base MSort MHier MDprk.
Import ListNotations.
Open Scope Z_scope.

Section Model.
Context {F : Type} {AF : Arith F}.

(** hierarchical_source.c / dprk_source.c: the comparisons lt and ltabs *)
Definition lt_ (x y : F) : bool := ltb x y.
Definition ltabs (x y : F) : bool := ltb (absA x) (absA y).
(** quicksort_*arg(a, bs.., p, lo, hi, by): fuel hi-lo+2 *)
Definition sort (by_ : F -> F -> bool) (a : list F) (bs : list (list F)) (p : list Z) (lo hi : Z) : option (sortst F) :=
  quicksort by_ (Z.to_nat (hi - lo + 2)) (SortSt a bs p) lo hi.
(** for (i = i0; i < n; i++) if (|x[i]| > tol) break; *)
Fixpoint first_above (fuel : nat) (x : list F) (tol : F) (i n : Z) : option Z :=
  match fuel with
  | O => Some i
  | S fuel' => if i <? n then do xi <- zget x i; if ltb tol (absA xi) then Some i else first_above fuel' x tol (i + 1) n else Some i
  end.
(** d[i-iz] = d[i], iz <= i < n *)
Definition shift_down (iz n : Z) (x : list F) : option (list F) :=
  for_up iz n (fun i x => do xi <- zget x i; zset x (i - iz) xi) x.

(** 449-474 symmetric_dpr1_deflate ([definite] = false) and 491-522
    symmetric_definite_dpr1_deflate ([definite] = true): returns A, B and p *)
Definition deflate (definite : bool) (eps : F) (A : dpr1 F) (B : idpr1 F) (p : list Z) : option (dpr1 F * idpr1 F * list Z) :=
  let n := dp_n A in let rho := dp_rho A in
  do nrmz <- sum_sq n (dp_z A);
  let nrmz := sqrtA nrmz in
  do s <- sort ltabs (dp_z A) [dp_d A] p 0 (n - 1);
  match s with
  | SortSt z [d] p =>
    let scale := if definite then add (absA rho) (absA (ip_sigma B)) else absA rho in
    do iz <- first_above (Z.to_nat n) z (mul (mul (sqrtA scale) nrmz) eps) 0 n;
    do s <- sort lt_ d [z] p iz (n - 1);
    match s with
    | SortSt d [z] p =>
      do d <- shift_down iz n d;
      do z <- shift_down iz n z;
      do b <- (if definite then for_up 0 (n - iz) (fun i b => do zi <- zget z i; zset b i zi) (ip_z B) else Some (ip_z B));
      Some (Dpr1 d z rho (n - iz), IDpr1 b (ip_sigma B) (if definite then n - iz else ip_n B), p)
    | _ => None
    end
  | _ => None
  end.
(** 476-488 symmetric_dpr1_deflate2 and 524-539 symmetric_definite_dpr1_deflate2: returns A, B,
    lambdalo, lambdahi, p and id *)
Definition deflate2 (definite : bool) (floatmin : F) (A : dpr1 F) (B : idpr1 F) (lo hi : list F) (p : list Z)
  : option (dpr1 F * idpr1 F * list F * list F * list Z * Z) :=
  let n := dp_n A in
  do s <- sort ltabs lo [hi; dp_d A; dp_z A] p 0 (n - 1);
  match s with
  | SortSt lo [hi; d; z] p =>
    do id <- first_above (Z.to_nat n) lo (sqrtA floatmin) 0 n;
    do s <- sort lt_ d [z; lo; hi] p id (n - 1);
    match s with
    | SortSt d [z; lo; hi] p =>
      do b <- (if definite then for_up 0 n (fun i b => do zi <- zget z i; zset b i zi) (ip_z B) else Some (ip_z B));
      Some (Dpr1 d z (dp_rho A) n, IDpr1 b (ip_sigma B) (ip_n B), lo, hi, p, id)
    | _ => None
    end
  | _ => None
  end.

(** the four drivers 1022-1065 symmetric_dpr1_eig, 1068-1131 symmetric_dpr1_eig_FMM, 1134-1180
    symmetric_definite_dpr1_eig and 1183-1256 symmetric_definite_dpr1_eig_FMM.  They have the same
    text up to: the two deflations and the value of v (1 or sqrt(1/(1+sigma z_i z_i)));
    the offset into lambda handed to the eigenvector routine, [off iz id];
    that routine, [mkV] (lambda, lambdalo, lambdahi, m).  The copies FA, FB of A and B that the
    FMM versions also store are left out. *)
Section Eig.
Context {V : Type}.
Variables (definite : bool) (eps floatmin : F).
Variable eigvals : dpr1 F -> idpr1 F -> list F -> list F -> option (list F * list F).
Variable mkV : dpr1 F -> idpr1 F -> list F -> list F -> list F -> Z -> option V.
Variable off : Z -> Z -> Z.
Definition tailz {X} (k : Z) (l : list X) : list X := skipn (Z.to_nat k) l.
Definition headz {X} (k : Z) (l : list X) : list X := firstn (Z.to_nat k) l.
Definition eig (A : dpr1 F) (B : idpr1 F) : option (dpeig F V) :=
  let n := dp_n A in
  let lo := zmake n zero in
  do hi <- copy n (dp_d A);
  do ABp <- deflate definite eps A B (ztab n (fun i => i));
  let '(A, B, p1) := ABp in
  do lop <- perm false lo p1 n; let '(lo, p1) := lop in
  do hip <- perm false hi p1 n; let '(hi, p1) := hip in
  let iz := n - dp_n A in
  do lh <- eigvals A B (tailz iz lo) (tailz iz hi);
  let '(lot, hit) := lh in
  do r <- deflate2 definite floatmin A B lot hit (ztab (n - iz) (fun i => i));
  let '(A, B, lot, hit, p2, id) := r in
  let lo := headz iz lo ++ lot in
  let hi := headz iz hi ++ hit in
  do v <- for_up 0 id (fun i v =>
    if definite then do zi <- zget (ip_z B) i; zset v i (sqrtA (div one (add one (mul (mul (ip_sigma B) zi) zi))))
    else zset v i one) (zmake id zero);
  do p <- for_up 0 iz (fun i p => do x <- zget p1 i; zset p i x) (zmake n 0%Z);
  do p <- for_up iz n (fun i p => do k <- zget p2 (i - iz); do x <- zget p1 (k + iz); zset p i x) p;
  do lambda <- for_up 0 n (fun i l => do h <- zget hi i; do o <- zget lo i; zset l i (add h o)) (zmake n zero);
  let o := off iz id in
  do Vm <- mkV A B (tailz o lambda) (tailz o lo) (tailz o hi) (n - iz - id);
  do s <- sort lt_ lambda [lo; hi] (ztab n (fun i => i)) 0 (n - 1);
  match s with
  | SortSt lambda [lo; hi] q => Some (DpEig v Vm lambda lo hi p q n iz id)
  | _ => None
  end.
End Eig.
Definition dpr1_eig (eps floatmin : F) eigvals := eig false eps floatmin eigvals
  (fun A B _ lo hi m => dpr1_eigvecs A lo hi m) (fun iz id => iz).
Definition definite_dpr1_eig (eps floatmin : F) eigvals := eig true eps floatmin eigvals
  (fun A B _ lo hi m => definite_dpr1_eigvecs A B lo hi m) (fun iz id => iz + id).
(** [sample] stands for the two sample_accurately_hierarchicalmatrix calls *)
Definition dpr1_eig_FMM (sample : list F -> list F -> list F -> list F -> Z -> Z -> option (hmat F * hmat F)) (eps floatmin : F) eigvals := eig false eps floatmin eigvals
  (fun A B lambda lo hi m => do QN <- sample (dp_d A) lambda lo hi (dp_n A) m; dpr1_eigvecs_FMM A (fst QN) (snd QN) m) (fun iz id => iz).
Definition definite_dpr1_eig_FMM (sample : list F -> list F -> list F -> list F -> Z -> Z -> option (hmat F * hmat F)) (eps floatmin : F) eigvals := eig true eps floatmin eigvals
  (fun A B lambda lo hi m => do QN <- sample (dp_d A) lambda lo hi (dp_n A) m; definite_dpr1_eigvecs_FMM A B (fst QN) (snd QN) m) (fun iz id => iz + id).
End Model.
