(** * A bounds-checked reference implementation of the BLAS calls in MHarmonic.v

    It is not part of the library: it shows that the contract [blas_ok] of SpecHarm.v can be met,
    and gives the refutation theorems a BLAS that reports out-of-bounds accesses.  It follows
    netlib's dtrmm.f, dtrmv.f and ztrmm.f (upper triangular, non-unit diagonal, alpha = 1), but
    computes each line from its old values; the complex routine uses the real part of [T] only,
    which is what the callers store. *)
From Coq Require Import ZArith List Bool.
From Verif Require Import Base Arith MHarmonic.
Open Scope Z_scope.
Section Ref.
Context {F : Type} {AF : Arith F}.
(** sum_{k < n} u k * (entry k of the line), in the order of increasing k; absent entries count as zero
    (the store that follows is checked) *)
Definition line_dot (n s o : Z) (u : Z -> F) (B : list F) : F :=
  fold_left (fun acc k => add acc (mul (u (Z.of_nat k)) (nthZ zero B (o + Z.of_nat k * s)))) (seq 0 (Z.to_nat n)) zero.
Definition ref_line (n s o : Z) (U : Z -> Z -> F) (B : list F) : option (list F) :=
  for_up 0 n (fun i X => zset X (o + i * s) (line_dot n s o (U i) B)) B.
Definition ref_lines (n s m : Z) (base : Z -> Z) (U : Z -> Z -> F) (B : list F) : option (list F) :=
  for_up 0 m (fun j B => ref_line n s (base j) U B) B.
(** the upper triangle of the array, transposed if [trans] *)
Definition ref_tri (trans : bool) (ld w : Z) (T : list F) (i j : Z) : F :=
  let (i, j) := if trans then (j, i) else (i, j) in if i <=? j then nthZ zero T (w * (i + j * ld)) else zero.
Definition ref_fits (w n ld : Z) (T : list F) : bool := (n <=? ld) && (w * ((n - 1) * ld + n) <=? zlen T).
Definition ref_blas : blas F := Blas
  (fun trans n k T ldt B o ldb => if ref_fits 1 n ldt T then ref_lines n 1 k (fun j => o + j * ldb) (ref_tri trans ldt 1 T) B else None)
  (fun trans n k T ldt B o ldb => if ref_fits 1 k ldt T then ref_lines k ldb n (fun i => o + i) (ref_tri (negb trans) ldt 1 T) B else None)
  (fun trans n T ldt x o inc => if ref_fits 1 n ldt T then ref_lines n inc 1 (fun _ => o) (ref_tri trans ldt 1 T) x else None)
  (fun trans n k T ldt B o ldb => if ref_fits 2 n ldt T then
     ref_lines n 2 (2 * k) (fun j => 2 * (o + (j / 2) * ldb) + j mod 2) (ref_tri trans ldt 2 T) B else None).
End Ref.
