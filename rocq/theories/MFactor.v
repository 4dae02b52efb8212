(** * Model of src/banded_source.c: LU, Cholesky, QR and QL factorisations

    A vector inside the data block is the block and an offset.  [v] and [A] in the
    elementary transformations are two vectors of the same block: they are read from the
    current memory at every access. *)
From Coq Require Import ZArith List Bool.
From Verif Require Import Arith Base MBanded.
Import ListNotations.
Open Scope Z_scope.

Section Model.
Context {F : Type} {AF : Arith F}.

(** banded_source.c 446-449 compute_elementary_transformation *)
Definition compute_elementary (n : Z) (D : list F) (v : Z) : option (list F) :=
  for_up 1 n (fun i D => do x <- zget D (v + i); do p <- zget D v; zset D (v + i) (div x p)) D.
(** 451-454 apply_elementary_transformation *)
Definition apply_elementary (n : Z) (D : list F) (v A : Z) : option (list F) :=
  for_up 1 n (fun i D =>
    do a <- zget D (A + i); do w <- zget D (v + i); do a0 <- zget D A; zset D (A + i) (sub a (mul w a0))) D.
(** 456-470 banded_lufact *)
Definition banded_lufact (A : banded F) : option (banded F) :=
  let n := bd_n A in let l := bd_l A in let u := bd_u A in
  if negb (bd_m A =? n) then None
  else
    let nu := l + u + 1 in
    do D <- for_up 0 n (fun j D =>
              let lv := Z.min (l + 1) (n - j + 1) in
              let v := u + j * nu in
              do D <- compute_elementary lv D v;
              for_up 1 (Z.min u (n - j - 1) + 1) (fun k D => apply_elementary lv D v (u - k + (j + k) * nu)) D)
            (bd_data A);
    Some (Banded D (bd_m A) n l u).

(** 472-477 compute_symmetric_elementary_transformation; the warning printed for a negative
    pivot is not modelled *)
Definition compute_symmetric_elementary (n : Z) (D : list F) (v : Z) : option (list F) :=
  do D <- for_up 1 n (fun i D => do x <- zget D (v + i); do p <- zget D v; zset D (v + i) (div x p)) D;
  do p <- zget D v; zset D v (sqrtA p).
(** 479-483 apply_symmetric_elementary_transformation *)
Definition apply_symmetric_elementary (n : Z) (D : list F) (v A : Z) : option (list F) :=
  do D <- for_up 1 n (fun i D =>
            do a <- zget D (A + i); do w <- zget D (v + i); do a0 <- zget D A; zset D (A + i) (sub a (mul w a0))) D;
  do a0 <- zget D A; do p <- zget D v; zset D A (div a0 p).
(** 485-500 banded_cholfact *)
Definition banded_cholfact (A : banded F) : option (banded F) :=
  let n := bd_n A in let l := bd_l A in let u := bd_u A in
  if negb (bd_m A =? n) then None
  else if negb (l =? u) then None
  else
    let nu := l + u + 1 in
    do D <- for_up 0 n (fun j D =>
              let lv := Z.min (l + 1) (n - j + 1) in
              let v := u + j * nu in
              do D <- compute_symmetric_elementary lv D v;
              for_up 1 (Z.min u (n - j - 1) + 1) (fun k D => apply_symmetric_elementary lv D v (u - k + (j + k) * nu)) D)
            (bd_data A);
    Some (Banded D (bd_m A) n l u).

(** copysign(a, s) for a >= 0; the sign of a zero s counts as positive (over the reals the
    two choices for s = 0 give equally valid reflectors) *)
Definition copysignA (a s : F) : F := if ltb s zero then opp a else a.

(** 502-518 compute_reflector: [v] is the offset of the vector; returns (block, tau) *)
Definition compute_reflector (n : Z) (D : list F) (v : Z) : option (list F * F) :=
  if n <? 1 then Some (D, zero)
  else
    do v0 <- zget D v;
    do nrmv <- for_up 0 n (fun i s => do x <- zget D (v + i); Some (add s (mul x x))) zero;
    if eqb nrmv zero then Some (D, zero)
    else
      let nu := copysignA (sqrtA nrmv) v0 in
      let v0 := add v0 nu in
      do D <- zset D v (opp nu);
      do D <- for_up 1 n (fun i D => do x <- zget D (v + i); zset D (v + i) (div x v0)) D;
      Some (D, div v0 nu).
(** 520-530 apply_reflector: [getv A i] reads v[i], either from another block or from the
    block [A] itself *)
Definition apply_reflector (n : Z) (getv : list F -> Z -> option F) (tau : F) (A : list F) (o : Z) : option (list F) :=
  if n <? 1 then Some A
  else
    do a0 <- zget A o;
    do vA <- for_up 1 n (fun i s => do w <- getv A i; do a <- zget A (o + i); Some (add s (mul w a))) a0;
    let vA := mul vA tau in
    do a0 <- zget A o;
    do A <- zset A o (sub a0 vA);
    for_up 1 n (fun i A => do a <- zget A (o + i); do w <- getv A i; zset A (o + i) (sub a (mul w vA))) A.
(** the two ways of reading v *)
Definition own_v (v : Z) (A : list F) (i : Z) : option F := zget A (v + i).
Definition other_v (D : list F) (v : Z) (_ : list F) (i : Z) : option F := zget D (v + i).

(** banded_source.h banded_orthogonal_triangular; [bq_up] is UPLO == 'U' *)
Record banded_oq := BandedOQ { bq_factors : banded F; bq_tau : list F; bq_up : bool }.

(** 532-556 banded_qrfact *)
Definition banded_qrfact (A : banded F) : option banded_oq :=
  let m := bd_m A in let n := bd_n A in let l := bd_l A in let u := bd_u A in
  let R := calloc_banded m n l (l + u) in
  do D <- for_up 0 n (fun j D => for_up 0 (l + u + 1) (fun i D =>
            do b <- zget (bd_data A) (i + j * (l + u + 1));
            zset D (l + i + j * (2 * l + u + 1)) b) D) (bd_data R);
  let u := bd_u R in
  let nu := l + u + 1 in
  do Dt <- for_up 0 (Z.min m n) (fun j Dt =>
             let '(D, tau) := Dt in
             let lh := Z.min (l + 1) (m - j) in
             let v := u + j * nu in
             do Dt <- compute_reflector lh D v;
             let '(D, t) := Dt in
             do tau <- zset tau j t;
             do D <- for_up 1 (Z.min u (n - j - 1) + 1) (fun k D =>
                       do tj <- zget tau j;
                       apply_reflector lh (own_v v) tj D (u - k + (j + k) * nu)) D;
             Some (D, tau)) (D, zmake (Z.min m n) zero);
  let '(D, tau) := Dt in
  Some (BandedOQ (Banded D m n l u) tau true).

(** 558-575 compute_ql_reflector *)
Definition compute_ql_reflector (n : Z) (D : list F) (v : Z) : option (list F * F) :=
  if n <? 1 then Some (D, zero)
  else
    do vl <- zget D (v + n - 1);
    do nrmv <- for_up 0 n (fun i s => do x <- zget D (v + i); Some (add s (mul x x))) zero;
    if eqb nrmv zero then Some (D, zero)
    else
      let nu := copysignA (sqrtA nrmv) vl in
      let vl := add vl nu in
      do D <- zset D (v + n - 1) (opp nu);
      do D <- for_up 0 (n - 1) (fun i D => do x <- zget D (v + i); zset D (v + i) (div x vl)) D;
      Some (D, div vl nu).
(** 577-587 apply_ql_reflector *)
Definition apply_ql_reflector (n : Z) (getv : list F -> Z -> option F) (tau : F) (A : list F) (o : Z) : option (list F) :=
  if n <? 1 then Some A
  else
    do al <- zget A (o + n - 1);
    do vA <- for_up 0 (n - 1) (fun i s => do w <- getv A i; do a <- zget A (o + i); Some (add s (mul w a))) al;
    let vA := mul vA tau in
    do al <- zget A (o + n - 1);
    do A <- zset A (o + n - 1) (sub al vA);
    for_up 0 (n - 1) (fun i A => do a <- zget A (o + i); do w <- getv A i; zset A (o + i) (sub a (mul w vA))) A.
(** 589-613 banded_qlfact *)
Definition banded_qlfact (A : banded F) : option banded_oq :=
  let m := bd_m A in let n := bd_n A in let l := bd_l A in let u := bd_u A in
  let L := calloc_banded m n (l + u) u in
  do D <- for_up 0 n (fun j D => for_up 0 (l + u + 1) (fun i D =>
            do b <- zget (bd_data A) (i + j * (l + u + 1));
            zset D (i + j * (l + 2 * u + 1)) b) D) (bd_data L);
  let l := bd_l L in
  let nu := l + u + 1 in
  do Dt <- for_dn (Z.min m n - 1) 0 (fun j Dt =>
             let '(D, tau) := Dt in
             let lh := Z.min (u + 1) (j + 1) in
             let v := u + 1 - lh + j * nu in
             do Dt <- compute_ql_reflector lh D v;
             let '(D, t) := Dt in
             do tau <- zset tau j t;
             do D <- for_up 1 (Z.min l j + 1) (fun k D =>
                       do tj <- zget tau j;
                       apply_ql_reflector lh (own_v v) tj D (u + 1 - lh + k + (j - k) * nu)) D;
             Some (D, tau)) (D, zmake (Z.min m n) zero);
  let '(D, tau) := Dt in
  Some (BandedOQ (Banded D m n l u) tau false).

(** 616-652 bqmv: [trans] is TRANS == 'T' *)
Definition bqmv (trans : bool) (Q : banded_oq) (x : list F) (o : Z) : option (list F) :=
  let R := bq_factors Q in
  let D := bd_data R in
  let m := bd_m R in let n := bd_n R in let l := bd_l R in let u := bd_u R in
  let nu := l + u + 1 in
  if bq_up Q then
    let body := fun j x =>
      let lh := Z.min (l + 1) (m - j) in
      do t <- zget (bq_tau Q) j;
      apply_reflector lh (other_v D (u + j * nu)) t x (o + j) in
    if trans then for_up 0 (Z.min m n) body x else for_dn (Z.min m n - 1) 0 body x
  else
    let body := fun j x =>
      let lh := Z.min (u + 1) (j + 1) in
      do t <- zget (bq_tau Q) j;
      apply_ql_reflector lh (other_v D (u + 1 - lh + j * nu)) t x (o - lh + 1 + j) in
    if trans then for_dn (Z.min m n - 1) 0 body x else for_up 0 (Z.min m n) body x.

End Model.
Arguments banded_oq : clear implicits.
