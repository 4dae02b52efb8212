(** * Model of src/recurrence.c: Horner, Clenshaw and eigenfunction evaluation

    The vector kernels are the macros of src/recurrence/recurrence.h; a vector register is
    the list of its [S] lanes, a C array [VT a[L]] is the list of its [L] registers, and the
    vector instructions act lane by lane.  [muladd]/[mulsub] are the instructions passed for
    VMULADD(a,b,c) and VMULSUB(a,b,c): [a*b+c], [a*b-c] (two roundings) or the fused forms.
    The arrays x, f, c, A, B, C, phi0 do not overlap.  An [int] is a [Z] (no overflow). *)
From Coq Require Import ZArith List.
From Verif Require Import Arith Base.
Import ListNotations.
Open Scope Z_scope.

Section Model.
Context {F : Type} {AF : Arith F}.

(** VLOAD(x+o): [S] consecutive entries (instruction; recurrence.h passes its unaligned loads) *)
Definition loadv (S : nat) (x : list F) (o : Z) : option (list F) :=
  itero S (fun i acc => do v <- zget x (o + Z.of_nat i); Some (acc ++ [v])) [].
(** recurrence.h 16-17: [for (l = 0; l < L; l++) X[l] = VLOAD(x+j+S*l)] *)
Definition loadr (S L : nat) (x : list F) (o : Z) : option (list (list F)) :=
  itero L (fun l acc => do v <- loadv S x (o + Z.of_nat S * Z.of_nat l); Some (acc ++ [v])) [].
(** VSTORE(f+o, v) *)
Definition storev (f : list F) (o : Z) (v : list F) : option (list F) :=
  itero (length v) (fun i f => do y <- nth_error v i; zset f (o + Z.of_nat i) y) f.
(** recurrence.h 22-23: [for (l = 0; l < L; l++) VSTORE(f+j+S*l, bk[l])] *)
Definition storer (S : nat) (f : list F) (o : Z) (V : list (list F)) : option (list F) :=
  itero (length V) (fun l f => do v <- nth_error V l; storev f (o + Z.of_nat S * Z.of_nat l) v) f.

(** lane-wise operations on an array of registers *)
Definition rmap (g : F -> F) (X : list (list F)) : list (list F) := map (map g) X.
Definition map2 {A B C} (g : A -> B -> C) (a : list A) (b : list B) : list C :=
  map (fun p => g (fst p) (snd p)) (combine a b).
Definition rmap2 (g : F -> F -> F) (X Y : list (list F)) : list (list F) := map2 (map2 g) X Y.
Definition rmap3 (g : F -> F -> F -> F) (X Y Z : list (list F)) : list (list F) :=
  map2 (map2 (fun h z => h z)) (map2 (map2 g) X Y) Z.
(** [VT bk[L] = {0}] and [VALL] broadcasts: [L] registers of [S] equal lanes *)
Definition rall (S L : nat) (v : F) : list (list F) := repeat (repeat v S) L.

(** recurrence.h 7-11, 33-37, 67-71, 102-106; recurrence_default.c (each function):
    [if (n < 1) { for (j = 0; j < m; j++) f[j] = 0; return; }] *)
Definition zero_all (m : Z) (f : list F) : option (list F) :=
  for_up 0 m (fun j f => zset f j zero) f.

(** The two loops over [j] common to the four macros (recurrence.h 13/25, 39/55, 73/90, 108/153):
    blocks of [S*L] points, then single points. *)
Definition blocked (S L : nat) (m : Z) (x : list F)
    (blk : Z -> list (list F) -> option (list (list F))) (scal : Z -> option F)
    (f : list F) : option (list F) :=
  let st := Z.of_nat S * Z.of_nat L in
  do f <- for_upst 0 (m + 1 - st) st (fun j f =>
            do X <- loadr S L x j;
            do V <- blk j X;
            storer S f j V) f;
  for_up (end_upst 0 (m + 1 - st) st) m (fun j f =>
            do v <- scal j;
            zset f j v) f.

(** ** Horner *)

(** recurrence_default.c 10-13 = recurrence.h 26-28: [bk = 0; for k = n-1..0: bk = x[j]*bk + c[k*incc]] *)
Definition horner_point (n : Z) (c : list F) (incc : Z) (x : list F) (j : Z) : option F :=
  for_dn (n - 1) 0 (fun k bk =>
    do xj <- zget x j;
    do ck <- zget c (k * incc);
    Some (add (mul xj bk) ck)) zero.

(** recurrence_default.c 3-15 horner_default *)
Definition horner_default (n : Z) (c : list F) (incc m : Z) (x f : list F) : option (list F) :=
  if n <? 1 then zero_all m f
  else for_up 0 m (fun j f => do bk <- horner_point n c incc x j; zset f j bk) f.

(** recurrence.h 6-30 HORNER_KERNEL *)
Definition horner_kernel (muladd : F -> F -> F -> F) (S L : nat)
    (n : Z) (c : list F) (incc m : Z) (x f : list F) : option (list F) :=
  if n <? 1 then zero_all m f
  else blocked S L m x
    (fun j X => for_dn (n - 1) 0 (fun k bk =>
        do ck <- zget c (k * incc);
        Some (rmap2 (fun a b => muladd a b ck) X bk)) (rall S L zero))
    (horner_point n c incc x) f.

(** ** Chebyshev-Clenshaw *)

(** recurrence.h 56-64: scalar remainder of CLENSHAW_KERNEL *)
Definition clenshaw_point (n : Z) (c : list F) (incc : Z) (x : list F) (j : Z) : option F :=
  do xj <- zget x j;
  let X := mul (ofZ 2) xj in
  do b <- for_dn (n - 1) 1 (fun k b =>
            let '(bk1, bk2) := b in
            do ck <- zget c (k * incc);
            Some (sub (add (mul X bk1) ck) bk2, bk1)) (zero, zero);
  do c0 <- zget c 0;
  Some (sub (add (mul (div X (ofZ 2)) (fst b)) c0) (snd b)).

(** recurrence_default.c 31-49 clenshaw_default; x is scaled by 2 and back in place,
    the literal 0.5 is [1/2] *)
Definition clenshaw_default (n : Z) (c : list F) (incc m : Z) (x f : list F) : option (list F * list F) :=
  if n <? 1 then do f <- zero_all m f; Some (x, f)
  else for_up 0 m (fun j xf =>
    let '(x, f) := xf in
    do xj <- zget x j;
    do x <- zset x j (mul xj (ofZ 2));
    do b <- for_dn (n - 1) 1 (fun k b =>
              let '(bk1, bk2) := b in
              do xj <- zget x j;
              do ck <- zget c (k * incc);
              Some (sub (add (mul xj bk1) ck) bk2, bk1)) (zero, zero);
    do xj <- zget x j;
    do x <- zset x j (mul xj (div one (ofZ 2)));
    do xj <- zget x j;
    do c0 <- zget c 0;
    do f <- zset f j (sub (add (mul xj (fst b)) c0) (snd b));
    Some (x, f)) (x, f).

(** recurrence.h 32-65 CLENSHAW_KERNEL; bk[3*l+1] and bk[3*l+2] are the two state arrays *)
Definition clenshaw_kernel (muladd : F -> F -> F -> F) (S L : nat)
    (n : Z) (c : list F) (incc m : Z) (x f : list F) : option (list F) :=
  if n <? 1 then zero_all m f
  else blocked S L m x
    (fun j X0 =>
      let X := rmap (mul (ofZ 2)) X0 in
      do b <- for_dn (n - 1) 1 (fun k b =>
                let '(bk1, bk2) := b in
                do ck <- zget c (k * incc);
                Some (rmap3 muladd X bk1 (rmap (sub ck) bk2), bk1)) (rall S L zero, rall S L zero);
      do c0 <- zget c 0;
      Some (rmap3 (fun X bk1 bk2 => sub (add (mul (div X (ofZ 2)) bk1) c0) bk2) X (fst b) (snd b)))
    (clenshaw_point n c incc x) f.

(** ** Clenshaw for a three-term recurrence *)

(** recurrence_default.c 80-91 = recurrence.h 91-100; state (bk, bk1, bk2) *)
Definition opc_point (n : Z) (c : list F) (incc : Z) (A B C : list F) (x phi0 : list F) (j : Z) : option F :=
  do X <- zget x j;
  do b <- for_dn (n - 1) 0 (fun k b =>
            let '(bk, bk1, bk2) := b in
            do ak <- zget A k; do bb <- zget B k; do ck1 <- zget C (k + 1); do ck <- zget c (k * incc);
            let bk := add (sub (mul (add (mul ak X) bb) bk1) (mul ck1 bk2)) ck in
            Some (bk, bk, bk1)) (zero, zero, zero);
  do p <- zget phi0 j;
  Some (mul p (fst (fst b))).

(** recurrence_default.c 73-92 orthogonal_polynomial_clenshaw_default *)
Definition opc_default (n : Z) (c : list F) (incc : Z) (A B C : list F) (m : Z) (x phi0 f : list F) : option (list F) :=
  if n <? 1 then zero_all m f
  else for_up 0 m (fun j f => do v <- opc_point n c incc A B C x phi0 j; zset f j v) f.

(** recurrence.h 66-100 ORTHOGONAL_POLYNOMIAL_CLENSHAW_KERNEL *)
Definition opc_kernel (muladd mulsub : F -> F -> F -> F) (S L : nat)
    (n : Z) (c : list F) (incc : Z) (A B C : list F) (m : Z) (x phi0 f : list F) : option (list F) :=
  if n <? 1 then zero_all m f
  else blocked S L m x
    (fun j X =>
      do b <- for_dn (n - 1) 0 (fun k b =>
                let '(bk, bk1, bk2) := b in
                do ak <- zget A k; do bb <- zget B k; do ck1 <- zget C (k + 1); do ck <- zget c (k * incc);
                let bk := rmap3 mulsub (rmap (fun x => muladd ak x bb) X) bk1
                                       (rmap (fun b2 => mulsub ck1 b2 ck) bk2) in
                Some (bk, bk, bk1)) (rall S L zero, rall S L zero, rall S L zero);
      do P <- loadr S L phi0 j;
      Some (rmap2 mul P (fst (fst b))))
    (opc_point n c incc A B C x phi0) f.

(** ** Normalised eigenfunctions by downward recurrence *)

(** recurrence_default.c 118-139 = recurrence.h 154-178; [huge] is eps()/floatmin();
    state (vkm1, vk, vkp1, nrm, sum) *)
Definition eig_point (huge : F) (n : Z) (c : list F) (incc : Z) (A B C : list F) (sign : Z)
    (x : list F) (j : Z) : option F :=
  do X <- zget x j;
  do s0 <- zget c ((n - 1) * incc);
  do s <- for_dn (n - 1) 1 (fun k s =>
            let '(vkm1, vk, vkp1, nrm, sum) := s in
            do ak <- zget A k; do bk <- zget B k; do ck <- zget C k; do cc <- zget c ((k - 1) * incc);
            let vkm1 := mul ak (add (mul (add X bk) vk) (mul ck vkp1)) in
            let vkp1 := vk in
            let vk := vkm1 in
            let nrm := add nrm (mul vkm1 vkm1) in
            let sum := add sum (mul vkm1 cc) in
            if ltb huge nrm then
              let nrm := div one (sqrtA nrm) in
              Some (mul vkm1 nrm, mul vk nrm, mul vkp1 nrm, one, mul sum nrm)
            else Some (vkm1, vk, vkp1, nrm, sum)) (one, one, zero, one, s0);
  let '(vkm1, vk, vkp1, nrm, sum) := s in
  let nrm := if ltb (mul (ofZ sign) vkm1) zero then div (opp one) (sqrtA nrm) else div one (sqrtA nrm) in
  Some (mul nrm sum).

(** recurrence_default.c 111-141 eigen_eval_default (f[j] accumulates the sum in place) *)
Definition eig_default (huge : F) (n : Z) (c : list F) (incc : Z) (A B C : list F) (m : Z) (x : list F)
    (sign : Z) (f : list F) : option (list F) :=
  if n <? 1 then zero_all m f
  else for_up 0 m (fun j f => do v <- eig_point huge n c incc A B C sign x j; zset f j v) f.

(** recurrence.h 101-179 EIGEN_EVAL_KERNEL: one rescaling decision for the whole block,
    taken when any lane of the sum of the norms over the registers exceeds [huge];
    the sign flip of f[j+ll] is applied before the (single) store *)
Definition eig_kernel (muladd : F -> F -> F -> F) (S L : nat) (huge : F)
    (n : Z) (c : list F) (incc : Z) (A B C : list F) (m : Z) (x : list F)
    (sign : Z) (f : list F) : option (list F) :=
  if n <? 1 then zero_all m f
  else blocked S L m x
    (fun j X =>
      do s0 <- zget c ((n - 1) * incc);
      do s <- for_dn (n - 1) 1 (fun k s =>
                let '(vkm1, vk, vkp1, nrm, sum) := s in
                do ak <- zget A k; do bk <- zget B k; do ck <- zget C k; do cc <- zget c ((k - 1) * incc);
                let vkm1 := rmap3 (fun x vk vkp1 => mul ak (muladd (add x bk) vk (mul ck vkp1))) X vk vkp1 in
                let vkp1 := vk in
                let vk := vkm1 in
                let nrm := rmap2 (fun v r => muladd v v r) vkm1 nrm in
                let nrmsum := fold_left (map2 add) nrm (repeat zero S) in
                let sum := rmap2 (fun v s => muladd v cc s) vkm1 sum in
                if existsb (fun s => ltb huge s) nrmsum then
                  let nrm := rmap (fun r => div one (sqrtA r)) nrm in
                  Some (rmap2 mul nrm vkm1, rmap2 mul nrm vk, rmap2 mul nrm vkp1, rall S L one, rmap2 mul nrm sum)
                else Some (vkm1, vk, vkp1, nrm, sum))
              (rall S L one, rall S L one, rall S L zero, rall S L one, rall S L s0);
      let '(vkm1, vk, vkp1, nrm, sum) := s in
      let nrm := rmap (fun r => div one (sqrtA r)) nrm in
      let f := rmap2 mul nrm sum in
      Some (rmap2 (fun v y => if ltb (mul (ofZ sign) v) zero then opp y else y) vkm1 f))
    (eig_point huge n c incc A B C sign x) f.

End Model.
