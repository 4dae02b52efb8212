(** * Model of src/permute.c and src/permute/permute.h

    All sizes are C [int]s that are non-negative in every call, so C's [/] and [%] are
    [Z.div] and [Z.modulo].  Integer overflow is not modelled here (see C47).
    A pointer parameter is an array plus an offset ([A, oA]).  The functions return the
    destination array; the source is not written. *)
From Coq Require Import ZArith List.
From Verif Require Import Base.
Open Scope Z_scope.

Section Permute.
Context {F : Type}.

(** src/permute.c:5-9 [permute] *)
Definition permute (A : list F) (oA : Z) (B : list F) (oB : Z) (N M L : Z) : option (list F) :=
  for_upst 0 M L (fun j B =>
    for_up 0 (L * N) (fun i B =>
      do v <- zget A (oA + (i + j * N));
      zset B (oB + ((L * i) mod (L * N) + (L * i) / (L * N) + j * N)) v) B) B.

(** src/permute.c:10-14 [permute_t] *)
Definition permute_t (A : list F) (oA : Z) (B : list F) (oB : Z) (N M L : Z) : option (list F) :=
  for_upst 0 M L (fun j A =>
    for_up 0 (L * N) (fun i A =>
      do v <- zget B (oB + ((L * i) mod (L * N) + (L * i) / (L * N) + j * N));
      zset A (oA + (i + j * N)) v) A) A.

(** the leading copy loop shared by the ragged versions, e.g. src/permute.c:17-18 *)
Definition copy_loop (src : list F) (oS : Z) (dst : list F) (oD : Z) (n : Z) : option (list F) :=
  for_up 0 n (fun i dst => do v <- zget src (oS + i); zset dst (oD + i) v) dst.

(** src/permute.c:16-20 [permute_sph]  ([M%(2*L)*N] parses as [(M%(2*L))*N]) *)
Definition permute_sph (A : list F) (oA : Z) (B : list F) (oB : Z) (N M L : Z) : option (list F) :=
  do B <- copy_loop A oA B oB (M mod (2 * L) * N);
  permute A (oA + M mod (2 * L) * N) B (oB + M mod (2 * L) * N) N (M - M mod (2 * L)) L.

(** src/permute.c:22-26 [permute_t_sph] *)
Definition permute_t_sph (A : list F) (oA : Z) (B : list F) (oB : Z) (N M L : Z) : option (list F) :=
  do A <- copy_loop B oB A oA (M mod (2 * L) * N);
  permute_t A (oA + M mod (2 * L) * N) B (oB + M mod (2 * L) * N) N (M - M mod (2 * L)) L.

(** src/permute.c:28-32 [permute_tri] *)
Definition permute_tri (A : list F) (oA : Z) (B : list F) (oB : Z) (N M L : Z) : option (list F) :=
  do B <- copy_loop A oA B oB (M mod L * N);
  permute A (oA + M mod L * N) B (oB + M mod L * N) N (M - M mod L) L.

(** src/permute.c:34-38 [permute_t_tri] *)
Definition permute_t_tri (A : list F) (oA : Z) (B : list F) (oB : Z) (N M L : Z) : option (list F) :=
  do A <- copy_loop B oB A oA (M mod L * N);
  permute_t A (oA + M mod L * N) B (oB + M mod L * N) N (M - M mod L) L.

(** src/permute.c:40-55 [old_permute_tri].  The recursion [L -> L/2] stops at [L = 2];
    for an [L] that never reaches 2 the C code does not terminate (infinite recursion):
    [None].  [fuel] bounds the recursion depth; [VALIGN(N) = N] (src/ftinternal.h). *)
Fixpoint old_permute_tri_f (fuel : nat) (A : list F) (oA : Z) (B : list F) (oB : Z) (N M L : Z)
  : option (list F) :=
  match fuel with
  | O => None
  | S fuel =>
    if L =? 2 then
      if M mod 2 =? 0 then permute A oA B oB N M 2
      else do B <- copy_loop A oA B oB N;
           permute A (oA + N) B (oB + N) N (M - 1) 2
    else
      do B <- old_permute_tri_f fuel A oA B oB N (M mod (2 * L)) (L / 2);
      permute A (oA + M mod (2 * L) * N) B (oB + M mod (2 * L) * N) N (M - M mod (2 * L)) L
  end.

Definition old_permute_tri (A : list F) (oA : Z) (B : list F) (oB : Z) (N M L : Z) :=
  old_permute_tri_f (Z.to_nat L + 2) A oA B oB N M L.

(** src/permute.c:57-72 [old_permute_t_tri] *)
Fixpoint old_permute_t_tri_f (fuel : nat) (A : list F) (oA : Z) (B : list F) (oB : Z) (N M L : Z)
  : option (list F) :=
  match fuel with
  | O => None
  | S fuel =>
    if L =? 2 then
      if M mod 2 =? 0 then permute_t A oA B oB N M 2
      else do A <- copy_loop B oB A oA N;
           permute_t A (oA + N) B (oB + N) N (M - 1) 2
    else
      do A <- old_permute_t_tri_f fuel A oA B oB N (M mod (2 * L)) (L / 2);
      permute_t A (oA + M mod (2 * L) * N) B (oB + M mod (2 * L) * N) N (M - M mod (2 * L)) L
  end.

Definition old_permute_t_tri (A : list F) (oA : Z) (B : list F) (oB : Z) (N M L : Z) :=
  old_permute_t_tri_f (Z.to_nat L + 2) A oA B oB N M L.

(** One vector exchange of [V] lanes at positions [pA], [pB] of the same array:
    all loads precede all stores (src/permute/permute.h:11-14). *)
Fixpoint vload (V : nat) (A : list F) (p : Z) : option (list F) :=
  match V with
  | O => Some nil
  | S V' => do v <- zget A p; do r <- vload V' A (p + 1); Some (v :: r)
  end.
Fixpoint vstore (A : list F) (p : Z) (vs : list F) : option (list F) :=
  match vs with
  | nil => Some A
  | (v :: r)%list => do A' <- zset A p v; vstore A' (p + 1) r
  end.

(** src/permute/permute.h:6-22 [SWAP_WARP_KERNEL] with block step [S], unroll factor [L]
    and vectors of [V] lanes.  Every instance has [V = S] except
    [swap_warp_AVX512Ff] (src/permute/permute_AVX512F.c:8: [float16] with [S = 8]).
    The two pointers [A] and [B] are offsets [oA], [oB] into one array (in [warp] they
    point into the same matrix). *)
Definition swap_warp_kernel (V : nat) (S L : Z) (A : list F) (oA oB N : Z) : option (list F) :=
  do A <- for_upst 0 (N + 1 - S * L) (S * L) (fun i A =>
    for_up 0 L (fun l A =>
      do ta <- vload V A (oA + i + S * l);
      do tb <- vload V A (oB + i + S * l);
      do A <- vstore A (oA + i + S * l) tb;
      vstore A (oB + i + S * l) ta) A) A;
  for_up (end_upst 0 (N + 1 - S * L) (S * L)) N (fun i A =>
    do temp <- zget A (oA + i);
    do b <- zget A (oB + i);
    do A <- zset A (oA + i) b;
    zset A (oB + i) temp) A.

(** src/permute/permute_default.c [swap_warp_default]: only the scalar loop *)
Definition swap_warp_default (A : list F) (oA oB N : Z) : option (list F) :=
  for_up 0 N (fun i A =>
    do temp <- zget A (oA + i);
    do b <- zget A (oB + i);
    do A <- zset A (oA + i) b;
    zset A (oB + i) temp) A.

(** src/permute.c:102-106 [warp] and 108-112 [warp_t].  [j] runs over the powers of two
    2, 4, ..., <= L (resp. L, L/2, ..., >= 2); [fuel] bounds the number of doublings
    (halvings).  [swp] is the version of [swap_warp] chosen at run time
    (src/permute.c:75-87). *)
Definition warp_pass (swp : list F -> Z -> Z -> Z -> option (list F))
    (N M L : Z) (j : Z) (A : list F) (oA : Z) : option (list F) :=
  for_upst (M mod (4 * L)) M (4 * j) (fun i A =>
    swp A (oA + (i + j) * N) (oA + (i + 2 * j) * N) (j * N)) A.

Fixpoint warp_from (fuel : nat) swp (N M L j : Z) (A : list F) (oA : Z) : option (list F) :=
  match fuel with
  | O => None
  | S fuel =>
    if j <=? L then
      do A <- warp_pass swp N M L j A oA;
      warp_from fuel swp N M L (2 * j) A oA
    else Some A
  end.
Definition warp swp (A : list F) (oA N M L : Z) : option (list F) :=
  warp_from (Z.to_nat L + 2) swp N M L 2 A oA.

Fixpoint warp_t_from (fuel : nat) swp (N M L j : Z) (A : list F) (oA : Z) : option (list F) :=
  match fuel with
  | O => None
  | S fuel =>
    if 2 <=? j then
      do A <- warp_pass swp N M L j A oA;
      warp_t_from fuel swp N M L (j / 2) A oA
    else Some A
  end.
Definition warp_t swp (A : list F) (oA N M L : Z) : option (list F) :=
  warp_t_from (Z.to_nat L + 2) swp N M L L A oA.
End Permute.
