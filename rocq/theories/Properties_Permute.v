(** * Properties C01-C05: data movement of src/permute.c and src/permute/

    Statements only; proofs are in PPermute.v.  They hold for arrays of any type: nothing
    is computed on the entries, so they are bit-exact for doubles and floats. *)
From Coq Require Import ZArith List Lia Bool.
From Verif Require Import Base BaseFacts MPermute PPermute PPermute2.
Import ListNotations.
Open Scope Z_scope.

(** ** C01 *)
(** permute writes entry (row r, column g*L+c) of A to position r*L+c of group g of B,
    stays in bounds, and permute_t restores A whatever its destination contained. *)
Theorem C01_permute_layout_and_roundtrip :
  forall (F : Type) (A B A0 : list F) (N M L : Z),
    0 <= N -> 1 <= L -> 0 <= M -> (L | M) ->
    zlen A = N * M -> zlen B = N * M -> zlen A0 = N * M ->
    exists B', permute A 0 B 0 N M L = Some B' /\ zlen B' = N * M /\
      (forall g r c, 0 <= g < M / L -> 0 <= r < N -> 0 <= c < L ->
         zget B' (g * (L * N) + (r * L + c)) = zget A (r + (g * L + c) * N)) /\
      permute_t A0 0 B' 0 N M L = Some A.
Proof. exact @C01_permute_proof. Qed.
Print Assumptions C01_permute_layout_and_roundtrip.

Theorem C01_permute_t_roundtrip :
  forall (F : Type) (A B B0 : list F) (N M L : Z),
    0 <= N -> 1 <= L -> 0 <= M -> (L | M) ->
    zlen A = N * M -> zlen B = N * M -> zlen B0 = N * M ->
    exists A', permute_t A 0 B 0 N M L = Some A' /\ permute A' 0 B0 0 N M L = Some B.
Proof. exact @C01_permute_t_proof. Qed.
Print Assumptions C01_permute_t_roundtrip.

(** a 2x4 matrix, two lanes: columns are interleaved pairwise *)
Example C01_example :
  permute [1;2;3;4;5;6;7;8] 0 [0;0;0;0;0;0;0;0] 0 2 4 2 = Some [1;3;2;4;5;7;6;8]
  /\ permute_t [0;0;0;0;0;0;0;0] 0 [1;3;2;4;5;7;6;8] 0 2 4 2 = Some [1;2;3;4;5;6;7;8].
Proof. vm_compute. split; reflexivity. Qed.
Example C01_nonvacuous : 0 <= 2 /\ 1 <= 2 /\ 0 <= 4 /\ (2 | 4) /\ zlen [1;2;3;4;5;6;7;8] = 2 * 4.
Proof. repeat split; try lia. exists 2. reflexivity. Qed.

(** ** C02 *)
(** [R] leading columns are copied verbatim, the others interleaved; no divisibility
    assumption on the number of columns. *)
Theorem C02_permute_sph_roundtrip :
  forall (F : Type) (A B A0 : list F) (N M L : Z),
    0 <= N -> 1 <= L -> 0 <= M ->
    zlen A = N * M -> zlen B = N * M -> zlen A0 = N * M ->
    exists B', permute_sph A 0 B 0 N M L = Some B' /\ zlen B' = N * M /\
      (forall r c, 0 <= r < N -> 0 <= c < M mod (2 * L) ->
         zget B' (r + c * N) = zget A (r + c * N)) /\
      (forall g r c, 0 <= g < (M - M mod (2 * L)) / L -> 0 <= r < N -> 0 <= c < L ->
         zget B' (M mod (2 * L) * N + (g * (L * N) + (r * L + c))) =
         zget A (r + (M mod (2 * L) + (g * L + c)) * N)) /\
      permute_t_sph A0 0 B' 0 N M L = Some A.
Proof. exact @C02_permute_sph_proof. Qed.
Print Assumptions C02_permute_sph_roundtrip.

Theorem C02_permute_t_sph_roundtrip :
  forall (F : Type) (A B B0 : list F) (N M L : Z),
    0 <= N -> 1 <= L -> 0 <= M ->
    zlen A = N * M -> zlen B = N * M -> zlen B0 = N * M ->
    exists A', permute_t_sph A 0 B 0 N M L = Some A' /\ permute_sph A' 0 B0 0 N M L = Some B.
Proof. exact @C02_permute_t_sph_proof. Qed.
Print Assumptions C02_permute_t_sph_roundtrip.

Theorem C02_permute_tri_roundtrip :
  forall (F : Type) (A B A0 : list F) (N M L : Z),
    0 <= N -> 1 <= L -> 0 <= M ->
    zlen A = N * M -> zlen B = N * M -> zlen A0 = N * M ->
    exists B', permute_tri A 0 B 0 N M L = Some B' /\ zlen B' = N * M /\
      (forall r c, 0 <= r < N -> 0 <= c < M mod L ->
         zget B' (r + c * N) = zget A (r + c * N)) /\
      (forall g r c, 0 <= g < (M - M mod L) / L -> 0 <= r < N -> 0 <= c < L ->
         zget B' (M mod L * N + (g * (L * N) + (r * L + c))) =
         zget A (r + (M mod L + (g * L + c)) * N)) /\
      permute_t_tri A0 0 B' 0 N M L = Some A.
Proof. exact @C02_permute_tri_proof. Qed.
Print Assumptions C02_permute_tri_roundtrip.

Theorem C02_permute_t_tri_roundtrip :
  forall (F : Type) (A B B0 : list F) (N M L : Z),
    0 <= N -> 1 <= L -> 0 <= M ->
    zlen A = N * M -> zlen B = N * M -> zlen B0 = N * M ->
    exists A', permute_t_tri A 0 B 0 N M L = Some A' /\ permute_tri A' 0 B0 0 N M L = Some B.
Proof. exact @C02_permute_t_tri_proof. Qed.
Print Assumptions C02_permute_t_tri_roundtrip.

(** five columns, two lanes: one column copied, two groups of two *)
Example C02_example :
  permute_sph [1;2;3;4;5;6;7;8;9;10] 0 (zmake 10 0) 0 2 5 2 = Some [1;2;3;5;4;6;7;9;8;10]
  /\ permute_tri [1;2;3;4;5;6] 0 (zmake 6 0) 0 2 3 2 = Some [1;2;3;5;4;6].
Proof. vm_compute. split; reflexivity. Qed.

(** ** C03 *)
Theorem C03_old_permute_tri_roundtrip :
  forall (F : Type) (A B A0 : list F) (N M : Z) (e : nat),
    0 <= N -> 0 <= M -> zlen A = N * M -> zlen B = N * M -> zlen A0 = N * M ->
    exists B', old_permute_tri A 0 B 0 N M (2 ^ (Z.of_nat e + 1)) = Some B' /\
      zlen B' = N * M /\
      old_permute_t_tri A0 0 B' 0 N M (2 ^ (Z.of_nat e + 1)) = Some A.
Proof. exact @C03_old_proof. Qed.
Print Assumptions C03_old_permute_tri_roundtrip.

Theorem C03_old_permute_t_tri_roundtrip :
  forall (F : Type) (A B B0 : list F) (N M : Z) (e : nat),
    0 <= N -> 0 <= M -> zlen A = N * M -> zlen B = N * M -> zlen B0 = N * M ->
    exists A', old_permute_t_tri A 0 B 0 N M (2 ^ (Z.of_nat e + 1)) = Some A' /\
      old_permute_tri A' 0 B0 0 N M (2 ^ (Z.of_nat e + 1)) = Some B.
Proof. exact @C03_old_t_proof. Qed.
Print Assumptions C03_old_permute_t_tri_roundtrip.

(** L = 4, 11 columns: 11 mod 8 = 3 columns go to the recursive call with L = 2 *)
Example C03_example :
  old_permute_tri [1;2;3;4;5;6;7;8;9;10;11;12;13;14;15;16;17;18;19;20;21;22] 0 (zmake 22 0) 0 2 11 4
  = Some [1;2;3;5;4;6;7;9;11;13;8;10;12;14;15;17;19;21;16;18;20;22].
Proof. vm_compute. reflexivity. Qed.

(** ** C04 *)
(** warp permutes whole columns by a bijection [w] of [0,M) that does not depend on the
    data, and warp_t undoes it; for every version of the column exchange. *)
Theorem C04_warp_roundtrip :
  forall (F : Type) (swp : list F -> Z -> Z -> Z -> option (list F)) (N M : Z) (e : nat),
    swp = swap_warp_default \/ (exists S L, 0 < S /\ 0 < L /\ swp = swap_warp_kernel (Z.to_nat S) S L) ->
    0 <= N -> 0 <= M ->
    exists w w' : Z -> Z,
      (forall c, 0 <= c < M -> 0 <= w c < M /\ 0 <= w' c < M /\ w (w' c) = c /\ w' (w c) = c) /\
      forall A, zlen A = N * M ->
      exists A', warp swp A 0 N M (2 ^ Z.of_nat e) = Some A' /\ zlen A' = N * M /\
        (forall r c, 0 <= r < N -> 0 <= c < M -> zget A' (r + c * N) = zget A (r + w c * N)) /\
        warp_t swp A' 0 N M (2 ^ Z.of_nat e) = Some A.
Proof. exact @C04_warp_proof. Qed.
Print Assumptions C04_warp_roundtrip.

Theorem C04_warp_t_roundtrip :
  forall (F : Type) (swp : list F -> Z -> Z -> Z -> option (list F)) (A : list F) (N M : Z) (e : nat),
    swp = swap_warp_default \/ (exists S L, 0 < S /\ 0 < L /\ swp = swap_warp_kernel (Z.to_nat S) S L) ->
    0 <= N -> 0 <= M -> zlen A = N * M ->
    exists A', warp_t swp A 0 N M (2 ^ Z.of_nat e) = Some A' /\
      warp swp A' 0 N M (2 ^ Z.of_nat e) = Some A.
Proof. exact @C04_warp_t_proof. Qed.
Print Assumptions C04_warp_t_roundtrip.

(** L = 4 (AVX-512): 17 columns; the orders of one parity become adjacent *)
Example C04_example :
  warp swap_warp_default [0;11;12;21;22;31;32;41;42;51;52;61;62;71;72;81;82] 0 1 17 4
  = Some [0;11;12;31;32;51;52;71;72;21;22;41;42;61;62;81;82].
Proof. vm_compute. reflexivity. Qed.

(** ** C05 *)
(** every vector width [S] and unroll factor [L] exchanges exactly [N] entries *)
Theorem C05_swap_warp_exchanges :
  forall (F : Type) (A : list F) (oA oB N S L : Z),
    0 < S -> 0 < L -> 0 <= N -> 0 <= oA -> 0 <= oB ->
    oA + N <= zlen A -> oB + N <= zlen A -> (oA + N <= oB \/ oB + N <= oA) ->
    exists A', swap_warp_kernel (Z.to_nat S) S L A oA oB N = Some A' /\ zlen A' = zlen A /\
      (forall k, 0 <= k < N -> zget A' (oA + k) = zget A (oB + k) /\ zget A' (oB + k) = zget A (oA + k)) /\
      (forall p, ~ oA <= p < oA + N -> ~ oB <= p < oB + N -> zget A' p = zget A p) /\
      swap_warp_default A oA oB N = Some A'.
Proof. exact @C05_swap_proof. Qed.
Print Assumptions C05_swap_warp_exchanges.

Example C05_example :
  swap_warp_kernel 2 2 4 (ztab 22 (fun i => i)) 0 11 11 =
  Some [11;12;13;14;15;16;17;18;19;20;21;0;1;2;3;4;5;6;7;8;9;10].
Proof. vm_compute. reflexivity. Qed.

(** FINDING.  [swap_warp_AVX512Ff] instantiates the kernel with 16-lane vectors and block
    step 8 (src/permute/permute_AVX512F.c:8): on exactly sized buffers of 32 entries it
    accesses memory outside, and inside a larger buffer it does not exchange the ranges. *)
Theorem C05_swap_warp_AVX512Ff_refuted :
  (exists (A : list Z) oA oB N, 0 <= oA /\ oA + N <= oB /\ oB + N <= zlen A /\
     swap_warp_kernel 16 8 4 A oA oB N = None) /\
  (exists (A A' : list Z) oA oB N k, 0 <= oA /\ oA + N <= oB /\ oB + N <= zlen A /\ 0 <= k < N /\
     swap_warp_kernel 16 8 4 A oA oB N = Some A' /\ zget A' (oA + k) <> zget A (oB + k)).
Proof. exact C05_AVX512Ff_refuted_proof. Qed.
Print Assumptions C05_swap_warp_AVX512Ff_refuted.
