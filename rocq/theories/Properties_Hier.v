(** * Property theorems: dense, low-rank and hierarchical matrices (C28-C29)

    Source: src/hierarchical_source.c.  Vocabulary: SpecLin.v, SpecHier.v.  [t] is TRANS == 'T'. *)
From Coq Require Import ZArith List Reals Lra Lia Bool.
From Verif Require Import Arith Base BaseFacts SpecLin SpecSort MHier SpecHier PHier PHier2 PHier3 PHier4 PHier5 PHierThms.
Import ListNotations.
Open Scope Z_scope.

(** ** C28 *)
(** y <- alpha op(A) x + beta y; nothing outside the entries of y is changed *)
Theorem C28_gemv : forall t m n alpha A oA lda x ox beta y oy, 0 <= m -> 0 <= n ->
  fits_mat oA m n lda A -> fits ox (ocols t m n) x -> fits oy (orows t m n) y ->
  exists y', gemv t m n alpha A oA lda x ox beta y oy = Some y' /\
    writes oy (orows t m n) y y' (fun i => (alpha * matvec (ocols t m n) (op t (mat oA lda A)) (vec ox x) i + beta * vec oy y i)%R).
Proof. exact gemv_proof. Qed.
Print Assumptions C28_gemv.
(** C <- alpha op(A) B + beta C, with B and C of p columns *)
Theorem C28_gemm : forall t m n p alpha A oA lda B oB ldb beta C oC ldc, 0 <= m -> 0 <= n -> 0 <= p ->
  fits_mat oA m n lda A -> fits_mat oB (ocols t m n) p ldb B -> fits_mat oC (orows t m n) p ldc C ->
  exists C', gemm t m n p alpha A oA lda B oB ldb beta C oC ldc = Some C' /\
    writes_mat oC (orows t m n) p ldc C C'
      (fun i k => (alpha * matmul (ocols t m n) (op t (mat oA lda A)) (mat oB ldb B) i k + beta * mat oC ldc C i k)%R).
Proof. exact gemm_mat_proof. Qed.
Print Assumptions C28_gemm.
Theorem C28_demv : forall t alpha A x ox beta y oy, de_ok A -> fits ox (ocols t (de_m A) (de_n A)) x -> fits oy (orows t (de_m A) (de_n A)) y ->
  exists y', demv t alpha A x ox beta y oy = Some y' /\
    writes oy (orows t (de_m A) (de_n A)) y y' (fun i => (alpha * matvec (ocols t (de_m A) (de_n A)) (op t (de_mat A)) (vec ox x) i + beta * vec oy y i)%R).
Proof. exact demv_proof. Qed.
Print Assumptions C28_demv.
(** the low-rank leaf represents U V^T or U S V^T, whatever its scratch holds *)
Theorem C28_lrmv : forall L, lr_ok L -> forall t alpha x ox beta y oy, fits ox (ocols t (lr_m L) (lr_n L)) x -> fits oy (orows t (lr_m L) (lr_n L)) y ->
  exists y', lrmv t alpha L x ox beta y oy = Some y' /\
    writes oy (orows t (lr_m L) (lr_n L)) y y' (fun i => (alpha * matvec (ocols t (lr_m L) (lr_n L)) (op t (lr_mat L)) (vec ox x) i + beta * vec oy y i)%R).
Proof. exact lrmv_proof. Qed.
Print Assumptions C28_lrmv.
Theorem C28_lrmm : forall L, lr_ok L -> forall t p alpha B oB ldb beta C oC ldc, 0 <= p ->
  fits_mat oB (ocols t (lr_m L) (lr_n L)) p ldb B -> fits_mat oC (orows t (lr_m L) (lr_n L)) p ldc C ->
  exists C', lrmm t p alpha L B oB ldb beta C oC ldc = Some C' /\
    writes_mat oC (orows t (lr_m L) (lr_n L)) p ldc C C'
      (fun i k => (alpha * matmul (ocols t (lr_m L) (lr_n L)) (op t (lr_mat L)) (mat oB ldb B) i k + beta * mat oC ldc C i k)%R).
Proof. exact lrmm_mat_proof. Qed.
Print Assumptions C28_lrmm.
Example C28_nonvacuous : lr_ok (LowRank [1; 2; 3]%R [5]%R [7; 11]%R [0]%R [0]%R 3 2 1 true) /\ de_ok (Dense [1; 2; 3; 4; 5; 6]%R 3 2).
Proof. exact C28_example_proof. Qed.
Example C28_computed :
  @gemv Z Z_arith false 3 2 10 [1; 2; 3; 4; 5; 6] 0 3 [1; 1] 0 2 [100; 200; 300; 7] 0 = Some [250; 470; 690; 7] /\
  @gemv Z Z_arith true 3 2 1 [1; 2; 3; 4; 5; 6] 0 3 [1; 0; 2] 0 0 [100; 200; 300] 0 = Some [7; 16; 300] /\
  @lrmv Z Z_arith false 1 (LowRank [1; 2; 3] [5] [7; 11] [99] [98] 3 2 1 true) [1; 1] 0 1 [1; 1; 1] 0 = Some [91; 181; 271] /\
  @lrmm Z Z_arith true 2 1 (LowRank [1; 2; 3] [5] [7; 11] [99] [98] 3 2 1 false) [1; 0; 0; 0; 1; 0] 0 3 0 [1; 1; 1; 1] 0 2 = Some [7; 11; 14; 22].
Proof. vm_compute. repeat split. Qed.

(** ** C29 *)
(** for every tree, of any depth and any block shapes, ghmv is the product with the flattened
    matrix *)
Theorem C29_ghmv : forall t alpha H x ox beta y oy, h_ok H -> fits ox (ocols t (hrows H) (hcols H)) x -> fits oy (orows t (hrows H) (hcols H)) y ->
  exists y', ghmv t alpha H x ox beta y oy = Some y' /\
    writes oy (orows t (hrows H) (hcols H)) y y'
      (fun i => (alpha * matvec (ocols t (hrows H) (hcols H)) (op t (h_mat H)) (vec ox x) i + beta * vec oy y i)%R).
Proof. exact ghmv_proof. Qed.
Print Assumptions C29_ghmv.
(** ghmm with p right-hand sides (either way of cutting up the columns) *)
Theorem C29_ghmm : forall t alpha B ldb ldc H p oB beta C oC, h_ok H -> 0 <= p ->
  fits_mat oB (ocols t (hrows H) (hcols H)) p ldb B -> fits_mat oC (orows t (hrows H) (hcols H)) p ldc C ->
  exists C', ghmm t alpha H p B oB ldb beta C oC ldc = Some C' /\
    writes_mat oC (orows t (hrows H) (hcols H)) p ldc C C'
      (fun i k => (alpha * matmul (ocols t (hrows H) (hcols H)) (op t (h_mat H)) (mat oB ldb B) i k + beta * mat oC ldc C i k)%R).
Proof. exact ghmm_mat_proof. Qed.
Print Assumptions C29_ghmm.
(** the flattened matrix: inside block (a,b) the entries are those of the block, so [h_mat] is the
    block matrix *)
Theorem C29_flattened_is_block_matrix : forall m n M N bl a b X i j, h_ok (HTree m n M N bl) -> 0 <= a < M -> 0 <= b < N -> zget bl (a + b * M) = Some X ->
  0 <= i < hrows X -> 0 <= j < hcols X ->
  h_mat (HTree m n M N bl) (before a (rsize bl) + i) (before b (csize bl M) + j) = h_mat X i j.
Proof. exact flattened_proof. Qed.
Print Assumptions C29_flattened_is_block_matrix.
Theorem C29_scale_rows : forall alpha H x ox, h_ok H -> fits ox (hrows H) x ->
  exists H', scale_rows alpha H x ox = Some H' /\ scaled (fun i j => (alpha * vec ox x i)%R) H H'.
Proof. exact scale_rows_proof. Qed.
Print Assumptions C29_scale_rows.
Theorem C29_scale_columns : forall alpha H x ox, h_ok H -> fits ox (hcols H) x ->
  exists H', scale_columns alpha H x ox = Some H' /\ scaled (fun i j => (alpha * vec ox x j)%R) H H'.
Proof. exact scale_columns_proof. Qed.
Print Assumptions C29_scale_columns.
(** sampling f on sorted nodes terminates (the recursion depth is at most the number of nodes),
    builds a well-formed tree of the right size, and every entry is within eps of f(x_i, y_j) as
    soon as the low-rank approximation of every pair of separated ranges is *)
Theorem C29_sample : forall BS geometric x y f eps i0 j0 low, 1 <= BS -> (0 <= eps)%R ->
  0 <= fst i0 /\ snd i0 <= zlen x -> 0 <= fst j0 /\ snd j0 <= zlen y ->
  nondecreasing x (fst i0) (snd i0 - 1) -> nondecreasing y (fst j0) (snd j0 - 1) ->
  (forall i j, subrange i i0 -> subrange j j0 -> separated x y i j ->
    exists L, low i j = Some L /\ lr_ok L /\ lr_m L = len i /\ lr_n L = len j /\ samples f x y eps i j (lr_mat L)) ->
  forall fuel i j, subrange i i0 -> subrange j j0 -> len i + len j <= Z.of_nat fuel ->
  exists H, sample BS geometric x y (sample_dense x y f) low fuel i j = Some H /\
    h_ok H /\ hrows H = len i /\ hcols H = len j /\ samples f x y eps i j (h_mat H).
Proof. exact sample_proof. Qed.
Print Assumptions C29_sample.
Example C29_nonvacuous :
  let H := HTree 3 2 2 1 [HDense (Dense [1; 2] 1 2); HTree 2 2 1 2 [HLow (LowRank [1; 1] [1] [5] [0] [0] 2 1 1 false); HDense (Dense [3; 4] 2 1)]]%R in
  h_ok H /\ hrows H = 3 /\ hcols H = 2.
Proof. exact C29_example_proof. Qed.
(** the hypothesis on low-rank leaves is met, with eps = 0, by f constant *)
Example C29_sample_nonvacuous : forall x y (c : R) i j, fst i < snd i -> fst j < snd j ->
  exists L, Some (LowRank (zmake (len i) 1%R) [] (zmake (len j) c) [0%R] [0%R] (len i) (len j) 1 false) = Some L /\
    lr_ok L /\ lr_m L = len i /\ lr_n L = len j /\ samples (fun _ _ => c) x y 0 i j (lr_mat L).
Proof. exact C29_sample_example_proof. Qed.
Example C29_computed :
  let H := HTree 3 2 2 1 [HDense (Dense [1; 2] 1 2); HTree 2 2 1 2 [HLow (LowRank [1; 1] [1] [5] [0] [0] 2 1 1 false); HDense (Dense [3; 4] 2 1)]] in
  @ghmv Z Z_arith false 1 H [1; 10] 0 0 [9; 9; 9] 0 = Some [21; 35; 45] /\
  @ghmv Z Z_arith true 2 H [1; 10; 100] 0 1 [1; 1] 0 = Some [1103; 865] /\
  @ghmm Z Z_arith false 1 H 2 [1; 10; 1; 0] 0 2 0 [9; 9; 9; 9; 9; 9] 0 3 = Some [21; 35; 45; 1; 5; 5] /\
  @ghmm Z Z_arith false 1 H 1 [1; 10] 0 2 0 [9; 9; 9] 0 3 = Some [21; 35; 45] /\
  (do H' <- @scale_rows Z Z_arith 1 H [1; 2; 3] 0; @ghmv Z Z_arith false 1 H' [1; 10] 0 0 [9; 9; 9] 0) = Some [21; 70; 135] /\
  (do H' <- @scale_columns Z Z_arith 1 H [1; 2] 0; @ghmv Z Z_arith false 1 H' [1; 10] 0 0 [9; 9; 9] 0) = Some [41; 65; 85].
Proof. vm_compute. repeat split. Qed.
Example C29_sample_computed :
  let x := [0; 10; 20; 30; 40; 50; 60; 70] in
  match @sample Z Z_arith 2 true x x (@sample_dense Z Z_arith x x (fun a b => a * 100 + b)) (fun i j => Some (LowRank [] [] [] [] [] (len i) (len j) 0 false)) 16 (0, 8) (0, 8) with
  | Some (HTree 8 8 2 2 [HTree 4 4 _ _ [HTree _ _ _ _ [HDense (Dense [0] 1 1); HDense (Dense [1000] 1 1); HDense (Dense [10] 1 1); _]; HLow _; HLow _; HTree _ _ _ _ _]; HTree 4 4 _ _ [HLow _; HLow _; HLow _; HLow _]; HTree 4 4 _ _ _; HTree 4 4 _ _ _]) => True | _ => False end.
Proof. vm_compute. exact I. Qed.
