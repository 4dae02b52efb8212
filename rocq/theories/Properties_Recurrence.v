(** * Properties C14-C16, C49: evaluation routines of src/recurrence.c

    Statements only; proofs in PRecur.v and PRecur2.v.  [evaluates m f f' val]: the first m
    entries of the output are val 0, .., val (m-1), all others keep their value.
    [S] lanes per vector, [L] registers per block: any positive numbers. *)
From Coq Require Import ZArith List Lia Bool Reals Lra.
From Verif Require Import Arith Base BaseFacts MRecur SpecSum PRecur PRecur2.
Import ListNotations.
Open Scope Z_scope.

(** ** C14 *)
Theorem C14_horner :
  forall (muladd : R -> R -> R -> R) (S L : nat) (n : Z) (c : list R) (incc m : Z) (x f : list R),
    (0 < S)%nat -> (0 < L)%nat -> strided n c incc -> 0 <= m -> m <= zlen x -> m <= zlen f ->
    (forall a b c : R, muladd a b c = a * b + c)%R ->
    exists f', horner_kernel muladd S L n c incc m x f = Some f' /\ horner_default n c incc m x f = Some f' /\
      evaluates m f f' (fun j => sumZ n (fun k => (nthZ 0%R c (k * incc) * nthZ 0%R x j ^ Z.to_nat k)%R)).
Proof. exact horner_proof. Qed.
Print Assumptions C14_horner.

(** any arithmetic (bit-exact), for an instruction set without fused multiply-add *)
Theorem C14_horner_simd_is_scalar :
  forall (F : Type) (AF : Arith F) (muladd : F -> F -> F -> F) (S L : nat) (n : Z) (c : list F) (incc m : Z) (x f : list F),
    (0 < S)%nat -> (0 < L)%nat -> strided n c incc -> 0 <= m -> m <= zlen x -> m <= zlen f ->
    (forall a b c, muladd a b c = add (mul a b) c) ->
    exists f', horner_kernel muladd S L n c incc m x f = Some f' /\ horner_default n c incc m x f = Some f'.
Proof. exact @horner_simd_proof. Qed.
Print Assumptions C14_horner_simd_is_scalar.

Definition maZ (a b c : Z) : Z := a * b + c.
(** 1 + 2x + 3x^2 at 7 points with 2 lanes and 2 registers: one block, three single points;
    coefficients stored with stride 2; the eighth output entry is kept *)
Example C14_example :
  @horner_kernel Z Z_arith maZ 2 2 3 [1;99;2;99;3] 2 7 [0;1;2;3;4;5;-1] [9;9;9;9;9;9;9;9]
    = Some [1;6;17;34;57;86;2;9] /\
  @horner_default Z Z_arith 3 [1;99;2;99;3] 2 7 [0;1;2;3;4;5;-1] [9;9;9;9;9;9;9;9]
    = Some [1;6;17;34;57;86;2;9] /\
  @horner_default Z Z_arith 0 [] 1 2 [5;6] [9;9;9] = Some [0;0;9].
Proof. vm_compute. repeat split. Qed.
Example C14_nonvacuous : strided 3 [1;99;2;99;3]%R 2.
Proof. intros k Hk. replace (zlen _) with 5 by reflexivity. lia. Qed.

(** ** C15 *)
Theorem C15_clenshaw :
  forall (n : Z) (c : list R) (incc m : Z) (x f : list R),
    strided n c incc -> 0 <= m -> m <= zlen x -> m <= zlen f ->
    exists f', clenshaw_default n c incc m x f = Some (x, f') /\
      evaluates m f f' (fun j => sumZ n (fun k => (nthZ 0%R c (k * incc) * chebT k (nthZ 0%R x j))%R)).
Proof. exact clenshaw_default_val. Qed.
Print Assumptions C15_clenshaw.
Theorem C15_clenshaw_simd :
  forall (muladd : R -> R -> R -> R) (S L : nat) (n : Z) (c : list R) (incc m : Z) (x f : list R),
    (0 < S)%nat -> (0 < L)%nat -> strided n c incc -> 0 <= m -> m <= zlen x -> m <= zlen f ->
    (forall a b c : R, muladd a b c = a * b + c)%R ->
    exists f', clenshaw_kernel muladd S L n c incc m x f = Some f' /\
      evaluates m f f' (fun j => sumZ n (fun k => (nthZ 0%R c (k * incc) * chebT k (nthZ 0%R x j))%R)).
Proof. exact clenshaw_kernel_val. Qed.
Print Assumptions C15_clenshaw_simd.
(** T_0 + 2 T_1 + 3 T_2 + 4 T_3 at 0, 1, 2, 3, 4 *)
Example C15_example :
  @clenshaw_kernel Z Z_arith maZ 2 1 4 [1;2;3;4] 1 5 [0;1;2;3;4] [9;9;9;9;9;9] = Some [-2;10;130;454;1078;9].
Proof. vm_compute. reflexivity. Qed.
(** T_3 = 4x^3 - 3x *)
Example C15_chebT : forall x, chebT 3 x = (4 * x * x * x - 3 * x)%R.
Proof. intros. unfold chebT. change (Z.to_nat 3) with 3%nat. cbn [chebT2 fst]. ring. Qed.

(** ** C16 *)
Theorem C16_orthogonal_polynomial_clenshaw :
  forall (n : Z) (c : list R) (incc : Z) (A B C : list R) (m : Z) (x phi0 f : list R),
    strided n c incc -> n <= zlen A -> n <= zlen B -> n + 1 <= zlen C ->
    0 <= m -> m <= zlen x -> m <= zlen phi0 -> m <= zlen f ->
    exists f', opc_default n c incc A B C m x phi0 f = Some f' /\
      evaluates m f f' (fun j => (nthZ 0%R phi0 j *
        sumZ n (fun k => nthZ 0%R c (k * incc)%Z * opoly (nthZ 0%R A) (nthZ 0%R B) (nthZ 0%R C) k (nthZ 0%R x j)))%R).
Proof. exact opc_default_val. Qed.
Print Assumptions C16_orthogonal_polynomial_clenshaw.
Theorem C16_orthogonal_polynomial_clenshaw_simd :
  forall (muladd mulsub : R -> R -> R -> R) (S L : nat) (n : Z) (c : list R) (incc : Z) (A B C : list R) (m : Z) (x phi0 f : list R),
    (0 < S)%nat -> (0 < L)%nat ->
    strided n c incc -> n <= zlen A -> n <= zlen B -> n + 1 <= zlen C ->
    0 <= m -> m <= zlen x -> m <= zlen phi0 -> m <= zlen f ->
    (forall a b c : R, muladd a b c = a * b + c)%R -> (forall a b c : R, mulsub a b c = a * b - c)%R ->
    exists f', opc_kernel muladd mulsub S L n c incc A B C m x phi0 f = Some f' /\
      evaluates m f f' (fun j => (nthZ 0%R phi0 j *
        sumZ n (fun k => nthZ 0%R c (k * incc)%Z * opoly (nthZ 0%R A) (nthZ 0%R B) (nthZ 0%R C) k (nthZ 0%R x j)))%R).
Proof. exact opc_kernel_val. Qed.
Print Assumptions C16_orthogonal_polynomial_clenshaw_simd.
(** FINDING: one entry of C more than the recurrence uses is read *)
Theorem C16_needs_extra_entry_refuted :
  exists n c A B C m x phi0 f, zlen A = n /\ zlen B = n /\ zlen C = n /\ zlen c = n /\ 1 <= m /\ zlen x = m /\ zlen phi0 = m /\ zlen f = m /\
    @opc_default Z Z_arith n c 1 A B C m x phi0 f = None.
Proof. exists 2, [1;1], [1;2], [0;0], [0;1], 1, [3], [1], [0]. vm_compute. repeat split; discriminate. Qed.
Print Assumptions C16_needs_extra_entry_refuted.
(** p_0 = 1, p_1 = x, p_2 = 2 x^2 - 1, p_3 = 2 x p_2 - p_1: the same series as C15_example *)
Example C16_example :
  @opc_kernel Z Z_arith maZ (fun a b c => a * b - c) 2 1 4 [1;2;3;4] 1 [1;2;2;2] [0;0;0;0] [0;1;1;1;1] 5 [0;1;2;3;4] [1;1;1;1;2] [9;9;9;9;9;9]
    = Some [-2;10;130;454;2156;9].
Proof. vm_compute. reflexivity. Qed.

(** ** C49 *)
(** the result is the same for every value of the overflow guard [huge], for the scalar
    code and for every vector width *)
Theorem C49_eigen_eval :
  forall (muladd : R -> R -> R -> R) (S L : nat) (huge : R) (n : Z) (c : list R) (incc : Z) (A B C : list R) (m : Z) (x : list R) (sign : Z) (f : list R),
    (0 < S)%nat -> (0 < L)%nat ->
    strided n c incc -> n <= zlen A -> n <= zlen B -> n <= zlen C -> 0 <= m -> m <= zlen x -> m <= zlen f ->
    (forall a b c : R, muladd a b c = a * b + c)%R ->
    exists f', eig_kernel muladd S L huge n c incc A B C m x sign f = Some f' /\
      evaluates m f f' (fun j => if n <? 1 then 0%R else
        eig_value n (nthZ 0%R A) (nthZ 0%R B) (nthZ 0%R C) (fun k => nthZ 0%R c (k * incc)) sign (nthZ 0%R x j)).
Proof. exact eig_kernel_val. Qed.
Print Assumptions C49_eigen_eval.
Theorem C49_eigen_eval_scalar :
  forall (huge : R) (n : Z) (c : list R) (incc : Z) (A B C : list R) (m : Z) (x : list R) (sign : Z) (f : list R),
    strided n c incc -> n <= zlen A -> n <= zlen B -> n <= zlen C -> 0 <= m -> m <= zlen x -> m <= zlen f ->
    exists f', eig_default huge n c incc A B C m x sign f = Some f' /\
      evaluates m f f' (fun j => if n <? 1 then 0%R else
        eig_value n (nthZ 0%R A) (nthZ 0%R B) (nthZ 0%R C) (fun k => nthZ 0%R c (k * incc)) sign (nthZ 0%R x j)).
Proof. exact eig_default_val. Qed.
Print Assumptions C49_eigen_eval_scalar.
(** n = 2: v_1 = 1, v_0 = A_1 (x + B_1); with A_1 = 4/3, B_1 = 0, x = 1: (4/3 c_0 + c_1)/(5/3), sign -1 flips it *)
Example C49_example : eig_value 2 (fun _ => 4/3)%R (fun _ => 0)%R (fun _ => 0)%R (fun k => if k =? 0 then 1 else 2)%R (-1) 1 = (-2)%R.
Proof.
  unfold eig_value, eigv, sumZ.
  change (Z.to_nat (2 - 1 - 0)) with 1%nat. change (Z.to_nat 2) with 2%nat. cbn [sumn].
  change (Z.of_nat 0) with 0. change (Z.of_nat 1) with 1.
  change (Z.to_nat (2 - 1 - 0)) with 1%nat. change (Z.to_nat (2 - 1 - 1)) with 0%nat. cbn [eigv2 fst].
  change (0 =? 0) with true. change (1 =? 0) with false. cbv iota.
  destruct (Rlt_dec _ _) as [_|N]; [|exfalso; apply N; lra].
  replace (0 + 4 / 3 * ((1 + 0) * 1 + 0 * 0) * (4 / 3 * ((1 + 0) * 1 + 0 * 0)) + 1 * 1)%R with ((5/3) * (5/3))%R by field.
  rewrite sqrt_square by lra. field.
Qed.
