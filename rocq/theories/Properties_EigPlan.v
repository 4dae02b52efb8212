(** * C58: planning a triangular eigenvector transform *)
From Coq Require Import ZArith List Reals QArith.
From Verif Require Import Arith Base SpecSum SpecLin MBanded SpecBanded MHier SpecHier MEig SpecEig MButter SpecButter MEigPlan SpecEigPlan PEigPlan5 PEigPlan6 PEigPlan7 PEigPlan8.
Import ListNotations.
Open Scope Z_scope.

(** For every upper-triangular banded pencil with distinct eigenvalues, every choice of the diagonal D and every tolerance
    up to 1, planning succeeds; the matrix the plan stands for ([tb_V], which multiply and solve apply by C30) is the
    matrix of eigenvectors with diagonal D, lambda holds the eigenvalues, and the plan is usable by every thread t < T.
    [exact_lowrank]: admissible blocks of the kernel 1/(x-y) are compressed without error; eps is 0. *)
Theorem C58_plan_holds_the_eigenvectors : forall (BS T tn BLK : Z) (tol : R) (low : list R -> Z * Z -> Z * Z -> option (lowrank R)),
  2 <= BS -> 0 <= tn < T -> 1 <= BLK -> (tol <= 1)%R -> exact_lowrank (thresholded_cauchykernel tol) low ->
  forall (fuel : nat) (A B : tbanded R) (D : list R) (o : Z),
  tb_ok A -> tb_ok B -> tb_n B = tb_n A -> tb_b B <= tb_b A -> tb_b A <= BS / 2 -> nonzero_diag (tb_n A) (tb_mat B) ->
  (forall i j, 0 <= i < j -> j < tb_n A -> pencil_eig A B i <> pencil_eig A B j) ->
  fits o (tb_n A) D -> (forall j, 0 <= j < tb_n A -> vec o D j <> 0%R) -> tb_n A < Z.of_nat fuel ->
  exists E L, tb_eig_FMM BS T tn BLK 0%R tol low fuel A B D o = Some (E, L) /\ tbeig_n E = tb_n A /\
    (forall t, 0 <= t < T -> tb_wf BS t E) /\ zlen (lroot L) = tb_n A /\ (forall j, 0 <= j < tb_n A -> nthZ 0%R (lroot L) j = pencil_eig A B j) /\
    eigenvectors_of (tb_n A) (tb_mat A) (tb_mat B) (vec o D) (tb_V E) /\
    sampled tol E L /\ (none_close tol (tb_n A) (pencil_eig A B) -> no_sparse E).
Proof. exact tb_eig_FMM_proof. Qed.
Print Assumptions C58_plan_holds_the_eigenvectors.
(** the variant with low-rank couplings; [exact_sylvester]: the factored ADI iteration solves its Sylvester equation *)
Theorem C58_adi_plan_holds_the_eigenvectors : forall (BS : Z) (adi : Z -> list R -> Z -> list R -> Z -> list R -> list R -> option (lowrank R)),
  2 <= BS -> exact_sylvester adi -> forall (fuel : nat) (A B : tbanded R),
  tb_ok A -> tb_ok B -> tb_n B = tb_n A -> tb_b B <= tb_b A -> tb_b A <= BS / 2 -> nonzero_diag (tb_n A) (tb_mat B) ->
  (forall i j, 0 <= i < j -> j < tb_n A -> pencil_eig A B i <> pencil_eig A B j) -> tb_n A < Z.of_nat fuel ->
  exists E la, tb_eig_ADI BS 0%R adi fuel A B = Some (E, la) /\ tbadi_n E = tb_n A /\
    ad_wf BS E /\ zlen la = tb_n A /\ (forall j, 0 <= j < tb_n A -> nthZ 0%R la j = pencil_eig A B j) /\
    eigenvectors_of (tb_n A) (tb_mat A) (tb_mat B) (fun _ => 1%R) (ad_V E).
Proof. exact tb_eig_ADI_proof. Qed.
Print Assumptions C58_adi_plan_holds_the_eigenvectors.
(** dropping the precision of a plan resamples its kernels and copies the rest: without rounding it stands for the same matrix *)
Theorem C58_drop_precision_keeps_the_matrix : forall (BS T BLK : Z) (tol : R) (low : list R -> Z * Z -> Z * Z -> option (lowrank R)),
  2 <= BS -> 0 < T -> 1 <= BLK -> exact_lowrank (thresholded_cauchykernel tol) low ->
  forall (E : tbeig R) (L : ltree R), (forall t, 0 <= t < T -> tb_wf BS t E) -> sampled tol E L -> zlen (lroot L) = tbeig_n E ->
  exists E' L', drop_tb BS T BLK tol low (fun x => x) E L = Some (E', L') /\ tbeig_n E' = tbeig_n E /\ (forall t, 0 <= t < T -> tb_wf BS t E') /\
    zlen (lroot L') = tbeig_n E /\ (forall j, 0 <= j < tbeig_n E -> nthZ 0%R (lroot L') j = nthZ 0%R (lroot L) j) /\ sampled tol E' L' /\
    (forall i j, 0 <= i < tbeig_n E -> 0 <= j < tbeig_n E -> tb_V E' i j = tb_V E i j) /\ (no_sparse E -> no_sparse E').
Proof. exact drop_tb_proof. Qed.
Print Assumptions C58_drop_precision_keeps_the_matrix.

(** the hypotheses on the factorisations are met, e.g. by f = f I and by the explicit solution *)
Example C58_exact_factorisations_exist : (forall f, exact_lowrank f (low_exact f)) /\ exact_sylvester adi_exact.
Proof. split; [exact low_exact_ok|exact adi_exact_ok]. Qed.
(** a pencil of order 5, split down to order 1, that meets the hypotheses *)
Example C58_example : let A := exA IZR in let B := exB IZR in let D := exD IZR in
  tb_ok A /\ tb_ok B /\ tb_n B = tb_n A /\ tb_b B <= tb_b A /\ tb_b A <= 2 / 2 /\ nonzero_diag (tb_n A) (tb_mat B) /\
  (forall i j, 0 <= i < j -> j < tb_n A -> pencil_eig A B i <> pencil_eig A B j) /\ fits 0 (tb_n A) D /\ (forall j, 0 <= j < tb_n A -> vec 0 D j <> 0%R).
Proof. exact ex_hyps. Qed.
(** the same pencil in exact rational arithmetic, with and without close eigenvalues *)
Example C58_computed :
  plan_column (1#2)%Q (exA inject_Z) (exB inject_Z) (exD inject_Z) 4 = direct_column (exA inject_Z) (exB inject_Z) (exD inject_Z) 4 /\
  plan_column 0%Q (exA inject_Z) (exB inject_Z) (exD inject_Z) 4 = direct_column (exA inject_Z) (exB inject_Z) (exD inject_Z) 4 /\
  plan_column 0%Q (exA inject_Z) (exB inject_Z) (exD inject_Z) 2 = Some [16%Q; 8%Q; 2%Q; 0%Q; 0%Q] /\
  direct_column (exA inject_Z) (exB inject_Z) (exD inject_Z) 4 <> None /\
  match @tb_eig_FMM Q Q_arith 2 1 0 4 0%Q (1#2)%Q (fun _ _ _ => None) 6 (exA inject_Z) (exB inject_Z) (exD inject_Z) 0 with
  | Some (TBNode _ _ _ _ _ _ _ Sp _ _ _ _, L) => sp_nnz Sp = 1 /\ lroot L = [1%Q; 2%Q; 3%Q; 4%Q; 5%Q] | _ => False end.
Proof. exact ex_computed. Qed.
(** the two conditions on the bandwidths are needed (in exact rational arithmetic): if B is stored with a larger bandwidth
    than A the plan does not hold eigenvectors; if the bandwidth exceeds half the order, planning leaves an array *)
Theorem C58_wider_B_refuted : exists v, wide_column 2 = Some v /\ exists r, wide_residual v = Some r /\ r <> 0%Q.
Proof. exact wide_wrong. Qed.
Print Assumptions C58_wider_B_refuted.
Theorem C58_wide_band_refuted : @tb_eig_FMM Q Q_arith 2 1 0 4 0%Q 0%Q (fun _ _ _ => None) 6 (longA inject_Z) (longB inject_Z) [1%Q; 1%Q] 0 = None.
Proof. exact long_stuck. Qed.
Print Assumptions C58_wide_band_refuted.
