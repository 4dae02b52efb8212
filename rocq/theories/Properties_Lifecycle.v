(** * C46: creating a plan and destroying it frees every block allocated for it exactly once

    [lifecycle create destroy] ([SpecHeap]): from any heap, creating succeeds and adds a set B of new
    blocks; in any later heap in which B is still live, destroying succeeds (no block is freed twice, no
    freed block is read) and frees exactly B.  Heaps also carry the numbers and the tree shapes that the
    code derives from floating-point data, so the statements hold for all of them. *)
From Coq Require Import ZArith List Lia.
From Verif Require Import SpecHeap MHeap MLife MLife2 MLife3 MLife4 PLife6.
Import ListNotations.
Open Scope Z_scope.

(** ** Every plan of the public interface *)
Theorem C46_public_plans : forall thr rank BS NMAX k, 2 <= BS -> admissible k ->
  lifecycle (create thr rank BS NMAX k) (destroy BS k).
Proof. exact lc_public. Qed.
Print Assumptions C46_public_plans.
(** ** Any interleaving of creations and destructions, in any order

    No history of a program that destroys only open plans, each at most once, fails; blocks that were
    live at the start stay live; and when no plan is open the live blocks are those of the start. *)
Theorem C46_histories : forall thr rank BS NMAX es h, 2 <= BS -> (forall k, In (Create k) es -> admissible k) -> wf h ->
  exists open h1, run kind obj (create thr rank BS NMAX) (destroy BS) es [] h = Some (open, h1) /\ wf h1 /\
  (forall p, In p (live h) -> In p (live h1)) /\ (open = [] -> forall p, In p (live h1) <-> In p (live h)).
Proof. exact histories_public. Qed.
Print Assumptions C46_histories.
(** an empty heap, with data that split every hierarchical matrix once *)
Definition heap0 : heap := Heap 1 [] 0 (fun i => i mod 7) (fun _ => Split Dense LowRank LowRank Dense).
Example heap0_wf : wf heap0.
Proof. split; [reflexivity|]. split; [constructor|intros p []]. Qed.
Definition history0 : list (event kind) :=
  [Create (KSphere 3); Create (KFast Jacobi 20); Create (KAnnulus true 4); Destroy 1; Create (KModified 3 2 2);
   Destroy 0; Destroy 1; Create (KHelmholtzHodge 3); Destroy 0; Destroy 0].
Example C46_history_meets : forall k, In (Create k) history0 -> admissible k.
Proof. intros k H. cbn in H. repeat destruct H as [H|H]; try discriminate H; try contradiction; injection H as <-; cbn; lia. Qed.
Example C46_history_runs :
  match run kind obj (create 1 15 16 40) (destroy 16) history0 [] heap0 with
  | Some (open, h1) => open = [] /\ live h1 = [] /\ 100 < next h1
  | None => False
  end.
Proof. vm_compute. repeat split. Qed.
(** in the middle of the history, with the annulus plan and the modified plan open *)
Example C46_history_middle :
  match run kind obj (create 1 15 16 40) (destroy 16) (firstn 6 history0) [] heap0 with
  | Some (open, h1) => length open = 2%nat /\ length (live h1) = 22%nat
  | None => False
  end.
Proof. vm_compute. repeat split. Qed.

(** ** Eigenvalue plans of pencils made by the caller *)
Theorem C46_banded_eigen_FMM : forall thr rank BS n bA bB, 2 <= BS -> 0 <= n -> lifecycle (fmm_of_pencil thr rank BS n bA bB) (destroy_tbeig BS).
Proof. exact lc_fmm. Qed.
Print Assumptions C46_banded_eigen_FMM.
Theorem C46_divide_and_conquer : forall TS low n, 2 <= TS -> 0 <= n -> lifecycle (tdc_of_pencil TS low n) (destroy_tdceig TS destroy_dpr1eig).
Proof. exact lc_tdc. Qed.
Print Assumptions C46_divide_and_conquer.
Theorem C46_divide_and_conquer_FMM : forall thr rank TS low n, 2 <= TS -> 0 <= n ->
  lifecycle (tdcfmm_of_pencil thr rank TS low n) (destroy_tdceig TS destroy_dpr1fmm).
Proof. exact lc_tdcfmm. Qed.
Print Assumptions C46_divide_and_conquer_FMM.
Theorem C46_rank_one : forall n, lifecycle (dpr1_of_pencil n) destroy_dpr1eig.
Proof. exact lc_dpr1. Qed.
Print Assumptions C46_rank_one.
Theorem C46_rank_one_FMM : forall thr rank n, lifecycle (dpr1fmm_of_pencil thr rank n) destroy_dpr1fmm.
Proof. exact lc_dpr1fmm. Qed.
Print Assumptions C46_rank_one_FMM.
Theorem C46_adi_small : forall thr BS n bA bB, 2 <= BS -> 0 <= n < BS -> 0 <= Z.max bA bB ->
  lifecycle (adi_of_pencil thr BS n bA bB) (destroy_adieig BS).
Proof. exact lc_adi. Qed.
Print Assumptions C46_adi_small.
Example C46_eigen_runs :
  match tdcfmm_of_pencil 1 15 4 true 9 heap0 with
  | Some (F, h1) => 40 < Z.of_nat (length (live h1)) /\ match destroy_tdceig 4 destroy_dpr1fmm F h1 with Some (_, h2) => live h2 = [] | None => False end
  | None => False
  end.
Proof. vm_compute. repeat split. Qed.

(** ** Plans that leak *)
Theorem C46_isometry_leaks : forall n, 2 <= n -> leaks 1 (plan_sph_isometry n) destroy_iso.
Proof. exact leak_iso. Qed.
Print Assumptions C46_isometry_leaks.
Theorem C46_adi_leaks : forall thr BS n bA bB, 2 <= BS <= n -> 0 <= Z.max bA bB -> leaks_at_least 2 (adi_of_pencil thr BS n bA bB) (destroy_adieig BS).
Proof. exact leak_adi. Qed.
Print Assumptions C46_adi_leaks.
Theorem C46_associated_hermite_leaks : forall n, 0 <= n -> leaks 2 (plan_dense_associated Associated_Hermite n) free.
Proof. exact leak_dense_hermite. Qed.
Print Assumptions C46_associated_hermite_leaks.
Theorem C46_associated_hermite_fast_leaks : forall thr rank BS n, 2 <= BS -> 0 <= n ->
  leaks 2 (plan_fast_associated thr rank BS Associated_Hermite n) (destroy_btbeig BS).
Proof. exact leak_fast_hermite. Qed.
Print Assumptions C46_associated_hermite_fast_leaks.
Example C46_isometry_leak_runs :
  match plan_sph_isometry 5 heap0 with
  | Some (F, h1) => match destroy_iso F h1 with Some (_, h2) => live h2 = [is_F F] | None => False end
  | None => False
  end.
Proof. vm_compute. reflexivity. Qed.
