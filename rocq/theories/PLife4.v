(** * Triples of the pencils, the connection plans and the modified plans *)
From Coq Require Import ZArith List Lia Bool ZifyBool ZifyNat.
From Verif Require Import SpecHeap MHeap PHeap MLife MLife2 PLife PLife2 PLife3.
Import ListNotations.
Open Scope Z_scope.
Open Scope prog_scope.

Lemma sp_op_derivative : forall m n o, hoare (fun _ => 0) (op_derivative m n o)
  (fun A => bd_m A = m /\ bd_n A = n /\ bd_l A = - o /\ bd_u A = o) (fun A x => Z.of_nat (own_banded A x)).
Proof. intros. apply sp_alloc_banded. Qed.
Lemma sp_op_multiplication : forall m n, hoare (fun _ => 0) (op_multiplication m n)
  (fun A => bd_m A = m /\ bd_n A = n /\ bd_l A = 1 /\ bd_u A = 1) (fun A x => Z.of_nat (own_banded A x)).
Proof. intros. apply sp_alloc_banded. Qed.
Lemma sp_op_jacobi_raising : forall m n, hoare (fun _ => 0) (op_jacobi_raising m n)
  (fun A => bd_m A = m /\ bd_n A = n /\ bd_l A = 0 /\ bd_u A = 2) (fun A x => Z.of_nat (own_banded A x)).
Proof. intros. apply sp_alloc_banded. Qed.
Lemma sp_op_jacobi_lowering : forall m n, hoare (fun _ => 0) (op_jacobi_lowering m n)
  (fun A => bd_m A = m /\ bd_n A = n /\ bd_l A = 2 /\ bd_u A = 0) (fun A x => Z.of_nat (own_banded A x)).
Proof. intros. apply sp_alloc_banded. Qed.
Lemma sp_op_laguerre_raising : forall m n, hoare (fun _ => 0) (op_laguerre_raising m n)
  (fun A => bd_m A = m /\ bd_n A = n /\ bd_l A = 0 /\ bd_u A = 1) (fun A x => Z.of_nat (own_banded A x)).
Proof. intros. apply sp_alloc_banded. Qed.
Lemma sp_op_laguerre_lowering : forall m n, hoare (fun _ => 0) (op_laguerre_lowering m n)
  (fun A => bd_m A = m /\ bd_n A = n /\ bd_l A = 1 /\ bd_u A = 0) (fun A x => Z.of_nat (own_banded A x)).
Proof. intros. apply sp_alloc_banded. Qed.
#[export] Hint Resolve sp_op_derivative sp_op_multiplication sp_op_jacobi_raising sp_op_jacobi_lowering sp_op_laguerre_raising sp_op_laguerre_lowering : hspec.

(** the banded matrices are kept as a list, to cancel quickly *)
Lemma sp_read2 : forall A B, hoare (fun x => Z.of_nat (own_banded A x) + Z.of_nat (own_banded B x)) (read2 A B) (fun _ => True)
  (fun _ x => Z.of_nat (own_banded A x) + Z.of_nat (own_banded B x)).
Proof. intros. unfold read2. start. steps. exact I. Qed.
(** reading the same matrix twice, or two matrices, leaves the count as it is *)
Lemma hoare_read2 : forall C G A B P (f : unit -> prog C) (phi : C -> G -> Prop) Q,
  (forall x, Z.of_nat (own_banded A x) <= P x) -> (forall x, Z.of_nat (own_banded B x) <= P x) ->
  hoareG P (f tt) phi Q -> hoareG P (bind (read2 A B) f) phi Q.
Proof.
  intros C G A B P f phi Q HA HB H. unfold read2. apply hoare_assoc.
  apply hoare_use; [intro x; specialize (HA x); unfold own_banded in HA; lia|].
  apply hoare_use; [intro x; specialize (HB x); unfold own_banded in HB; lia|]. exact H.
Qed.
Definition is_pencil (n : Z) (c : prog tbanded) : Prop :=
  hoare (fun _ => 0) c (fun A => tb_n A = n) (fun A x => Z.of_nat (own_tbanded A x)).
Ltac rd := lazymatch goal with |- hoareG _ (bind (read2 _ _) _) _ _ => apply hoare_read2; [hside|hside|] end.
Ltac psteps := repeat (first [rd | step]).
Ltac pclear := repeat match goal with H : _ /\ _ |- _ => clear H end.
Lemma sp_pencil_direct : forall n, is_pencil n (pencil_direct n).
Proof. intros. unfold is_pencil, pencil_direct. start. psteps. tauto. Qed.
Lemma sp_A_laguerre : forall n, is_pencil n (A_laguerre n).
Proof. intros. unfold is_pencil, A_laguerre. start. psteps. tauto. Qed.
Lemma sp_A_jacobi : forall n, is_pencil n (A_jacobi n).
Proof. intros. unfold is_pencil, A_jacobi. start. psteps. lia. Qed.
Lemma sp_B_jacobi : forall n, is_pencil n (B_jacobi n).
Proof. intros. unfold is_pencil, B_jacobi. start. psteps. lia. Qed.
Lemma sp_B_laguerre : forall n, is_pencil n (B_laguerre n).
Proof. intros. unfold is_pencil, B_laguerre. start. psteps. lia. Qed.
Lemma sp_B_half_chebyshev : forall n, is_pencil n (B_half_chebyshev n).
Proof. intros. unfold is_pencil, B_half_chebyshev. start. psteps. lia. Qed.
Lemma sp_C_associated_jacobi : forall n, is_pencil n (C_associated_jacobi n).
Proof. intros. unfold is_pencil, C_associated_jacobi. start. psteps. lia. Qed.
Lemma sp_C_associated_laguerre : forall n, is_pencil n (C_associated_laguerre n).
Proof. intros. unfold is_pencil, C_associated_laguerre. start. psteps. lia. Qed.
Lemma sp_C_associated_hermite : forall n, is_pencil n (C_associated_hermite n).
Proof. intros. unfold is_pencil, C_associated_hermite. start. psteps. tauto. Qed.
Lemma sp_B_associated_laguerre : forall n, is_pencil n (B_associated_laguerre n).
Proof. intros. unfold is_pencil, B_associated_laguerre. start. psteps. lia. Qed.
Lemma sp_A_half_chebyshev : forall n, is_pencil n (A_half_chebyshev n).
Proof. intros. unfold is_pencil, A_half_chebyshev. start. psteps. lia. Qed.
Lemma sp_A_associated_jacobi : forall n, is_pencil n (A_associated_jacobi n).
Proof. intros. unfold is_pencil, A_associated_jacobi. start. psteps. lia. Qed.
Lemma sp_B_associated_jacobi : forall n, is_pencil n (B_associated_jacobi n).
Proof. intros. unfold is_pencil, B_associated_jacobi. start. psteps. lia. Qed.
Lemma sp_A_associated_laguerre : forall n, is_pencil n (A_associated_laguerre n).
Proof. intros. unfold is_pencil, A_associated_laguerre. start. psteps. lia. Qed.
Lemma sp_A_associated_hermite : forall n, is_pencil n (A_associated_hermite n).
Proof. intros. unfold is_pencil, A_associated_hermite. start. psteps. lia. Qed.

Lemma sp_create_A : forall f n, is_pencil n (create_A f n).
Proof.
  intros [| | | |] n; cbn [create_A]; auto using sp_pencil_direct, sp_A_jacobi, sp_A_laguerre, sp_A_half_chebyshev.
Qed.
Lemma sp_create_B : forall f n, is_pencil n (create_B f n).
Proof.
  intros [| | | |] n; cbn [create_B]; auto using sp_pencil_direct, sp_B_jacobi, sp_B_laguerre, sp_B_half_chebyshev.
Qed.
Lemma sp_associated_A : forall f n, is_pencil n (associated_A f n).
Proof. intros [| |] n; cbn [associated_A]; auto using sp_A_associated_jacobi, sp_A_associated_laguerre, sp_A_associated_hermite. Qed.
Lemma sp_associated_C : forall f n, is_pencil n (associated_C f n).
Proof. intros [| |] n; cbn [associated_C]; auto using sp_C_associated_jacobi, sp_C_associated_laguerre, sp_C_associated_hermite. Qed.
(** the second operator of the associated Hermite polynomials leaves two blocks behind *)
Definition lost (f : associated) : Z := match f with Associated_Hermite => 2 | _ => 0 end.
Lemma sp_associated_B : forall f n, 0 <= n -> hoareG (fun _ => 0) (associated_B f n) (fun A l => tb_n A = n /\ Z.of_nat (length l) = lost f)
  (fun A l x => Z.of_nat (own_tbanded A x) + Z.of_nat (count_occ Z.eq_dec l x)).
Proof.
  intros f n Hn. destruct f; cbn [associated_B lost].
  - apply hoare_tail. eapply hoare_bind; [apply sp_B_associated_jacobi|hside|intros A HA; cbv beta in HA |- *].
    apply (hoareG_ret _ _ []); [auto|]. intro x. cbn [count_occ]. lia.
  - apply hoare_tail. eapply hoare_bind; [apply sp_B_associated_laguerre|hside|intros A HA; cbv beta in HA |- *].
    apply (hoareG_ret _ _ []); [auto|]. intro x. cbn [count_occ]. lia.
  - unfold B_associated_hermite, op_derivative, alloc_banded. psteps.
    apply (hoareG_ret _ _ [v1; v2]); [cbn; split; [tauto|reflexivity]|]. intro x.
    rewrite <- (cnt_Z [v1; v2]), !cnt_cons. change (cnt [] x) with 0. unfold own_banded. cbn [bd_self bd_data]. blk_facts. lia.
Qed.

(** ** dense plans *)
Definition is_array (c : prog Z) : Prop := hoare (fun _ => 0) c (fun p => p <> NULL) (fun p x => Z.of_nat (sgl p x)).
Lemma sp_plan_dense : forall f n, is_array (plan_dense f n).
Proof.
  intros f n. unfold is_array, plan_dense. start.
  eapply hoare_bind; [apply sp_create_A|hside|intros A HA; cbv beta in HA |- *].
  eapply hoare_bind; [apply sp_create_B|hside|intros B HB; cbv beta in HB |- *]. steps. assumption.
Qed.
Lemma sp_rescale : forall b n, hoare (fun _ => 0) (rescale b n) (fun _ => True) (fun _ _ => 0).
Proof. intros [|] n; unfold rescale; start; steps; exact I. Qed.
Lemma sp_plan_dense_scaled : forall b n, is_array (plan_dense_scaled b n).
Proof.
  intros b n. unfold is_array, plan_dense_scaled. start.
  eapply hoare_bind; [apply sp_plan_dense|hside|intros V HV; cbv beta in HV |- *].
  eapply hoare_bind; [apply sp_rescale|hside|intros u _; cbv beta]. steps. assumption.
Qed.
Lemma sp_plan_dense_scaled2 : forall b1 b2 n, is_array (plan_dense_scaled2 b1 b2 n).
Proof.
  intros b1 b2 n. unfold is_array, plan_dense_scaled2. start.
  eapply hoare_bind; [apply sp_plan_dense_scaled|hside|intros V HV; cbv beta in HV |- *].
  eapply hoare_bind; [apply sp_rescale|hside|intros u _; cbv beta]. steps. assumption.
Qed.
Lemma sp_plan_dense_associated : forall f n, 0 <= n -> hoareG (fun _ => 0) (plan_dense_associated f n)
  (fun p l => True /\ Z.of_nat (length l) = lost f) (fun p l x => Z.of_nat (sgl p x) + cnt l x).
Proof.
  intros f n Hn. unfold plan_dense_associated.
  eapply hoare_bind; [apply sp_associated_A|hside|intros A HA; cbv beta in HA |- *].
  eapply hoareG_bind; [apply sp_associated_B; assumption|hside|intros B l [HB Hl]; cbv beta].
  eapply hoare_bind; [apply sp_associated_C|hside|intros C HC; cbv beta in HC |- *]. steps.
  apply (hoareG_ret _ _ l); [auto|]. intro x. rewrite cnt_Z. blk_facts. lia.
Qed.

(** ** fast plans *)
Lemma sp_plan_fast : forall thr rank BS f n, 2 <= BS -> 0 <= n ->
  hoare (fun _ => 0) (plan_fast thr rank BS f n) (ok_tbeig BS) (fun F x => Z.of_nat (own_tbeig F x)).
Proof.
  intros thr rank BS f n HB Hn. unfold plan_fast. start.
  eapply hoare_bind; [apply sp_create_A|hside|intros A HA; cbv beta in HA |- *].
  eapply hoare_bind; [apply sp_create_B|hside|intros B HB'; cbv beta in HB' |- *]. step.
  eapply hoare_bind; [apply sp_tb_eig_FMM; [assumption|unfold depth; lia]|hside|intros F2 HF2; cbv beta in HF2 |- *].
  steps. assumption.
Qed.
Lemma sp_plan_fast_scaled : forall thr rank BS b n, 2 <= BS -> 0 <= n ->
  hoare (fun _ => 0) (plan_fast_scaled thr rank BS b n) (ok_tbeig BS) (fun F x => Z.of_nat (own_tbeig F x)).
Proof.
  intros thr rank BS b n HB Hn. unfold plan_fast_scaled. start.
  eapply hoare_bind; [apply sp_plan_fast; assumption|hside|intros F HF; cbv beta in HF |- *]. use_tbe.
  eapply hoare_bind; [apply sp_rescale|hside|intros u _; cbv beta]. steps. assumption.
Qed.
Lemma sp_plan_fast_scaled2 : forall thr rank BS b1 b2 n, 2 <= BS -> 0 <= n ->
  hoare (fun _ => 0) (plan_fast_scaled2 thr rank BS b1 b2 n) (ok_tbeig BS) (fun F x => Z.of_nat (own_tbeig F x)).
Proof.
  intros thr rank BS b1 b2 n HB Hn. unfold plan_fast_scaled2. start.
  eapply hoare_bind; [apply sp_plan_fast_scaled; assumption|hside|intros F HF; cbv beta in HF |- *]. use_tbe.
  eapply hoare_bind; [apply sp_rescale|hside|intros u _; cbv beta]. steps. assumption.
Qed.
Lemma sp_plan_fast_associated : forall thr rank BS f n, 2 <= BS -> 0 <= n ->
  hoareG (fun _ => 0) (plan_fast_associated thr rank BS f n) (fun F l => ok_tbeig BS (be_F F) /\ Z.of_nat (length l) = lost f)
    (fun F l x => Z.of_nat (own_btbeig F x) + cnt l x).
Proof.
  intros thr rank BS f n HB Hn. unfold plan_fast_associated.
  eapply hoare_bind; [apply sp_associated_A|hside|intros a00 H1; cbv beta in H1 |- *].
  eapply hoareG_bind; [apply sp_associated_B; assumption|hside|intros a01 l [H2 Hl]; cbv beta]. do 3 step.
  eapply hoare_bind; [apply sp_associated_C|hside|intros b01 H3; cbv beta in H3 |- *]. do 2 step.
  eapply hoare_bind; [apply sp_create_block2; lia|hside|intros A HA; cbv beta in HA |- *].
  eapply hoare_bind; [apply sp_create_block2; lia|hside|intros B HB'; cbv beta in HB' |- *]. step.
  eapply hoare_bind; [apply sp_btb_eig_FMM; [assumption|lia]|hside|intros F2 HF2; cbv beta in HF2 |- *]. steps.
  apply (hoareG_ret _ _ l); [auto|]. intro x. rewrite cnt_Z. blk_facts. lia.
Qed.
Lemma no_loss : forall A (c : prog A) (phi : A -> Prop) own,
  hoareG (fun _ => 0) c (fun v l => phi v /\ Z.of_nat (length l) = 0) (fun v l x => Z.of_nat (own v x) + cnt l x) ->
  hoare (fun _ => 0) c phi (fun v x => Z.of_nat (own v x)).
Proof.
  intros A c phi own H h Hw Hh. destruct (H h Hw Hh) as (v & h' & l & E & W & [F L] & C).
  destruct l as [|a l]; [|cbn in L; lia]. exists v, h', tt. split; [exact E|]. split; [exact W|]. split; [exact F|].
  intro x. rewrite C. cbn. lia.
Qed.

(** ** modified plans *)
Definition own_modplan (P : modplan) (x : Z) : nat := (sgl (mp_self P) x + own_opt own_tbanded (mp_K P) x + own_tbanded (mp_R P) x)%nat.
Definition ok_modplan (P : modplan) : Prop := (mp_nv P < 1 /\ mp_K P = None) \/ (1 <= mp_nv P /\ exists K, mp_K P = Some K).
Lemma sp_destroy_modplan : forall P, ok_modplan P -> hoare (fun x => Z.of_nat (own_modplan P x)) (destroy_modplan P) (fun _ => True) (fun _ _ => 0).
Proof.
  intros P [[Hn HK]|[Hn [K HK]]]; unfold destroy_modplan, own_modplan; rewrite HK; cbn [own_opt field]; start.
  - step. replace (mp_nv P <? 1) with true by lia. steps. exact I.
  - step. replace (mp_nv P <? 1) with false by lia. steps. exact I.
Qed.
#[export] Hint Resolve sp_destroy_modplan : hspec.
Lemma sp_normalized_clenshaw : forall n nc, hoare (fun _ => 0) (normalized_clenshaw n nc)
  (fun A => bd_m A = n /\ bd_n A = n /\ bd_l A = nc - 1 /\ bd_u A = nc - 1) (fun A x => Z.of_nat (own_banded A x)).
Proof. intros. unfold normalized_clenshaw. start. steps. assumption. Qed.
#[export] Hint Resolve sp_normalized_clenshaw : hspec.
Lemma sp_modified_ql : forall NMAX fuel N nu nv, 1 <= N -> NMAX + 2 - N <= Z.of_nat fuel -> 1 <= Z.of_nat fuel ->
  hoare (fun _ => 0) (modified_ql NMAX fuel N nu nv) (fun _ => True) (fun F x => Z.of_nat (own_bqr F x)).
Proof.
  intros NMAX. induction fuel as [|fuel IH]; intros N nu nv HN Hf Hf1; [lia|]. cbn [modified_ql]. start. steps.
  destruct (Z.ltb_spec NMAX N) as [H1|H1]; cbn [orb].
  - steps. exact I.
  - destruct (negb (k =? 0)).
    + steps. exact I.
    + step. rewrite Z.shiftl_mul_pow2 by lia. apply hoare_tail. eapply hoare_bind; [apply IH; lia|hside|intros G _; cbv beta]. steps. exact I.
Qed.
Lemma sp_plan_modified : forall NMAX fuel n nu nv, 1 <= n -> NMAX < Z.of_nat fuel -> 1 <= Z.of_nat fuel ->
  hoare (fun _ => 0) (plan_modified NMAX fuel n nu nv) ok_modplan (fun P x => Z.of_nat (own_modplan P x)).
Proof.
  intros NMAX fuel n nu nv Hn Hf Hf1. unfold plan_modified. start. step. destruct (Z.ltb_spec nv 1) as [Hv|Hv].
  - steps. apply hoare_ret; [left; cbn; auto|]. intro x. unfold own_modplan. cbn [mp_self mp_K mp_R own_opt]. lia.
  - eapply hoare_bind; [apply sp_modified_ql; lia|hside|intros F _; cbv beta].
    psteps. apply hoare_ret; [right; cbn; eauto|]. intro x. unfold own_modplan. cbn [mp_self mp_K mp_R own_opt]. lia.
Qed.
