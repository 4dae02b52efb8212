(** * Proofs: secular equations and eigenvectors of diagonal-plus-rank-one pencils *)
From Coq Require Import ZArith List Lia Bool ZifyBool ZifyNat Reals Lra.
From Verif Require Import Arith Base BaseFacts SpecSum PSum SpecLin PTri SpecHier PHier PHier2 MDprk SpecDprk PDprk.
Import ListNotations.
Open Scope Z_scope.

(** ** The secular functions *)
Lemma quot_val d z i lo hi : 0 <= i -> i < zlen d -> i < zlen z -> quot d z i lo hi = Some (nR z i / (nR d i - (hi + lo)))%R.
Proof. intros. unfold quot. rewrite !(zget_nthZ 0%R) by lia. cbn [obind div sub R_arith]. do 2 f_equal. lra. Qed.
Lemma secular_loop A lo hi c : dp_ok A ->
  for_up 0 (dp_n A) (fun i ret => do t <- quot (dp_d A) (dp_z A) i lo hi; do zi <- zget (dp_z A) i; Some (add ret (mul zi t))) c = Some (c + pole_sum A (hi + lo))%R.
Proof.
  intros (Hn & Hd & Hz). unfold pole_sum.
  match goal with |- for_up 0 ?n ?b ?s = _ => destruct (for_up_inv (fun k t => t = (c + sumZ k (fun i => nR (dp_z A) i * nR (dp_z A) i / (nR (dp_d A) i - (hi + lo))))%R) 0 n b s) as (t & E & H); auto end.
  - rewrite sumZ_0 by lia. lra.
  - intros i t Hi ->. rewrite quot_val by lia. rewrite (zget_nthZ 0%R) by lia. cbn [obind]. eexists; split; [reflexivity|]. rewrite sumZ_S by lia. cbn. unfold Rdiv. lra.
  - now rewrite E, H.
Qed.
Lemma secular_proof A lo hi : dp_ok A -> secular A lo hi = Some (secular_function A (hi + lo)).
Proof. intros H. unfold secular, secular_function. rewrite secular_loop by auto. cbn. unfold Rdiv. now rewrite Rmult_1_l. Qed.
Lemma gpole_val rho sigma lo hi : sigma <> 0%R -> gpole rho sigma lo hi = (rho - sigma * (hi + lo))%R.
Proof. intros. unfold gpole. cbn. field. auto. Qed.
Lemma generalized_secular_proof A B lo hi : dp_ok A -> ip_sigma B <> 0%R ->
  generalized_secular A B lo hi = Some (pencil_secular_function A (ip_sigma B) (hi + lo)).
Proof. intros H Hs. unfold generalized_secular, pencil_secular_function. rewrite secular_loop, gpole_val by auto. cbn. unfold Rdiv. now rewrite Rmult_1_l. Qed.
Lemma secular_derivative_val A lo hi : dp_ok A ->
  secular_derivative A lo hi = Some (sumZ (dp_n A) (fun i => ((nR (dp_z A) i / (nR (dp_d A) i - (hi + lo))) ^ 2)%R)).
Proof.
  intros (Hn & Hd & Hz). unfold secular_derivative.
  match goal with |- for_up 0 ?n ?b ?s = _ => destruct (for_up_inv (fun k t => t = sumZ k (fun i => ((nR (dp_z A) i / (nR (dp_d A) i - (hi + lo))) ^ 2)%R)) 0 n b s) as (t & E & H); auto end.
  - intros i t Hi ->. rewrite quot_val by lia. cbn [obind]. eexists; split; [reflexivity|]. rewrite sumZ_S by lia. cbn. lra.
  - now rewrite E, H.
Qed.
Lemma second_sum_val A lo hi : dp_ok A -> 0 < dp_n A ->
  second_sum A lo hi = Some (sumZ (dp_n A - 1) (fun i => (nR (dp_z A) i ^ 2 / (nR (dp_d A) i - (hi + lo)) ^ 3)%R)).
Proof.
  intros (Hn & Hd & Hz) H0. unfold second_sum.
  match goal with |- for_up 0 ?n ?b ?s = _ => destruct (for_up_inv (fun k t => t = sumZ k (fun i => (nR (dp_z A) i ^ 2 / (nR (dp_d A) i - (hi + lo)) ^ 3)%R)) 0 n b s) as (t & E & H); auto; [lia| |] end.
  - intros i t Hi ->. rewrite quot_val by lia. rewrite (zget_nthZ 0%R) by lia. cbn [obind]. eexists; split; [reflexivity|]. rewrite sumZ_S by lia. cbn [add div mul sub R_arith].
    f_equal. unfold Rdiv. replace (nR (dp_d A) i - hi - lo)%R with (nR (dp_d A) i - (hi + lo))%R by lra. set (t := (nR (dp_d A) i - (hi + lo))%R).
    replace (/ t ^ 3)%R with (/ t * / t * / t)%R by (rewrite <- !Rinv_mult; f_equal; ring). ring.
  - now rewrite E, H.
Qed.

Lemma sum_deriv n (f g : Z -> R -> R) x : (forall i, 0 <= i < n -> derivable_pt_lim (f i) x (g i x)) ->
  derivable_pt_lim (fun t => sumZ n (fun i => f i t)) x (sumZ n (fun i => g i x)).
Proof.
  intros H. unfold sumZ. assert (H' : forall i, 0 <= i < Z.of_nat (Z.to_nat n) -> derivable_pt_lim (f i) x (g i x)) by (intros; apply H; lia).
  induction (Z.to_nat n) as [|k IH]; cbn [sumn].
  - apply derivable_pt_lim_const.
  - apply (derivable_pt_lim_plus (fun t => sumn k (fun i => f i t)) (f (Z.of_nat k))); [apply IH; intros; apply H'; lia|apply H'; lia].
Qed.
Lemma deriv_inv_lin a b x : (a - b * x <> 0)%R -> derivable_pt_lim (fun t => / (a - b * t))%R x (b / (a - b * x) ^ 2)%R.
Proof.
  intros H. assert (D : derivable_pt_lim (fun t => (a - b * t)%R) x (- b)%R).
  { replace (- b)%R with (0 - b * 1)%R by lra. apply (derivable_pt_lim_minus (fun _ => a) (fun t => (b * t)%R)); [apply derivable_pt_lim_const|].
    apply (derivable_pt_lim_scal id b x 1%R). apply derivable_pt_lim_id. }
  pose proof (derivable_pt_lim_div (fun _ => 1%R) (fun t => (a - b * t)%R) x 0%R (- b)%R (derivable_pt_lim_const 1%R x) D H) as E.
  apply (derivable_pt_lim_ext (fun t => (1 / (a - b * t))%R)) ; [intros; unfold Rdiv; lra|].
  unfold div_fct in E. replace (b / (a - b * x) ^ 2)%R with ((0 * (a - b * x) - - b * 1) / Rsqr (a - b * x))%R; [exact E|]. unfold Rsqr. field. auto.
Qed.
Lemma pole_sum_deriv A x : off_poles A x -> derivable_pt_lim (pole_sum A) x (sumZ (dp_n A) (fun i => ((nR (dp_z A) i / (nR (dp_d A) i - x)) ^ 2)%R)).
Proof.
  intros Ho. unfold pole_sum. apply (sum_deriv (dp_n A) (fun i t => (nR (dp_z A) i * nR (dp_z A) i / (nR (dp_d A) i - t))%R) (fun i x => ((nR (dp_z A) i / (nR (dp_d A) i - x)) ^ 2)%R)).
  intros i Hi. specialize (Ho i Hi). set (z := nR (dp_z A) i) in *. set (d := nR (dp_d A) i) in *.
  replace ((z / (d - x)) ^ 2)%R with (z * z * (1 / (d - 1 * x) ^ 2))%R by (field; lra).
  apply (derivable_pt_lim_ext (fun t => (z * z * / (d - 1 * t))%R)); [intros; unfold Rdiv; do 2 f_equal; lra|].
  apply (derivable_pt_lim_scal (fun t => / (d - 1 * t))%R). apply deriv_inv_lin. lra.
Qed.
Lemma secular_derivative_proof A lo hi : dp_ok A -> off_poles A (hi + lo) ->
  exists v, secular_derivative A lo hi = Some v /\ derivable_pt_lim (secular_function A) (hi + lo) v.
Proof.
  intros H Ho. rewrite secular_derivative_val by auto. eexists; split; [reflexivity|]. unfold secular_function.
  rewrite <- (Rplus_0_l (sumZ _ _)). apply (derivable_pt_lim_plus (fun _ => / dp_rho A)%R (pole_sum A)); [apply derivable_pt_lim_const|now apply pole_sum_deriv].
Qed.
Lemma generalized_secular_derivative_proof A B lo hi : dp_ok A -> ip_sigma B <> 0%R -> off_poles A (hi + lo) -> (dp_rho A - ip_sigma B * (hi + lo) <> 0)%R ->
  exists v, generalized_secular_derivative A B lo hi = Some v /\ derivable_pt_lim (pencil_secular_function A (ip_sigma B)) (hi + lo) v.
Proof.
  intros H Hs Ho Hp. unfold generalized_secular_derivative. rewrite secular_derivative_val by auto. cbn [obind]. eexists; split; [reflexivity|]. unfold pencil_secular_function.
  rewrite gpole_val by auto. cbn [add div mul R_arith].
  apply (derivable_pt_lim_plus (fun t => / (dp_rho A - ip_sigma B * t))%R (pole_sum A)); [|now apply pole_sum_deriv].
  match goal with |- derivable_pt_lim _ _ (_ / (?t * ?t))%R => replace (t * t)%R with (t ^ 2)%R by ring end. now apply deriv_inv_lin.
Qed.

(** the second derivative: the loop leaves out the last pole *)
Lemma secular_second_derivative_value A lo hi : dp_ok A -> 0 < dp_n A ->
  secular_second_derivative A lo hi = Some (2 * sumZ (dp_n A - 1) (fun i => nR (dp_z A) i ^ 2 / (nR (dp_d A) i - (hi + lo)) ^ 3))%R.
Proof. intros H H0. unfold secular_second_derivative. rewrite second_sum_val by auto. cbn [obind]. cbn. do 2 f_equal. Qed.
Lemma second_refuted_proof : exists A lo hi v, dp_ok A /\ off_poles A (hi + lo) /\ secular_second_derivative A lo hi = Some v /\
  ~ (exists f', (forall t, off_poles A t -> derivable_pt_lim (secular_function A) t (f' t)) /\ derivable_pt_lim f' (hi + lo) v).
Proof.
  exists (Dpr1 [0%R] [1%R] 1%R 1), 0%R, 1%R, (2 * 0)%R. split; [|split; [|split]].
  - repeat split; cbn; lia.
  - intros i Hi. cbn in Hi. assert (i = 0) by lia. subst. cbn. lra.
  - rewrite secular_second_derivative_value; [|repeat split; cbn; lia|cbn; lia]. cbn [dp_n]. rewrite sumZ_0 by lia. reflexivity.
  - intros (f' & Hf & Hd).
    assert (V : forall t, t <> 0%R -> f' t = ((1 / (0 - t)) ^ 2)%R).
    { intros t Ht. assert (Ho : off_poles (Dpr1 [0%R] [1%R] 1%R 1) t) by (intros i Hi; cbn in Hi; assert (i = 0) by lia; subst; cbn; lra).
      apply (uniqueness_limite (secular_function (Dpr1 [0%R] [1%R] 1%R 1)) t); [now apply Hf|].
      destruct (secular_derivative_proof (Dpr1 [0%R] [1%R] 1%R 1) 0 t) as (v & Ev & Dv); [repeat split; cbn; lia|now rewrite Rplus_0_r|].
      rewrite secular_derivative_val in Ev by (repeat split; cbn; lia). rewrite Rplus_0_r in *. cbn in Ev. injection Ev as <-. 
      replace ((1 / (0 - t)) ^ 2)%R with (0 + 1 / (0 - t) * (1 / (0 - t) * 1))%R by (cbn; lra). exact Dv. }
    destruct (Hd 1%R ltac:(lra)) as (del & Hdel). destruct del as (del & Hp). cbn in Hdel.
    set (h := Rmin (del / 2) (1 / 10)). assert (0 < h)%R by (unfold h; apply Rmin_glb_lt; lra). assert (h <= del / 2)%R by apply Rmin_l. assert (h <= 1 / 10)%R by apply Rmin_r.
    specialize (Hdel h ltac:(lra)). rewrite Rabs_right in Hdel by lra. specialize (Hdel ltac:(lra)).
    rewrite !V in Hdel by lra.
    replace (((1 / (0 - (1 + 0 + h))) ^ 2 - (1 / (0 - (1 + 0))) ^ 2) / h - 2 * 0)%R with (- ((2 + h) / ((1 + h) * (1 + h))))%R in Hdel by (field; lra).
    rewrite Rabs_Ropp in Hdel. apply Rabs_def2 in Hdel. destruct Hdel as (Hd1 & _).
    apply (Rmult_lt_compat_r ((1 + h) * (1 + h))) in Hd1; [|nra]. unfold Rdiv in Hd1. rewrite Rmult_assoc, Rinv_l in Hd1 by nra. nra.
Qed.

(** ** Roots and eigenvectors, over functions *)
Lemma sum_nonzero n f : sumZ n f <> 0%R -> exists i, 0 <= i < n /\ f i <> 0%R.
Proof.
  unfold sumZ. intros H. assert (E : exists i, 0 <= i < Z.of_nat (Z.to_nat n) /\ f i <> 0%R); [|destruct E as (i & Hi & E); exists i; split; auto; lia].
  induction (Z.to_nat n) as [|k IH]; cbn [sumn] in H; [lra|]. destruct (Req_dec (f (Z.of_nat k)) 0) as [E|E].
  - destruct IH as (i & Hi & E'); [lra|]. exists i. split; auto. lia.
  - exists (Z.of_nat k). split; auto. lia.
Qed.
Section Alg.
Variables (n : Z) (d z : Z -> R) (rho sigma : R).
Definition cS (l : R) : R := sumZ n (fun i => (z i * z i / (d i - l))%R).
Definition cP (l m : R) : R := sumZ n (fun i => (z i / (d i - l) * (z i / (d i - m)))%R).
Definition croot (l : R) : Prop := (forall i, 0 <= i < n -> d i <> l) /\ ((rho - sigma * l) * cS l = -1)%R.
Lemma zcol l : sumZ n (fun i => (z i * (z i / (d i - l)))%R) = cS l.
Proof. apply sumZ_ext. intros. unfold Rdiv. lra. Qed.
Lemma cS_diff l m : (forall i, 0 <= i < n -> d i <> l) -> (forall i, 0 <= i < n -> d i <> m) -> (cS l - cS m = (l - m) * cP l m)%R.
Proof.
  intros Hl Hm. unfold cS, cP. rewrite <- sumZ_minus, <- sumZ_scal. apply sumZ_ext. intros i Hi. specialize (Hl i Hi). specialize (Hm i Hi). field. split; lra.
Qed.
Lemma root_orth l m : croot l -> croot m -> l <> m -> (cP l m + sigma * cS l * cS m = 0)%R.
Proof.
  intros (Hl & El) (Hm & Em) Hne. pose proof (cS_diff l m Hl Hm) as E.
  assert (E1 : ((l - m) * (cP l m + sigma * cS l * cS m) = 0)%R).
  { replace ((l - m) * (cP l m + sigma * cS l * cS m))%R with ((l - m) * cP l m + (rho - sigma * m) * cS m * cS l - (rho - sigma * l) * cS l * cS m)%R by ring.
    rewrite <- E, El, Em. ring. }
  apply Rmult_integral in E1. destruct E1; lra.
Qed.
Lemma root_nonzero l : croot l -> exists i, 0 <= i < n /\ (z i / (d i - l) <> 0)%R.
Proof.
  intros (Hl & El). destruct (sum_nonzero n (fun i => (z i * (z i / (d i - l)))%R)) as (i & Hi & E); swap 1 2.
  - exists i. split; auto. intros E0. apply E. rewrite E0. lra.
  - intros E. rewrite zcol in E. rewrite E in El. lra.
Qed.
End Alg.

Lemma eigensystem_ext n m A A' B B' lam lam' V V' :
  (forall i j, 0 <= i < n -> 0 <= j < n -> A i j = A' i j) -> (forall i j, 0 <= i < n -> 0 <= j < n -> B i j = B' i j) ->
  (forall j, 0 <= j < m -> lam j = lam' j) -> (forall i j, 0 <= i < n -> 0 <= j < m -> V i j = V' i j) ->
  eigensystem n m A B lam V -> eigensystem n m A' B' lam' V'.
Proof.
  intros HA HB HL HV (E1 & E2). split.
  - intros j Hj i Hi. specialize (E1 j Hj i Hi). rewrite <- HL by auto. 
    rewrite (mv_ext n A' A (fun i => V' i j) (fun i => V i j)), (mv_ext n B' B (fun i => V' i j) (fun i => V i j)); auto; intros; symmetry; auto.
  - intros j k Hj Hk. rewrite <- (E2 j k Hj Hk). apply sumZ_ext. intros i Hi. rewrite <- HV by auto. f_equal.
    apply mv_ext; intros; symmetry; auto.
Qed.
Lemma root_system n d z rho sigma m lam c : 
  (forall j, 0 <= j < m -> croot n d z rho sigma (lam j)) -> (forall j k, 0 <= j < m -> 0 <= k < m -> j <> k -> lam j <> lam k) ->
  (forall j, 0 <= j < m -> (c j * c j * (cP n d z (lam j) (lam j) + sigma * cS n d z (lam j) * cS n d z (lam j)) = 1)%R) ->
  eigensystem n m (fun i j => (delta i j * d i + rho * z i * z j)%R) (fun i j => (delta i j * 1 + sigma * z i * z j)%R) lam (fun i j => (c j * (z i / (d i - lam j)))%R).
Proof.
  intros Hr Hd Hc.
  assert (ZS : forall j, sumZ n (fun i => (z i * (c j * (z i / (d i - lam j))))%R) = (c j * cS n d z (lam j))%R).
  { intros j. rewrite <- zcol, <- sumZ_scal. apply sumZ_ext. intros; ring. }
  split.
  - intros j Hj i Hi. rewrite (rank1_mv n d z rho), (rank1_mv n (fun _ => 1%R) z sigma) by auto. rewrite !ZS. destruct (Hr j Hj) as (Ho & E). specialize (Ho i Hi).
    replace (d i * (c j * (z i / (d i - lam j))))%R with (c j * z i + lam j * (c j * (z i / (d i - lam j))))%R by (field; lra).
    set (S := cS n d z (lam j)) in *. set (q := (z i / (d i - lam j))%R). 
    replace (c j * z i + lam j * (c j * q) + rho * (c j * S) * z i)%R with (c j * z i * (1 + (rho - sigma * lam j) * S) + lam j * (1 * (c j * q) + sigma * (c j * S) * z i))%R by ring. rewrite E. ring.
  - intros j k Hj Hk.
    rewrite (sumZ_ext n _ (fun i => (c j * c k * (z i / (d i - lam j) * (z i / (d i - lam k))) + (sigma * (c k * cS n d z (lam k))) * (z i * (c j * (z i / (d i - lam j)))))%R)).
    2:{ intros i Hi. rewrite (rank1_mv n (fun _ => 1%R) z sigma) by auto. rewrite ZS. ring. }
    rewrite sumZ_plus, !sumZ_scal, ZS. fold (cP n d z (lam j) (lam k)).
    replace (c j * c k * cP n d z (lam j) (lam k) + sigma * (c k * cS n d z (lam k)) * (c j * cS n d z (lam j)))%R
      with (c j * c k * (cP n d z (lam j) (lam k) + sigma * cS n d z (lam j) * cS n d z (lam k)))%R by ring.
    unfold delta. destruct (Z.eqb_spec j k) as [<-|N]; [now apply Hc|]. rewrite (root_orth n d z rho sigma) by auto. lra.
Qed.
(** posdef gives a positive normaliser *)
Lemma norm_pos n d z rho sigma l : posdef n (fun i j => (delta i j * 1 + sigma * z i * z j)%R) -> croot n d z rho sigma l ->
  (0 < cP n d z l l + sigma * cS n d z l * cS n d z l)%R.
Proof.
  intros HP Hr. specialize (HP (fun i => (z i / (d i - l))%R) (root_nonzero n d z rho sigma l Hr)).
  rewrite (sumZ_ext n _ (fun i => (z i / (d i - l) * (z i / (d i - l)) + (sigma * cS n d z l) * (z i * (z i / (d i - l))))%R)) in HP.
  - rewrite sumZ_plus, sumZ_scal, zcol in HP. fold (cP n d z l l) in HP. lra.
  - intros i Hi. rewrite (rank1_mv n (fun _ => 1%R) z sigma) by auto. rewrite zcol. ring.
Qed.
Lemma sum_sq_pos n v : (exists i, 0 <= i < n /\ v i <> 0%R) -> (0 < sumZ n (fun i => v i * v i))%R.
Proof.
  intros (i & Hi & E). rewrite (sumZ_pick n i) by auto. assert (0 <= sumZ n (fun k => if (k =? i)%Z then 0 else v k * v k))%R by (apply sumZ_pos; intros k _; destruct (k =? i)%Z; [lra|nra]).
  assert (0 < v i * v i)%R by nra. lra.
Qed.
Lemma posdef_rank1 n z sigma : (0 <= sigma)%R -> posdef n (fun i j => (delta i j * 1 + sigma * z i * z j)%R).
Proof.
  intros Hs v Hv. rewrite (sumZ_ext n _ (fun i => (v i * v i + (sigma * sumZ n (fun j => (z j * v j)%R)) * (z i * v i))%R)).
  - rewrite sumZ_plus, sumZ_scal. pose proof (sum_sq_pos n v Hv). set (s := sumZ n (fun j => (z j * v j)%R)). assert (0 <= s * s)%R by nra. nra.
  - intros i Hi. rewrite (rank1_mv n (fun _ => 1%R) z sigma) by auto. ring.
Qed.
