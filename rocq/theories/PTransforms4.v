(** * Plans of connection transforms: the sign of orthonormal ultraspherical polynomials; instances *)
From Coq Require Import ZArith List Lia Bool Reals Lra ZifyBool ZifyNat.
From Verif Require Import Base BaseFacts Arith SpecSum PSum SpecLin MBanded SpecBanded PTri MHier SpecHier MEig SpecEig MButter SpecButter PButter2 PButter3 PButterThms MEigPlan SpecEigPlan PEigPlan3 PEigPlan5 PEigPlan7 PEigPlan8
  SpecClassical SpecConn MClassical MConn PClass1 PClass2 PClass3 PClass6 PClass7 PClass8 PPoly PPenJ PPenU PPenC PPenL PDiag MTransforms SpecTransforms PTransforms PTransforms2 PTransforms3.
Import ListNotations.
Open Scope Z_scope.

Lemma rs_neg la i : (- 1 / 2 < la)%R -> (la < 0)%R -> 1 <= i -> (rs la i < 0)%R.
Proof.
  intros H1 H2 Hi. unfold rs. pattern i. apply (Z.le_ind (fun i => (kz 1 (rsA la) i < 0)%R)) with (n := 1); auto; [intros ? ? ->; reflexivity| |].
  - rewrite kz_step by lia. change (1 - 1) with 0. rewrite kz_0. unfold rsA.
    replace ((la + (0 + 1) - 1 / 2) / (2 * la + (0 + 1) - 1) * 1)%R with (- ((la + 1 / 2) / (- (2 * la))))%R by (field; lra).
    assert (0 < (la + 1 / 2) / (- (2 * la)))%R by (apply Rdiv_lt_0_compat; lra). lra.
  - intros k Hk IH. change (Z.succ k) with (k + 1). rewrite kz_S by lia. assert (1 <= IZR k)%R by (now apply IZR_le).
    assert (0 < rsA la k)%R by (unfold rsA; apply Rdiv_lt_0_compat; lra). nra.
Qed.

Section Sign.
Variables (BS T tn BLK : Z) (tol : R) (low : list R -> Z * Z -> Z * Z -> option (lowrank R)).
Hypothesis HS : setting BS T tn BLK tol low.
Variables (tgamma pow2 : R -> R).
Hypothesis HG : special tgamma pow2.
Variables (d1 d2 junk : list R) (n : Z).
Hypotheses (Hn : 2 <= n) (L1 : n <= zlen d1) (L2 : n <= zlen d2) (L4 : n <= zlen junk).
Lemma sign_plan n1 a b la P Q hP hQ : (-1 < a)%R -> (-1 < b)%R -> (- 1 / 2 < la)%R -> (la < 0)%R ->
  is_jacobi a b P -> is_ultraspherical la Q -> jacobi_norms a b hP -> ultraspherical_norms la hQ ->
  hP 0 = jacobi_mass tgamma pow2 a b -> hQ 0 = jacobi_mass tgamma pow2 (la - 1 / 2) (la - 1 / 2) ->
  exists E, plan_jacobi_to_ultraspherical BS T tn BLK 0%R tol low (fun x => x) tgamma pow2 d1 d2 junk n1 true n a b la = Some E /\
    ~ converts BS T n E (fam n1 P hP) (fam true Q hQ).
Proof.
  intros Ha Hb Hl Hl0 HP HQ NP NQ MP MQ. destruct (uJ_ok tgamma pow2 HG la Hl) as (UJ & UN & UM).
  assert (GQ : graded n (fun k => (sc true hQ k * kz 1 (uA la) k)%R) (fam true Q hQ)). { apply graded_fam; [apply (ult_graded la); auto; lra|apply (un_pos la); auto; lra]. }
  destruct (jac_plan BS T tn BLK tol low HS tgamma pow2 HG d1 d2 junk n ltac:(lia) L1 L2 L4 n1 true a b (la - 1 / 2) (la - 1 / 2) P (uJ la) hP (uh tgamma pow2 la)) as (E & EE & PE); auto; try lra.
  exists E. unfold plan_jacobi_to_ultraspherical. change (sub la half) with (la - 1 / 2)%R. rewrite EE. cbn [obind]. split; [reflexivity|]. intros (En & CV).
  destruct PE as (U & C & NZ & (_ & W & V) & _). destruct HS as [S1 S2 S3 S4 S5].
  set (x := ztab n (fun i => if i =? 1 then 1%R else 0%R)).
  assert (Lx : zlen x = n) by (unfold x; rewrite zlen_ztab; lia).
  assert (Fx : fits 0 n x) by (split; lia).
  destruct (CV tn x 0 S2 Fx) as [(y & Ey & _ & Y & _) _].
  destruct (bfmv_proof BS tn E ltac:(lia) (W tn S2) false x 0) as (y' & Ey' & _ & Y' & _). { now rewrite En. }
  assert (y' = y) by congruence. subst y'. rewrite En in Y'. apply (isprod_ext n (op false (tb_V E)) U) in Y'; [|exact V].
  assert (X1 : forall i, 0 <= i < n -> vec 0 x i = if i =? 1 then 1%R else 0%R). { intros i Hi. unfold vec, x. rewrite nthZ_ztab by lia. reflexivity. }
  assert (Y1 : vec 0 y 1 = U 1 1). { rewrite (Y' 1) by lia. unfold matvec. rewrite (sumZ_single n 1) by (try lia; intros k Hk Hne; rewrite X1 by lia; replace (k =? 1) with false by lia; ring). rewrite X1 by lia. change (1 =? 1) with true. cbv iota. ring. }
  pose proof (expansion_conn n U _ _ _ _ C Y') as Y2.
  assert (FJ : forall i z, 0 <= i -> fam true (uJ la) (uh tgamma pow2 la) i z = if i =? 0 then fam true Q hQ i z else (- fam true Q hQ i z)%R).
  { intros i z Hi. unfold fam. rewrite (jac_ult la Hl ltac:(lra) (uJ la) Q UJ HQ i Hi), (jac_ult_norm la Hl ltac:(lra) (uh tgamma pow2 la) hQ UN NQ ltac:(now rewrite UM, MQ) i Hi).
    pose proof (un_pos la Hl ltac:(lra) hQ NQ i Hi) as Up. pose proof (sqrt_lt_R0 _ Up).
    destruct (Z.eqb_spec i 0) as [->|].
    - unfold rs. rewrite kz_0. rewrite !Rmult_1_l. reflexivity.
    - pose proof (rs_neg la i Hl Hl0 ltac:(lia)). replace (rs la i * rs la i * hQ i)%R with (((- rs la i) * (- rs la i)) * hQ i)%R by ring.
      rewrite sqrt_mult by nra. rewrite sqrt_square by lra. field. split; lra. }
  assert (I := graded_indep n _ (fam true Q hQ) (fun i => if i =? 0 then 0%R else (2 * vec 0 y i)%R) n GQ ltac:(lia)).
  assert (Z1 : vec 0 y 1 = 0%R).
  { enough ((if 1 =? 0 then 0 else (2 * vec 0 y 1))%R = 0%R) as E1 by (cbn [Z.eqb] in E1; lra). apply I; [|lia]. intros z. specialize (Y z). specialize (Y2 z).
    unfold expansion in *. rewrite (sumZ_ext n _ (fun i => vec 0 y i * fam true Q hQ i z - vec 0 y i * fam true (uJ la) (uh tgamma pow2 la) i z)%R).
    - rewrite sumZ_minus, Y, Y2. ring.
    - intros i Hi. rewrite FJ by lia. destruct (i =? 0); ring. }
  apply (NZ 1); [lia|]. now rewrite <- Y1.
Qed.
End Sign.

(** ** Instances *)
Lemma setting_ok : setting 4 1 0 1 0%R (low_exact (thresholded_cauchykernel 0%R)).
Proof. split; try lia; [lra|apply low_exact_ok]. Qed.
Lemma special_ok : special (fun _ => 1%R) exp.
Proof. split; intros; auto; try lra; [apply exp_pos|apply exp_0]. Qed.
From Coq Require Import QArith.
(** the columns of the computed plans for n = 6, split once, in rational arithmetic (none of these uses a square root) *)
Definition unitQ (j : Z) : list Q := ztab 6 (fun i => if (i =? j)%Z then 1%Q else 0%Q).
Definition apply_plan (E : option (tbeig Q)) (j : Z) : option (list Q) := do E <- E; @bfmv Q Q_arith 4 0 false E (unitQ j) 0.
Definition undo_plan (E : option (tbeig Q)) (x : list Q) : option (list Q) := do E <- E; @bfsv Q Q_arith 4 0 false E x 0.
Definition no_low : list Q -> Z * Z -> Z * Z -> option (lowrank Q) := fun _ _ _ => None.
Definition l2c6 := @plan_legendre_to_chebyshev Q Q_arith 4 1 0 4 0%Q 0%Q no_low (fun x => x) (fun _ => 1%Q) (unitQ 7) false false 6.
Definition j2c6 := @plan_jacobi_to_jacobi Q Q_arith 4 1 0 4 0%Q 0%Q no_low (fun x => x) (fun _ => 1%Q) (fun _ => 1%Q) (unitQ 7) (unitQ 7) (unitQ 7) false false 6 0%Q 0%Q 1%Q 1%Q.
