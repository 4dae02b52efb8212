(** * Examples for the divide-and-conquer eigenvector planners *)
From Coq Require Import ZArith List Lia Bool Reals Lra ZifyBool ZifyNat QArith.
From Verif Require Import Arith Base BaseFacts SpecSum PSum SpecLin SpecBanded PTri MBanded MHier SpecHier MSort SpecSort MEig SpecEig MButter SpecButter MEigPlan SpecEigPlan.
Import ListNotations.
Open Scope Z_scope.

(** ** Exact factorisations exist: f = f I *)
Definition lr_of (m n : Z) (f : Z -> Z -> R) : lowrank R :=
  LowRank (ztab (m * n) (fun k => f (k mod m) (k / m))) [] (ztab (n * n) (fun k => if k mod n =? k / n then 1%R else 0%R)) (zmake n 0%R) (zmake n 0%R) m n n false.
Lemma lr_of_ok m n f : 0 <= m -> 0 <= n -> lr_ok (lr_of m n f).
Proof. intros Hm Hn. unfold lr_ok, lr_of. cbn. rewrite !zlen_ztab, !zlen_zmake by nia. repeat split; try lia; try nia. Qed.
Lemma lr_of_mat m n f i k : 0 <= i < m -> 0 <= k < n -> lr_mat (lr_of m n f) i k = f i k.
Proof.
  intros Hi Hk. unfold lr_mat, lr_of. cbn. unfold matmul, transp, mat. rewrite (sumZ_single n k); auto.
  - pose proof (idx2 i k m n Hi Hk). pose proof (idx2 k k n n Hk Hk). rewrite !nthZ_ztab by lia.
    rewrite !Z.add_0_l, !Z_mod_plus_full, !Z.div_add by lia. rewrite !(Z.mod_small _ _ Hi), !(Z.mod_small _ _ Hk), !(Z.div_small _ _ Hi), !(Z.div_small _ _ Hk), !Z.add_0_l, Z.eqb_refl. lra.
  - intros q Hq Hne. pose proof (idx2 k q n n Hk Hq). rewrite (nthZ_ztab _ (n * n)) by lia.
    rewrite !Z.add_0_l, Z_mod_plus_full, Z.div_add by lia. rewrite (Z.mod_small _ _ Hk), (Z.div_small _ _ Hk), Z.add_0_l. replace (k =? q) with false by lia. lra.
Qed.
Definition low_exact (f : R -> R -> R) (x : list R) (i j : Z * Z) : option (lowrank R) :=
  Some (lr_of (len i) (len j) (fun a c => f (nthZ 0%R x (fst i + a)) (nthZ 0%R x (fst j + c)))).
Lemma low_exact_ok f : exact_lowrank f (low_exact f).
Proof.
  intros x s n i j Hs Hx N1 N2 (I1 & I2 & I3) (J1 & J2 & J3) _. unfold low_exact. eexists. split; [reflexivity|]. split; [apply lr_of_ok; unfold len; lia|].
  split; [reflexivity|]. split; [reflexivity|]. intros a b Ha Hb. rewrite lr_of_mat by (unfold len; lia).
  replace (fst i + (a - fst i)) with a by lia. replace (fst j + (b - fst j)) with b by lia. rewrite Rminus_diag_eq by reflexivity. rewrite Rabs_R0. lra.
Qed.
Definition adi_exact (m : Z) (a : list R) (n : Z) (b : list R) (r : Z) (X Y : list R) : option (lowrank R) :=
  Some (lr_of m n (fun i k => sumZ r (fun q => mat 0 m X i q * mat 0 n Y k q) / (nthZ 0 a i - nthZ 0 b k))%R).
Lemma adi_exact_ok : exact_sylvester adi_exact.
Proof.
  intros m a n b r X Y Hm Hn Hr HX HY Hne. unfold adi_exact. eexists. split; [reflexivity|]. split; [apply lr_of_ok; lia|]. split; [reflexivity|]. split; [reflexivity|].
  intros i k Hi Hk. rewrite lr_of_mat by auto. specialize (Hne i k Hi Hk). field. lra.
Qed.

(** ** A pencil that satisfies the hypotheses: A = bidiagonal with diagonal 1, 2, 3, 4, 5 and 7 above, B = bidiagonal with diagonal 1 and 1 above *)
Definition exA {F} (f : Z -> F) : tbanded F := TBanded (map f [0; 1; 7; 2; 7; 3; 7; 4; 7; 5]) 5 1.
Definition exB {F} (f : Z -> F) : tbanded F := TBanded (map f [0; 1; 1; 1; 1; 1; 1; 1; 1; 1]) 5 1.
Definition exD {F} (f : Z -> F) : list F := map f [1; -1; 2; 3; 5].
Lemma ex_hyps : let A := exA IZR in let B := exB IZR in let D := exD IZR in
  tb_ok A /\ tb_ok B /\ tb_n B = tb_n A /\ tb_b B <= tb_b A /\ tb_b A <= 2 / 2 /\ nonzero_diag (tb_n A) (tb_mat B) /\
  (forall i j, 0 <= i < j -> j < tb_n A -> pencil_eig A B i <> pencil_eig A B j) /\ fits 0 (tb_n A) D /\ (forall j, 0 <= j < tb_n A -> vec 0 D j <> 0%R).
Proof.
  cbn zeta. assert (EQ : forall j, 0 <= j < 5 -> tb_mat (exA IZR) j j = IZR (j + 1) /\ tb_mat (exB IZR) j j = 1%R /\ vec 0 (exD IZR) j <> 0%R).
  { intros j Hj. assert (C : j = 0 \/ j = 1 \/ j = 2 \/ j = 3 \/ j = 4) by lia. destruct C as [->|[->|[->|[->| ->]]]]; (split; [reflexivity|split; [reflexivity|match goal with |- vec 0 _ ?k <> _ => change (IZR (nthZ 0 [1; -1; 2; 3; 5] k) <> 0%R); intros E; apply eq_IZR in E; discriminate end]]). }
  repeat split; try (cbn; lia).
  - intros j Hj. cbn in Hj. rewrite (proj1 (proj2 (EQ j Hj))). lra.
  - intros i j Hi Hj. cbn in Hj. unfold pencil_eig. destruct (EQ i ltac:(lia)) as (-> & -> & _). destruct (EQ j ltac:(lia)) as (-> & -> & _).
    unfold Rdiv. rewrite Rinv_1, !Rmult_1_r. intros E. apply eq_IZR in E. lia.
  - intros j Hj. cbn in Hj. apply (EQ j Hj).
Qed.

(** ** Computed: exact rational arithmetic *)
Definition Q_arith : Arith Q := {|
  zero := 0%Q; one := 1%Q; add := fun x y => Qred (x + y); sub := fun x y => Qred (x - y); mul := fun x y => Qred (x * y); div := fun x y => Qred (x / y);
  opp := fun x => Qred (- x); sqrtA := fun x => x; absA := fun x => Qred (Qabs.Qabs x);
  ltb := fun x y => Qle_bool x y && negb (Qeq_bool x y); leb := Qle_bool; eqb := Qeq_bool; ofZ := fun z => inject_Z z |}.
(** the plan applied to the j-th unit vector, and the j-th eigenvector computed by triangular_banded_eigenvectors *)
Definition unitq (n j : Z) : list Q := ztab n (fun k => if k =? j then 1%Q else 0%Q).
Definition plan_column (tol : Q) (A B : tbanded Q) (D : list Q) (j : Z) : option (list Q) :=
  do r <- @tb_eig_FMM Q Q_arith 2 1 0 4 0%Q tol (fun _ _ _ => None) 6 A B D 0;
  @bfmv Q Q_arith 2 0 false (fst r) (unitq (tb_n A) j) 0.
Definition direct_column (A B : tbanded Q) (D : list Q) (j : Z) : option (list Q) :=
  @eig_column Q Q_arith 0%Q A B D 0 (tb_n A) (Z.max (tb_b A) (tb_b B)) j.
(** with tolerance 1/2 the eigenvalues 2 and 3 of the two halves 1, 2 and 3, 4, 5 are close; with 0 none are *)
Lemma ex_computed :
  plan_column (1#2)%Q (exA inject_Z) (exB inject_Z) (exD inject_Z) 4 = direct_column (exA inject_Z) (exB inject_Z) (exD inject_Z) 4 /\
  plan_column 0%Q (exA inject_Z) (exB inject_Z) (exD inject_Z) 4 = direct_column (exA inject_Z) (exB inject_Z) (exD inject_Z) 4 /\
  plan_column 0%Q (exA inject_Z) (exB inject_Z) (exD inject_Z) 2 = Some [16%Q; 8%Q; 2%Q; 0%Q; 0%Q] /\
  direct_column (exA inject_Z) (exB inject_Z) (exD inject_Z) 4 <> None /\
  match @tb_eig_FMM Q Q_arith 2 1 0 4 0%Q (1#2)%Q (fun _ _ _ => None) 6 (exA inject_Z) (exB inject_Z) (exD inject_Z) 0 with
  | Some (TBNode _ _ _ _ _ _ _ Sp _ _ _ _, L) => sp_nnz Sp = 1 /\ lroot L = [1%Q; 2%Q; 3%Q; 4%Q; 5%Q] | _ => False end.
Proof. vm_compute. repeat split; discriminate. Qed.

(** ** The bandwidth of B must not exceed that of A: with A of bandwidth 1 and the identity stored with bandwidth 2,
    the rows of A are put into the wrong column of Y *)
Definition wideA {F} (f : Z -> F) : tbanded F := TBanded (map f [0; 1; 7; 2; 7; 3; 7; 4]) 4 1.
Definition wideB {F} (f : Z -> F) : tbanded F := TBanded (map f [0; 0; 1; 0; 0; 1; 0; 0; 1; 0; 0; 1]) 4 2.
Definition wide_column (j : Z) : option (list Q) :=
  do r <- @tb_eig_FMM Q Q_arith 4 1 0 4 0%Q 0%Q (fun _ _ _ => None) 6 (wideA inject_Z) (wideB inject_Z) [1%Q; 1%Q; 1%Q; 1%Q] 0;
  @bfmv Q Q_arith 4 0 false (fst r) (unitq 4 j) 0.
(** row 1 of (A - 3 B) v for a vector v *)
Definition wide_residual (v : list Q) : option Q :=
  do v1 <- zget v 1; do v2 <- zget v 2; Some (Qred ((2 - 3) * v1 + 7 * v2))%Q.
Lemma wide_wrong : exists v, wide_column 2 = Some v /\ exists r, wide_residual v = Some r /\ r <> 0%Q.
Proof. eexists. split; [vm_compute; reflexivity|]. eexists. split; [vm_compute; reflexivity|]. discriminate. Qed.
(** ** The bandwidth must not exceed half the order of a matrix that is split: b = 2, n = 2 is an access outside X *)
Definition longA {F} (f : Z -> F) : tbanded F := TBanded (map f [0; 0; 1; 0; 7; 2]) 2 2.
Definition longB {F} (f : Z -> F) : tbanded F := TBanded (map f [0; 0; 1; 0; 0; 1]) 2 2.
Lemma long_stuck : @tb_eig_FMM Q Q_arith 2 1 0 4 0%Q 0%Q (fun _ _ _ => None) 6 (longA inject_Z) (longB inject_Z) [1%Q; 1%Q] 0 = None.
Proof. vm_compute. reflexivity. Qed.
