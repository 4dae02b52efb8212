(** * Laguerre and Hermite derivatives; the operators as theorems; the families exist *)
From Coq Require Import ZArith List Lia Bool Reals Lra ZifyBool.
From Verif Require Import Base BaseFacts Arith SpecSum PSum SpecLin SpecBanded MBanded PBand MClassical SpecClassical PClass1 PClass2 PClass3 PClass4 PClass5 PClass6 PClass7.
Import ListNotations.
Open Scope Z_scope.

(** from a chain of differentiable families to the matrix *)
Section D.
Variables (order : Z) (Fam : Z -> Z -> R -> R) (hs : Z -> Z -> R) (c : R) (d rho : Z -> Z -> R) (norm : bool).
(** derivative of Fam k, degree j, is c d k j times Fam (k+1), degree j-1, with d >= 0 *)
Hypothesis (Ho : 0 <= order).
Hypothesis HD : forall k j, 0 <= k < order -> 0 <= j -> forall x, derivable_pt_lim (Fam k j) x (c * d k j * ext0 (Fam (k+1)%Z) (j-1)%Z x)%R.
Hypothesis Hd : forall k j, 0 <= k < order -> 1 <= j -> (0 <= d k j /\ 0 <= rho k j)%R.
Hypothesis Hp : forall k j, 0 <= k <= order -> 0 <= j -> (0 < hs k j)%R.
Hypothesis Hr : forall k j, 0 <= k < order -> 1 <= j -> hs (k+1) (j-1) = (rho k j * hs k j)%R.
Definition dval (j : Z) : R :=
  (prodn (Z.to_nat order) (fun _ => c) * (if norm then sqrt (prodn (Z.to_nat order) (fun i => (d i (j-i)%Z * d i (j-i)%Z * rho i (j-i)%Z)%R)) else prodn (Z.to_nat order) (fun i => d i (j-i)%Z)))%R.
Lemma derivative_proof data m n vo : 0 <= m -> 0 <= n -> n <= zlen data ->
  (forall j, order <= j < n -> vo j = Some (dval j)) ->
  exists D, derivative_loop n order vo (malloc_banded data m n (- order) order) = Some D /\ bd_ok D /\ bd_m D = m /\ bd_n D = n /\ bd_l D = - order /\ bd_u D = order /\
    forall j, 0 <= j < n -> j - order < m ->
    nth_derivative (Z.to_nat order) (fam norm (Fam 0) (hs 0) j) (fun x => expansion m (fun i => bd_mat D i j) (fam norm (Fam order) (hs order)) x).
Proof.
  intros H0m H0n Hdat Hv.
  destruct (derivative_loop_sum data m n order dval vo H0m H0n Ho Hdat Hv) as [D (E & O & S & G & Sm)].
  exists D. split; [exact E|]. split; [auto|]. destruct S as (S1 & S2 & S3 & S4). cbn in S1, S2, S3, S4. split; [auto|split; [auto|split; [auto|split; [auto|]]]].
  intros j Hj Hjm. assert (N := nd_chain (fun k j => (c * d k j)%R) (Z.to_nat order) Fam 0). cbn [Z.add] in N.
  specialize (N ltac:(intros; apply HD; lia) j). rewrite Z2Nat.id in N by lia. rewrite prodn_mult in N.
  assert (EQ : forall x, sumZ m (fun i => (bd_mat D i j * fam norm (Fam order) (hs order) i x)%R) = if (0 <=? j - order) then (dval j * fam norm (Fam order) (hs order) (j - order) x)%R else 0%R).
  { intros x. rewrite (Sm j (fun i => fam norm (Fam order) (hs order) i x) Hj). replace (j - order <? m) with true by lia. now rewrite andb_true_r. }
  set (pc := prodn (Z.to_nat order) (fun _ => c)) in *. set (pd := prodn (Z.to_nat order) (fun i => d i (j - i)%Z)) in *.
  unfold expansion, dval in *. destruct norm.
  - assert (P0 : (0 < hs 0 j)%R) by (apply Hp; lia).
    apply (nd_ext _ (fun x => (/ sqrt (hs 0 j) * ext0 (Fam 0) j x)%R) (fun x => (/ sqrt (hs 0 j) * (pc * pd * ext0 (Fam order) (j - order) x))%R)).
    + intros x. rewrite ext0_pos by lia. unfold fam. unfold Rdiv. ring.
    + intros x. rewrite EQ. unfold ext0, fam. destruct (Z.leb_spec 0 (j - order)).
      2:{ replace (j - order <? 0) with true by lia. ring. }
      replace (j - order <? 0) with false by lia. assert (PK : (0 < hs order (j - order))%R) by (apply Hp; lia).
      rewrite (Rmult_assoc (prodn _ (fun _ => c))). fold pc. rewrite (entry _ pd _ _ _ P0 PK); [unfold Rdiv; ring|].
      unfold pd. rewrite <- (sqrt_chain (fun i => rho i (j-i)%Z) (fun i => d i (j-i)%Z) (Z.to_nat order) (hs 0 j)); [reflexivity|exact P0| |].
      * intros i Hi. apply Hd; lia.
      * rewrite <- (Z2Nat.id order) at 1 2 by lia. apply norm_chain; [lia|]. intros k Hk. replace (j - k - 1) with (j - k - 1) by lia. apply Hr; lia.
    + apply nd_scal. exact N.
  - apply (nd_ext _ (ext0 (Fam 0) j) (fun x => (pc * pd * ext0 (Fam order) (j - order) x)%R)); [|intros x; rewrite EQ|exact N].
    + intros x. now rewrite ext0_pos by lia.
    + unfold ext0, fam. destruct (Z.leb_spec 0 (j - order)); [replace (j - order <? 0) with false by lia; reflexivity|replace (j - order <? 0) with true by lia; ring].
Qed.
End D.
Lemma prodn_m1 n : prodn n (fun _ => (-1)%R) = if Z.rem (Z.of_nat n) 2 =? 0 then 1%R else (-1)%R.
Proof.
  induction n as [|n IH]; [reflexivity|]. cbn [prodn]. rewrite IH. replace (Z.of_nat (S n)) with (Z.of_nat n + 1) by lia.
  rewrite !Z.rem_mod_nonneg by lia. assert (H := Z.mod_pos_bound (Z.of_nat n) 2 ltac:(lia)).
  rewrite (Z.add_mod (Z.of_nat n) 1 2) by lia. destruct (Z.eqb_spec (Z.of_nat n mod 2) 0) as [E|E].
  - rewrite E. cbn. lra.
  - replace (Z.of_nat n mod 2) with 1 by lia. cbn. lra.
Qed.
Lemma prodn_one n : prodn n (fun _ => 1%R) = 1%R. Proof. induction n; cbn; [|rewrite IHn]; lra. Qed.

Lemma laguerre_derivative_proof data norm m n order a (Fam : Z -> Z -> R -> R) (hs : Z -> Z -> R) : (-1 < a)%R -> 0 <= order -> 0 <= m -> 0 <= n -> n <= zlen data ->
  (forall k, 0 <= k <= order -> is_laguerre (a + IZR k) (Fam k) /\ laguerre_norms (a + IZR k) (hs k)) ->
  (forall k, 0 <= k < order -> laguerre_masses (a + IZR k) (hs k 0%Z) (hs (k+1) 0%Z)) ->
  exists D, create_laguerre_derivative data norm m n order a = Some D /\ bd_ok D /\ bd_m D = m /\ bd_n D = n /\ bd_l D = - order /\ bd_u D = order /\
    forall j, 0 <= j < n -> j - order < m ->
    nth_derivative (Z.to_nat order) (fam norm (Fam 0) (hs 0) j) (fun x => expansion m (fun i => bd_mat D i j) (fam norm (Fam order) (hs order)) x).
Proof.
  intros Ha Ho Hm Hn Hdat HF HM.
  assert (HF1 : forall k, 0 <= k < order -> is_laguerre (a + IZR k + 1) (Fam (k+1)) /\ laguerre_norms (a + IZR k + 1) (hs (k+1))).
  { intros k Hk. destruct (HF (k+1) ltac:(lia)) as [A B]. rewrite plus_IZR, <- Rplus_assoc in A, B. auto. }
  assert (Hak : forall k, 0 <= k -> (-1 < a + IZR k)%R) by (intros k Hk; apply IZR_le in Hk; lra).
  unfold create_laguerre_derivative. apply (derivative_proof order Fam hs (-1) (fun _ _ => 1%R) (fun _ j => IZR j)); auto.
  - intros k j Hk Hj x. rewrite Rmult_1_r. apply (lag_deriv (a + IZR k)); auto; [apply HF; lia|apply HF1; lia].
  - intros k j Hk Hj. split; [lra|]. apply IZR_le. lia.
  - intros k j Hk Hj. apply (ln_pos (a + IZR k)); auto; [apply Hak; lia|apply HF; lia].
  - intros k j Hk Hj. apply (lhq1 (a + IZR k)); auto; [apply HF; lia|apply HF1; lia].
  - intros j Hj. unfold dval. rewrite prodn_m1, Z2Nat.id by lia. destruct norm; ar.
    + rewrite prod_up_val by lia. cbn [obind]. f_equal.
      assert (E : prodn (Z.to_nat order) (fun i : Z => (1 * 1 * IZR (j - i))%R) = prodn (Z.to_nat order) (fun k : Z => IZR (j - k))) by (apply prodn_ext; intros; ring).
      rewrite E. destruct (_ =? 0); ring.
    + rewrite prodn_one. f_equal. destruct (_ =? 0); ring.
Qed.
Lemma hermite_derivative_proof data norm m n order P h : 0 <= order -> 0 <= m -> 0 <= n -> n <= zlen data -> is_hermite P -> hermite_norms h ->
  exists D, create_hermite_derivative data norm m n order = Some D /\ bd_ok D /\ bd_m D = m /\ bd_n D = n /\ bd_l D = - order /\ bd_u D = order /\
    forall j, 0 <= j < n -> j - order < m ->
    nth_derivative (Z.to_nat order) (fam norm P h j) (fun x => expansion m (fun i => bd_mat D i j) (fam norm P h) x).
Proof.
  intros Ho Hm Hn Hdat HP Hh. unfold create_hermite_derivative.
  apply (derivative_proof order (fun _ => P) (fun _ => h) 1 (fun _ j => (2 * IZR j)%R) (fun _ j => (/ (2 * IZR j))%R)); auto.
  - intros k j Hk Hj x. rewrite Rmult_1_l. now apply her_deriv.
  - intros k j Hk Hj. apply IZR_le in Hj. split; [lra|]. apply Rlt_le, Rinv_0_lt_compat. lra.
  - intros k j Hk Hj. now apply hn_pos.
  - intros k j Hk Hj. rewrite (hn_prev h Hh j Hj). apply IZR_le in Hj. field. lra.
  - intros j Hj. unfold dval. rewrite prodn_one, prod_up_val by lia. cbn [obind]. f_equal. rewrite Rmult_1_l. ar. destruct norm.
    + f_equal. apply prodn_ext. intros i Hi. rewrite mult_IZR. assert (H : (1 <= IZR (j - i))%R) by (apply IZR_le; lia). field. lra.
    + apply prodn_ext. intros i Hi. now rewrite mult_IZR.
Qed.

(** operators by columns *)
Lemma operator_proof m n l u col q : 0 <= m -> 0 <= n -> 0 <= l + u + 1 ->
  (forall j, 0 <= j < n -> NoDup (map fst (col j)) /\ forall i, In i (map fst (col j)) -> 0 <= i < m -> - l <= j - i <= u) ->
  forall (g : Z -> R -> R) ok, (forall j x, 0 <= j < n -> ok j -> colsum m (col j) (fun i => q i x) = g j x) ->
  exists A, set_cols 0 n col (calloc_banded m n l u) = Some A /\ bd_ok A /\ bd_m A = m /\ bd_n A = n /\ bd_l A = l /\ bd_u A = u /\
    forall j x, 0 <= j < n -> ok j -> expansion m (fun i => bd_mat A i j) q x = g j x.
Proof.
  intros Hm Hn Hl Hc g ok Hg. destruct (set_cols_sum m n l u col Hm Hn Hl Hc) as [A (E & O & S & G & Sm)].
  exists A. destruct S as (S1 & S2 & S3 & S4). split; [auto|split; [auto|split; [auto|split; [auto|split; [auto|split; [auto|]]]]]].
  intros j x Hj Ho. unfold expansion. rewrite (Sm j (fun i => q i x) Hj). auto.
Qed.
Ltac colok := intros j Hj; split; [cbn; repeat (apply NoDup_cons; [cbn; lia|]); apply NoDup_nil|cbn; intros i Hi; lia].
Lemma jacobi_mult_ok norm a b m j : NoDup (map fst (jacobi_mult_col norm a b j)) /\ forall i, In i (map fst (jacobi_mult_col norm a b j)) -> 0 <= i < m -> - (1) <= j - i <= 1.
Proof.
  unfold jacobi_mult_col. destruct norm; destruct (Z.eqb_spec j 0); split; cbn; try (intros i Hi; lia); repeat (apply NoDup_cons; [cbn; lia|]); apply NoDup_nil.
Qed.
Lemma jacobi_raise_ok norm a b m j : NoDup (map fst (jacobi_raise_col norm a b j)) /\ forall i, In i (map fst (jacobi_raise_col norm a b j)) -> 0 <= i < m -> - (0) <= j - i <= 2.
Proof.
  unfold jacobi_raise_col. destruct norm; split; cbn; try (intros i Hi; lia); repeat (apply NoDup_cons; [cbn; lia|]); apply NoDup_nil.
Qed.
Lemma jacobi_lower_ok norm a b m j : NoDup (map fst (jacobi_lower_col norm a b j)) /\ forall i, In i (map fst (jacobi_lower_col norm a b j)) -> 0 <= i < m -> - (2) <= j - i <= 0.
Proof.
  unfold jacobi_lower_col. destruct norm; split; cbn; try (intros i Hi; lia); repeat (apply NoDup_cons; [cbn; lia|]); apply NoDup_nil.
Qed.
Lemma jacobi_multiplication_proof norm m n a b P h : (-1 < a)%R -> (-1 < b)%R -> 0 <= m -> 0 <= n -> is_jacobi a b P -> jacobi_norms a b h ->
  exists A, create_jacobi_multiplication norm m n a b = Some A /\ bd_ok A /\ bd_m A = m /\ bd_n A = n /\ bd_l A = 1 /\ bd_u A = 1 /\
    forall j x, 0 <= j < n -> j + 1 < m -> expansion m (fun i => bd_mat A i j) (fam norm P h) x = (x * fam norm P h j x)%R.
Proof.
  intros. apply (operator_proof m n 1 1 _ (fam norm P h)) with (g := fun j x => (x * fam norm P h j x)%R) (ok := fun j => j + 1 < m); auto; try lia.
  - intros. apply jacobi_mult_ok.
  - intros. apply jacobi_mult_col_val; auto. lia.
Qed.
Lemma jacobi_raising_proof norm m n a b P Q h hq : (-1 < a)%R -> (-1 < b)%R -> 0 <= m -> 0 <= n -> is_jacobi a b P -> jacobi_norms a b h ->
  is_jacobi (a+1) (b+1) Q -> jacobi_norms (a+1) (b+1) hq -> jacobi_masses a b (h 0%Z) (hq 0%Z) ->
  exists A, create_jacobi_raising norm m n a b = Some A /\ bd_ok A /\ bd_m A = m /\ bd_n A = n /\ bd_l A = 0 /\ bd_u A = 2 /\
    forall j x, 0 <= j < n -> j < m -> expansion m (fun i => bd_mat A i j) (fam norm Q hq) x = fam norm P h j x.
Proof.
  intros. apply (operator_proof m n 0 2 _ (fam norm Q hq)) with (g := fun j x => fam norm P h j x) (ok := fun j => j < m); auto; try lia.
  - intros. apply jacobi_raise_ok.
  - intros. apply jacobi_raise_col_val; auto. lia.
Qed.
Lemma jacobi_lowering_proof norm m n a b P Q h hq : (-1 < a)%R -> (-1 < b)%R -> 0 <= m -> 0 <= n -> is_jacobi a b P -> jacobi_norms a b h ->
  is_jacobi (a+1) (b+1) Q -> jacobi_norms (a+1) (b+1) hq -> jacobi_masses a b (h 0%Z) (hq 0%Z) ->
  exists A, create_jacobi_lowering norm m n a b = Some A /\ bd_ok A /\ bd_m A = m /\ bd_n A = n /\ bd_l A = 2 /\ bd_u A = 0 /\
    forall j x, 0 <= j < n -> j + 2 < m -> expansion m (fun i => bd_mat A i j) (fam norm P h) x = ((1 - x * x) * fam norm Q hq j x)%R.
Proof.
  intros. apply (operator_proof m n 2 0 _ (fam norm P h)) with (g := fun j x => ((1 - x * x) * fam norm Q hq j x)%R) (ok := fun j => j + 2 < m); auto; try lia.
  - intros. apply jacobi_lower_ok.
  - intros. apply jacobi_lower_col_val; auto. lia.
Qed.
Ltac cok := intros; split; [repeat (apply NoDup_cons; [cbn; lia|]); apply NoDup_nil|cbn; intros; lia].
Lemma laguerre_multiplication_proof norm m n a P h : (-1 < a)%R -> 0 <= m -> 0 <= n -> is_laguerre a P -> laguerre_norms a h ->
  exists A, create_laguerre_multiplication norm m n a = Some A /\ bd_ok A /\ bd_m A = m /\ bd_n A = n /\ bd_l A = 1 /\ bd_u A = 1 /\
    forall j x, 0 <= j < n -> j + 1 < m -> expansion m (fun i => bd_mat A i j) (fam norm P h) x = (x * fam norm P h j x)%R.
Proof.
  intros. apply (operator_proof m n 1 1 _ (fam norm P h)) with (g := fun j x => (x * fam norm P h j x)%R) (ok := fun j => j + 1 < m); auto; try lia.
  - unfold laguerre_mult_col; destruct norm; cok.
  - intros. apply laguerre_mult_col_val; auto. lia.
Qed.
Lemma laguerre_raising_proof norm m n a P Q h hq : (-1 < a)%R -> 0 <= m -> 0 <= n -> is_laguerre a P -> laguerre_norms a h ->
  is_laguerre (a+1) Q -> laguerre_norms (a+1) hq -> laguerre_masses a (h 0%Z) (hq 0%Z) ->
  exists A, create_laguerre_raising norm m n a = Some A /\ bd_ok A /\ bd_m A = m /\ bd_n A = n /\ bd_l A = 0 /\ bd_u A = 1 /\
    forall j x, 0 <= j < n -> j < m -> expansion m (fun i => bd_mat A i j) (fam norm Q hq) x = fam norm P h j x.
Proof.
  intros. apply (operator_proof m n 0 1 _ (fam norm Q hq)) with (g := fun j x => fam norm P h j x) (ok := fun j => j < m); auto; try lia.
  - unfold laguerre_raise_col; destruct norm; cok.
  - intros. apply (laguerre_raise_col_val a) with (1 := H); auto. lia.
Qed.
Lemma laguerre_lowering_proof norm m n a P Q h hq : (-1 < a)%R -> 0 <= m -> 0 <= n -> is_laguerre a P -> laguerre_norms a h ->
  is_laguerre (a+1) Q -> laguerre_norms (a+1) hq -> laguerre_masses a (h 0%Z) (hq 0%Z) ->
  exists A, create_laguerre_lowering norm m n a = Some A /\ bd_ok A /\ bd_m A = m /\ bd_n A = n /\ bd_l A = 1 /\ bd_u A = 0 /\
    forall j x, 0 <= j < n -> j + 1 < m -> expansion m (fun i => bd_mat A i j) (fam norm P h) x = (x * fam norm Q hq j x)%R.
Proof.
  intros. apply (operator_proof m n 1 0 _ (fam norm P h)) with (g := fun j x => (x * fam norm Q hq j x)%R) (ok := fun j => j + 1 < m); auto; try lia.
  - unfold laguerre_lower_col; destruct norm; cok.
  - intros. apply (laguerre_lower_col_val a) with (1 := H); auto. lia.
Qed.
Lemma hermite_multiplication_proof norm m n P h : 0 <= m -> 0 <= n -> is_hermite P -> hermite_norms h ->
  exists A, create_hermite_multiplication norm m n = Some A /\ bd_ok A /\ bd_m A = m /\ bd_n A = n /\ bd_l A = 1 /\ bd_u A = 1 /\
    forall j x, 0 <= j < n -> j + 1 < m -> expansion m (fun i => bd_mat A i j) (fam norm P h) x = (x * fam norm P h j x)%R.
Proof.
  intros. apply (operator_proof m n 1 1 _ (fam norm P h)) with (g := fun j x => (x * fam norm P h j x)%R) (ok := fun j => j + 1 < m); auto; try lia.
  - unfold hermite_mult_col; destruct norm; cok.
  - intros. apply hermite_mult_col_val; auto. lia.
Qed.

(** ** The families exist *)
Fixpoint seq2 {A} (step : Z -> A -> A -> A) (u0 u1 : A) (n : nat) : A * A :=
  match n with O => (u0, u1) | S k => let (u, v) := seq2 step u0 u1 k in (v, step (Z.of_nat (S k)) u v) end.
Definition seqZ {A} (step : Z -> A -> A -> A) (u0 u1 : A) (n : Z) : A := fst (seq2 step u0 u1 (Z.to_nat n)).
Lemma seqZ_S {A} (step : Z -> A -> A -> A) u0 u1 n : 1 <= n -> seqZ step u0 u1 (n+1) = step n (seqZ step u0 u1 (n-1)) (seqZ step u0 u1 n).
Proof.
  intros Hn. unfold seqZ. replace (Z.to_nat (n+1)) with (S (S (Z.to_nat (n-1)))) by lia. replace (Z.to_nat n) with (S (Z.to_nat (n-1))) by lia.
  cbn [seq2]. destruct (seq2 step u0 u1 (Z.to_nat (n-1))) as [u v]. cbn. f_equal. lia.
Qed.
Definition std_jacobi (a b : R) : Z -> R -> R :=
  seqZ (fun n p q x => ((rA (IZR n) a b * x + rB (IZR n) a b) * q x - rC (IZR n) a b * p x)%R) (fun _ => 1%R) (fun x => ((a + 1) + (a + b + 2) * (x - 1) / 2)%R).
Definition std_jacobi_norms (a b h0 : R) : Z -> R :=
  seqZ (fun n _ q => ((2*IZR n + a + b + 1) * (IZR n + a + 1) * (IZR n + b + 1) / ((2*IZR n + a + b + 3) * (IZR n + 1) * (IZR n + a + b + 1)) * q)%R) h0 ((a+1)*(b+1)/(a+b+3)*h0)%R.
Lemma std_jacobi_ok a b : (-1 < a)%R -> (-1 < b)%R -> is_jacobi a b (std_jacobi a b).
Proof.
  intros Ha Hb. split; try reflexivity. intros n x Hn k. unfold std_jacobi. rewrite seqZ_S by auto. apply IZR_le in Hn. fold k in Hn. unfold rA, rB, rC. fold k. field. repeat split; lra.
Qed.
Lemma std_jacobi_norms_ok a b h0 : (-1 < a)%R -> (-1 < b)%R -> (0 < h0)%R -> jacobi_norms a b (std_jacobi_norms a b h0).
Proof.
  intros Ha Hb H0. split.
  - exact H0.
  - change ((a + b + 3) * ((a + 1) * (b + 1) / (a + b + 3) * h0) = (a + 1) * (b + 1) * h0)%R. field. lra.
  - intros n Hn k. unfold std_jacobi_norms. rewrite seqZ_S by auto. apply IZR_le in Hn. fold k. fold k in Hn. field. repeat split; lra.
Qed.
Definition jac_mass (a b : R) (k : Z) : R :=
  prodn (Z.to_nat k) (fun i => (4 * (a + IZR i + 1) * (b + IZR i + 1) / ((a + IZR i + (b + IZR i) + 2) * (a + IZR i + (b + IZR i) + 3)))%R).
Lemma jac_chain_ok a b : (-1 < a)%R -> (-1 < b)%R -> forall k, 0 <= k ->
  is_jacobi (a + IZR k) (b + IZR k) (std_jacobi (a + IZR k) (b + IZR k)) /\
  jacobi_norms (a + IZR k) (b + IZR k) (std_jacobi_norms (a + IZR k) (b + IZR k) (jac_mass a b k)) /\
  jacobi_masses (a + IZR k) (b + IZR k) (std_jacobi_norms (a + IZR k) (b + IZR k) (jac_mass a b k) 0) (std_jacobi_norms (a + IZR (k+1)) (b + IZR (k+1)) (jac_mass a b (k+1)) 0).
Proof.
  intros Ha Hb k Hk. pose proof Hk as HkR. apply IZR_le in HkR.
  assert (Hpos : (0 < jac_mass a b k)%R).
  { unfold jac_mass. set (N := Z.to_nat k). clearbody N. induction N as [|N IH]; cbn [prodn]; [lra|]. apply Rmult_lt_0_compat; auto.
    assert (0 <= IZR (Z.of_nat N))%R by (apply IZR_le; lia). posr. }
  split; [apply std_jacobi_ok; lra|]. split; [apply std_jacobi_norms_ok; lra|].
  unfold jacobi_masses. change (std_jacobi_norms (a + IZR k) (b + IZR k) (jac_mass a b k) 0) with (jac_mass a b k).
  change (std_jacobi_norms (a + IZR (k + 1)) (b + IZR (k + 1)) (jac_mass a b (k + 1)) 0) with (jac_mass a b (k+1)).
  unfold jac_mass. replace (Z.to_nat (k+1)) with (S (Z.to_nat k)) by lia. cbn [prodn]. rewrite Z2Nat.id by lia. field. split; lra.
Qed.
Definition std_laguerre (a : R) : Z -> R -> R :=
  seqZ (fun n p q x => (((2*IZR n + a + 1 - x) * q x - (IZR n + a) * p x) / (IZR n + 1))%R) (fun _ => 1%R) (fun x => (a + 1 - x)%R).
Definition std_laguerre_norms (a h0 : R) : Z -> R := seqZ (fun n _ q => ((IZR n + a + 1) / (IZR n + 1) * q)%R) h0 ((a+1)*h0)%R.
Definition lag_mass (a : R) (k : Z) : R := prodn (Z.to_nat k) (fun i => (a + IZR i + 1)%R).
Lemma std_laguerre_ok a : is_laguerre a (std_laguerre a).
Proof. split; try reflexivity. intros n x Hn k. unfold std_laguerre. rewrite seqZ_S by auto. apply IZR_le in Hn. fold k. fold k in Hn. field. lra. Qed.
Lemma std_laguerre_norms_ok a h0 : (-1 < a)%R -> (0 < h0)%R -> laguerre_norms a (std_laguerre_norms a h0).
Proof.
  intros Ha H0. split; [exact H0|]. intros n Hn k. destruct (Z.eq_dec n 0) as [->|].
  - unfold k. change ((0 + 1) * ((a + 1) * h0) = (0 + a + 1) * h0)%R. ring.
  - unfold std_laguerre_norms. rewrite seqZ_S by lia. apply IZR_le in Hn. fold k. fold k in Hn. field. lra.
Qed.
Lemma lag_chain_ok a : (-1 < a)%R -> forall k, 0 <= k ->
  is_laguerre (a + IZR k) (std_laguerre (a + IZR k)) /\ laguerre_norms (a + IZR k) (std_laguerre_norms (a + IZR k) (lag_mass a k)) /\
  laguerre_masses (a + IZR k) (std_laguerre_norms (a + IZR k) (lag_mass a k) 0) (std_laguerre_norms (a + IZR (k+1)) (lag_mass a (k+1)) 0).
Proof.
  intros Ha k Hk. pose proof Hk as HkR. apply IZR_le in HkR.
  assert (Hpos : (0 < lag_mass a k)%R).
  { unfold lag_mass. set (N := Z.to_nat k). clearbody N. induction N as [|N IH]; cbn [prodn]; [lra|]. apply Rmult_lt_0_compat; auto.
    assert (0 <= IZR (Z.of_nat N))%R by (apply IZR_le; lia). lra. }
  split; [apply std_laguerre_ok|]. split; [apply std_laguerre_norms_ok; lra|].
  unfold laguerre_masses. change (std_laguerre_norms (a + IZR k) (lag_mass a k) 0) with (lag_mass a k).
  change (std_laguerre_norms (a + IZR (k + 1)) (lag_mass a (k + 1)) 0) with (lag_mass a (k+1)).
  unfold lag_mass. replace (Z.to_nat (k+1)) with (S (Z.to_nat k)) by lia. cbn [prodn]. rewrite Z2Nat.id by lia. ring.
Qed.
Definition std_hermite : Z -> R -> R := seqZ (fun n p q x => (2 * x * q x - 2 * IZR n * p x)%R) (fun _ => 1%R) (fun x => (2 * x)%R).
Definition std_hermite_norms (h0 : R) : Z -> R := seqZ (fun n _ q => (2 * (IZR n + 1) * q)%R) h0 (2 * h0)%R.
Lemma std_hermite_ok : is_hermite std_hermite /\ hermite_norms (std_hermite_norms 1).
Proof.
  split.
  - split; try reflexivity. intros n x Hn. unfold std_hermite. rewrite seqZ_S by auto. reflexivity.
  - split; [exact Rlt_0_1|]. intros n Hn. destruct (Z.eq_dec n 0) as [->|]; [change (2 * 1 = 2 * (0 + 1) * 1)%R; ring|]. unfold std_hermite_norms. rewrite seqZ_S by lia. reflexivity.
Qed.
