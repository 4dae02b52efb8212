(** Trigonometric sums: orthogonality of the discrete cosine, sine and Fourier transforms *)
From Coq Require Import ZArith List Lia Bool Reals Lra ZifyBool ZifyNat.
From Verif Require Import Base Arith SpecSum PSum SpecLin MFftw MHarmonic SpecHarm SpecFftw.
Open Scope Z_scope.

Lemma odd_b z : Z.odd z = (z mod 2 =? 1).
Proof. rewrite Zmod_odd. now destruct (Z.odd z). Qed.
Lemma even_b z : Z.even z = (z mod 2 =? 0).
Proof. rewrite Zmod_even. now destruct (Z.even z). Qed.
Lemma sin_mult_pi (k : Z) : sin (IZR k * PI) = 0%R.
Proof. apply sin_eq_0_1. now exists k. Qed.
Lemma sin_nonzero (n p : Z) : 0 < n -> ~ (n | p) -> sin (IZR p * PI / IZR n) <> 0%R.
Proof.
  intros Hn Hp E. apply sin_eq_0_0 in E. destruct E as (k & E). apply Hp. exists k.
  assert (IZR n <> 0%R) by (apply IZR_neq; lia). pose proof PI_RGT_0.
  apply eq_IZR. rewrite mult_IZR. apply Rmult_eq_reg_r with PI; [|lra].
  replace (IZR p * PI)%R with (IZR p * PI / IZR n * IZR n)%R by (field; auto). rewrite E. ring.
Qed.
(** cosines at odd multiples *)
Lemma sum_cos_odd n x : 0 <= n -> (2 * sin x * sumZ n (fun j => cos ((2 * IZR j + 1) * x)))%R = sin (2 * IZR n * x)%R.
Proof.
  intros Hn. pattern n. apply natlike_ind; auto; cbv beta.
  - rewrite sumZ_0 by lia. replace (2 * 0 * x)%R with 0%R by ring. rewrite sin_0. ring.
  - intros k Hk IH. unfold Z.succ. rewrite sumZ_S, Rmult_plus_distr_l, IH by lia.
    rewrite plus_IZR. replace (2 * IZR k * x)%R with ((2 * IZR k + 1) * x - x)%R by ring.
    replace (2 * (IZR k + 1) * x)%R with ((2 * IZR k + 1) * x + x)%R by ring. rewrite sin_minus, sin_plus. ring.
Qed.
(** cosines and sines at all multiples *)
Lemma sum_cos n y : 0 <= n -> (2 * sin (y / 2) * sumZ n (fun j => cos (IZR j * y)))%R = (sin ((IZR n - / 2) * y) + sin (y / 2))%R.
Proof.
  intros Hn. pattern n. apply natlike_ind; auto; cbv beta.
  - rewrite sumZ_0 by lia. replace ((0 - / 2) * y)%R with (- (y / 2))%R by lra. rewrite sin_neg. ring.
  - intros k Hk IH. unfold Z.succ. rewrite sumZ_S, Rmult_plus_distr_l, IH by lia.
    rewrite plus_IZR. replace ((IZR k - / 2) * y)%R with (IZR k * y - y / 2)%R by lra.
    replace ((IZR k + 1 - / 2) * y)%R with (IZR k * y + y / 2)%R by lra. rewrite sin_minus, sin_plus. ring.
Qed.
Lemma sum_sin n y : 0 <= n -> (2 * sin (y / 2) * sumZ n (fun j => sin (IZR j * y)))%R = (cos (y / 2) - cos ((IZR n - / 2) * y))%R.
Proof.
  intros Hn. pattern n. apply natlike_ind; auto; cbv beta.
  - rewrite sumZ_0 by lia. replace ((0 - / 2) * y)%R with (- (y / 2))%R by lra. rewrite cos_neg. ring.
  - intros k Hk IH. unfold Z.succ. rewrite sumZ_S, Rmult_plus_distr_l, IH by lia.
    rewrite plus_IZR. replace ((IZR k - / 2) * y)%R with (IZR k * y - y / 2)%R by lra.
    replace ((IZR k + 1 - / 2) * y)%R with (IZR k * y + y / 2)%R by lra. rewrite cos_minus, cos_plus. ring.
Qed.

Lemma cos_mult_pi k : cos (IZR k * PI) = (if Z.even k then 1 else -1)%R.
Proof.
  destruct (Z.even k) eqn:E.
  - apply Z.even_spec in E. destruct E as (m & ->). rewrite mult_IZR. replace (2 * IZR m * PI)%R with (2 * (IZR m * PI))%R by ring.
    rewrite cos_2a_sin, sin_mult_pi. ring.
  - assert (Z.odd k = true) by (rewrite <- Z.negb_even, E; reflexivity). apply Z.odd_spec in H. destruct H as (m & ->).
    rewrite plus_IZR, mult_IZR. replace ((2 * IZR m + 1) * PI)%R with (2 * (IZR m * PI) + PI)%R by ring.
    rewrite neg_cos, cos_2a_sin, sin_mult_pi. ring.
Qed.

Lemma sumZ_one n : 0 <= n -> sumZ n (fun _ => 1%R) = IZR n.
Proof.
  intros Hn. pattern n. apply natlike_ind; auto; cbv beta.
  - intros k Hk IH. unfold Z.succ. rewrite sumZ_S, IH, plus_IZR by lia. reflexivity.
Qed.
Section DCT.
Variable n : Z.
Hypothesis Hn : 0 < n.
Let rn : (IZR n <> 0)%R. Proof. apply IZR_neq. lia. Qed.

Lemma ndiv p m : 0 < Z.abs p < m -> ~ (m | p).
Proof. intros H (k & ->). rewrite Z.abs_mul in H. assert (Z.abs k = 0 \/ 1 <= Z.abs k) by lia. nia. Qed.

(** sum over the grid points *)
Lemma grid_cos p : Z.abs p < 2 * n -> sumZ n (fun k => cos (IZR p * theta n k)) = if p =? 0 then IZR n else 0%R.
Proof.
  intros Hp. destruct (Z.eqb_spec p 0) as [->|Np].
  - rewrite (sumZ_ext n _ (fun _ => 1%R)). 2:{ intros. rewrite Rmult_0_l. apply cos_0. }
    apply sumZ_one. lia.
  - set (x := (IZR p * PI / IZR (2 * n))%R).
    assert (Hs : sin x <> 0%R) by (apply sin_nonzero; [lia|]; apply ndiv; lia).
    assert (H2 : (IZR (2 * n) = 2 * IZR n)%R) by apply mult_IZR.
    pose proof (sum_cos_odd n x ltac:(lia)) as H.
    replace (2 * IZR n * x)%R with (IZR p * PI)%R in H. 2:{ unfold x. rewrite H2. field. auto. }
    rewrite sin_mult_pi in H.
    rewrite (sumZ_ext n _ (fun k => cos ((2 * IZR k + 1) * x)%R)).
    + apply Rmult_eq_reg_l with (2 * sin x)%R; [rewrite H; ring | lra].
    + intros k Hk. f_equal. unfold theta, x. rewrite H2. field. auto.
Qed.
(** sum over the orders *)
Lemma order_cos p : ~ (2 * n | p) -> sumZ n (fun j => cos (IZR j * (IZR p * PI / IZR n))) = if Z.even p then 0%R else 1%R.
Proof.
  intros Np. set (y := (IZR p * PI / IZR n)%R).
  assert (H2 : (IZR (2 * n) = 2 * IZR n)%R) by apply mult_IZR.
  assert (Hy : (y / 2 = IZR p * PI / IZR (2 * n))%R). { unfold y. rewrite H2. field. auto. }
  assert (Hs : sin (y / 2) <> 0%R). { rewrite Hy. apply sin_nonzero; [lia|auto]. }
  pose proof (sum_cos n y ltac:(lia)) as H.
  replace ((IZR n - / 2) * y)%R with (IZR p * PI - y / 2)%R in H. 2:{ unfold y. field. auto. }
  rewrite sin_minus, sin_mult_pi, cos_mult_pi in H.
  apply Rmult_eq_reg_l with (2 * sin (y / 2))%R; [|lra]. rewrite H. destruct (Z.even p); ring.
Qed.

Definition sg (k : Z) : R := if Z.even k then 1%R else (-1)%R.
Lemma sg_sq k : (sg k * sg k = 1)%R. Proof. unfold sg. destruct (Z.even k); ring. Qed.
Lemma cc a b : (2 * cos a * (2 * cos b) = 2 * (cos (a - b) + cos (a + b)))%R.
Proof. rewrite cos_minus, cos_plus. ring. Qed.
Lemma r10 i j : kind_mat REDFT10 n i j = (2 * cos (IZR i * theta n j))%R.
Proof. unfold kind_mat, theta. f_equal. f_equal. field. auto. Qed.
Lemma r01 i j : kind_mat REDFT01 n i j = if j =? 0 then 1%R else (2 * cos (IZR j * theta n i))%R.
Proof. unfold kind_mat, theta. destruct (j =? 0); auto. f_equal. f_equal. field. auto. Qed.
Lemma r11 i j : kind_mat REDFT11 n i j = (2 * cos ((IZR j + / 2) * theta n i))%R.
Proof. unfold kind_mat, theta. f_equal. f_equal. field. auto. Qed.
Lemma o01 i j : kind_mat RODFT01 n i j = (sg i * kind_mat REDFT01 n i (n - 1 - j))%R.
Proof.
  rewrite r01. unfold kind_mat. replace (n - 1 - j =? 0) with (j =? n - 1) by lia.
  destruct (j =? n - 1); [unfold sg; ring|].
  replace (PI * (IZR j + 1) * (IZR i + / 2) / IZR n)%R with (IZR i * PI + (PI / 2 - IZR (n - 1 - j) * theta n i))%R.
  2:{ unfold theta. rewrite !minus_IZR. field. auto. }
  rewrite sin_plus, sin_mult_pi, cos_mult_pi, sin_shift. unfold sg. ring.
Qed.
Lemma o10 i j : kind_mat RODFT10 n i j = (sg j * kind_mat REDFT10 n (n - 1 - i) j)%R.
Proof.
  rewrite r10. unfold kind_mat.
  replace (PI * (IZR j + / 2) * (IZR i + 1) / IZR n)%R with (IZR j * PI + (PI / 2 - IZR (n - 1 - i) * theta n j))%R.
  2:{ unfold theta. rewrite !minus_IZR. field. auto. }
  rewrite sin_plus, sin_mult_pi, cos_mult_pi, sin_shift. unfold sg. ring.
Qed.
Definition kinv (k : kind) : kind := match k with REDFT01 => REDFT10 | REDFT10 => REDFT01 | RODFT01 => RODFT10 | RODFT10 => RODFT01 | REDFT11 => REDFT11 end.
Lemma mul_10_01 i j : 0 <= i < n -> 0 <= j < n -> matmul n (kind_mat REDFT10 n) (kind_mat REDFT01 n) i j = (2 * IZR n * delta i j)%R.
Proof.
  intros Hi Hj. unfold matmul, delta.
  destruct (Z.eqb_spec j 0) as [->|Nj].
  - rewrite (sumZ_ext n _ (fun k => (2 * cos (IZR i * theta n k))%R)).
    2:{ intros k Hk. rewrite r10, r01. cbn [Z.eqb]. ring. }
    rewrite sumZ_scal, grid_cos by lia. destruct (i =? 0); ring.
  - rewrite (sumZ_ext n _ (fun k => (2 * (cos (IZR (i - j) * theta n k) + cos (IZR (i + j) * theta n k)))%R)).
    2:{ intros k Hk. rewrite r10, r01. replace (j =? 0) with false by lia. rewrite cc. rewrite minus_IZR, plus_IZR. f_equal. f_equal; f_equal; ring. }
    rewrite sumZ_scal, sumZ_plus, !grid_cos by lia. replace (i + j =? 0) with false by lia.
    replace (i - j =? 0) with (i =? j) by lia. destruct (i =? j); ring.
Qed.
Lemma theta_minus i j : (theta n i - theta n j = IZR (i - j) * PI / IZR n)%R.
Proof. unfold theta. rewrite minus_IZR. field. auto. Qed.
Lemma theta_plus i j : (theta n i + theta n j = IZR (i + j + 1) * PI / IZR n)%R.
Proof. unfold theta. rewrite !plus_IZR. field. auto. Qed.
Lemma mul_01_10 i j : 0 <= i < n -> 0 <= j < n -> matmul n (kind_mat REDFT01 n) (kind_mat REDFT10 n) i j = (2 * IZR n * delta i j)%R.
Proof.
  intros Hi Hj. unfold matmul.
  rewrite (sumZ_ext n _ (fun l => (2 * (cos (IZR l * (IZR (i - j) * PI / IZR n)) + cos (IZR l * (IZR (i + j + 1) * PI / IZR n))) + (if l =? 0 then -2 else 0))%R)).
  2:{ intros l Hl. rewrite r10, r01, <- theta_minus, <- theta_plus, (Rmult_minus_distr_l (IZR l)), (Rmult_plus_distr_l (IZR l)), <- cc.
      destruct (Z.eqb_spec l 0) as [->|]; [|ring]. rewrite !Rmult_0_l, cos_0. ring. }
  rewrite sumZ_plus, sumZ_scal, sumZ_plus. rewrite (sumZ_single n 0 (fun l => if l =? 0 then (-2)%R else 0%R)); [|lia|].
  2:{ intros l Hl Nl. replace (l =? 0) with false by lia. reflexivity. }
  cbn [Z.eqb]. rewrite (order_cos (i + j + 1)) by (apply ndiv; lia).
  unfold delta. destruct (Z.eqb_spec i j) as [->|Nij].
  - rewrite (sumZ_ext n _ (fun _ => 1%R)).
    2:{ intros l Hl. replace (j - j) with 0 by lia. unfold Rdiv. rewrite !Rmult_0_l, Rmult_0_r. apply cos_0. }
    rewrite sumZ_one by lia. replace (Z.even (j + j + 1)) with false by (rewrite even_b; lia). ring.
  - rewrite order_cos by (apply ndiv; lia). destruct (Z.even (i - j)) eqn:E1, (Z.even (i + j + 1)) eqn:E2; rewrite even_b in E1, E2; try lia; ring.
Qed.
Lemma kind_inverse k i j : 0 <= i < n -> 0 <= j < n -> matmul n (kind_mat k n) (kind_mat (kinv k) n) i j = (2 * IZR n * delta i j)%R.
Proof.
  intros Hi Hj. destruct k; cbn [kinv].
  - now apply mul_01_10.
  - now apply mul_10_01.
  - unfold matmul. rewrite (sumZ_ext n _ (fun l => (sg i * sg j * (kind_mat REDFT01 n i (n - 1 - l) * kind_mat REDFT10 n (n - 1 - l) j))%R)).
    2:{ intros. rewrite o01, o10. ring. }
    rewrite sumZ_scal. rewrite <- (sumZ_rev n (fun l => (kind_mat REDFT01 n i l * kind_mat REDFT10 n l j)%R)).
    change (sumZ n (fun l => (kind_mat REDFT01 n i l * kind_mat REDFT10 n l j)%R)) with (matmul n (kind_mat REDFT01 n) (kind_mat REDFT10 n) i j).
    rewrite mul_01_10 by auto. unfold delta. destruct (Z.eqb_spec i j) as [->|]; [rewrite sg_sq|]; ring.
  - unfold matmul. rewrite (sumZ_ext n _ (fun l => (kind_mat REDFT10 n (n - 1 - i) l * kind_mat REDFT01 n l (n - 1 - j))%R)).
    2:{ intros. rewrite o01, o10. pose proof (sg_sq i0). transitivity (sg i0 * sg i0 * (kind_mat REDFT10 n (n - 1 - i) i0 * kind_mat REDFT01 n i0 (n - 1 - j)))%R; [ring|rewrite H0; ring]. }
    change (sumZ n (fun l => (kind_mat REDFT10 n (n - 1 - i) l * kind_mat REDFT01 n l (n - 1 - j))%R)) with (matmul n (kind_mat REDFT10 n) (kind_mat REDFT01 n) (n - 1 - i) (n - 1 - j)).
    rewrite mul_10_01 by lia. unfold delta. replace (n - 1 - i =? n - 1 - j) with (i =? j) by lia. reflexivity.
  - unfold matmul. rewrite (sumZ_ext n _ (fun l => (2 * (cos (IZR (i - j) * theta n l) + cos (IZR (i + j + 1) * theta n l)))%R)).
    2:{ intros l Hl. replace (kind_mat REDFT11 n i l) with (kind_mat REDFT11 n l i). 2:{ unfold kind_mat. f_equal. f_equal. field; auto. }
        rewrite !r11, cc. rewrite minus_IZR, !plus_IZR. f_equal. f_equal; f_equal; field. }
    rewrite sumZ_scal, sumZ_plus, !grid_cos by lia. replace (i + j + 1 =? 0) with false by lia.
    replace (i - j =? 0) with (i =? j) by lia. unfold delta. destruct (i =? j); ring.
Qed.
End DCT.

(** ** the azimuthal transform *)
Lemma sumZ_odd h f : 0 <= h -> sumZ (2 * h + 1) f = (f 0%Z + sumZ h (fun k => f (2 * k + 1)%Z + f (2 * k + 2)%Z))%R.
Proof.
  intros Hh. pattern h. apply natlike_ind; auto; cbv beta.
  - rewrite (sumZ_0 0) by lia. change (2 * 0 + 1) with (0 + 1). rewrite sumZ_S, sumZ_0 by lia. ring.
  - intros k Hk IH. unfold Z.succ. replace (2 * (k + 1) + 1) with (2 * k + 1 + 1 + 1) by lia.
    rewrite (sumZ_S (2 * k + 1 + 1)), (sumZ_S (2 * k + 1)), IH, sumZ_S by lia. replace (2 * k + 1 + 1) with (2 * k + 2) by lia. ring.
Qed.
Section DFT.
Variable M h : Z.
Hypothesis HM : M = 2 * h + 1.
Hypothesis Hh : 0 <= h.
Let rm : (IZR M <> 0)%R. Proof. apply IZR_neq. lia. Qed.

Lemma full_cos k : ~ (M | k) -> sumZ M (fun j => cos (angle M j k)) = 0%R.
Proof.
  intros Nk. set (y := (2 * PI * IZR k / IZR M)%R).
  assert (Hy : (y / 2 = IZR k * PI / IZR M)%R) by (unfold y; field; auto).
  assert (Hs : sin (y / 2) <> 0%R). { rewrite Hy. apply sin_nonzero; [lia|auto]. }
  pose proof (sum_cos M y ltac:(lia)) as H.
  replace ((IZR M - / 2) * y)%R with (IZR (2 * k) * PI - y / 2)%R in H. 2:{ rewrite mult_IZR. unfold y. field. auto. }
  rewrite sin_minus, sin_mult_pi, cos_mult_pi in H. replace (Z.even (2 * k)) with true in H by (rewrite even_b; lia).
  rewrite (sumZ_ext M _ (fun j => cos (IZR j * y))). 2:{ intros. f_equal. unfold angle, y. field. auto. }
  apply Rmult_eq_reg_l with (2 * sin (y / 2))%R; [|lra]. rewrite H. ring.
Qed.
Lemma full_sin k : sumZ M (fun j => sin (angle M j k)) = 0%R.
Proof.
  destruct (Z.eq_dec (k mod M) 0) as [Ek|Nk].
  - apply Z.mod_divide in Ek; [|lia]. destruct Ek as (q & ->). apply sumZ_zero. intros j Hj.
    replace (angle M j (q * M)) with (IZR (2 * j * q) * PI)%R. { apply sin_mult_pi. }
    unfold angle. rewrite !mult_IZR. field. auto.
  - set (y := (2 * PI * IZR k / IZR M)%R).
    assert (Hy : (y / 2 = IZR k * PI / IZR M)%R) by (unfold y; field; auto).
    assert (Hs : sin (y / 2) <> 0%R). { rewrite Hy. apply sin_nonzero; [lia|]. intros D. apply Nk. apply Z.mod_divide; [lia|auto]. }
    pose proof (sum_sin M y ltac:(lia)) as H.
    replace ((IZR M - / 2) * y)%R with (IZR (2 * k) * PI - y / 2)%R in H. 2:{ rewrite mult_IZR. unfold y. field. auto. }
    rewrite cos_minus, sin_mult_pi, cos_mult_pi in H. replace (Z.even (2 * k)) with true in H by (rewrite even_b; lia).
    rewrite (sumZ_ext M _ (fun j => sin (IZR j * y))). 2:{ intros. f_equal. unfold angle, y. field. auto. }
    apply Rmult_eq_reg_l with (2 * sin (y / 2))%R; [|lra]. rewrite H. ring.
Qed.
Lemma dirichlet d : ~ (M | d) -> (1 + 2 * sumZ h (fun k => cos (angle M d (k + 1))) = 0)%R.
Proof.
  intros Nd. set (y := (2 * PI * IZR d / IZR M)%R).
  assert (Hy : (y / 2 = IZR d * PI / IZR M)%R) by (unfold y; field; auto).
  assert (Hs : sin (y / 2) <> 0%R). { rewrite Hy. apply sin_nonzero; [lia|auto]. }
  pose proof (sum_cos (h + 1) y ltac:(lia)) as H.
  replace ((IZR (h + 1) - / 2) * y)%R with (IZR d * PI)%R in H.
  2:{ unfold y. rewrite plus_IZR. assert (IZR M = 2 * IZR h + 1)%R by (rewrite HM, plus_IZR, mult_IZR; reflexivity).
      rewrite H0. assert (2 * IZR h + 1 <> 0)%R by congruence. field. auto. }
  rewrite sin_mult_pi, sumZ_first in H by lia. replace (h + 1 - 1) with h in H by lia.
  rewrite Rmult_0_l, cos_0 in H.
  rewrite (sumZ_ext h _ (fun i => cos (IZR (1 + i) * y))).
  2:{ intros. f_equal. unfold angle, y. rewrite !plus_IZR. field. auto. }
  set (S := sumZ h _) in *. assert (sin (y / 2) * (2 * (1 + S) - 1) = 0)%R by lra.
  apply Rmult_integral in H0. destruct H0; [contradiction|lra].
Qed.
(** [W j z]: the function of column [z] at point [j], doubled except for the constant; [V] without the factor 2 *)
Definition Vm (z j : Z) : R :=
  if z =? 0 then 1%R else if Z.odd z then sin (angle M j ((z + 1) / 2)) else cos (angle M j (z / 2)).
Definition Wm (j z : Z) : R := if z =? 0 then 1%R else (2 * Vm z j)%R.
Lemma Vm_0 j : Vm 0 j = 1%R. Proof. reflexivity. Qed.
Lemma Vm_s k j : 0 <= k -> Vm (2 * k + 1) j = sin (angle M j (k + 1)).
Proof. intros. unfold Vm. replace (2 * k + 1 =? 0) with false by lia. replace (Z.odd (2 * k + 1)) with true by (rewrite odd_b; lia). do 2 f_equal. lia. Qed.
Lemma Vm_c k j : 0 <= k -> Vm (2 * k + 2) j = cos (angle M j (k + 1)).
Proof. intros. unfold Vm. replace (2 * k + 2 =? 0) with false by lia. replace (Z.odd (2 * k + 2)) with false by (rewrite odd_b; lia). do 2 f_equal. lia. Qed.
Lemma angle_plus j a b : (angle M j a + angle M j b = angle M j (a + b))%R.
Proof. unfold angle. rewrite plus_IZR. field. auto. Qed.
Lemma angle_minus j a b : (angle M j a - angle M j b = angle M j (a - b))%R.
Proof. unfold angle. rewrite minus_IZR. field. auto. Qed.
Lemma angle_minus' a b k : (angle M a k - angle M b k = angle M (a - b) k)%R.
Proof. unfold angle. rewrite minus_IZR. field. auto. Qed.
Lemma mul_WV i j : 0 <= i < M -> 0 <= j < M -> matmul M Wm Vm i j = (IZR M * delta i j)%R.
Proof.
  intros Hi Hj. unfold matmul. rewrite HM at 1. rewrite sumZ_odd by lia. cbn [Wm Z.eqb]. rewrite Vm_0.
  rewrite (sumZ_ext h _ (fun k => (2 * cos (angle M (i - j) (k + 1)))%R)).
  2:{ intros k Hk. unfold Wm. replace (2 * k + 1 =? 0) with false by lia. replace (2 * k + 2 =? 0) with false by lia.
      rewrite !Vm_s, !Vm_c by lia. rewrite <- angle_minus', cos_minus. ring. }
  rewrite sumZ_scal, Rmult_1_r. unfold delta. destruct (Z.eqb_spec i j) as [->|Nij].
  - rewrite (sumZ_ext h _ (fun _ => 1%R)). 2:{ intros. rewrite <- angle_minus'. replace (_ - _)%R with 0%R by ring. apply cos_0. }
    rewrite sumZ_one, HM, plus_IZR, mult_IZR by lia. ring.
  - rewrite dirichlet; [ring|]. apply ndiv. lia.
Qed.
Lemma full_cc a b : 0 < a <= h -> 0 < b <= h -> sumZ M (fun j => (2 * (cos (angle M j a) * cos (angle M j b)))%R) = (IZR M * delta a b)%R.
Proof.
  intros Ha Hb. rewrite (sumZ_ext M _ (fun j => (cos (angle M j (a - b)) + cos (angle M j (a + b)))%R)).
  2:{ intros. rewrite <- angle_plus, <- angle_minus, cos_plus, cos_minus. ring. }
  rewrite sumZ_plus, (full_cos (a + b)) by (apply ndiv; lia). unfold delta. destruct (Z.eqb_spec a b) as [->|].
  - rewrite (sumZ_ext M _ (fun _ => 1%R)). 2:{ intros. rewrite <- angle_minus. replace (_ - _)%R with 0%R by ring. apply cos_0. }
    rewrite sumZ_one by lia. ring.
  - rewrite full_cos by (apply ndiv; lia). ring.
Qed.
Lemma full_ss a b : 0 < a <= h -> 0 < b <= h -> sumZ M (fun j => (2 * (sin (angle M j a) * sin (angle M j b)))%R) = (IZR M * delta a b)%R.
Proof.
  intros Ha Hb. rewrite (sumZ_ext M _ (fun j => (cos (angle M j (a - b)) - cos (angle M j (a + b)))%R)).
  2:{ intros. rewrite <- angle_plus, <- angle_minus, cos_plus, cos_minus. ring. }
  rewrite sumZ_minus, (full_cos (a + b)) by (apply ndiv; lia). unfold delta. destruct (Z.eqb_spec a b) as [->|].
  - rewrite (sumZ_ext M _ (fun _ => 1%R)). 2:{ intros. rewrite <- angle_minus. replace (_ - _)%R with 0%R by ring. apply cos_0. }
    rewrite sumZ_one by lia. ring.
  - rewrite full_cos by (apply ndiv; lia). ring.
Qed.
Lemma full_sc a b : sumZ M (fun j => (2 * (sin (angle M j a) * cos (angle M j b)))%R) = 0%R.
Proof.
  rewrite (sumZ_ext M _ (fun j => (sin (angle M j (a + b)) + sin (angle M j (a - b)))%R)).
  2:{ intros. rewrite <- angle_plus, <- angle_minus, sin_plus, sin_minus. ring. }
  rewrite sumZ_plus, !full_sin. ring.
Qed.
Lemma colcase z : 0 <= z < M -> z = 0 \/ (exists k, 0 <= k < h /\ z = 2 * k + 1) \/ (exists k, 0 <= k < h /\ z = 2 * k + 2).
Proof.
  intros Hz. destruct (Z.eq_dec z 0); auto. right. destruct (Z.odd z) eqn:E; rewrite odd_b in E; [left; exists ((z - 1) / 2)|right; exists (z / 2 - 1)]; lia.
Qed.
Lemma mul_VW i j : 0 <= i < M -> 0 <= j < M -> matmul M Vm Wm i j = (IZR M * delta i j)%R.
Proof.
  intros Hi Hj. unfold matmul.
  assert (S0 : forall k, sumZ M (fun l => (1 * (2 * sin (angle M l k)))%R) = 0%R).
  { intros k. rewrite (sumZ_ext M _ (fun l => (2 * sin (angle M l k))%R)) by (intros; ring). rewrite sumZ_scal, full_sin. ring. }
  assert (C0 : forall k, 0 < k <= h -> sumZ M (fun l => (1 * (2 * cos (angle M l k)))%R) = 0%R).
  { intros k Hk. rewrite (sumZ_ext M _ (fun l => (2 * cos (angle M l k))%R)) by (intros; ring). rewrite sumZ_scal, full_cos; [ring|apply ndiv; lia]. }
  destruct (colcase i Hi) as [->|[(a & Ha & ->)|(a & Ha & ->)]]; destruct (colcase j Hj) as [->|[(b & Hb & ->)|(b & Hb & ->)]];
    unfold Wm; change (0 =? 0) with true; rewrite ?(proj2 (Z.eqb_neq _ 0)) by lia; cbv iota; unfold delta.
  - rewrite (sumZ_ext M _ (fun _ => 1%R)). 2:{ intros. rewrite Vm_0. ring. } rewrite sumZ_one by lia. cbn [Z.eqb]. ring.
  - rewrite <- (S0 (b + 1)). rewrite (proj2 (Z.eqb_neq 0 _)) by lia. rewrite S0, Rmult_0_r. rewrite <- (S0 (b + 1)). apply sumZ_ext. intros. now rewrite Vm_0, Vm_s by lia.
  - rewrite (proj2 (Z.eqb_neq 0 _)) by lia. rewrite Rmult_0_r. rewrite <- (C0 (b + 1)) by lia. apply sumZ_ext. intros. now rewrite Vm_0, Vm_c by lia.
  - rewrite (proj2 (Z.eqb_neq _ 0)) by lia. rewrite Rmult_0_r. rewrite <- (full_sin (a + 1)). apply sumZ_ext. intros. rewrite Vm_s by lia. ring.
  - rewrite (sumZ_ext M _ (fun l => (2 * (sin (angle M l (a + 1)) * sin (angle M l (b + 1))))%R)). 2:{ intros. rewrite !Vm_s by lia. ring. }
    rewrite full_ss by lia. unfold delta. replace (a + 1 =? b + 1) with (2 * a + 1 =? 2 * b + 1) by lia. reflexivity.
  - rewrite (proj2 (Z.eqb_neq _ _)) by lia. rewrite Rmult_0_r. rewrite <- (full_sc (a + 1) (b + 1)). apply sumZ_ext. intros. rewrite Vm_s, Vm_c by lia. ring.
  - rewrite (proj2 (Z.eqb_neq _ 0)) by lia. rewrite Rmult_0_r. rewrite <- (full_cos (a + 1)). { apply sumZ_ext. intros. rewrite Vm_c by lia. ring. } apply ndiv; lia.
  - rewrite (proj2 (Z.eqb_neq _ _)) by lia. rewrite Rmult_0_r. rewrite <- (full_sc (b + 1) (a + 1)). apply sumZ_ext. intros. rewrite Vm_s, Vm_c by lia. ring.
  - rewrite (sumZ_ext M _ (fun l => (2 * (cos (angle M l (a + 1)) * cos (angle M l (b + 1))))%R)). 2:{ intros. rewrite !Vm_c by lia. ring. }
    rewrite full_cc by lia. unfold delta. replace (a + 1 =? b + 1) with (2 * a + 2 =? 2 * b + 2) by lia. reflexivity.
Qed.
End DFT.
