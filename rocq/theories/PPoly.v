(** * Polynomials: leading coefficients, independence, existence of connection matrices *)
From Coq Require Import ZArith List Lia Bool Reals Lra ZifyBool.
From Verif Require Import Base BaseFacts SpecSum PSum SpecLin SpecClassical SpecConn.
Open Scope Z_scope.

Definition mono (i : Z) (x : R) : R := pow x (Z.to_nat i).
Lemma mono_S i x : 0 <= i -> mono (i + 1) x = (x * mono i x)%R.
Proof. intros. unfold mono. replace (Z.to_nat (i + 1)) with (S (Z.to_nat i)) by lia. reflexivity. Qed.
Definition polylt (n : Z) (f : R -> R) : Prop := exists c : Z -> R, forall x, f x = sumZ n (fun i => (c i * mono i x)%R).
(** f is k x^n plus terms of lower degree *)
Definition lead (n : Z) (k : R) (f : R -> R) : Prop := polylt n (fun x => (f x - k * mono n x)%R).

Lemma polylt_ext n f g : (forall x, f x = g x) -> polylt n f -> polylt n g.
Proof. intros E [c H]. exists c. intros. now rewrite <- E. Qed.
Lemma polylt_zero n : polylt n (fun _ => 0%R).
Proof. exists (fun _ => 0%R). intros. symmetry. apply sumZ_zero. intros. lra. Qed.
Lemma polylt_plus n f g : polylt n f -> polylt n g -> polylt n (fun x => (f x + g x)%R).
Proof. intros [c H] [d K]. exists (fun i => (c i + d i)%R). intros. rewrite H, K, <- sumZ_plus. apply sumZ_ext. intros. lra. Qed.
Lemma polylt_scal n k f : polylt n f -> polylt n (fun x => (k * f x)%R).
Proof. intros [c H]. exists (fun i => (k * c i)%R). intros. rewrite H, <- sumZ_scal. apply sumZ_ext. intros. lra. Qed.
Lemma polylt_weaken n m f : n <= m -> polylt n f -> polylt m f.
Proof.
  intros Hm [c H]. exists (fun i => if i <? n then c i else 0%R). intros x. rewrite H. destruct (Z_lt_dec n 0).
  - replace (sumZ n _) with 0%R. 2:{ unfold sumZ. replace (Z.to_nat n) with O by lia. reflexivity. }
    symmetry. apply sumZ_zero. intros. replace (i <? n) with false by lia. lra.
  - rewrite (sumZ_split m n) by lia. rewrite (sumZ_zero (m - n)).
    + rewrite Rplus_0_r. apply sumZ_ext. intros. now replace (i <? n) with true by lia.
    + intros. replace (n + i <? n) with false by lia. lra.
Qed.
Lemma polylt_x n f : 0 <= n -> polylt n f -> polylt (n + 1) (fun x => (x * f x)%R).
Proof.
  intros Hn [c H]. exists (fun i => if i =? 0 then 0%R else c (i - 1)). intros x. rewrite H.
  rewrite (sumZ_first (n + 1)) by lia. replace (n + 1 - 1) with n by lia. rewrite Z.eqb_refl, Rmult_0_l, Rplus_0_l, <- sumZ_scal.
  apply sumZ_ext. intros i Hi. replace (1 + i =? 0) with false by lia. replace (1 + i - 1) with i by lia. replace (1 + i) with (i + 1) by lia. rewrite mono_S by lia. ring.
Qed.
Lemma polylt_mono n k : 0 <= n -> polylt (n + 1) (fun x => (k * mono n x)%R).
Proof.
  intros Hn. exists (fun i => if i =? n then k else 0%R). intros x. rewrite (sumZ_single (n + 1) n); [now rewrite Z.eqb_refl|lia|].
  intros i _ Hi. replace (i =? n) with false by lia. lra.
Qed.
Lemma lead_polylt n k f : 0 <= n -> lead n k f -> polylt (n + 1) f.
Proof.
  intros Hn H. apply (polylt_ext _ (fun x => ((f x - k * mono n x) + k * mono n x)%R)); [intros; ring|].
  apply polylt_plus; [apply (polylt_weaken n); [lia|exact H]|now apply polylt_mono].
Qed.

(** growth *)
Lemma mono_pos i x : (1 <= x)%R -> (1 <= mono i x)%R.
Proof. intros. unfold mono. now apply pow_R1_Rle. Qed.
Lemma mono_le i j x : (1 <= x)%R -> 0 <= i <= j -> (mono i x <= mono j x)%R.
Proof. intros. unfold mono. apply Rle_pow; [auto|lia]. Qed.
Lemma sumZ_abs n f : (Rabs (sumZ n f) <= sumZ n (fun i => Rabs (f i)))%R.
Proof.
  unfold sumZ. induction (Z.to_nat n); cbn; [rewrite Rabs_R0; lra|]. eapply Rle_trans; [apply Rabs_triang|]. lra.
Qed.
Lemma sumZ_mono n f g : (forall i, 0 <= i < n -> (f i <= g i)%R) -> (sumZ n f <= sumZ n g)%R.
Proof.
  intros H. unfold sumZ. assert (H' : forall i, 0 <= i < Z.of_nat (Z.to_nat n) -> (f i <= g i)%R) by (intros; apply H; lia). clear H.
  induction (Z.to_nat n) as [|m IH]; cbn; [lra|].
  apply Rplus_le_compat; [apply IH; intros; apply H'; lia|apply H'; lia].
Qed.
Lemma poly_lead0 n k f : 0 <= n -> polylt n f -> (forall x, (f x + k * mono n x = 0)%R) -> k = 0%R.
Proof.
  intros Hn [c H] E. destruct (Req_dec k 0) as [|Hk]; auto. exfalso.
  set (S := sumZ n (fun i => Rabs (c i))).
  assert (HS : (0 <= S)%R). { apply Rle_trans with (sumZ n (fun _ => 0%R)); [rewrite sumZ_zero; [lra|auto]|]. apply sumZ_mono. intros. apply Rabs_pos. }
  pose proof (Rabs_pos_lt k Hk) as Ka.
  assert (B : forall x, (1 <= x)%R -> (Rabs k * x <= S)%R).
  { intros x Hx. destruct (Z.eq_dec n 0) as [->|].
    - specialize (E 0%R). rewrite H in E. cbn in E. unfold sumZ in E. cbn in E. exfalso. apply Hk. lra.
    - assert (Em : mono n x = (x * mono (n - 1) x)%R) by (rewrite <- mono_S by lia; f_equal; lia).
      pose proof (mono_pos (n - 1) x Hx) as Mp.
      apply (Rmult_le_reg_r (mono (n - 1) x)); [lra|]. replace (Rabs k * x * mono (n - 1) x)%R with (Rabs (f x)).
      + rewrite H. eapply Rle_trans; [apply sumZ_abs|]. unfold S. rewrite <- sumZ_scal_r. apply sumZ_mono. intros i Hi.
        rewrite Rabs_mult. apply Rmult_le_compat_l; [apply Rabs_pos|]. rewrite Rabs_right by (pose proof (mono_pos i x Hx); lra).
        apply mono_le; auto; lia.
      + replace (f x) with (- (k * mono n x))%R by (specialize (E x); lra). rewrite Rabs_Ropp, Rabs_mult, Em.
        rewrite (Rabs_right (x * _)) by (apply Rle_ge; apply Rmult_le_pos; lra). ring. }
  assert (Hx : (1 <= 1 + S / Rabs k)%R). { assert (0 <= S / Rabs k)%R by (apply Rle_mult_inv_pos; auto). lra. }
  specialize (B _ Hx). rewrite Rmult_plus_distr_l in B. replace (Rabs k * (S / Rabs k))%R with S in B by (field; lra). lra.
Qed.
Lemma lead_unique n k k' f : 0 <= n -> lead n k f -> lead n k' f -> k = k'.
Proof.
  intros Hn H H'. enough (k - k' = 0)%R by lra.
  apply (poly_lead0 n _ (fun x => ((f x - k * mono n x) + -1 * (f x - k' * mono n x))%R)); auto.
  - apply polylt_plus; [exact H|]. now apply polylt_scal.
  - intros. ring.
Qed.

(** families with nonzero leading coefficients *)
Definition graded (N : Z) (k : Z -> R) (P : Z -> R -> R) : Prop := forall n, 0 <= n < N -> lead n (k n) (P n) /\ k n <> 0%R.
Lemma expansion_lt N k P c n : graded N k P -> n <= N -> polylt n (fun x => sumZ n (fun i => (c i * P i x)%R)).
Proof.
  intros G Hn. destruct (Z_lt_dec n 0).
  { unfold sumZ. replace (Z.to_nat n) with O by lia. cbn. apply polylt_zero. }
  assert (A : forall m : nat, Z.of_nat m <= n -> polylt (Z.of_nat m) (fun x => sumZ (Z.of_nat m) (fun i => (c i * P i x)%R))).
  { induction m as [|m IH]; intros Hm. { unfold sumZ. cbn. apply polylt_zero. }
    replace (Z.of_nat (S m)) with (Z.of_nat m + 1) by lia.
    apply (polylt_ext _ (fun x => (sumZ (Z.of_nat m) (fun i => c i * P i x) + c (Z.of_nat m) * P (Z.of_nat m) x)%R)).
    { intros. rewrite sumZ_S by lia. reflexivity. }
    apply polylt_plus. { apply (polylt_weaken (Z.of_nat m)); [lia|]. apply IH. lia. }
    apply polylt_scal. destruct (G (Z.of_nat m)) as [L _]; [lia|]. now apply lead_polylt in L; [|lia]. }
  specialize (A (Z.to_nat n) ltac:(lia)). replace (Z.of_nat (Z.to_nat n)) with n in A by lia. exact A.
Qed.
Lemma graded_indep N k P c n : graded N k P -> n <= N -> (forall x, expansion n c P x = 0%R) -> forall i, 0 <= i < n -> c i = 0%R.
Proof.
  intros G Hn. destruct (Z_lt_dec n 0); [intros; lia|].
  assert (A : forall m : nat, Z.of_nat m <= N -> (forall x, expansion (Z.of_nat m) c P x = 0%R) -> forall i, 0 <= i < Z.of_nat m -> c i = 0%R).
  { induction m as [|m IH]; intros Hm E i Hi; [lia|].
    destruct (G (Z.of_nat m)) as [L K0]; [lia|].
    assert (C0 : c (Z.of_nat m) = 0%R).
    { enough (c (Z.of_nat m) * k (Z.of_nat m) = 0)%R by (apply Rmult_integral in H; tauto).
      apply (poly_lead0 (Z.of_nat m) _ (fun x => (sumZ (Z.of_nat m) (fun i => c i * P i x) + c (Z.of_nat m) * (P (Z.of_nat m) x - k (Z.of_nat m) * mono (Z.of_nat m) x))%R)); [lia| |].
      - apply polylt_plus; [apply (expansion_lt N k); auto; lia|]. apply polylt_scal. exact L.
      - intros x. specialize (E x). unfold expansion in E. replace (Z.of_nat (S m)) with (Z.of_nat m + 1) in E by lia. rewrite sumZ_S in E by lia. lra. }
    destruct (Z.eq_dec i (Z.of_nat m)) as [->|]; auto.
    apply IH; [lia| |lia]. intros x. specialize (E x). unfold expansion in *. replace (Z.of_nat (S m)) with (Z.of_nat m + 1) in E by lia.
    rewrite sumZ_S, C0 in E by lia. lra. }
  intros E i Hi. specialize (A (Z.to_nat n) ltac:(lia)). replace (Z.of_nat (Z.to_nat n)) with n in A by lia. apply A; auto.
Qed.
Lemma connects_lead n N k l U P Q : graded N k P -> graded N l Q -> n <= N -> connects n U P Q -> forall j, 0 <= j < n -> (U j j * l j = k j)%R.
Proof.
  intros GP GQ Hn [Z0 E] j Hj. destruct (GP j) as [LP _]; [lia|]. destruct (GQ j) as [LQ _]; [lia|].
  apply (lead_unique j _ _ (P j)); [lia| |exact LP].
  apply (polylt_ext _ (fun x => (sumZ j (fun i => U i j * Q i x) + U j j * (Q j x - l j * mono j x))%R)).
  - intros x. rewrite E by lia. unfold expansion. rewrite (sumZ_split n (j + 1)) by lia. rewrite sumZ_S by lia.
    rewrite (sumZ_zero (n - (j + 1))); [ring|]. intros i Hi. rewrite Z0 by lia. lra.
  - apply polylt_plus; [apply (expansion_lt N l); auto; lia|]. now apply polylt_scal.
Qed.

(** three-term recurrences *)
Record rec3 (p0 : R) (A B C : Z -> R) (P : Z -> R -> R) : Prop := {
  rec_0 : forall x, P 0 x = p0;
  rec_1 : forall x, P 1 x = ((A 0%Z * x + B 0%Z) * P 0%Z x)%R;
  rec_S : forall n x, 1 <= n -> P (n + 1) x = ((A n * x + B n) * P n x - C n * P (n - 1)%Z x)%R }.
Lemma rec3_lead p0 A B C P k : rec3 p0 A B C P -> k 0%Z = p0 -> (forall n, 0 <= n -> k (n + 1) = (A n * k n)%R) ->
  forall n, 0 <= n -> lead n (k n) (P n).
Proof.
  intros HR K0 KS.
  assert (B0 : lead 0 (k 0) (P 0)).
  { apply (polylt_ext _ (fun _ => 0%R)); [|apply polylt_zero]. intros. rewrite (rec_0 _ _ _ _ _ HR), K0. unfold mono. cbn. ring. }
  assert (St : forall n (f g : R -> R) a b c kf, 0 <= n -> lead n kf f -> polylt (n + 1) g -> lead (n + 1) (a * kf) (fun x => (a * x + b) * f x - c * g x)%R).
  { intros n f g a b c kf Hn Hf Hg.
    apply (polylt_ext _ (fun x => (a * (x * (f x - kf * mono n x)) + (b * f x + - c * g x))%R)).
    - intros. rewrite mono_S by lia. ring.
    - apply polylt_plus; [apply polylt_scal; now apply polylt_x|]. apply polylt_plus; apply polylt_scal; auto. now apply (lead_polylt n kf). }
  assert (B1 : lead 1 (k 1) (P 1)).
  { change 1 with (0 + 1). rewrite KS by lia.
    apply (polylt_ext _ (fun x => ((A 0%Z * x + B 0%Z) * P 0%Z x - 0 * 0) - A 0%Z * k 0%Z * mono (0 + 1)%Z x)%R).
    - intros. change (0+1) with 1. rewrite (rec_1 _ _ _ _ _ HR). ring.
    - apply (St 0 (P 0) (fun _ => 0%R)); [lia|auto|apply polylt_zero]. }
  enough (H : forall n : nat, lead (Z.of_nat n) (k (Z.of_nat n)) (P (Z.of_nat n)) /\ lead (Z.of_nat n + 1) (k (Z.of_nat n + 1)) (P (Z.of_nat n + 1))).
  { intros n Hn. destruct (H (Z.to_nat n)) as [H1 _]. replace (Z.of_nat (Z.to_nat n)) with n in H1 by lia. exact H1. }
  induction n as [|n [I1 I2]]; [split; auto|]. replace (Z.of_nat (S n)) with (Z.of_nat n + 1) by lia. split; auto.
  rewrite KS by lia.
  apply (polylt_ext _ (fun x => ((A (Z.of_nat n + 1)%Z * x + B (Z.of_nat n + 1)%Z) * P (Z.of_nat n + 1)%Z x - C (Z.of_nat n + 1)%Z * P (Z.of_nat n) x - A (Z.of_nat n + 1)%Z * k (Z.of_nat n + 1)%Z * mono (Z.of_nat n + 1 + 1)%Z x)%R)).
  - intros. rewrite (rec_S _ _ _ _ _ HR (Z.of_nat n + 1)) by lia. now replace (Z.of_nat n + 1 - 1) with (Z.of_nat n) by lia.
  - apply (St (Z.of_nat n + 1) (P (Z.of_nat n + 1)) (P (Z.of_nat n))); [lia|auto|]. apply (polylt_weaken (Z.of_nat n + 1)); [lia|]. apply (lead_polylt _ (k (Z.of_nat n))); [lia|auto].
Qed.

(** existence of a connection matrix for any graded families: by elimination of the leading term *)
Lemma poly_expand N l Q : graded N l Q -> forall n : nat, Z.of_nat n <= N -> forall f, polylt (Z.of_nat n) f ->
  exists c : Z -> R, (forall i, Z.of_nat n <= i -> c i = 0%R) /\ forall x, f x = expansion (Z.of_nat n) c Q x.
Proof.
  intros G. induction n as [|n IH]; intros Hn f Hf.
  - exists (fun _ => 0%R). split; auto. intros x. destruct Hf as [c H]. rewrite H. reflexivity.
  - destruct Hf as [c H]. destruct (G (Z.of_nat n)) as [L L0]; [lia|]. set (m := Z.of_nat n) in *.
    assert (Hm : Z.of_nat (S n) = m + 1) by (unfold m; lia). rewrite Hm in *.
    set (d := (c m / l m)%R).
    destruct (IH ltac:(lia) (fun x => f x - d * Q m x)%R) as [c' [Hz Hc]].
    { apply (polylt_ext _ (fun x => (sumZ m (fun i => c i * mono i x) + - d * (Q m x - l m * mono m x))%R)).
      - intros x. rewrite H, sumZ_S by (unfold m; lia). unfold d. field. auto.
      - apply polylt_plus; [exists c; auto|]. now apply polylt_scal. }
    exists (fun i => if i =? m then d else c' i). split.
    { intros i Hi. replace (i =? m) with false by lia. apply Hz. lia. }
    intros x. unfold expansion. rewrite sumZ_S by (unfold m; lia). rewrite Z.eqb_refl.
    replace (f x) with ((f x - d * Q m x) + d * Q m x)%R by ring. f_equal. rewrite Hc. apply sumZ_ext. intros i Hi. now replace (i =? m) with false by lia.
Qed.
Lemma connects_exists N k l P Q : graded N k P -> graded N l Q -> exists U, connects N U P Q.
Proof.
  intros GP GQ. destruct (Z_lt_dec N 0). { exists (fun _ _ => 0%R). split; [auto|lia]. }
  assert (H : forall m : nat, Z.of_nat m <= N -> exists U : Z -> Z -> R, forall j, 0 <= j < Z.of_nat m -> (forall i, j < i -> U i j = 0%R) /\ forall x, P j x = expansion N (fun i => U i j) Q x).
  { induction m as [|m IH]; intros Hm; [exists (fun _ _ => 0%R); intros; lia|].
    destruct IH as [U HU]; [lia|]. destruct (GP (Z.of_nat m)) as [L _]; [lia|].
    destruct (poly_expand N l Q GQ (S m) ltac:(lia) (P (Z.of_nat m))) as [c [Hz Hc]].
    { replace (Z.of_nat (S m)) with (Z.of_nat m + 1) by lia. apply (lead_polylt _ (k (Z.of_nat m))); [lia|auto]. }
    exists (fun i j => if j =? Z.of_nat m then c i else U i j). intros j Hj. destruct (Z.eqb_spec j (Z.of_nat m)) as [->|].
    - split; [intros; apply Hz; lia|]. intros x. rewrite Hc. unfold expansion. rewrite (sumZ_split N (Z.of_nat (S m))) by lia.
      rewrite (sumZ_zero (N - Z.of_nat (S m))); [ring|]. intros i Hi. rewrite Hz by lia. lra.
    - apply HU. lia. }
  destruct (H (Z.to_nat N) ltac:(lia)) as [U HU]. exists U. split.
  - intros i j Hj Hi. apply HU; lia.
  - intros j x Hj. apply HU. lia.
Qed.
Lemma connects_unique n N l U U' P Q : graded N l Q -> n <= N -> connects n U P Q -> connects n U' P Q -> forall i j, 0 <= i < n -> 0 <= j < n -> U i j = U' i j.
Proof.
  intros G Hn [_ E] [_ E'] i j Hi Hj. enough (U i j - U' i j = 0)%R by lra.
  apply (graded_indep N l Q (fun i => (U i j - U' i j)%R) n); auto. intros x. pose proof (E j x Hj) as A. rewrite E' in A by auto. unfold expansion in *.
  rewrite (sumZ_ext n _ (fun i => (U i j * Q i x - U' i j * Q i x)%R)) by (intros; ring). rewrite sumZ_minus, A. ring.
Qed.
