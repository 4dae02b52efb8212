(** * Krawtchouk matrices as substitutions in binary forms; powers of a binary quadratic form *)
From Coq Require Import ZArith List Lia Bool Reals Lra FunctionalExtensionality ZifyBool ZifyNat.
From Verif Require Import SpecSum PSum PKraw.
Open Scope Z_scope.

(** coefficient sequences of binary forms: [f k] is the coefficient of u^k *)
Definition d0 (k : Z) : R := if k =? 0 then 1%R else 0%R.
(** multiplication by v+u and by v-u *)
Definition mp (f : Z -> R) (k : Z) : R := (f k + f (k - 1)%Z)%R.
Definition mm (f : Z -> R) (k : Z) : R := (f k - f (k - 1)%Z)%R.
Fixpoint it (j : nat) (op : (Z -> R) -> Z -> R) (f : Z -> R) : Z -> R := match j with O => f | S j' => op (it j' op f) end.
Definition KK (j i : nat) : Z -> R := it j mm (it i mp d0).
Lemma mm_mp f : mm (mp f) = mp (mm f).
Proof. apply functional_extensionality. intros k. unfold mm, mp. ring. Qed.
Lemma iter_mm_mp j f : it j mm (mp f) = mp (it j mm f).
Proof. induction j; cbn; auto. now rewrite IHj, mm_mp. Qed.
Lemma KK_j j i : KK (S j) i = mm (KK j i). Proof. reflexivity. Qed.
Lemma KK_i j i : KK j (S i) = mp (KK j i). Proof. unfold KK. cbn. apply iter_mm_mp. Qed.
Lemma KK_D0 i k : (IZR (Z.of_nat i - 2 * k) * KK 0 i k = INR i * KK 1 (pred i) k)%R.
Proof.
  revert k. induction i as [|i IH]; intros k.
  - change (INR 0) with 0%R. unfold KK. cbn [it]. unfold d0. destruct (k =? 0) eqn:E; [|ring]. replace k with 0 by lia. cbn. ring.
  - rewrite KK_i. unfold mp at 1. assert (E1 := IH k). assert (E2 := IH (k - 1)). cbn [pred]. rewrite KK_j. unfold mm at 1. rewrite S_INR.
    replace (Z.of_nat (S i) - 2 * k) with (Z.of_nat i - 2 * k + 1) by lia. replace (Z.of_nat i - 2 * (k - 1)) with (Z.of_nat i - 2 * k + 2) in E2 by lia. rewrite plus_IZR in *.
    destruct i as [|i].
    + change (INR 0) with 0%R in *. lra.
    + cbn [pred] in *. rewrite KK_i in *. rewrite KK_j in *. unfold mp, mm in *. replace (k - 1 - 1) with (k - 2) in * by lia. lra.
Qed.
Lemma KK_D j i k : (IZR (Z.of_nat j + Z.of_nat i - 2 * k) * KK j i k = INR j * KK (pred j) (S i) k + INR i * KK (S j) (pred i) k)%R.
Proof.
  revert k. induction j as [|j IHj]; intros k.
  - change (INR 0) with 0%R. rewrite <- KK_D0. change (Z.of_nat 0) with 0. rewrite Z.add_0_l. ring.
  - rewrite KK_j. unfold mm at 1. assert (E1 := IHj k). assert (E2 := IHj (k - 1)). cbn [pred].
    replace (Z.of_nat (S j) + Z.of_nat i - 2 * k) with (Z.of_nat j + Z.of_nat i - 2 * k + 1) by lia. replace (Z.of_nat j + Z.of_nat i - 2 * (k - 1)) with (Z.of_nat j + Z.of_nat i - 2 * k + 2) in E2 by lia. rewrite plus_IZR in *.
    rewrite KK_i. unfold mp at 1. rewrite (KK_j (S j) (pred i)). unfold mm at 1. rewrite S_INR. destruct j as [|j].
    + change (INR 0) with 0%R in *. lra.
    + cbn [pred] in *. rewrite !(KK_i j) in *. rewrite !(KK_j j) in *. unfold mp, mm in *. replace (k - 1 - 1) with (k - 2) in * by lia. lra.
Qed.

Definition KZ (n k j : Z) : R := KK (Z.to_nat j) (Z.to_nat (n - j)) k.
Lemma KZ_rec n k j : 0 < j < n -> (IZR (n - j) * KZ n k (j + 1) + IZR j * KZ n k (j - 1) = IZR (n - 2 * k) * KZ n k j)%R.
Proof.
  intros H. assert (E := KK_D (Z.to_nat j) (Z.to_nat (n - j)) k). unfold KZ. replace (Z.to_nat (j + 1)) with (S (Z.to_nat j)) by lia. replace (Z.to_nat (j - 1)) with (pred (Z.to_nat j)) by lia.
  replace (Z.to_nat (n - (j + 1))) with (pred (Z.to_nat (n - j))) by lia. replace (Z.to_nat (n - (j - 1))) with (S (Z.to_nat (n - j))) by lia.
  rewrite !INR_IZR_INZ, !Z2Nat.id in E by lia. replace (j + (n - j) - 2 * k) with (n - 2 * k) in E by lia. lra.
Qed.
Lemma KZ_1 n k : 0 < n -> (IZR n * KZ n k 1 = IZR (n - 2 * k) * KZ n k 0)%R.
Proof.
  intros H. assert (E := KK_D 0 (Z.to_nat n) k). unfold KZ. cbn [INR] in E. rewrite INR_IZR_INZ, Z2Nat.id in E by lia. change (Z.of_nat 0) with 0 in E.
  change (Z.to_nat 1) with 1%nat. change (Z.to_nat 0) with 0%nat. replace (Z.to_nat (n - 1)) with (pred (Z.to_nat n)) by lia. replace (Z.to_nat (n - 0)) with (Z.to_nat n) by lia. replace (0 + n - 2 * k) with (n - 2 * k) in E by lia. lra.
Qed.
(** binomial coefficients *)
Lemma bin_rec i k : (IZR (k + 1) * KK 0 i (k + 1) = IZR (Z.of_nat i - k) * KK 0 i k)%R.
Proof.
  revert k. induction i as [|i IH]; intros k.
  - unfold KK. cbn [it]. unfold d0. destruct (k + 1 =? 0) eqn:E1, (k =? 0) eqn:E2; try lia; try ring.
    + replace k with (-1) by lia. cbn. ring.
    + replace k with 0 by lia. cbn. ring.
  - rewrite KK_i. unfold mp. assert (E1 := IH k). assert (E2 := IH (k - 1)). replace (k - 1 + 1) with k in E2 by lia. replace (k + 1 - 1) with k by lia.
    rewrite Nat2Z.inj_succ. replace (Z.succ (Z.of_nat i) - k) with (Z.of_nat i - k + 1) by lia. replace (Z.of_nat i - (k - 1)) with (Z.of_nat i - k + 1) in E2 by lia. rewrite !plus_IZR in *. 
    lra.
Qed.
Lemma bin_neg i k : k < 0 -> KK 0 i k = 0%R.
Proof.
  revert k. induction i as [|i IH]; intros k Hk.
  - unfold KK. cbn. unfold d0. now replace (k =? 0) with false by lia.
  - rewrite KK_i. unfold mp. rewrite !IH by lia. ring.
Qed.
Lemma bin_0 i : KK 0 i 0 = 1%R.
Proof. induction i as [|i IH]; [reflexivity|]. rewrite KK_i. unfold mp. rewrite IH, bin_neg by lia. ring. Qed.
Lemma bin_hb n k : 0 <= n -> 0 <= k -> KZ n k 0 = hb (IZR n) (Z.to_nat k).
Proof.
  intros Hn Hk. unfold KZ. change (Z.to_nat 0) with 0%nat. pattern k. apply natlike_ind; [| |exact Hk]; cbv beta.
  - apply bin_0.
  - intros q Hq IH. replace (Z.succ q) with (q + 1) by lia. apply (Rmult_eq_reg_l (IZR (q + 1))); [|apply not_0_IZR; lia]. rewrite bin_rec, IH, hb_S by lia. f_equal. f_equal. lia.
Qed.
Lemma KZ_kp n k j : 0 <= k <= n -> 0 <= j <= n -> KZ n k j = (hb (IZR n) (Z.to_nat k) * kp n k j)%R.
Proof.
  intros Hk Hj. rewrite <- bin_hb by lia.
  assert (G : forall q, 0 <= q -> q <= n -> KZ n k q = (KZ n k 0 * kp n k q)%R /\ (q < n -> KZ n k (q + 1) = (KZ n k 0 * kp n k (q + 1))%R)).
  { intros q Hq. pattern q. apply natlike_ind; [| |exact Hq]; cbv beta.
    - intros _. rewrite kp_0 by lia. split; [ring|]. intros Hn. assert (E := KZ_1 n k Hn). assert (E' := kp_1 n k Hk). apply (Rmult_eq_reg_l (IZR n)); [|apply not_0_IZR; lia]. change (0 + 1) with 1. rewrite E. transitivity (KZ n k 0 * (IZR n * kp n k 1))%R; [rewrite E'; ring|ring].
    - intros r Hr IH Hrn. destruct IH as [I0 I1]; [lia|]. replace (Z.succ r) with (r + 1) by lia. split; [apply I1; lia|]. intros Hlt.
      assert (E := KZ_rec n k (r + 1) ltac:(lia)). assert (E' := kp_rec n k (r + 1) Hk). replace (r + 1 - 1) with r in * by lia. rewrite I0, (I1 ltac:(lia)) in E.
      apply (Rmult_eq_reg_l (IZR (n - (r + 1)))); [|apply not_0_IZR; lia].
      transitivity (KZ n k 0 * (IZR (n - 2 * k) * kp n k (r + 1) - IZR (r + 1) * kp n k r))%R; [|rewrite <- E'; ring].
      transitivity (IZR (n - 2 * k) * (KZ n k 0 * kp n k (r + 1)) - IZR (r + 1) * (KZ n k 0 * kp n k r))%R; [lra|ring]. }
  apply G; lia.
Qed.
Lemma KZ_up2 n k j : 0 <= j <= n -> KZ (n + 2) k (j + 2) = (KZ n k j - 2 * KZ n (k - 1) j + KZ n (k - 2) j)%R.
Proof. intros H. unfold KZ. replace (Z.to_nat (j + 2)) with (S (S (Z.to_nat j))) by lia. replace (n + 2 - (j + 2)) with (n - j) by lia. rewrite !KK_j. unfold mm. replace (k - 1 - 1) with (k - 2) by lia. ring. Qed.
Lemma KZ_up1 n k j : 0 <= j <= n -> KZ (n + 2) k (j + 1) = (KZ n k j - KZ n (k - 2) j)%R.
Proof. intros H. unfold KZ. replace (Z.to_nat (j + 1)) with (S (Z.to_nat j)) by lia. replace (Z.to_nat (n + 2 - (j + 1))) with (S (Z.to_nat (n - j))) by lia. rewrite !KK_j, KK_i. unfold mm, mp. replace (k - 1 - 1) with (k - 2) by lia. ring. Qed.
Lemma KZ_up0 n k j : 0 <= j <= n -> KZ (n + 2) k j = (KZ n k j + 2 * KZ n (k - 1) j + KZ n (k - 2) j)%R.
Proof. intros H. unfold KZ. replace (Z.to_nat (n + 2 - j)) with (S (S (Z.to_nat (n - j)))) by lia. rewrite !KK_i. unfold mp. replace (k - 1 - 1) with (k - 2) by lia. ring. Qed.

(** ** powers of  (X+iY) v^2 - 2Z uv - (X-iY) u^2 : real and imaginary parts *)
Fixpoint UU (X Y Zc : R) (l : nat) : (Z -> R) * (Z -> R) :=
  match l with
  | O => (d0, fun _ => 0%R)
  | S l' => let '(r, i) := UU X Y Zc l' in
      (fun k => X * r k - Y * i k - 2 * Zc * r (k - 1)%Z - (X * r (k - 2)%Z + Y * i (k - 2)%Z),
       fun k => X * i k + Y * r k - 2 * Zc * i (k - 1)%Z - (X * i (k - 2)%Z - Y * r (k - 2)%Z))%R
  end.
Lemma UU_out X Y Zc l k : k < 0 \/ 2 * Z.of_nat l < k -> fst (UU X Y Zc l) k = 0%R /\ snd (UU X Y Zc l) k = 0%R.
Proof.
  revert k. induction l as [|l IH]; intros k Hk.
  - cbn. unfold d0. replace (k =? 0) with false by lia. auto.
  - cbn [UU]. destruct (UU X Y Zc l) as [r i]. cbn [fst snd] in *. destruct (IH k ltac:(lia)) as [-> ->]. destruct (IH (k - 1) ltac:(lia)) as [-> ->]. destruct (IH (k - 2) ltac:(lia)) as [-> ->]. split; ring.
Qed.
Lemma sum_shift1 n (f g : Z -> R) : 0 <= n -> (forall k, k < 0 \/ n <= k -> f k = 0%R) -> sumZ (n + 2) (fun j => (f (j - 1)%Z * g j)%R) = sumZ n (fun j => (f j * g (j + 1)%Z)%R).
Proof.
  intros Hn H. replace (n + 2) with (n + 1 + 1) by lia. rewrite sumZ_S by lia. rewrite (H (n + 1 - 1)) by lia. rewrite Rmult_0_l, Rplus_0_r.
  assert (G : forall m, 0 <= m -> sumZ (m + 1) (fun j => (f (j - 1)%Z * g j)%R) = sumZ m (fun j => (f j * g (j + 1)%Z)%R)).
  { intros m Hm. pattern m. apply natlike_ind; [| |exact Hm]; cbv beta.
    - rewrite sumZ_S, !sumZ_0 by lia. rewrite H by lia. ring.
    - intros q Hq IH. replace (Z.succ q) with (q + 1) by lia. rewrite (sumZ_S (q + 1)), IH, sumZ_S by lia. replace (q + 1 - 1) with q by lia. reflexivity. }
  now apply G.
Qed.
Lemma sum_pad n (f g : Z -> R) : 0 <= n -> (forall k, k < 0 \/ n <= k -> f k = 0%R) -> sumZ (n + 2) (fun j => (f j * g j)%R) = sumZ n (fun j => (f j * g j)%R).
Proof. intros Hn H. replace (n + 2) with (n + 1 + 1) by lia. rewrite !sumZ_S by lia. rewrite !H by lia. ring. Qed.
Lemma sum_shift2 n (f g : Z -> R) : 0 <= n -> (forall k, k < 0 \/ n <= k -> f k = 0%R) -> sumZ (n + 2) (fun j => (f (j - 2)%Z * g j)%R) = sumZ n (fun j => (f j * g (j + 2)%Z)%R).
Proof.
  intros Hn H. 
  assert (G : forall m, 0 <= m -> sumZ (m + 2) (fun j => (f (j - 2)%Z * g j)%R) = sumZ m (fun j => (f j * g (j + 2)%Z)%R)).
  { intros m Hm. pattern m. apply natlike_ind; [| |exact Hm]; cbv beta.
    - change (0 + 2) with (0 + 1 + 1). rewrite !sumZ_S, !sumZ_0 by lia. rewrite !H by lia. ring.
    - intros q Hq IH. replace (Z.succ q + 2) with (q + 2 + 1) by lia. replace (Z.succ q) with (q + 1) by lia. rewrite sumZ_S, IH, sumZ_S by lia. replace (q + 2 - 2) with q by lia. reflexivity. }
  now apply G.
Qed.
(** the exchange X -> -Z, Z -> -X *)
Lemma UU_exchange X Y Zc l k :
  (2 ^ l * fst (UU (- Zc) Y (- X) l) k = sumZ (2 * Z.of_nat l + 1) (fun j => fst (UU X Y Zc l) j * KZ (2 * Z.of_nat l) k j))%R /\
  (2 ^ l * snd (UU (- Zc) Y (- X) l) k = sumZ (2 * Z.of_nat l + 1) (fun j => snd (UU X Y Zc l) j * KZ (2 * Z.of_nat l) k j))%R.
Proof.
  revert k. induction l as [|l IH]; intros k.
  - cbn [UU fst snd]. change (2 * Z.of_nat 0) with 0. change (0 + 1) with 1. replace (sumZ 1) with (sumZ (0 + 1)) by reflexivity. rewrite !sumZ_S, !sumZ_0 by lia. change (KZ 0 k 0) with (d0 k). change (d0 0) with 1%R. cbn [pow]. split; ring.
  - assert (O := UU_out X Y Zc l). cbn [UU]. destruct (UU X Y Zc l) as [r i]. destruct (UU (- Zc) Y (- X) l) as [r' i']. cbn [fst snd] in *.
    set (n := 2 * Z.of_nat l) in *. replace (2 * Z.of_nat (S l)) with (n + 2) by (unfold n; lia).
    assert (Or : forall k, k < 0 \/ n + 1 <= k -> r k = 0%R) by (intros q Hq; apply O; lia). assert (Oi : forall k, k < 0 \/ n + 1 <= k -> i k = 0%R) by (intros q Hq; apply O; lia).
    assert (Hn : 0 <= n) by (unfold n; lia). replace (n + 2 + 1) with (n + 1 + 2) by lia.
    set (g := KZ (n + 2) k).
    assert (Z0 : forall f : Z -> R, (forall k, k < 0 \/ n + 1 <= k -> f k = 0%R) -> (sumZ (n + 1 + 2) (fun j => f j * g j) = sumZ (n + 1) (fun j => f j * KZ n k j) + 2 * sumZ (n + 1) (fun j => f j * KZ n (k - 1) j) + sumZ (n + 1) (fun j => f j * KZ n (k - 2) j))%R).
    { intros f Hf. rewrite sum_pad by (auto; lia). rewrite <- sumZ_scal, <- !sumZ_plus. apply sumZ_ext. intros j Hj. unfold g. rewrite KZ_up0 by lia. ring. }
    assert (Z1 : forall f : Z -> R, (forall k, k < 0 \/ n + 1 <= k -> f k = 0%R) -> (sumZ (n + 1 + 2) (fun j => f (j - 1)%Z * g j) = sumZ (n + 1) (fun j => f j * KZ n k j) - sumZ (n + 1) (fun j => f j * KZ n (k - 2) j))%R).
    { intros f Hf. rewrite sum_shift1 by (auto; lia). rewrite <- sumZ_minus. apply sumZ_ext. intros j Hj. unfold g. rewrite KZ_up1 by lia. ring. }
    assert (Z2 : forall f : Z -> R, (forall k, k < 0 \/ n + 1 <= k -> f k = 0%R) -> (sumZ (n + 1 + 2) (fun j => f (j - 2)%Z * g j) = sumZ (n + 1) (fun j => f j * KZ n k j) - 2 * sumZ (n + 1) (fun j => f j * KZ n (k - 1) j) + sumZ (n + 1) (fun j => f j * KZ n (k - 2) j))%R).
    { intros f Hf. rewrite sum_shift2 by (auto; lia). rewrite <- sumZ_scal, <- sumZ_minus, <- sumZ_plus. apply sumZ_ext. intros j Hj. unfold g. rewrite KZ_up2 by lia. ring. }
    destruct (IH k) as [A0 B0]. destruct (IH (k - 1)) as [A1 B1]. destruct (IH (k - 2)) as [A2 B2].
    assert (LR : forall a b c d e (f1 f2 : Z -> R), sumZ (n + 1 + 2) (fun j => (a * f1 j - b * f2 j - c * f1 (j - 1)%Z - (d * f1 (j - 2)%Z + e * f2 (j - 2)%Z)) * g j)%R =
      (a * sumZ (n + 1 + 2) (fun j => f1 j * g j) - b * sumZ (n + 1 + 2) (fun j => f2 j * g j) - c * sumZ (n + 1 + 2) (fun j => f1 (j - 1)%Z * g j) - (d * sumZ (n + 1 + 2) (fun j => f1 (j - 2)%Z * g j) + e * sumZ (n + 1 + 2) (fun j => f2 (j - 2)%Z * g j)))%R).
    { intros. rewrite <- !sumZ_scal, <- sumZ_plus, <- !sumZ_minus. apply sumZ_ext. intros. ring. }
    split.
    + rewrite LR, !Z0, !Z1, !Z2 by auto. rewrite <- A0, <- A1, <- A2, <- B0, <- B1, <- B2. cbn [pow]. ring.
    + rewrite (sumZ_ext _ _ (fun j => (X * i j - (- Y) * r j - 2 * Zc * i (j - 1)%Z - (X * i (j - 2)%Z + (- Y) * r (j - 2)%Z)) * g j)%R) by (intros; ring).
      rewrite LR, !Z0, !Z1, !Z2 by auto. rewrite <- A0, <- A1, <- A2, <- B0, <- B1, <- B2. cbn [pow]. ring.
Qed.
