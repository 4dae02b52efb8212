(** * The triangle and disk kernels preserve the function *)
From Coq Require Import ZArith List Lia Bool Reals Lra ZifyBool ZifyNat.
From Verif Require Import Base BaseFacts Arith SpecSum PSum MRotations SpecRot PRot PRotBlock PRotKernels PRotFam PRotInv PRotPlans PRotThms
  SpecClassical SpecTransforms SpecConvert SpecConvert2 PClass8 PConv1 PConv9 PConv10 PDense2.
Import ListNotations.
Open Scope Z_scope.

Lemma mass_step tg p a b : gamma_function tg -> power_of_two p -> (-1 < a)%R -> (-1 < b)%R ->
  ((a + b + 2) * (a + b + 3) * jacobi_mass tg p (a + 2) b = 4 * (a + 1) * (a + 2) * jacobi_mass tg p a b)%R.
Proof.
  intros [G1 G2 G3] [Q1 Q2] Ha Hb. unfold jacobi_mass. replace (a + 2 + b + 1)%R with (a + b + 1 + 1 + 1)%R by ring. rewrite !Q2.
  replace (a + 2 + 1)%R with (a + 1 + 1 + 1)%R by ring. rewrite !G3 by lra. replace (a + 2 + b + 2)%R with (a + b + 2 + 1 + 1)%R by ring. rewrite (G3 (a + b + 2 + 1)%R), (G3 (a + b + 2)%R) by lra.
  pose proof (G1 (a + b + 2)%R ltac:(lra)). field. repeat split; lra.
Qed.
Lemma mass_sym tg p a b : jacobi_mass tg p a b = jacobi_mass tg p b a.
Proof. unfold jacobi_mass. replace (b + a + 1)%R with (a + b + 1)%R by ring. replace (b + a + 2)%R with (a + b + 2)%R by ring. unfold Rdiv. ring. Qed.
(** exchange of the parameters *)
Definition flip (P : Z -> R -> R) (k : Z) (x : R) : R := (sgn k * P k (- x))%R.
Lemma flip_jac a b P : is_jacobi a b P -> is_jacobi b a (flip P).
Proof.
  intros [J0 J1 JS]. split.
  - intros x. unfold flip, sgn. cbn [Z.even]. rewrite J0. ring.
  - intros x. unfold flip, sgn. cbn [Z.even]. rewrite J1. field.
  - intros n x Hn k. unfold flip. specialize (JS n (- x)%R Hn). cbv zeta in JS. fold k in JS. rewrite sgn_S.
    assert (E : sgn (n - 1) = (- sgn n)%R) by (replace n with (n - 1 + 1) at 2 by lia; rewrite sgn_S; ring). rewrite E.
    transitivity (- sgn n * (2 * (k + 1) * (k + a + b + 1) * (2 * k + a + b) * P (n + 1)%Z (- x)))%R; [ring|]. rewrite JS. ring.
Qed.
Lemma flip_norms a b h : jacobi_norms a b h -> jacobi_norms b a h.
Proof. intros [J0 J1 JS]. split; [auto|lra|]. intros n Hn k. specialize (JS n Hn). cbv zeta in JS. fold k in JS. nra. Qed.
Lemma flip_fam P h k x : fam true P h k (- x)%R = (sgn k * fam true (flip P) h k x)%R.
Proof. unfold fam, flip, sgn. destruct (Z.even k); unfold Rdiv; ring. Qed.

Section Tri.
Variables (tg p : R -> R) (al be ga : R) (P : Z -> Z -> R -> R) (h : Z -> Z -> R).
Hypotheses (HG : gamma_function tg) (HP2 : power_of_two p) (Ha : (-1 < al)%R) (Hb : (-1 < be)%R) (Hg : (-1 < ga)%R) (HF : triangle_family tg p al be ga P h).
Let aj (j : Z) : R := (2 * IZR j + be + ga + 1)%R.
Definition tri_mix (j k : Z) (x : R) : R := ((1 - x) ^ Z.to_nat j * jmix (aj j) al (h (j + 1)) x k)%R.
Lemma aj_ok j : 0 <= j -> (-1 < aj j)%R. Proof. intros Hj. apply IZR_le in Hj. unfold aj. lra. Qed.
Lemma aj_S j : aj (j + 1) = (aj j + 2)%R. Proof. unfold aj. rewrite plus_IZR. ring. Qed.
Lemma tri_hyps j : 0 <= j -> is_jacobi (aj j) al (P j) /\ is_jacobi (aj j + 2) al (P (j + 1)) /\ jacobi_norms (aj j) al (h j) /\ jacobi_norms (aj j + 2) al (h (j + 1)) /\
  ((aj j + al + 2) * (aj j + al + 3) * h (j + 1)%Z 0%Z = 4 * (aj j + 1) * (aj j + 2) * h j 0%Z)%R.
Proof.
  intros Hj. destruct (HF j Hj) as (A1 & A2 & A3). destruct (HF (j + 1) ltac:(lia)) as (B1 & B2 & B3). fold (aj j) in A1, A2, A3. fold (aj (j + 1)) in B1, B2, B3. rewrite aj_S in *.
  repeat (split; [assumption|]). rewrite A3, B3. apply mass_step; auto. now apply aj_ok.
Qed.
Lemma tri_1 j k x : 0 <= j -> 0 <= k -> tri_factor P h (j + 1) k x = (jc (aj j) al k * tri_mix j k x - js (aj j) al k * tri_factor P h j (k + 1) x)%R.
Proof.
  intros Hj Hk. destruct (tri_hyps j Hj) as (A1 & A2 & A3 & A4 & A5). pose proof (jrot1 (aj j) al (P j) (P (j + 1)) (h j) (h (j + 1)) x (aj_ok j Hj) Ha A1 A2 A3 A4 A5 k Hk) as E.
  unfold tri_factor, tri_mix. replace (Z.to_nat (j + 1)) with (S (Z.to_nat j)) by lia. cbn [pow]. set (w := ((1 - x) ^ Z.to_nat j)%R) in *.
  transitivity (w * ((1 - x) * fam true (P (j + 1)%Z) (h (j + 1)%Z) k x))%R; [ring|]. rewrite E. ring.
Qed.
Lemma tri_2 j k x : 0 <= j -> 0 <= k -> tri_mix j (k + 1) x = (js (aj j) al k * tri_mix j k x + jc (aj j) al k * tri_factor P h j (k + 1) x)%R.
Proof.
  intros Hj Hk. destruct (tri_hyps j Hj) as (A1 & A2 & A3 & A4 & A5). pose proof (jrot2 (aj j) al (P j) (h j) (h (j + 1)) x (aj_ok j Hj) Ha A1 A3 A4 A5 k Hk) as E.
  unfold tri_factor, tri_mix. rewrite E. ring.
Qed.
Lemma tri_0 j x : 0 <= j -> tri_mix j 0 x = tri_factor P h j 0 x.
Proof.
  intros Hj. destruct (tri_hyps j Hj) as (A1 & A2 & A3 & A4 & A5). pose proof (jrot0 (aj j) al (P j) (h j) (h (j + 1)) x (aj_ok j Hj) Ha A1 A3 A4 A5) as E.
  unfold tri_factor, tri_mix. now rewrite E.
Qed.
Lemma tri_tabs n (junk : R) RP : 0 <= n -> plan_rottriangle junk n al be ga = Some RP ->
  forall l m, 0 <= m -> 0 <= l -> l + m < n -> nthZ 0%R (rp_s RP) (sidx n l m) = js (aj m) al l /\ nthZ 0%R (rp_c RP) (sidx n l m) = jc (aj m) al l.
Proof.
  intros Hn E. unfold plan_rottriangle in E.
  match type of E with context [fill n ?cn ?ix ?fs ?fc _] => 
    destruct (fill_spec n cn ix fs fc (n * (n + 1) / 2) (zmake (n * (n + 1) / 2) junk) (zmake (n * (n + 1) / 2) junk) Hn) as (s & c & E' & L1 & L2 & V & _) end.
  - now apply len_tri.
  - now apply len_tri.
  - intros. apply sidx_bound; lia.
  - intros. apply sidx_inj with (n := n); auto; lia.
  - rewrite E' in E. cbn [obind] in E. injection E as <-. cbn [rp_s rp_c fst snd].
    intros l m Hm Hl Hlm. destruct (V l m ltac:(lia) ltac:(lia)) as [V1 V2]. unfold nthZ. rewrite V1, V2. unfold sq, js, jc, aj. cbn [mul add ofZ one div sqrtA R_arith]. rewrite !plus_IZR, !mult_IZR.
    split; f_equal; f_equal; ring.
Qed.
Lemma tri_conv n (junk : R) RP A oA S m1 m2 : plan_rottriangle junk n al be ga = Some RP -> 0 <= n -> 1 <= S -> 0 <= m1 <= m2 ->
  columns_fit A oA S n 1 -> zero_from (n - m2) n A oA S ->
  exists A', kernel_tri_hi2lo givens RP m1 m2 A oA S = Some A' /\ only_columns_changed A A' oA S n 1 /\ zero_from (n - m1) n A' oA S /\
    forall x, column_series (tri_factor P h) n m1 A' oA S x = column_series (tri_factor P h) n m2 A oA S x.
Proof.
  intros E Hn HS Hm Ft HZ. pose proof (tri_tabs n junk RP Hn E) as HT. destruct (planned_tri n junk al be ga RP Hn Ha Hb Hg E) as (Hrn & Tt & Ut).
  pose proof (real0 oA S n A (fun A o => kernel_tri_hi2lo givens RP m1 m2 A o S) _
    ltac:(rewrite <- Hrn; exact (real_tri_hi2lo givens RP oA S 1 ltac:(lia) Tt A m1 m2 0 ltac:(lia) ltac:(lia)))) as R1.
  destruct (arr_conv oA S n A _ _ (fun _ => 0%R) (fun _ => 0%R) Ft Hn R1) as (A' & E1 & O & V). exists A'. split; [exact E1|]. split; [exact O|].
  set (q := m2 - m1). assert (Hq0 : 0 <= q) by lia. replace m2 with (m1 + Z.of_nat (Z.to_nat q) * 1) in V, HZ |- * by lia.
  set (g := fun r => if (0 <=? r) && (r <? n) then nthZ 0%R A (oA + r * S) else 0%R) in V.
  assert (CS : forall t, sumZ n (fun i => (run (opsD 1 1 (topT RP) (fnRC givens RP (sidx n)) m1 (m1 + Z.of_nat (Z.to_nat q) * 1)) g i * tri_factor P h m1 i t)%R) = sumZ n (fun i => (g i * tri_factor P h (m1 + Z.of_nat (Z.to_nat q) * 1) i t)%R) /\
     forall i, topT RP m1 + 1 < i < n -> 0 <= i -> run (opsD 1 1 (topT RP) (fnRC givens RP (sidx n)) m1 (m1 + Z.of_nat (Z.to_nat q) * 1)) g i = 0%R).
  { intros t. apply (ops_sum 1 1 n (topT RP) (fnRC givens RP (sidx n)) (fun k j => js (aj j) al k) (fun k j => jc (aj j) al k) ltac:(lia) ltac:(lia) (stepT RP 1%nat)) with (M := fun j k => tri_mix j k t) (f := fun j k => tri_factor P h j k t).
    - intros j Hj. unfold topT. lia.
    - intros k j x y Hj Hk. unfold topT in Hk. destruct (HT k j ltac:(lia) ltac:(lia) ltac:(lia)) as (T1 & T2). unfold fnRC, sc, givens. cbn [fst snd zero R_arith]. rewrite T1, T2. reflexivity.
    - intros j k Hj Hk. apply tri_1; lia.
    - intros j k Hj Hk. apply tri_2; lia.
    - intros j k Hj Hk. replace k with 0 by lia. apply tri_0; lia.
    - lia.
    - intros i Hi H0i. unfold g, topT in *. replace ((0 <=? i) && (i <? n)) with true by lia. apply HZ; lia. }
  unfold TD in V. rewrite Hrn in V. split.
  - intros i Hi H0i. rewrite V by lia. apply (CS 0%R); [unfold topT; lia|lia].
  - intros t. unfold column_series. transitivity (sumZ n (fun i => (run (opsD 1 1 (topT RP) (fnRC givens RP (sidx n)) m1 (m1 + Z.of_nat (Z.to_nat q) * 1)) g i * tri_factor P h m1 i t)%R)).
    + apply sumZ_ext. intros i Hi. rewrite V by lia. reflexivity.
    + rewrite (proj1 (CS t)). apply sumZ_ext. intros i Hi. unfold g. replace ((0 <=? i) && (i <? n)) with true by lia. reflexivity.
Qed.
End Tri.

Section Disk.
Variables (tg p : R -> R) (al be : R) (P : Z -> Z -> R -> R) (h : Z -> Z -> R).
Hypotheses (HG : gamma_function tg) (HP2 : power_of_two p) (Ha : (-1 < al)%R) (Hb : (-1 < be)%R) (HF : disk_family tg p al be P h).
Let aj (j : Z) : R := (IZR j + al)%R.
Definition disk_mix (j k : Z) (r : R) : R := ((sqrt 2 * r) ^ Z.to_nat j * (sgn k * jmix (aj j) be (h (j + 2)) (1 - 2 * (r * r)) k))%R.
Lemma dj_ok j : 0 <= j -> (-1 < aj j)%R. Proof. intros Hj. apply IZR_le in Hj. unfold aj. lra. Qed.
Lemma dj_S j : aj (j + 2) = (aj j + 2)%R. Proof. unfold aj. rewrite plus_IZR. ring. Qed.
Lemma disk_hyps j : 0 <= j -> is_jacobi (aj j) be (flip (P j)) /\ is_jacobi (aj j + 2) be (flip (P (j + 2))) /\ jacobi_norms (aj j) be (h j) /\ jacobi_norms (aj j + 2) be (h (j + 2)) /\
  ((aj j + be + 2) * (aj j + be + 3) * h (j + 2)%Z 0%Z = 4 * (aj j + 1) * (aj j + 2) * h j 0%Z)%R.
Proof.
  intros Hj. destruct (HF j Hj) as (A1 & A2 & A3). destruct (HF (j + 2) ltac:(lia)) as (B1 & B2 & B3). fold (aj j) in A1, A2, A3. fold (aj (j + 2)) in B1, B2, B3. rewrite dj_S in *.
  split; [now apply flip_jac|]. split; [now apply flip_jac|]. split; [now apply flip_norms|]. split; [now apply flip_norms|].
  rewrite A3, B3, (mass_sym tg p be (aj j)), (mass_sym tg p be (aj j + 2)). apply mass_step; auto. now apply dj_ok.
Qed.
Lemma disk_eq m i r : disk_factor P h m i r = ((sqrt 2 * r) ^ Z.to_nat m * (sgn i * fam true (flip (P m)) (h m) i (1 - 2 * (r * r))))%R.
Proof. unfold disk_factor. f_equal. rewrite <- flip_fam. f_equal. ring. Qed.
Lemma disk_1 j k x : 0 <= j -> 0 <= k -> disk_factor P h (j + 2) k x = (jc (aj j) be k * disk_mix j k x - (- js (aj j) be k) * disk_factor P h j (k + 1) x)%R.
Proof.
  intros Hj Hk. destruct (disk_hyps j Hj) as (A1 & A2 & A3 & A4 & A5). pose proof (jrot1 (aj j) be (flip (P j)) (flip (P (j + 2))) (h j) (h (j + 2)) (1 - 2 * (x * x)) (dj_ok j Hj) Hb A1 A2 A3 A4 A5 k Hk) as E.
  rewrite !disk_eq. unfold disk_mix. rewrite sgn_S. replace (Z.to_nat (j + 2)) with (S (S (Z.to_nat j))) by lia. cbn [pow]. set (w := ((sqrt 2 * x) ^ Z.to_nat j)%R) in *.
  assert (S2 : (sqrt 2 * sqrt 2 = 2)%R) by (apply sqrt_sqrt; lra).
  transitivity (w * sgn k * ((1 - (1 - (sqrt 2 * sqrt 2) * (x * x))) * fam true (flip (P (j + 2)%Z)) (h (j + 2)%Z) k (1 - 2 * (x * x))))%R; [ring|]. rewrite S2, E. ring.
Qed.
Lemma disk_2 j k x : 0 <= j -> 0 <= k -> disk_mix j (k + 1) x = ((- js (aj j) be k) * disk_mix j k x + jc (aj j) be k * disk_factor P h j (k + 1) x)%R.
Proof.
  intros Hj Hk. destruct (disk_hyps j Hj) as (A1 & A2 & A3 & A4 & A5). pose proof (jrot2 (aj j) be (flip (P j)) (h j) (h (j + 2)) (1 - 2 * (x * x)) (dj_ok j Hj) Hb A1 A3 A4 A5 k Hk) as E.
  rewrite disk_eq. unfold disk_mix. rewrite sgn_S, E. ring.
Qed.
Lemma disk_0 j x : 0 <= j -> disk_mix j 0 x = disk_factor P h j 0 x.
Proof.
  intros Hj. destruct (disk_hyps j Hj) as (A1 & A2 & A3 & A4 & A5). pose proof (jrot0 (aj j) be (flip (P j)) (h j) (h (j + 2)) (1 - 2 * (x * x)) (dj_ok j Hj) Hb A1 A3 A4 A5) as E.
  rewrite disk_eq. unfold disk_mix. now rewrite E.
Qed.
Lemma disk_tabs n (junk : R) RP : 0 < n -> plan_rotdisk junk n al be = Some RP ->
  forall l m, 0 <= m -> 0 <= l < n - (m + 1) / 2 -> nthZ 0%R (rp_s RP) (sdidx n l m) = (- js (aj m) be l)%R /\ nthZ 0%R (rp_c RP) (sdidx n l m) = jc (aj m) be l.
Proof.
  intros Hn E. unfold plan_rotdisk in E. assert (Ln : 0 <= n * n) by nia.
  match type of E with context [fill (2 * n - 1) ?cn ?ix ?fs ?fc _] => 
    destruct (fill_spec (2 * n - 1) cn ix fs fc (n * n) (zmake (n * n) junk) (zmake (n * n) junk) ltac:(lia)) as (s & c & E' & L1 & L2 & V & _) end.
  - now apply zlen_zmake.
  - now apply zlen_zmake.
  - intros. apply sdidx_bound; lia.
  - intros. apply sdidx_inj with (n := n); auto; lia.
  - rewrite E' in E. cbn [obind] in E. injection E as <-. cbn [rp_s rp_c fst snd].
    intros l m Hm Hl. destruct (V l m ltac:(lia) ltac:(lia)) as [V1 V2]. unfold nthZ. rewrite V1, V2. unfold sq, js, jc, aj. cbn [mul add ofZ one div sqrtA opp R_arith]. rewrite !plus_IZR, ?mult_IZR.
    split; [f_equal|]; f_equal; f_equal; ring.
Qed.
Lemma disk_conv n (junk : R) RP A oA S m1 m2 : plan_rotdisk junk n al be = Some RP -> 0 < n -> 1 <= S -> 0 <= m1 <= m2 -> (m2 - m1) mod 2 = 0 ->
  columns_fit A oA S n 1 -> zero_from (n - (m2 + 1) / 2) n A oA S ->
  exists A', kernel_disk_hi2lo givens RP m1 m2 A oA S = Some A' /\ only_columns_changed A A' oA S n 1 /\ zero_from (n - (m1 + 1) / 2) n A' oA S /\
    forall x, column_series (disk_factor P h) n m1 A' oA S x = column_series (disk_factor P h) n m2 A oA S x.
Proof.
  intros E Hn HS Hm Hp Ft HZ. pose proof (disk_tabs n junk RP Hn E) as HT. destruct (planned_disk n junk al be RP ltac:(lia) Ha Hb E) as (Hrn & Tt & Ut).
  pose proof (real0 oA S n A (fun A o => kernel_disk_hi2lo givens RP m1 m2 A o S) _
    ltac:(rewrite <- Hrn; exact (real_disk_hi2lo givens RP oA S 1 ltac:(lia) Tt A m1 m2 0 ltac:(lia) ltac:(lia)))) as R1.
  destruct (arr_conv oA S n A _ _ (fun _ => 0%R) (fun _ => 0%R) Ft ltac:(lia) R1) as (A' & E1 & O & V). exists A'. split; [exact E1|]. split; [exact O|].
  apply Z.mod_divide in Hp; [|lia]. destruct Hp as [q Hq]. assert (Hq0 : 0 <= q) by lia. replace m2 with (m1 + Z.of_nat (Z.to_nat q) * 2) in V, HZ |- * by lia.
  set (g := fun r => if (0 <=? r) && (r <? n) then nthZ 0%R A (oA + r * S) else 0%R) in V.
  assert (CS : forall t, sumZ n (fun i => (run (opsD 1 2 (topK RP) (fnRC givens RP (sdidx n)) m1 (m1 + Z.of_nat (Z.to_nat q) * 2)) g i * disk_factor P h m1 i t)%R) = sumZ n (fun i => (g i * disk_factor P h (m1 + Z.of_nat (Z.to_nat q) * 2) i t)%R) /\
     forall i, topK RP m1 + 1 < i < n -> 0 <= i -> run (opsD 1 2 (topK RP) (fnRC givens RP (sdidx n)) m1 (m1 + Z.of_nat (Z.to_nat q) * 2)) g i = 0%R).
  { intros t. apply (ops_sum 1 2 n (topK RP) (fnRC givens RP (sdidx n)) (fun k j => - js (aj j) be k)%R (fun k j => jc (aj j) be k) ltac:(lia) ltac:(lia) (stepK RP 1%nat)) with (M := fun j k => disk_mix j k t) (f := fun j k => disk_factor P h j k t).
    - intros j Hj. unfold topK. lia.
    - intros k j x y Hj Hk. unfold topK in Hk. destruct (HT k j ltac:(lia) ltac:(lia)) as (T1 & T2). unfold fnRC, sc, givens. cbn [fst snd zero R_arith]. rewrite T1, T2. reflexivity.
    - intros j k Hj Hk. apply disk_1; lia.
    - intros j k Hj Hk. apply disk_2; lia.
    - intros j k Hj Hk. replace k with 0 by lia. apply disk_0; lia.
    - lia.
    - intros i Hi H0i. unfold g, topK in *. replace ((0 <=? i) && (i <? n)) with true by lia. apply HZ; lia. }
  unfold KD in V. rewrite Hrn in V. split.
  - intros i Hi H0i. rewrite V by lia. apply (CS 0%R); [unfold topK; lia|lia].
  - intros t. unfold column_series. transitivity (sumZ n (fun i => (run (opsD 1 2 (topK RP) (fnRC givens RP (sdidx n)) m1 (m1 + Z.of_nat (Z.to_nat q) * 2)) g i * disk_factor P h m1 i t)%R)).
    + apply sumZ_ext. intros i Hi. rewrite V by lia. reflexivity.
    + rewrite (proj1 (CS t)). apply sumZ_ext. intros i Hi. unfold g. replace ((0 <=? i) && (i <? n)) with true by lia. reflexivity.
Qed.
End Disk.
