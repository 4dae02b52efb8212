(** * Ultraspherical polynomials of parameters l+2 and l, and the kernel of the rectangular disk *)
From Coq Require Import ZArith List Lia Bool Reals Lra ZifyBool ZifyNat.
From Verif Require Import Base BaseFacts Arith SpecSum PSum SpecClassical SpecConn PClass2 PUltra PPenU PPenC SpecTransforms SpecFftw PGrad1 PGrad2 PGrad3 PConv2
  MRotations SpecRot PRot PRotBlock PRotKernels PRotFam PRotInv PRotPlans PRotThms SpecGeo SpecConvert SpecConvert2 SpecConvert4 PConv1.
Import ListNotations.
Open Scope R_scope.

Section Two.
Variables (l : R) (P S : Z -> R -> R).
Hypotheses (Hl : 0 < l) (HP : is_ultraspherical l P) (HS : is_ultraspherical (l + 2) S).
Lemma ult_lower2 k x : (0 <= k)%Z ->
  4 * l * (l + 1) * ((1 - x * x) * (S k x - (if (k <? 2)%Z then 0 else S (k - 2)%Z x))) =
  (IZR k + 2 * l) * (IZR k + 2 * l + 1) * P k x - (IZR k + 1) * (IZR k + 2) * P (k + 2)%Z x.
Proof.
  intros Hk. assert (K : 0 <= IZR k) by (apply IZR_le; lia).
  assert (HT : is_ultraspherical (l + 1) (std_ult (l + 1))) by (apply std_ult_ok; lra).
  assert (HS' : is_ultraspherical (l + 1 + 1) S) by (replace (l + 1 + 1) with (l + 2) by ring; exact HS).
  pose proof (ut_lower l ltac:(lra) ltac:(lra) P (std_ult (l + 1)) HP HT k x Hk) as E.
  pose proof (ut_raise_pos (l + 1) ltac:(lra) ltac:(lra) (std_ult (l + 1)) S HT HS' k x Hk) as D.
  rewrite (ext0_pos S k) in D by lia. replace (ext0 S (k - 2) x) with (if (k <? 2)%Z then 0 else S (k - 2)%Z x) in D.
  2:{ unfold ext0. now replace (k - 2 <? 0)%Z with (k <? 2)%Z by lia. }
  rewrite <- E, D. field. lra.
Qed.
End Two.

Section Norms.
Variables (l : R) (h g : Z -> R).
Hypotheses (Hl : 0 < l) (HH : ultraspherical_norms l h) (HG : ultraspherical_norms (l + 2) g)
  (H0 : (l + 1) * (l + 2) * g 0%Z = (l + 1 / 2) * (l + 3 / 2) * h 0%Z).
Lemma h_pos k : (0 <= k)%Z -> 0 < h k. Proof. intros. apply (un_pos l); auto; lra. Qed.
Lemma g_pos k : (0 <= k)%Z -> 0 < g k. Proof. intros. apply (un_pos (l + 2)); auto; lra. Qed.
Lemma h_S k : (0 <= k)%Z -> h (k + 1)%Z = (IZR k + l) * (IZR k + 2 * l) / ((IZR k + 1) * (IZR k + 1 + l)) * h k.
Proof. intros Hk. pose proof (un_S _ _ HH k Hk) as E. cbn zeta in E. apply IZR_le in Hk. field_simplify_eq; [|split; lra]. lra. Qed.
Lemma g_S k : (0 <= k)%Z -> g (k + 1)%Z = (IZR k + l + 2) * (IZR k + 2 * l + 4) / ((IZR k + 1) * (IZR k + 3 + l)) * g k.
Proof. intros Hk. pose proof (un_S _ _ HG k Hk) as E. cbn zeta in E. apply IZR_le in Hk. field_simplify_eq; [|split; lra]. lra. Qed.
Lemma gh k : (0 <= k)%Z -> 16 * l ^ 2 * (l + 1) ^ 2 * (IZR k + l + 2) * g k =
  (IZR k + 2 * l) * (IZR k + 2 * l + 1) * (IZR k + 2 * l + 2) * (IZR k + 2 * l + 3) * (IZR k + l) * h k.
Proof.
  intros Hk. revert k Hk. apply (natlike_ind (fun k => 16 * l ^ 2 * (l + 1) ^ 2 * (IZR k + l + 2) * g k =
  (IZR k + 2 * l) * (IZR k + 2 * l + 1) * (IZR k + 2 * l + 2) * (IZR k + 2 * l + 3) * (IZR k + l) * h k)).
  - replace (16 * l ^ 2 * (l + 1) ^ 2 * (0 + l + 2) * g 0%Z) with (16 * l ^ 2 * (l + 1) * ((l + 1) * (l + 2) * g 0%Z)) by ring. rewrite H0. field.
  - intros k Hk IH. unfold Z.succ. rewrite plus_IZR, h_S, g_S by lia. assert (K : 0 <= IZR k) by (apply IZR_le; lia).
    assert (X : g k = (IZR k + 2 * l) * (IZR k + 2 * l + 1) * (IZR k + 2 * l + 2) * (IZR k + 2 * l + 3) * (IZR k + l) * h k / (16 * l ^ 2 * (l + 1) ^ 2 * (IZR k + l + 2))).
    { rewrite <- IH. field. repeat split; lra. }
    rewrite X. field. repeat split; lra.
Qed.
Lemma gk k : (0 <= k)%Z -> g k = (IZR k + 2 * l) * (IZR k + 2 * l + 1) * (IZR k + 2 * l + 2) * (IZR k + 2 * l + 3) * (IZR k + l) / (16 * l ^ 2 * (l + 1) ^ 2 * (IZR k + l + 2)) * h k.
Proof. intros Hk. pose proof (gh k Hk) as E. apply IZR_le in Hk. apply (Rmult_eq_reg_l (16 * l ^ 2 * (l + 1) ^ 2 * (IZR k + l + 2))); [|apply Rgt_not_eq; repeat apply Rmult_lt_0_compat; try apply pow_lt; lra]. rewrite E. field. repeat split; lra. Qed.

(** the planned sines and cosines, l = m + be + 1 *)
Definition rs (k : Z) : R := sqrt ((IZR k + 1) * (IZR k + 2) / ((IZR k + 2 * l + 2) * (IZR k + 2 * l + 3))).
Definition rc (k : Z) : R := sqrt ((2 * l + 1) * (2 * IZR k + 2 * l + 4) / ((IZR k + 2 * l + 2) * (IZR k + 2 * l + 3))).
Lemma rc_arg k : (-2 <= k)%Z -> 0 < (2 * l + 1) * (2 * IZR k + 2 * l + 4) / ((IZR k + 2 * l + 2) * (IZR k + 2 * l + 3)).
Proof. intros H. apply IZR_le in H. apply Rdiv_lt_0_compat; apply Rmult_lt_0_compat; lra. Qed.
Lemma rs_arg k : (0 <= k)%Z -> 0 < (IZR k + 1) * (IZR k + 2) / ((IZR k + 2 * l + 2) * (IZR k + 2 * l + 3)).
Proof. intros H. apply IZR_le in H. apply Rdiv_lt_0_compat; apply Rmult_lt_0_compat; lra. Qed.
Lemma rc_pos k : (-2 <= k)%Z -> 0 < rc k. Proof. intros. now apply sqrt_lt_R0, rc_arg. Qed.
Lemma rc_init k : (-2 <= k < 0)%Z -> rc k = 1.
Proof. intros H. unfold rc. transitivity (sqrt 1); [|apply sqrt_1]. f_equal. assert (k = -2 \/ k = -1)%Z as [-> | ->] by lia; field; lra. Qed.
Lemma rs_rc k : (0 <= k)%Z -> rs k * rs k + rc k * rc k = 1.
Proof. intros H. unfold rs, rc. rewrite !sqrt_sqrt by (left; (apply rs_arg || apply rc_arg); lia). apply IZR_le in H. field. lra. Qed.
Definition nh (k : Z) : R := / sqrt (h k).
Definition ng (k : Z) : R := / sqrt (g k).
Lemma nh_sqrt k : (0 <= k)%Z -> nh k = sqrt (/ h k). Proof. intros. unfold nh. symmetry. apply sqrt_inv. Qed.
Lemma ng_sqrt k : (0 <= k)%Z -> ng k = sqrt (/ g k). Proof. intros. unfold ng. symmetry. apply sqrt_inv. Qed.
Lemma ih_pos k : (0 <= k)%Z -> 0 < / h k. Proof. intros. now apply Rinv_0_lt_compat, h_pos. Qed.
Lemma ig_pos k : (0 <= k)%Z -> 0 < / g k. Proof. intros. now apply Rinv_0_lt_compat, g_pos. Qed.
Lemma rect1 k : (0 <= k)%Z -> rc k * nh k = (IZR k + 2 * l) * (IZR k + 2 * l + 1) / (4 * l * (l + 1)) * (rc (k - 2) * ng k).
Proof.
  intros Hk. rewrite nh_sqrt, ng_sqrt by auto. assert (K : 0 <= IZR k) by (apply IZR_le; lia). pose proof (h_pos k Hk). pose proof (g_pos k Hk). unfold rc.
  apply sqrt2_eq; try (left; (apply rc_arg || apply ih_pos || apply ig_pos); lia).
  - apply Rmult_le_pos; [apply Rmult_le_pos; lra|]. left. apply Rinv_0_lt_compat. apply Rmult_lt_0_compat; lra.
  - rewrite gk by auto. rewrite minus_IZR. field. repeat split; lra.
Qed.
Lemma rect2 k : (0 <= k)%Z -> rs k * nh (k + 2) = (IZR k + 1) * (IZR k + 2) / (4 * l * (l + 1)) * ng k.
Proof.
  intros Hk. rewrite nh_sqrt, ng_sqrt by lia. assert (K : 0 <= IZR k) by (apply IZR_le; lia). pose proof (h_pos k Hk).
  replace (sqrt (/ g k)) with (sqrt 1 * sqrt (/ g k)) by (rewrite sqrt_1; ring). unfold rs.
  apply sqrt2_eq; try (left; (apply rs_arg || apply ih_pos || apply ig_pos); lia); try lra.
  - apply Rmult_le_pos; [apply Rmult_le_pos; lra|]. left. apply Rinv_0_lt_compat. apply Rmult_lt_0_compat; lra.
  - rewrite gk by auto. replace (k + 2)%Z with (k + 1 + 1)%Z by lia. rewrite !h_S by lia. rewrite plus_IZR. field. repeat split; lra.
Qed.
Lemma rect3 k : (0 <= k)%Z -> rc (k + 2) * (rs k * ng k) = rc k * ng (k + 2).
Proof.
  intros Hk. rewrite !ng_sqrt by lia. assert (K : 0 <= IZR k) by (apply IZR_le; lia). pose proof (g_pos k Hk).
  rewrite <- (Rmult_1_l (rc k * _)). unfold rc, rs.
  apply sqrt3_eq; try (left; (apply rs_arg || apply rc_arg || apply ig_pos); lia); try lra.
  replace (k + 2)%Z with (k + 1 + 1)%Z by lia. rewrite !g_S by lia. rewrite !plus_IZR. field. repeat split; lra.
Qed.
End Norms.

Section Kernel.
Variables (tg : R -> R) (be : R) (C : Z -> Z -> R -> R) (h : Z -> Z -> R).
Hypotheses (HG : gamma_function tg) (Hb : -1 < be) (HF : rect_family tg be C h).
Definition rpol (m i : Z) (t : R) : R := sin t ^ Z.to_nat m * fam true (C m) (h m) i (cos t).
Local Notation lam j := (IZR j + be + 1).
Lemma lam_pos j : (0 <= j)%Z -> 0 < lam j. Proof. intros H. apply IZR_le in H. lra. Qed.
Lemma fam_j j : (0 <= j)%Z -> is_ultraspherical (lam j) (C j) /\ ultraspherical_norms (lam j) (h j).
Proof. intros H. destruct (HF j H) as (A & B & _). auto. Qed.
Lemma fam_j2 j : (0 <= j)%Z -> is_ultraspherical (lam j + 2) (C (j + 2)%Z) /\ ultraspherical_norms (lam j + 2) (h (j + 2)%Z).
Proof. intros H. destruct (HF (j + 2)%Z ltac:(lia)) as (A & B & _). rewrite plus_IZR in A, B. replace (IZR j + 2 + be + 1) with (lam j + 2) in A, B by ring. auto. Qed.
Lemma mass_j j : (0 <= j)%Z -> (lam j + 1) * (lam j + 2) * h (j + 2)%Z 0%Z = (lam j + 1 / 2) * (lam j + 3 / 2) * h j 0%Z.
Proof.
  intros H. pose proof (lam_pos j H) as L. destruct (HF j H) as (_ & _ & E1). destruct (HF (j + 2)%Z ltac:(lia)) as (_ & _ & E2). rewrite E1, E2, plus_IZR. set (l := lam j) in *.
  replace (IZR j + 2 + be + 1) with (l + 2) by (unfold l; ring). destruct HG as [g1 g2 g3].
  replace (l + 2 + 1 / 2) with (l + 1 / 2 + 1 + 1) by field. rewrite (g3 (l + 1 / 2 + 1)), (g3 (l + 1 / 2)) by lra.
  replace (l + 2 + 1) with (l + 1 + 1 + 1) by ring. rewrite (g3 (l + 1 + 1)), (g3 (l + 1)) by lra. pose proof (g1 (l + 1) ltac:(lra)). field. lra.
Qed.
Definition rsj (k j : Z) : R := rs (lam j) k.
Definition rcj (k j : Z) : R := rc (lam j) k.
Definition rmix (j k : Z) (t : R) : R := (rpol (j + 2) k t + rsj k j * rpol j (k + 2) t) / rcj k j.
Lemma rpol_eq m i t : rpol m i t = sin t ^ Z.to_nat m * (nh (h m) i * C m i (cos t)).
Proof. unfold rpol, fam, nh. unfold Rdiv. ring. Qed.
Lemma sin_pow j t : (0 <= j)%Z -> sin t ^ Z.to_nat (j + 2) = (1 - cos t * cos t) * sin t ^ Z.to_nat j.
Proof.
  intros H. replace (Z.to_nat (j + 2)) with (S (S (Z.to_nat j))) by lia. cbn [pow]. pose proof (sin2_cos2 t) as P. unfold Rsqr in P.
  replace (1 - cos t * cos t) with (sin t * sin t) by lra. ring.
Qed.
Lemma rmix_low j k t : (0 <= j)%Z -> (0 <= k)%Z -> rcj (k - 2) j * rmix j k t = rpol j k t + (if (k <? 2)%Z then 0 else rsj (k - 2) j * rpol (j + 2) (k - 2) t).
Proof.
  intros Hj Hk. destruct (fam_j j Hj) as [U1 N1]. destruct (fam_j2 j Hj) as [U2 N2]. pose proof (lam_pos j Hj) as L. pose proof (mass_j j Hj) as MM.
  unfold rmix, rsj, rcj. set (l := lam j) in *. pose proof (rc_pos l L k ltac:(lia)) as PC.
  apply (Rmult_eq_reg_l (rc l k)); [|lra].
  replace (rc l k * (rc l (k - 2) * ((rpol (j + 2) k t + rs l k * rpol j (k + 2) t) / rc l k))) with (rc l (k - 2) * (rpol (j + 2) k t + rs l k * rpol j (k + 2) t)) by (field; lra).
  rewrite !rpol_eq, !sin_pow by lia. set (w := sin t ^ Z.to_nat j). set (x := cos t).
  pose proof (ult_lower2 l (C j) (C (j + 2)%Z) L U1 U2 k x Hk) as E.
  pose proof (rect1 l (h j) (h (j + 2)%Z) L N1 N2 MM k Hk) as R1. pose proof (rect2 l (h j) (h (j + 2)%Z) L N1 N2 MM k Hk) as R2. fold (nh (h (j + 2)%Z) k) in R1, R2. unfold ng in R1, R2. fold (nh (h (j + 2)%Z) k) in R1, R2.
  set (G := nh (h (j + 2)%Z) k) in *. set (D := 4 * l * (l + 1)) in *. assert (HD : 0 < D) by (unfold D; apply Rmult_lt_0_compat; lra).
  set (a := (IZR k + 2 * l) * (IZR k + 2 * l + 1)) in *. set (b := (IZR k + 1) * (IZR k + 2)) in *.
  set (cp := C (j + 2)%Z k x) in *. set (c0 := C j k x) in *. set (c2 := C j (k + 2)%Z x) in *.
  replace (rc l (k - 2) * ((1 - x * x) * w * (G * cp) + rs l k * (w * (nh (h j) (k + 2) * c2)))) with (rc l (k - 2) * w * (G * ((1 - x * x) * cp) + (rs l k * nh (h j) (k + 2)) * c2)) by ring. rewrite R2.
  destruct (k <? 2)%Z eqn:E2.
  - replace (rc l k * (w * (nh (h j) k * c0) + 0)) with (w * ((rc l k * nh (h j) k) * c0)) by ring. rewrite R1.
    assert (X : (1 - x * x) * cp = (a * c0 - b * c2) / D) by (rewrite <- E; field; lra). rewrite X. field. lra.
  - pose proof (rect3 l (h (j + 2)%Z) L N2 (k - 2) ltac:(lia)) as R3. unfold ng in R3. fold (nh (h (j + 2)%Z) (k - 2)) in R3. replace (k - 2 + 2)%Z with k in R3 by lia. fold (nh (h (j + 2)%Z) k) in R3. fold G in R3.
    set (cm := C (j + 2)%Z (k - 2)%Z x) in *.
    replace (rc l k * (w * (nh (h j) k * c0) + rs l (k - 2) * ((1 - x * x) * w * (nh (h (j + 2)%Z) (k - 2) * cm))))
      with (w * ((rc l k * nh (h j) k) * c0 + (rc l k * (rs l (k - 2) * nh (h (j + 2)%Z) (k - 2))) * ((1 - x * x) * cm))) by ring. rewrite R1, R3.
    assert (X : (1 - x * x) * cp = (1 - x * x) * cm + (a * c0 - b * c2) / D) by (rewrite <- E; field; lra). rewrite X. field. lra.
Qed.
Lemma rmix_H1 j k t : (0 <= j)%Z -> (0 <= k)%Z -> rpol (j + 2) k t = rcj k j * rmix j k t - rsj k j * rpol j (k + 2) t.
Proof. intros. pose proof (rc_pos (lam j) (lam_pos j H) k ltac:(lia)) as P. fold (rcj k j) in P. unfold rmix. field. lra. Qed.
Lemma rmix_H2 j k t : (0 <= j)%Z -> (0 <= k)%Z -> rmix j (k + 2) t = rsj k j * rmix j k t + rcj k j * rpol j (k + 2) t.
Proof.
  intros Hj Hk. pose proof (rc_pos (lam j) (lam_pos j Hj) k ltac:(lia)) as P. fold (rcj k j) in P. pose proof (rmix_low j (k + 2) t Hj ltac:(lia)) as E. replace (k + 2 - 2)%Z with k in E by lia. replace (k + 2 <? 2)%Z with false in E by lia.
  apply (Rmult_eq_reg_l (rcj k j)); [|lra]. rewrite E. unfold rmix. pose proof (rs_rc (lam j) (lam_pos j Hj) k Hk) as U. fold (rcj k j) in U. fold (rsj k j) in U.
  replace (rcj k j * (rsj k j * ((rpol (j + 2) k t + rsj k j * rpol j (k + 2) t) / rcj k j) + rcj k j * rpol j (k + 2) t))
    with (rsj k j * rpol (j + 2) k t + (rsj k j * rsj k j + rcj k j * rcj k j) * rpol j (k + 2) t) by (field; lra). rewrite U. ring.
Qed.
Lemma rmix_H0 j k t : (0 <= j)%Z -> (0 <= k < 2)%Z -> rmix j k t = rpol j k t.
Proof. intros Hj Hk. pose proof (rmix_low j k t Hj ltac:(lia)) as E. unfold rcj in E. rewrite rc_init in E by (lia || now apply lam_pos). replace (k <? 2)%Z with true in E by lia. lra. Qed.

Open Scope Z_scope.
Lemma rect_tables n (junk : R) RP : 0 <= n -> plan_rotrectdisk junk n be = Some RP ->
  forall l m, 0 <= m -> 0 <= l -> l + m < n -> nthZ 0%R (rp_s RP) (sidx n l m) = rsj l m /\ nthZ 0%R (rp_c RP) (sidx n l m) = rcj l m.
Proof.
  intros Hn E. unfold plan_rotrectdisk in E.
  match type of E with context [fill n ?cn ?ix ?fs ?fc _] => 
    destruct (fill_spec n cn ix fs fc (n * (n + 1) / 2) (zmake (n * (n + 1) / 2) junk) (zmake (n * (n + 1) / 2) junk) Hn) as (s & c & E' & L1 & L2 & V & _) end.
  - now apply len_tri.
  - now apply len_tri.
  - intros. apply sidx_bound; lia.
  - intros. apply sidx_inj with (n := n); auto; lia.
  - rewrite E' in E. cbn [obind] in E. injection E as <-. cbn [rp_s rp_c fst snd].
    intros l m Hm Hl Hlm. destruct (V l m ltac:(lia) ltac:(lia)) as [V1 V2]. unfold nthZ. rewrite V1, V2. unfold rsj, rcj, rs, rc, sq. cbn [sqrtA div mul add ofZ R_arith].
    rewrite !mult_IZR, !plus_IZR, !mult_IZR. split; do 2 f_equal; ring.
Qed.
Lemma rect_conv n (junk : R) RP A oA S m1 m2 : plan_rotrectdisk junk n be = Some RP -> 0 <= n -> 1 <= S -> 0 <= m1 <= m2 -> (m2 - m1) mod 2 = 0 ->
  columns_fit A oA S n 1 -> zero_from (n - m2) n A oA S ->
  exists A', kernel_sph_hi2lo givens RP m1 m2 A oA S = Some A' /\ only_columns_changed A A' oA S n 1 /\ zero_from (n - m1) n A' oA S /\
    forall t, column_series rpol n m1 A' oA S t = column_series rpol n m2 A oA S t.
Proof.
  intros E Hn HS Hm Hp Ft HZ. pose proof (rect_tables n junk RP Hn E) as HT. destruct (planned_rectdisk n junk be RP Hn Hb E) as (Hrn & Tt & Ut).
  pose proof (real0 oA S n A (fun A o => kernel_sph_hi2lo givens RP m1 m2 A o S) _
    ltac:(rewrite <- Hrn; exact (real_sph_hi2lo givens RP oA S 1 ltac:(lia) Tt A m1 m2 0 ltac:(lia) ltac:(lia)))) as R1.
  destruct (arr_conv oA S n A _ _ (fun _ => 0%R) (fun _ => 0%R) Ft Hn R1) as (A' & E1 & O & V). exists A'. split; [exact E1|]. split; [exact O|].
  apply Z.mod_divide in Hp; [|lia]. destruct Hp as [q Hq]. assert (Hq0 : 0 <= q) by lia. replace m2 with (m1 + Z.of_nat (Z.to_nat q) * 2) in V, HZ |- * by lia.
  set (g := fun r => if (0 <=? r) && (r <? n) then nthZ 0%R A (oA + r * S) else 0%R) in V.
  assert (CS : forall t, sumZ n (fun i => (run (opsD 2 2 (topS RP) (fnRC givens RP (sidx n)) m1 (m1 + Z.of_nat (Z.to_nat q) * 2)) g i * rpol m1 i t)%R) = sumZ n (fun i => (g i * rpol (m1 + Z.of_nat (Z.to_nat q) * 2) i t)%R) /\
     forall i, topS RP m1 + 2 < i < n -> 0 <= i -> run (opsD 2 2 (topS RP) (fnRC givens RP (sidx n)) m1 (m1 + Z.of_nat (Z.to_nat q) * 2)) g i = 0%R).
  { intros t. apply (ops_sum 2 2 n (topS RP) (fnRC givens RP (sidx n)) rsj rcj ltac:(lia) ltac:(lia) (stepS RP 1%nat)) with (M := fun j k => rmix j k t) (f := fun j k => rpol j k t).
    - intros j Hj. unfold topS. lia.
    - intros k j x y Hj Hk. unfold topS in Hk. destruct (HT k j ltac:(lia) ltac:(lia) ltac:(lia)) as (T1 & T2). unfold fnRC, sc, givens. cbn [fst snd zero R_arith]. rewrite T1, T2. reflexivity.
    - intros j k Hj Hk. apply rmix_H1; lia.
    - intros j k Hj Hk. apply rmix_H2; lia.
    - intros j k Hj Hk. apply rmix_H0; lia.
    - lia.
    - intros i Hi H0i. unfold g, topS in *. replace ((0 <=? i) && (i <? n)) with true by lia. apply HZ; lia. }
  unfold SD in V. rewrite Hrn in V. split.
  - intros i Hi H0i. rewrite V by lia. apply (CS 0%R); [unfold topS; lia|lia].
  - intros t. unfold column_series. transitivity (sumZ n (fun i => (run (opsD 2 2 (topS RP) (fnRC givens RP (sidx n)) m1 (m1 + Z.of_nat (Z.to_nat q) * 2)) g i * rpol m1 i t)%R)).
    + apply sumZ_ext. intros i Hi. rewrite V by lia. reflexivity.
    + rewrite (proj1 (CS t)). apply sumZ_ext. intros i Hi. unfold g. replace ((0 <=? i) && (i <? n)) with true by lia. reflexivity.
Qed.
End Kernel.
