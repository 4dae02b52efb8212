(** * The sphere kernel converts expansions in associated Legendre functions *)
From Coq Require Import ZArith List Lia Bool Reals Lra ZifyBool ZifyNat.
From Verif Require Import Base BaseFacts Arith SpecSum PSum MRotations SpecRot PRot PRotBlock PRotKernels PRotFam PRotInv PRotPlans PRotThms SpecGeo SpecConvert PConv1 PConv2.
Import ListNotations.
Open Scope Z_scope.

Lemma sphere_tables n (junk : R) RP : 0 <= n -> plan_rotsphere junk n = Some RP ->
  forall l m, 0 <= m -> 0 <= l -> l + m < n -> nthZ 0%R (rp_s RP) (sidx n l m) = ss l m /\ nthZ 0%R (rp_c RP) (sidx n l m) = cs l m.
Proof.
  intros Hn E. unfold plan_rotsphere in E.
  match type of E with context [fill n ?cn ?ix ?fs ?fc _] => 
    destruct (fill_spec n cn ix fs fc (n * (n + 1) / 2) (zmake (n * (n + 1) / 2) junk) (zmake (n * (n + 1) / 2) junk) Hn) as (s & c & E' & L1 & L2 & V & _) end.
  - now apply len_tri.
  - now apply len_tri.
  - intros. apply sidx_bound; lia.
  - intros. apply sidx_inj with (n := n); auto; lia.
  - rewrite E' in E. cbn [obind] in E. injection E as <-. cbn [rp_s rp_c fst snd].
    intros l m Hm Hl Hlm. destruct (V l m ltac:(lia) ltac:(lia)) as [V1 V2]. unfold nthZ. rewrite V1, V2. split; reflexivity.
Qed.

Lemma sph_conv n (junk : R) RP A oA S m1 m2 : plan_rotsphere junk n = Some RP -> 0 <= n -> 1 <= S -> 0 <= m1 <= m2 -> (m2 - m1) mod 2 = 0 ->
  columns_fit A oA S n 1 -> zero_from (n - m2) n A oA S ->
  exists A', kernel_sph_hi2lo givens RP m1 m2 A oA S = Some A' /\ only_columns_changed A A' oA S n 1 /\ zero_from (n - m1) n A' oA S /\
    forall t, column_series polar n m1 A' oA S t = column_series polar n m2 A oA S t.
Proof.
  intros E Hn HS Hm Hp Ft HZ. pose proof (sphere_tables n junk RP Hn E) as HT. destruct (planned_sph n junk RP Hn E) as (Hrn & Tt & Ut).
  pose proof (real0 oA S n A (fun A o => kernel_sph_hi2lo givens RP m1 m2 A o S) _
    ltac:(rewrite <- Hrn; exact (real_sph_hi2lo givens RP oA S 1 ltac:(lia) Tt A m1 m2 0 ltac:(lia) ltac:(lia)))) as R1.
  destruct (arr_conv oA S n A _ _ (fun _ => 0%R) (fun _ => 0%R) Ft Hn R1) as (A' & E1 & O & V). exists A'. split; [exact E1|]. split; [exact O|].
  apply Z.mod_divide in Hp; [|lia]. destruct Hp as [q Hq]. assert (Hq0 : 0 <= q) by lia. replace m2 with (m1 + Z.of_nat (Z.to_nat q) * 2) in V, HZ |- * by lia.
  set (g := fun r => if (0 <=? r) && (r <? n) then nthZ 0%R A (oA + r * S) else 0%R) in V.
  assert (CS : forall t, sumZ n (fun i => (run (opsD 2 2 (topS RP) (fnRC givens RP (sidx n)) m1 (m1 + Z.of_nat (Z.to_nat q) * 2)) g i * polar m1 i t)%R) = sumZ n (fun i => (g i * polar (m1 + Z.of_nat (Z.to_nat q) * 2) i t)%R) /\
     forall i, topS RP m1 + 2 < i < n -> 0 <= i -> run (opsD 2 2 (topS RP) (fnRC givens RP (sidx n)) m1 (m1 + Z.of_nat (Z.to_nat q) * 2)) g i = 0%R).
  { intros t. apply (ops_sum 2 2 n (topS RP) (fnRC givens RP (sidx n)) ss cs ltac:(lia) ltac:(lia) (stepS RP 1%nat)) with (M := fun j k => mixed j k t) (f := fun j k => polar j k t).
    - intros j Hj. unfold topS. lia.
    - intros k j x y Hj Hk. unfold topS in Hk. destruct (HT k j ltac:(lia) ltac:(lia) ltac:(lia)) as (T1 & T2). unfold fnRC, sc, givens. cbn [fst snd zero R_arith]. rewrite T1, T2. reflexivity.
    - intros j k Hj Hk. apply mixed_H1; lia.
    - intros j k Hj Hk. apply mixed_H2; lia.
    - intros j k Hj Hk. apply mixed_H0; lia.
    - lia.
    - intros i Hi H0i. unfold g, topS in *. replace ((0 <=? i) && (i <? n)) with true by lia. apply HZ; lia. }
  unfold SD in V. rewrite Hrn in V. split.
  - intros i Hi H0i. rewrite V by lia. apply (CS 0%R); [unfold topS; lia|lia].
  - intros t. unfold column_series. transitivity (sumZ n (fun i => (run (opsD 2 2 (topS RP) (fnRC givens RP (sidx n)) m1 (m1 + Z.of_nat (Z.to_nat q) * 2)) g i * polar m1 i t)%R)).
    + apply sumZ_ext. intros i Hi. rewrite V by lia. reflexivity.
    + rewrite (proj1 (CS t)). apply sumZ_ext. intros i Hi. unfold g. replace ((0 <=? i) && (i <? n)) with true by lia. reflexivity.
Qed.
