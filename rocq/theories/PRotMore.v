(** * Tetrahedron and spin-weighted kernels *)
From Coq Require Import ZArith List Lia Bool ZifyBool ZifyNat Reals.
From Verif Require Import Base BaseFacts Arith MPermute PPermute MRotations SpecRot PRot PRotBlock PRotKernels PRotFam PRotInv.
Import ListNotations.
Open Scope Z_scope.

Section Gen.
Context {F : Type} `{Arith F}.
(** a program that works on the lanes [k, k+V) only *)
Lemma real_embed oA S n W A0 k V p (ops : Z -> list (op F)) : 0 <= W <= S -> 0 <= k -> 0 <= V -> k + V <= W ->
  (forall A0, real (minv (oA + k) S n V A0) (mview (oA + k) S n) V p ops) ->
  real (minv oA S n W A0) (mview oA S n) W p (fun i => if (k <=? i) && (i <? k + V) then ops (i - k) else []).
Proof.
  intros HW Hk HV HkV Hp A HI.
  assert (Ft : fits (oA + k) S n V A).
  { intros r i Hr Hi. pose proof (minv_fits _ _ _ _ _ _ HI r (k + i) Hr ltac:(lia)). unfold addr in *. lia. }
  destruct (Hp A A (minv_refl _ _ _ _ _ Ft)) as (A' & E & (L' & _ & O') & V').
  exists A'. split; auto. destruct HI as (L & F0 & O). split.
  - split; [congruence|]. split; auto. intros q Hq. rewrite O'; [now apply O|].
    intros (r & i & Hr & Hi & ->). apply Hq. exists r, (k + i). unfold addr. repeat split; lia.
  - intros i r Hi. destruct ((k <=? i) && (i <? k + V)) eqn:Ei.
    + specialize (V' (i - k) r ltac:(lia)).
      assert (X : forall B q, mview (oA + k) S n B (i - k) q = mview oA S n B i q).
      { intros B q. unfold mview, addr. destruct ((0 <=? q) && (q <? n)); auto. f_equal. lia. }
      rewrite X in V'. rewrite V'. apply run_ext. intros. apply X.
    + cbn [run]. unfold mview. destruct ((0 <=? r) && (r <? n)) eqn:Er; auto.
      unfold nthZ. rewrite O'; auto. intros (r' & i' & Hr' & Hi' & E'). unfold addr in E'.
      destruct (addr_inj oA S W HW r i r' (k + i')); unfold addr; lia.
Qed.
Lemma dns_st1 hi lo (f : Z -> list (op F)) : dns hi lo f = dnsst hi lo 1 f.
Proof. unfold dns, dnsst. rewrite Z.div_1_r. apply cat_ext. intros. f_equal. lia. Qed.
Lemma ups_st1 lo hi (f : Z -> list (op F)) : ups lo hi f = upsst lo hi 1 f.
Proof.
  unfold ups, upsst. rewrite Z.div_1_r. replace (hi - lo + 1 - 1) with (hi - lo) by lia.
  apply cat_ext. intros. f_equal. lia.
Qed.

Section Cols.
Variables (oA S n W : Z).
Hypothesis HW : 0 <= W <= S.
Variables (d st : Z) (top : Z -> Z) (fn : Z -> Z -> F -> F -> F * F).
Hypothesis Hst : 0 < st.
Notation mreal A0 := (real (minv oA S n W A0) (mview oA S n) W).
Lemma real_colsD A0 hi m1 (body : Z -> Z -> list F -> option (list F)) : 0 <= m1 ->
  (forall row col, 0 <= col <= hi -> 0 <= row <= top col -> mreal A0 (body row col) (fun _ => [opRC d fn row col])) ->
  mreal A0 (for_dnst hi m1 st (fun j => for_dn (top j) 0 (fun k => body k j))) (fun _ => dnsst hi m1 st (colD d top fn)).
Proof.
  intros Hm Hb. apply (real_dnst _ _ _ hi m1 st _ (fun j _ => colD d top fn j)); [exact Hst|].
  intros c j Hc Hj Hj'. unfold colD. apply (real_dn _ _ _ _ _ _ (fun k _ => [opRC d fn k j])).
  intros k Hk. apply Hb; lia.
Qed.
Lemma real_colsU A0 lo hi (body : Z -> Z -> list F -> option (list F)) : 0 <= lo ->
  (forall row col, 0 <= col < hi -> 0 <= row <= top col -> mreal A0 (body row col) (fun _ => [opRC d fn row col])) ->
  mreal A0 (for_upst lo hi st (fun j => for_up 0 (top j + 1) (fun k => body k j))) (fun _ => upsst lo hi st (colU d top fn)).
Proof.
  intros Hm Hb. apply (real_upst _ _ _ lo hi st _ (fun j _ => colU d top fn j)); [exact Hst|].
  intros c j Hc Hj Hj'. unfold colU. apply (real_up _ _ _ _ _ _ (fun k _ => [opRC d fn k j])).
  intros k Hk. apply Hb; lia.
Qed.
End Cols.

(** ** Tetrahedron *)
Section Tet.
Variable rot : F -> F -> F -> F -> F * F.
Variable RP : rotplan F.
Let n := rp_n RP.
Hypothesis HT : tri_tables RP.
Variables (L oA nb : Z).
Hypothesis HL : 0 <= L <= n.
Hypothesis Hnb : n <= nb.
Definition topL (j : Z) := L - 2 - j.
Definition LD (m : Z) := opsD 1 1 topL (fnRC rot RP (sidx n)) 0 m.
Definition LU (m : Z) := opsU 1 1 topL (fnRC rot RP (sidx n)) 0 m.
Notation mreal A0 := (real (minv oA nb L n A0) (mview oA nb L) n).

Lemma Hn0 : 0 <= n. Proof. destruct HT. auto. Qed.
Lemma stepL j a : 0 <= a -> 0 <= j - 1 * a -> topL (j - 1 * a) = topL j + 1 * a.
Proof. unfold topL; lia. Qed.
Lemma ltL j : 0 <= j -> topL j + 1 < L. Proof. unfold topL; lia. Qed.
Lemma tabL row col : 0 <= col -> 0 <= row <= topL col -> tab RP (sidx n row col) = Some (sc RP (sidx n) row col).
Proof.
  intros Hc Hr. destruct HT as (H0 & Hs & Hc'). unfold topL in Hr.
  pose proof (sidx_bound n row col ltac:(lia) ltac:(unfold n; lia)). unfold n in *.
  apply (tab_ok RP (sidx (rp_n RP)) row col); lia.
Qed.
Lemma HWn : 0 <= n <= nb. Proof. pose proof Hn0. lia. Qed.

Fixpoint good (Vs : list nat) (lo : Z) : Prop :=
  match Vs with
  | [] => lo = n
  | V :: Vs => (0 < V)%nat /\ lo mod Z.of_nat V = 0 /\ 0 <= lo <= n - Z.rem n (Z.of_nat V) /\ good Vs (n - Z.rem n (Z.of_nat V))
  end.
Lemma real_tet_lanes A0 s c x y : 0 <= x < L -> 0 <= y < L -> x <> y ->
  forall Vs lo, good Vs lo ->
  mreal A0 (fun A => tet_lanes rot Vs n lo s c A (oA + nb * x) (oA + nb * y))
    (fun i => if lo <=? i then [mkop x y (rot s c)] else []).
Proof.
  intros Hx Hy Hxy. pose proof Hn0 as Hn.
  induction Vs as [|V Vs IH]; intros lo Hg; cbn [tet_lanes].
  - cbn in Hg. subst lo. eapply real_equiv; [apply real_ret|]. intros i Hi. apply equiv_eq.
    now replace (n <=? i) with false by lia.
  - cbn [good] in Hg. destruct Hg as (HV & Hlo & Hlo2 & Hg). specialize (IH _ Hg).
    set (hi := n - Z.rem n (Z.of_nat V)) in *.
    assert (Hdiv : exists q, hi = q * Z.of_nat V).
    { exists (n / Z.of_nat V). unfold hi. rewrite Z.rem_mod_nonneg by lia.
      pose proof (Z.div_mod n (Z.of_nat V) ltac:(lia)). lia. }
    destruct Hdiv as [q Hq]. apply Z.mod_divide in Hlo as [l0 Hl0]; [|lia].
    assert (Hhi : hi <= n). { unfold hi. pose proof (Z.rem_bound_pos n (Z.of_nat V) Hn ltac:(lia)). lia. }
    eapply real_equiv.
    + apply real_seq; [|exact IH].
      apply (real_upst _ _ _ lo hi (Z.of_nat V) _ (fun k i => if (k <=? i) && (i <? k + Z.of_nat V) then [mkop x y (rot s c)] else [])); [lia|].
      intros c0 k Hc0 Hk Hk'.
      assert (k + Z.of_nat V <= hi).
      { assert (l0 + c0 < q) by nia. assert ((l0 + c0 + 1) * Z.of_nat V <= q * Z.of_nat V) by (apply Z.mul_le_mono_nonneg_r; lia). lia. }
      apply (real_embed oA nb L n A0 k (Z.of_nat V) _ (fun _ => [mkop x y (rot s c)])); try lia.
      intros A1. replace (oA + nb * x + k) with (oA + k + x * nb) by lia.
      replace (oA + nb * y + k) with (oA + k + y * nb) by lia.
      apply real_vapply_rot; auto. lia.
    + intros i Hi. apply equiv_eq. cbn beta.
      assert (Hcnt : upsst lo hi (Z.of_nat V) (fun k => if (k <=? i) && (i <? k + Z.of_nat V) then [mkop x y (rot s c)] else [])
                     = if (lo <=? i) && (i <? hi) then [mkop x y (rot s c)] else []).
      { rewrite (upsst_cnt lo hi (Z.of_nat V) _ (q - l0)) by nia.
        destruct ((lo <=? i) && (i <? hi)) eqn:Ei.
        - set (k := (i - lo) / Z.of_nat V).
          assert (Hk : Z.of_nat V * k <= i - lo < Z.of_nat V * k + Z.of_nat V).
          { unfold k. pose proof (Z.div_mod (i - lo) (Z.of_nat V) ltac:(lia)).
            pose proof (Z.mod_pos_bound (i - lo) (Z.of_nat V) ltac:(lia)). lia. }
          assert (0 <= k < q - l0) by nia.
          replace (Z.to_nat (q - l0)) with (Z.to_nat k + (1 + Z.to_nat (q - l0 - k - 1)))%nat by lia.
          rewrite !cat_plus. rewrite (cat_ext (Z.to_nat k) _ (fun _ => [])).
          2:{ intros k' Hk'. replace (i <? lo + Z.of_nat k' * Z.of_nat V + Z.of_nat V) with false by nia. now rewrite andb_false_r. }
          rewrite cat_nil. rewrite (cat_ext (Z.to_nat (q - l0 - k - 1)) _ (fun _ => [])).
          2:{ intros k' Hk'. replace (lo + Z.of_nat (Z.to_nat k + (1 + k')) * Z.of_nat V <=? i) with false by nia. reflexivity. }
          rewrite cat_nil. cbn [cat app]. rewrite app_nil_r.
          replace (Z.of_nat (Z.to_nat k + 0)) with k by lia.
          replace ((lo + k * Z.of_nat V <=? i) && (i <? lo + k * Z.of_nat V + Z.of_nat V)) with true by lia. reflexivity.
        - rewrite (cat_ext _ _ (fun _ => [])); [apply cat_nil|]. intros k' Hk'.
          assert (Z.of_nat k' * Z.of_nat V + Z.of_nat V <= hi - lo) by nia.
          assert (0 <= Z.of_nat k' * Z.of_nat V) by (apply Z.mul_nonneg_nonneg; lia).
          now replace ((lo + Z.of_nat k' * Z.of_nat V <=? i) && (i <? lo + Z.of_nat k' * Z.of_nat V + Z.of_nat V)) with false by lia. }
      rewrite Hcnt. destruct (Z.leb_spec lo i), (Z.ltb_spec i hi), (Z.leb_spec hi i); cbn; auto; lia.
Qed.
Lemma real_tet_hi2lo_simd A0 Vs m : good Vs 0 -> mreal A0 (fun A => kernel_tet_hi2lo_simd rot Vs nb RP L m A oA) (fun _ => LD m).
Proof.
  intros Hg. eapply real_prog.
  - apply (real_colsD oA nb L n 1 1 topL (fnRC rot RP (sidx n)) ltac:(lia) A0 (m - 1) 0
      (fun l j A => do sc <- tab RP (sidx (rp_n RP) l j);
         tet_lanes rot Vs (rp_n RP) 0 (fst sc) (snd sc) A (oA + nb * l) (oA + nb * (l + 1)))); [lia|].
    intros row col [Hc _] Hr. fold n. rewrite tabL by auto. cbn [obind]. pose proof (ltL col Hc).
    eapply real_equiv; [apply (real_tet_lanes A0 _ _ row (row + 1)); eauto; lia|].
    intros i Hi. cbn beta. replace (0 <=? i) with true by lia. apply equiv_eq. reflexivity.
  - intros A _. unfold kernel_tet_hi2lo_simd. now rewrite for_dn_st1.
Qed.
Lemma real_tet_lo2hi_simd A0 Vs m : good Vs 0 -> mreal A0 (fun A => kernel_tet_lo2hi_simd rot Vs nb RP L m A oA) (fun _ => LU m).
Proof.
  intros Hg. eapply real_prog.
  - apply (real_colsU oA nb L n 1 1 topL (fnRC rot RP (sidx n)) ltac:(lia) A0 0 m
      (fun l j A => do sc <- tab RP (sidx (rp_n RP) l j);
         tet_lanes rot Vs (rp_n RP) 0 (fst sc) (snd sc) A (oA + nb * l) (oA + nb * (l + 1)))); [lia|].
    intros row col [Hc _] Hr. fold n. rewrite tabL by auto. cbn [obind]. pose proof (ltL col Hc).
    eapply real_equiv; [apply (real_tet_lanes A0 _ _ row (row + 1)); eauto; lia|].
    intros i Hi. cbn beta. replace (0 <=? i) with true by lia. apply equiv_eq. reflexivity.
  - intros A _. unfold kernel_tet_lo2hi_simd. now rewrite for_up_st1.
Qed.
End Tet.

Section TetDefault.
Variable rot : F -> F -> F -> F -> F * F.
Variable RP : rotplan F.
Let n := rp_n RP.
Hypothesis HT : tri_tables RP.
Variables (L oA : Z).
Hypothesis HL : 0 <= L <= n.
Notation mreal A0 := (real (minv oA n L n A0) (mview oA n L) n).
Lemma real_tet_body A0 row col : 0 <= col -> 0 <= row <= topL L col ->
  mreal A0 (fun A => do sc <- tab RP (sidx n row col);
     for_up 0 n (fun k A => apply_rot rot (fst sc) (snd sc) A (oA + k + n * row) (oA + k + n * (row + 1))) A)
   (fun _ => [opRC 1 (fnRC rot RP (sidx n)) row col]).
Proof.
  intros Hc Hr. pose proof (tabL RP HT L HL row col Hc Hr) as ET. fold n in ET. rewrite ET. cbn [obind].
  pose proof (Hn0 RP HT) as Hn. fold n in Hn. unfold topL in Hr.
  eapply real_equiv.
  - apply (real_up _ _ _ 0 n _ (fun k i => only k [opRC 1 (fnRC rot RP (sidx n)) row col] i)).
    intros k Hk. replace (n * row) with (row * n) by lia. replace (n * (row + 1)) with ((row + 1) * n) by lia.
    unfold opRC, fnRC. apply real_apply_rot; auto; lia.
  - intros i Hi. apply equiv_eq. rewrite (lanes_each 0 n (fun _ => [opRC 1 (fnRC rot RP (sidx n)) row col]) i).
    now replace ((0 <=? i) && (i <? n)) with true by lia.
Qed.
Lemma real_tet_hi2lo A0 m : mreal A0 (fun A => kernel_tet_hi2lo rot RP L m A oA) (fun _ => LD rot RP L m).
Proof.
  eapply real_prog.
  - apply (real_colsD oA n L n 1 1 (topL L) (fnRC rot RP (sidx n)) ltac:(lia) A0 (m - 1) 0
      (fun l j A => do sc <- tab RP (sidx n l j);
         for_up 0 n (fun k A => apply_rot rot (fst sc) (snd sc) A (oA + k + n * l) (oA + k + n * (l + 1))) A)); [lia|].
    intros row col [Hc _] Hr. apply real_tet_body; auto.
  - intros A _. unfold kernel_tet_hi2lo. now rewrite for_dn_st1.
Qed.
Lemma real_tet_lo2hi A0 m : mreal A0 (fun A => kernel_tet_lo2hi rot RP L m A oA) (fun _ => LU rot RP L m).
Proof.
  eapply real_prog.
  - apply (real_colsU oA n L n 1 1 (topL L) (fnRC rot RP (sidx n)) ltac:(lia) A0 0 m
      (fun l j A => do sc <- tab RP (sidx n l j);
         for_up 0 n (fun k A => apply_rot rot (fst sc) (snd sc) A (oA + k + n * l) (oA + k + n * (l + 1))) A)); [lia|].
    intros row col [Hc _] Hr. apply real_tet_body; auto.
  - intros A _. unfold kernel_tet_lo2hi. now rewrite for_up_st1.
Qed.
End TetDefault.

(** ** Spin-weighted kernels: two lanes (real and imaginary part) with stride [2*S] *)
Section Spin.
Variables (rot rot_t : F -> F -> F -> F -> F * F).
Variable ap : (F -> F -> F -> F -> F * F) -> F -> F -> list F -> Z -> Z -> option (list F).
Variable SRP : spinplan F.
Let n := sp_n SRP.
Let ass := Z.abs (sp_s SRP).
Definition RP1 := RotPlan (sp_n SRP) (sp_s1 SRP) (sp_c1 SRP).
Definition RP2 := RotPlan (sp_n SRP) (sp_s2 SRP) (sp_c2 SRP).
Hypothesis HN : 0 <= n.
Hypothesis HT1 : zlen (sp_s1 SRP) = n * n /\ zlen (sp_c1 SRP) = n * n.
Hypothesis HT2 : zlen (sp_s2 SRP) = ass * n * n /\ zlen (sp_c2 SRP) = ass * n * n.
Variables (oA S : Z).
Hypothesis HS : 1 <= S.
Notation mreal A0 := (real (minv oA (2 * S) n 2 A0) (mview oA (2 * S) n) 2).
Hypothesis Hap : forall A0 r s c x y, 0 <= x < n -> 0 <= y < n -> x <> y ->
  mreal A0 (fun A => ap r s c A (oA + x * (2 * S)) (oA + y * (2 * S))) (fun _ => [mkop x y (r s c)]).
Variable m : Z.
Let am := Z.abs m.
Let dm := Z.abs (am - ass).
Definition top1 (j : Z) := sp_n SRP - 3 - j.
Definition top2 (j : Z) := sp_n SRP - 2 - Z.abs (Z.abs m - Z.abs (sp_s SRP)) - j.
Definition ix2 (k j : Z) := s2idx (sp_n SRP) (Z.abs (sp_s SRP)) k j (Z.abs (Z.abs m - Z.abs (sp_s SRP))).
Definition ixo1 (k j : Z) := s1idx (sp_n SRP) k j.
Definition OD1 (r : F -> F -> F -> F -> F * F) := opsD 2 2 top1 (fnRC r RP1 ixo1) (Z.rem (am + ass) 2) dm.
Definition OU1 (r : F -> F -> F -> F -> F * F) := opsU 2 2 top1 (fnRC r RP1 ixo1) (Z.rem (am + ass) 2) dm.
Definition OD2 (r : F -> F -> F -> F -> F * F) := opsD 1 1 top2 (fnRC r RP2 ix2) 0 (Z.min am ass).
Definition OU2 (r : F -> F -> F -> F -> F * F) := opsU 1 1 top2 (fnRC r RP2 ix2) 0 (Z.min am ass).

Lemma tabO1 row col : 0 <= col -> 0 <= row <= top1 col -> tab2 (sp_s1 SRP) (sp_c1 SRP) (ixo1 row col) = Some (sc RP1 ixo1 row col).
Proof.
  intros Hc Hr. unfold top1, ixo1, s1idx in *. fold n in Hr.
  apply (tab_ok RP1 ixo1 row col); cbn; unfold ixo1, s1idx; fold n; destruct HT1 as [E1 E2]; rewrite ?E1, ?E2.
  - assert (col * n <= (n - 1) * n) by (apply Z.mul_le_mono_nonneg_r; lia).
    assert (0 <= col * n) by (apply Z.mul_nonneg_nonneg; lia). lia.
  - assert (col * n <= (n - 1) * n) by (apply Z.mul_le_mono_nonneg_r; lia).
    assert (0 <= col * n) by (apply Z.mul_nonneg_nonneg; lia). lia.
Qed.
Lemma ix2_bound row col : 0 <= col < ass -> 0 <= row <= top2 col -> 0 <= ix2 row col < ass * n * n.
Proof.
  intros Hc Hr. unfold top2, ix2, s2idx in *. fold am dm ass n in Hr. fold am dm ass n. fold am ass in Hr |- *. fold dm in Hr |- *.
  assert (dm <= n - 2) by lia. assert (0 <= dm) by (unfold dm; lia).
  assert (0 <= col * n) by (apply Z.mul_nonneg_nonneg; lia).
  assert (col * n <= (ass - 1) * n) by (apply Z.mul_le_mono_nonneg_r; lia).
  assert (0 <= ass * n) by (apply Z.mul_nonneg_nonneg; lia).
  assert (0 <= dm * (ass * n)) by (apply Z.mul_nonneg_nonneg; lia).
  assert (dm * (ass * n) <= (n - 1) * (ass * n)) by (apply Z.mul_le_mono_nonneg_r; lia). nia.
Qed.
Lemma tabO2 row col : 0 <= col < ass -> 0 <= row <= top2 col -> tab2 (sp_s2 SRP) (sp_c2 SRP) (ix2 row col) = Some (sc RP2 ix2 row col).
Proof.
  intros Hc Hr. pose proof (ix2_bound row col Hc Hr).
  apply (tab_ok RP2 ix2 row col); cbn; destruct HT2 as [E1 E2]; rewrite ?E1, ?E2; auto.
Qed.

Lemma real_spin_hi2lo A0 : mreal A0 (fun A => kernel_spinsph_hi2lo rot rot_t ap SRP m A oA S)
  (fun _ => OD2 (if 0 <=? m * sp_s SRP then rot else rot_t) ++ OD1 rot).
Proof.
  unfold kernel_spinsph_hi2lo. apply real_seq.
  - set (r := if 0 <=? m * sp_s SRP then rot else rot_t). eapply real_prog.
    + apply (real_colsD oA (2 * S) n 2 1 1 top2 (fnRC r RP2 ix2) ltac:(lia) A0 (Z.min am ass - 1) 0
        (fun k j A => do sc <- tab2 (sp_s2 SRP) (sp_c2 SRP) (ix2 k j);
           ap r (fst sc) (snd sc) A (oA + k * (2 * S)) (oA + (k + 1) * (2 * S)))); [lia|].
      intros row col Hc Hr. rewrite tabO2 by (auto; lia). cbn [obind]. unfold opRC, fnRC.
      unfold top2 in Hr. fold n in Hr. apply Hap; lia.
    + intros A _. now rewrite for_dn_st1.
  - eapply real_prog.
    + apply (real_colsD oA (2 * S) n 2 2 2 top1 (fnRC rot RP1 ixo1) ltac:(lia) A0 (dm - 2) (Z.rem (am + ass) 2)
        (fun k j A => do sc <- tab2 (sp_s1 SRP) (sp_c1 SRP) (ixo1 k j);
           ap rot (fst sc) (snd sc) A (oA + k * (2 * S)) (oA + (k + 2) * (2 * S)))); [lia|].
      intros row col Hc Hr. rewrite tabO1 by (auto; lia). cbn [obind]. unfold opRC, fnRC.
      unfold top1 in Hr. fold n in Hr. apply Hap; lia.
    + intros A _. reflexivity.
Qed.
Lemma real_spin_lo2hi A0 : mreal A0 (fun A => kernel_spinsph_lo2hi rot rot_t ap SRP m A oA S)
  (fun _ => OU1 rot_t ++ OU2 (if 0 <=? m * sp_s SRP then rot_t else rot)).
Proof.
  unfold kernel_spinsph_lo2hi. apply real_seq.
  - eapply real_prog.
    + eapply real_equiv.
      * apply (real_colsU oA (2 * S) n 2 2 2 top1 (fnRC rot_t RP1 ixo1) ltac:(lia) A0 (Z.rem (am + ass) 2) (dm - 2 + 1)
        (fun k j A => do sc <- tab2 (sp_s1 SRP) (sp_c1 SRP) (ixo1 k j);
           ap rot_t (fst sc) (snd sc) A (oA + k * (2 * S)) (oA + (k + 2) * (2 * S)))); [lia|].
        intros row col Hc Hr. rewrite tabO1 by (auto; lia). cbn [obind]. unfold opRC, fnRC.
        unfold top1 in Hr. fold n in Hr. apply Hap; lia.
      * intros i Hi. apply equiv_eq. unfold OU1, opsU.
        assert (E : exists q, 0 <= q /\ dm - Z.rem (am + ass) 2 = 2 * q).
        { exists ((dm - Z.rem (am + ass) 2) / 2). unfold dm. lia. }
        destruct E as (q & Hq & E).
        rewrite (upsst_cnt _ (dm - 2 + 1) 2 _ q), (upsst_cnt _ dm 2 _ q) by lia. reflexivity.
    + intros A _. reflexivity.
  - set (r := if 0 <=? m * sp_s SRP then rot_t else rot). eapply real_prog.
    + apply (real_colsU oA (2 * S) n 2 1 1 top2 (fnRC r RP2 ix2) ltac:(lia) A0 0 (Z.min am ass)
        (fun k j A => do sc <- tab2 (sp_s2 SRP) (sp_c2 SRP) (ix2 k j);
           ap r (fst sc) (snd sc) A (oA + k * (2 * S)) (oA + (k + 1) * (2 * S)))); [lia|].
      intros row col Hc Hr. rewrite tabO2 by (auto; lia). cbn [obind]. unfold opRC, fnRC.
      unfold top2 in Hr. fold n in Hr. apply Hap; lia.
    + intros A _. now rewrite for_up_st1.
Qed.
End Spin.

(** the two ways a complex rotation is implemented *)
Lemma real_apply_rotc oA S n A0 r s c x y : 1 <= S -> 0 <= x < n -> 0 <= y < n -> x <> y ->
  real (minv oA (2 * S) n 2 A0) (mview oA (2 * S) n) 2
    (fun A => apply_rotc r s c A (oA + x * (2 * S)) (oA + y * (2 * S))) (fun _ => [mkop x y (r s c)]).
Proof.
  intros HS Hx Hy Hxy. eapply real_equiv.
  - eapply real_prog.
    + apply real_seq.
      * apply (real_apply_rot oA (2 * S) n 2 ltac:(lia) A0 r s c x y 0); lia.
      * apply (real_apply_rot oA (2 * S) n 2 ltac:(lia) A0 r s c x y 1); lia.
    + intros A _. unfold apply_rotc.
      replace (oA + 0 + x * (2 * S)) with (oA + x * (2 * S)) by lia.
      replace (oA + 0 + y * (2 * S)) with (oA + y * (2 * S)) by lia.
      replace (oA + x * (2 * S) + 1) with (oA + 1 + x * (2 * S)) by lia.
      replace (oA + y * (2 * S) + 1) with (oA + 1 + y * (2 * S)) by lia. reflexivity.
  - intros i Hi. apply equiv_eq. unfold only. assert (i = 0 \/ i = 1) as [-> | ->] by lia; reflexivity.
Qed.
Lemma real_vapply_rotc oA S n A0 r s c x y : 1 <= S -> 0 <= x < n -> 0 <= y < n -> x <> y ->
  real (minv oA (2 * S) n 2 A0) (mview oA (2 * S) n) 2
    (fun A => vapply_rot r 2 s c A (oA + x * (2 * S)) (oA + y * (2 * S))) (fun _ => [mkop x y (r s c)]).
Proof.
  intros HS Hx Hy Hxy. apply (real_vapply_rot oA (2 * S) n 2 ltac:(lia)); lia.
Qed.
End Gen.

(** ** Consequences over the reals *)
Section SpinR.
Variable SRP : spinplan R.
Let n := sp_n SRP.
Let ass := Z.abs (sp_s SRP).
Hypothesis HN : 0 <= n.
Hypothesis HT1 : zlen (sp_s1 SRP) = n * n /\ zlen (sp_c1 SRP) = n * n.
Hypothesis HT2 : zlen (sp_s2 SRP) = ass * n * n /\ zlen (sp_c2 SRP) = ass * n * n.
Hypothesis HU1 : forall l m, 0 <= m -> 0 <= l -> l + m < n -> unit_pair (sp_s1 SRP) (sp_c1 SRP) (s1idx n l m).
Hypothesis HU2 : forall l j m, 0 <= m -> 0 <= j < ass -> 0 <= l -> l + j + m < n -> unit_pair (sp_s2 SRP) (sp_c2 SRP) (s2idx n ass l j m).
Variables (oA S : Z).
Hypothesis HS : 1 <= S.
Variable m : Z.
Variable ap : (R -> R -> R -> R -> R * R) -> R -> R -> list R -> Z -> Z -> option (list R).
Hypothesis Hap : forall A0 r s c x y, 0 <= x < n -> 0 <= y < n -> x <> y ->
  real (minv oA (2 * S) n 2 A0) (mview oA (2 * S) n) 2
   (fun A => ap r s c A (oA + x * (2 * S)) (oA + y * (2 * S))) (fun _ => [mkop x y (r s c)]).
Let dm := Z.abs (Z.abs m - ass).

Lemma unitO (RP : rotplan R) ix row col : unit_pair (rp_s RP) (rp_c RP) (ix row col) ->
  (fst (sc RP ix row col) * fst (sc RP ix row col) + snd (sc RP ix row col) * snd (sc RP ix row col) = 1)%R.
Proof.
  intros (x & y & Ex & Ey & E). unfold sc; cbn.
  now rewrite (nthZ_zget _ _ _ _ Ex), (nthZ_zget _ _ _ _ Ey).
Qed.
Lemma unit1 row col : 0 <= col -> 0 <= row <= top1 SRP col ->
  (fst (sc (RP1 SRP) (ixo1 SRP) row col) * fst (sc (RP1 SRP) (ixo1 SRP) row col)
   + snd (sc (RP1 SRP) (ixo1 SRP) row col) * snd (sc (RP1 SRP) (ixo1 SRP) row col) = 1)%R.
Proof. intros Hc Hr. apply unitO. unfold top1 in Hr. apply HU1; unfold n; lia. Qed.
Lemma unit2 row col : 0 <= col < ass -> 0 <= row <= top2 SRP m col ->
  (fst (sc (RP2 SRP) (ix2 SRP m) row col) * fst (sc (RP2 SRP) (ix2 SRP m) row col)
   + snd (sc (RP2 SRP) (ix2 SRP m) row col) * snd (sc (RP2 SRP) (ix2 SRP m) row col) = 1)%R.
Proof. intros Hc Hr. apply unitO. unfold top2 in Hr. apply HU2; unfold n, ass in *; lia. Qed.

Lemma step1 j a : 0 <= a -> 0 <= j - 2 * a -> top1 SRP (j - 2 * a) = top1 SRP j + 2 * a. Proof. unfold top1; lia. Qed.
Lemma step2 j a : 0 <= a -> 0 <= j - 1 * a -> top2 SRP m (j - 1 * a) = top2 SRP m j + 1 * a. Proof. unfold top2; lia. Qed.

Definition inv_rot (r r' : R -> R -> R -> R -> R * R) := (r = givens /\ r' = givens_t) \/ (r = givens_t /\ r' = givens).
Lemma undo_rot r r' s c a b : inv_rot r r' -> (s * s + c * c = 1)%R ->
  r' s c (fst (r s c a b)) (snd (r s c a b)) = (a, b).
Proof. intros [[-> ->]|[-> ->]] Hs; [now apply givens_undo|now apply givens_undo']. Qed.
Lemma norm_rot r r' s c a b : inv_rot r r' -> (s * s + c * c = 1)%R ->
  (fst (r s c a b) * fst (r s c a b) + snd (r s c a b) * snd (r s c a b) = a * a + b * b)%R.
Proof. intros [[-> ->]|[-> ->]] Hs; [now apply givens_norm|now apply givens_t_norm]. Qed.

Lemma undo_OD1 r r' : inv_rot r r' -> Forall2 (fun o p => undoes p o) (OD1 SRP m r) (OD1 SRP m r').
Proof.
  intros Hr. apply Forall2_opsD; [lia|lia|]. intros row col Hc Hr'. unfold undoes, opRC, fnRC; cbn.
  repeat split; try lia. intros. apply undo_rot; auto. apply unit1; lia.
Qed.
Lemma undo_OD2 r r' : inv_rot r r' -> Forall2 (fun o p => undoes p o) (OD2 SRP m r) (OD2 SRP m r').
Proof.
  intros Hr. apply Forall2_opsD; [lia|lia|]. intros row col Hc Hr'. unfold undoes, opRC, fnRC; cbn.
  repeat split; try lia. intros. apply undo_rot; auto. apply unit2; auto. unfold ass; lia.
Qed.
Lemma OU1_rev r : OU1 SRP m r = rev (OD1 SRP m r).
Proof. apply (opsU_rev 2 2 _ _ ltac:(lia) step1); lia. Qed.
Lemma OU2_rev r : OU2 SRP m r = rev (OD2 SRP m r).
Proof. apply (opsU_rev 1 1 _ _ ltac:(lia) step2); [lia|]. rewrite Z.mod_1_r. reflexivity. Qed.

Notation hi2lo := (kernel_spinsph_hi2lo givens givens_t ap SRP m).
Notation lo2hi := (kernel_spinsph_lo2hi givens givens_t ap SRP m).
Let g := if 0 <=? m * sp_s SRP then @givens R _ else givens_t.
Let g' := if 0 <=? m * sp_s SRP then @givens_t R _ else givens.
Lemma inv_gg : inv_rot g g'. Proof. unfold inv_rot, g, g'. destruct (0 <=? _); auto. Qed.
Lemma inv_gg' : inv_rot g' g. Proof. unfold inv_rot, g, g'. destruct (0 <=? _); auto. Qed.

Lemma spin_roundtrip A : columns_fit A oA (2 * S) n 2 -> exists B, hi2lo A oA S = Some B /\ lo2hi B oA S = Some A.
Proof.
  intros Ft. eapply (roundtrip_gen oA (2 * S) n 2 ltac:(lia) A (fun A => hi2lo A oA S) (fun A => lo2hi A oA S)); [exact Ft|..].
  - apply (real_spin_hi2lo givens givens_t ap SRP HN HT1 HT2 oA S Hap m).
  - apply (real_spin_lo2hi givens givens_t ap SRP HN HT1 HT2 oA S Hap m).
  - intros i _. fold g g'. exists (OD2 SRP m g' ++ OD1 SRP m givens_t). split.
    + apply Forall2_app; [apply undo_OD2, inv_gg|apply undo_OD1]. now left.
    + now rewrite rev_app_distr, OU1_rev, OU2_rev.
Qed.
Lemma spin_roundtrip' A : columns_fit A oA (2 * S) n 2 -> exists B, lo2hi A oA S = Some B /\ hi2lo B oA S = Some A.
Proof.
  intros Ft. eapply (roundtrip_gen oA (2 * S) n 2 ltac:(lia) A (fun A => lo2hi A oA S) (fun A => hi2lo A oA S)); [exact Ft|..].
  - apply (real_spin_lo2hi givens givens_t ap SRP HN HT1 HT2 oA S Hap m).
  - apply (real_spin_hi2lo givens givens_t ap SRP HN HT1 HT2 oA S Hap m).
  - intros i _. fold g g'. exists (rev (OD1 SRP m givens) ++ rev (OD2 SRP m g)). split.
    + rewrite OU1_rev, OU2_rev. apply Forall2_app; apply Forall2_rev; [apply undo_OD1; now right|apply undo_OD2, inv_gg'].
    + now rewrite rev_app_distr, !rev_involutive.
Qed.
Lemma iso1 r r' o : inv_rot r r' -> In o (OD1 SRP m r) -> 0 <= ox o < n /\ 0 <= oy o < n /\ ox o <> oy o /\ isometric o.
Proof.
  intros Hi Ho. apply In_opsD in Ho as (row & col & Hc & Hr & ->); [|lia|lia].
  unfold opRC; cbn. pose proof Hr. unfold top1 in Hr. fold n in Hr. repeat split; try lia. unfold isometric, fnRC; cbn. intros.
  apply (norm_rot r r'); auto. apply unit1; auto. lia.
Qed.
Lemma iso2 r r' o : inv_rot r r' -> In o (OD2 SRP m r) -> 0 <= ox o < n /\ 0 <= oy o < n /\ ox o <> oy o /\ isometric o.
Proof.
  intros Hi Ho. apply In_opsD in Ho as (row & col & Hc & Hr & ->); [|lia|lia].
  unfold opRC; cbn. pose proof Hr. unfold top2 in Hr. fold n in Hr. repeat split; try lia. unfold isometric, fnRC; cbn. intros.
  apply (norm_rot r r'); auto. apply unit2; auto. unfold ass; lia.
Qed.
Lemma spin_norm_hi2lo A : columns_fit A oA (2 * S) n 2 -> exists B, hi2lo A oA S = Some B /\
  only_columns_changed A B oA (2 * S) n 2 /\ forall i, 0 <= i < 2 -> sumsq n B (oA + i) (2 * S) = sumsq n A (oA + i) (2 * S).
Proof.
  intros Ft. eapply (norm_gen oA (2 * S) n 2 A (fun A => hi2lo A oA S)); [exact HN|exact Ft|..].
  - apply (real_spin_hi2lo givens givens_t ap SRP HN HT1 HT2 oA S Hap m).
  - intros i o _ Ho. fold g in Ho. apply in_app_or in Ho as [Ho|Ho]; [eapply iso2|eapply iso1]; eauto; [apply inv_gg|now left].
Qed.
Lemma spin_norm_lo2hi A : columns_fit A oA (2 * S) n 2 -> exists B, lo2hi A oA S = Some B /\
  only_columns_changed A B oA (2 * S) n 2 /\ forall i, 0 <= i < 2 -> sumsq n B (oA + i) (2 * S) = sumsq n A (oA + i) (2 * S).
Proof.
  intros Ft. eapply (norm_gen oA (2 * S) n 2 A (fun A => lo2hi A oA S)); [exact HN|exact Ft|..].
  - apply (real_spin_lo2hi givens givens_t ap SRP HN HT1 HT2 oA S Hap m).
  - intros i o _ Ho. fold g' in Ho. rewrite OU1_rev, OU2_rev in Ho. apply in_app_or in Ho as [Ho|Ho]; apply in_rev in Ho;
      [eapply iso1|eapply iso2]; eauto; [now right|apply inv_gg'].
Qed.
End SpinR.
