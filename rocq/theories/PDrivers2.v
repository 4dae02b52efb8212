(** * SIMD drivers against default drivers *)
From Coq Require Import ZArith List Lia Bool ZifyBool ZifyNat Reals.
From Verif Require Import Base BaseFacts Arith MPermute PPermute PPermute2 MRotations SpecRot PRot PRotBlock PRotKernels
  PRotFam PRotInv PRotMore PRotThms MDrivers PDrivers.
Import ListNotations.
Open Scope Z_scope.

(** closed form of the column permutation of [warp] *)
Definition inner (j u : Z) : Z := if u <? 2 * j then 4 * (u / 2) + u mod 2 else 4 * ((u - 2 * j) / 2) + 2 + u mod 2.
Lemma wcol_lo j R c : c < R -> wcol j R c = c.
Proof. intros. unfold wcol. now replace (c <? R) with true by lia. Qed.
Lemma wcols_lo R js c : c < R -> wcols R js c = c.
Proof. intros. induction js; cbn; auto. now rewrite IHjs, wcol_lo. Qed.
Lemma wcol_val j R b u : 0 < j -> 0 <= b -> 0 <= u < 4 * j ->
  wcol j R (R + b * (4 * j) + u) = R + b * (4 * j) + (if (j <=? u) && (u <? 2 * j) then u + j else if (2 * j <=? u) && (u <? 3 * j) then u - j else u).
Proof.
  intros Hj Hb Hu. unfold wcol. replace (R + b * (4 * j) + u <? R) with false by nia.
  replace (R + b * (4 * j) + u - R) with (u + b * (4 * j)) by lia.
  rewrite Z.mod_add, Z.mod_small by lia.
  destruct ((j <=? u) && (u <? 2 * j)); [lia|]. destruct ((2 * j <=? u) && (u <? 3 * j)); lia.
Qed.
Lemma wcols_val e : forall R b u, 0 <= b -> 0 <= u < 4 * 2 ^ Z.of_nat e ->
  wcols R (pows 1 e) (R + b * (4 * 2 ^ Z.of_nat e) + u) = R + b * (4 * 2 ^ Z.of_nat e) + inner (2 ^ Z.of_nat e) u.
Proof.
  induction e as [|e IH]; intros R b u Hb Hu.
  - change (2 ^ Z.of_nat 0) with 1 in *. cbn [pows wcols]. unfold inner.
    destruct (u <? 2 * 1) eqn:E; lia.
  - rewrite pows_snoc by lia. rewrite wcols_app. cbn [wcols].
    replace (1 + Z.of_nat e) with (Z.of_nat (S e)) by lia.
    assert (E2 : 2 ^ Z.of_nat (S e) = 2 * 2 ^ Z.of_nat e).
    { rewrite Nat2Z.inj_succ, Z.pow_succ_r by lia. lia. }
    rewrite E2 in *. set (j := 2 ^ Z.of_nat e) in *.
    assert (Hj : 0 < j) by (apply pow2_pos; lia).
    rewrite wcol_val by lia.
    set (v := if (2 * j <=? u) && (u <? 2 * (2 * j)) then u + 2 * j else if (2 * (2 * j) <=? u) && (u <? 3 * (2 * j)) then u - 2 * j else u).
    assert (CV : (v = u + 2 * j /\ 2 * j <= u < 4 * j) \/ (v = u - 2 * j /\ 4 * j <= u < 6 * j) \/ (v = u /\ (u < 2 * j \/ 6 * j <= u))).
    { unfold v. destruct ((2 * j <=? u) && (u <? 2 * (2 * j))) eqn:C1; [left; lia|].
      destruct ((2 * (2 * j) <=? u) && (u <? 3 * (2 * j))) eqn:C2; right; [left|right]; lia. }
    clearbody v j. destruct (v <? 4 * j) eqn:Ev.
    + replace (R + b * (4 * (2 * j)) + v) with (R + (2 * b) * (4 * j) + v) by ring.
      rewrite IH by lia. unfold inner. clear IH.
      replace (R + b * (4 * (2 * j))) with (R + 2 * b * (4 * j)) by ring.
      destruct (u <? 2 * (2 * j)) eqn:Q1; destruct (v <? 2 * j) eqn:Q2; lia.
    + replace (R + b * (4 * (2 * j)) + v) with (R + (2 * b + 1) * (4 * j) + (v - 4 * j)) by ring.
      rewrite IH by lia. unfold inner. clear IH.
      replace (R + (2 * b + 1) * (4 * j)) with (R + b * (4 * (2 * j)) + 4 * j) by ring.
      destruct (u <? 2 * (2 * j)) eqn:Q1; destruct (v - 4 * j <? 2 * j) eqn:Q2; lia.
Qed.

Lemma C04_warp_bij M e : 0 <= M -> exists w' : Z -> Z, forall c, 0 <= c < M ->
  0 <= wcols (M mod (4 * 2 ^ Z.of_nat e)) (pows 1 e) (w' c) < M /\ 0 <= w' c < M /\
  wcols (M mod (4 * 2 ^ Z.of_nat e)) (pows 1 e) (w' c) = c.
Proof.
  intros HM. set (R := M mod (4 * 2 ^ Z.of_nat e)).
  assert (HL : 0 < 2 ^ Z.of_nat e) by (apply pow2_pos; lia).
  assert (HR : 0 <= R) by (apply Z.mod_pos_bound; lia).
  exists (wcols R (rev (pows 1 e))). intros c Hc.
  assert (E : wcols R (pows 1 e) (wcols R (rev (pows 1 e)) c) = c).
  { rewrite <- (rev_involutive (pows 1 e)) at 1. apply wcols_rev.
    intros j Hj. apply in_rev in Hj. now apply (warp_js_ok M e j). }
  rewrite E. split; [auto|]. split; [|auto].
  apply (wcols_range R M); auto. intros j Hj. apply in_rev in Hj. now apply warp_js_ok.
Qed.

Section Simd.
Context {F : Type} `{Arith F}.
Variables (N M : Z) (e : nat).
Hypothesis HN : 0 <= N.
Hypothesis HM : 0 <= M.
Let Lw := 2 ^ Z.of_nat e.
Let S := 2 * Lw.
Lemma Lw_pos : 0 < Lw. Proof. apply pow2_pos; lia. Qed.

(** a vector kernel acting on [S] interleaved columns *)
Definition acts_on_lanes (ks : kern F) (ok : Z -> Z -> Prop) (lop : Z -> Z -> Z -> list (op F)) : Prop :=
  forall A0 oA m1 m2, 0 <= m1 <= m2 -> ok m1 m2 ->
    real (minv oA S N S A0) (mview oA S N) S (fun A => ks m1 m2 A oA S) (lop m1 m2).

Variable (opf : Z -> Z -> list (op F)).
Let R := M mod (2 * S).
Let w := wcols R (pows 1 e).
Let D := ragged N S R (cm N).

Lemma sph_simd_loop ks ok B : M mod 2 = 1 -> zlen B = N * M ->
  acts_on_lanes ks ok (fun m1 m2 i => opf m1 (m2 + 2 * (i / 2))) ->
  (forall m1 m2, 0 <= m1 <= m2 -> (m2 - m1) mod 2 = 0 -> m2 <= M / 2 + 2 - S -> ok m1 m2) ->
  exists B', for_upst ((R + 1) / 2) (M / 2 + 1) S (sph_simd_body ks N S) B = Some B' /\
    dwise N M D (fun c => if R <=? c then pair_ops opf 1 (M / 2 + 1) (w c) else []) B B'.
Proof.
  intros Ho LB HK Hok. pose proof Lw_pos as HL.
  assert (HS : 0 < S) by (unfold S; lia).
  pose proof (Z.div_mod M (2 * S) ltac:(lia)) as EM. fold R in EM. set (q := M / (2 * S)) in *.
  pose proof (Z.mod_pos_bound M (2 * S) ltac:(lia)) as BR. fold R in BR.
  assert (Hq : 0 <= q) by (apply Z.div_pos; lia).
  assert (RO : R mod 2 = 1).
  { unfold S in EM. rewrite EM in Ho. replace (2 * (2 * Lw) * q + R) with (R + (2 * Lw * q) * 2) in Ho by lia.
    now rewrite Z.mod_add in Ho by lia. }
  assert (G : good_layout N M D).
  { apply (ragged_good N M HN S R (2 * q)); lia. }
  set (m0 := (R + 1) / 2) in *. assert (Em0 : R = 2 * m0 - 1) by (unfold m0; lia).
  assert (Hm0 : 1 <= m0) by lia.
  assert (EMh : M / 2 + 1 = m0 + q * S). { clear - EM Em0 Hq HL. clearbody q. unfold S in *. lia. }
  destruct (for_upst_inv (fun m X => dwise N M D (fun c => if (R <=? c) && (c <? 2 * m - 1) then pair_ops opf 1 (M / 2 + 1) (w c) else []) B X)
    m0 (M / 2 + 1) S (sph_simd_body ks N S) B) as (B' & E & DB); auto.
  - eapply dwise_ext; [|apply dwise_refl]. intros c Hc. cbv beta.
    now replace ((R <=? c) && (c <? 2 * m0 - 1)) with false by lia.
  - intros k m X Hk Em Hm DX. pose proof (proj1 DX) as LX.
    assert (Hkq : k < q). { rewrite EMh, Em in Hm. apply (Zmult_gt_0_lt_reg_r k q S); lia. }
    assert (HmM : m + S <= M / 2 + 1). { rewrite EMh, Em. pose proof (mul_lt_le k q S). lia. }
    assert (Hc2 : 2 * m - 1 + 2 * S <= M) by lia.
    (* the two groups of the iteration *)
    assert (GRP : forall x mm X, (x = 0 \/ x = 1) -> mm = m + x -> zlen X = N * M ->
      exists X1, ks (mm mod 2) mm X (N * (2 * m - 1 + x * S)) S = Some X1 /\
       dwise N M D (fun c => if (2 * m - 1 + x * S <=? c) && (c <? 2 * m - 1 + x * S + S) then opf (mm mod 2) (mm + 2 * ((c - (2 * m - 1 + x * S)) / 2)) else []) X X1).
    { intros x mm Y Hx Emm LY.
      assert (HxS : 0 <= x * S <= S) by (destruct Hx; subst x; lia).
      apply (lane_step N M D Y (fun Y => ks (mm mod 2) mm Y (N * (2 * m - 1 + x * S)) S)
        (fun i => opf (mm mod 2) (mm + 2 * (i / 2))) (2 * m - 1 + x * S) S (N * (2 * m - 1 + x * S)) S); auto; try lia.
      - intros r i Hr Hi. replace (2 * m - 1 + x * S + i) with (R + (2 * k + x) * S + i) by lia.
        unfold D. rewrite ragged_hi by lia. replace (R + (2 * k + x) * S) with (2 * m - 1 + x * S) by lia. lia.
      - apply HK. { split; [lia|]. subst mm. lia. } apply Hok; try lia. }
    destruct (GRP 0 m X) as (X1 & E1 & D1); try lia.
    pose proof (proj1 D1) as LX1.
    destruct (GRP 1 (m + 1) X1) as (X2 & E2 & D2); try lia.
    exists X2. unfold sph_simd_body.
    replace (2 * m - 1 + 0 * S) with (2 * m - 1) in * by lia.
    replace (2 * m - 1 + 1 * S) with (2 * m - 1 + S) in * by lia.
    rewrite E1. cbn [obind]. split; [exact E2|].
    eapply dwise_ext; [|apply (dwise_trans N M D _ _ B X X2 DX (dwise_trans N M D _ _ X X1 X2 D1 D2))].
    intros c Hc. cbv beta.
    (* order of the column stored at [c] *)
    assert (WV : forall u, 0 <= u < 2 * S -> w (2 * m - 1 + u) = 2 * m - 1 + inner Lw u).
    { intros u Hu. unfold w. replace (2 * m - 1 + u) with (R + k * (4 * Lw) + u) by (unfold S in *; lia).
      unfold Lw at 1. rewrite wcols_val by (fold Lw; unfold S in *; lia). fold Lw. unfold S in *; lia. }
    assert (PV : forall u, 0 <= u < 2 * S -> pair_ops opf 1 (M / 2 + 1) (w (2 * m - 1 + u)) =
       if u <? S then opf (m mod 2) (m + 2 * (u / 2)) else opf ((m + 1) mod 2) (m + 1 + 2 * ((u - S) / 2))).
    { intros u Hu. rewrite WV by auto. unfold pair_ops, inner. unfold S in Hu |- *.
      destruct (u <? 2 * Lw) eqn:Eu.
      - replace ((2 * m - 1 + (4 * (u / 2) + u mod 2) + 1) / 2) with (m + 2 * (u / 2)) by lia.
        replace ((1 <=? m + 2 * (u / 2)) && (m + 2 * (u / 2) <? M / 2 + 1)) with true by (unfold S in *; lia).
        f_equal. lia.
      - replace ((2 * m - 1 + (4 * ((u - 2 * Lw) / 2) + 2 + u mod 2) + 1) / 2) with (m + 1 + 2 * ((u - 2 * Lw) / 2)) by lia.
        replace ((1 <=? m + 1 + 2 * ((u - 2 * Lw) / 2)) && (m + 1 + 2 * ((u - 2 * Lw) / 2) <? M / 2 + 1)) with true by (unfold S in *; lia).
        f_equal. lia. }
    destruct ((2 * m - 1 <=? c) && (c <? 2 * m - 1 + S)) eqn:C1.
    + replace ((R <=? c) && (c <? 2 * m - 1)) with false by lia.
      replace ((2 * m - 1 + S <=? c) && (c <? 2 * m - 1 + S + S)) with false by lia.
      replace ((R <=? c) && (c <? 2 * (m + S) - 1)) with true by lia.
      rewrite app_nil_r. cbn [app].
      specialize (PV (c - (2 * m - 1)) ltac:(lia)). replace (2 * m - 1 + (c - (2 * m - 1))) with c in PV by lia.
      rewrite PV. now replace (c - (2 * m - 1) <? S) with true by lia.
    + destruct ((2 * m - 1 + S <=? c) && (c <? 2 * m - 1 + S + S)) eqn:C2.
      * replace ((R <=? c) && (c <? 2 * m - 1)) with false by lia.
        replace ((R <=? c) && (c <? 2 * (m + S) - 1)) with true by lia. cbn [app].
        specialize (PV (c - (2 * m - 1)) ltac:(lia)). replace (2 * m - 1 + (c - (2 * m - 1))) with c in PV by lia.
        rewrite PV. replace (c - (2 * m - 1) <? S) with false by lia. do 3 f_equal. lia.
      * rewrite !app_nil_r. now replace ((R <=? c) && (c <? 2 * (m + S) - 1)) with ((R <=? c) && (c <? 2 * m - 1)) by lia.
  - exists B'. split; [exact E|]. eapply dwise_ext; [|exact DB]. intros c Hc. cbv beta.
    rewrite EMh, end_upst_exact by lia.
    replace ((R <=? c) && (c <? 2 * (m0 + q * S) - 1)) with (R <=? c); auto.
    assert (c < 2 * (m0 + q * S) - 1) by lia. lia.
Qed.

Lemma pair_ops_merge lo hi c f : lo <= hi -> pair_ops (F:=F) f lo hi c = if (2 * lo - 1 <=? c) && (c <? 2 * hi - 1) then f (((c + 1) / 2) mod 2) ((c + 1) / 2) else [].
Proof.
  intros. unfold pair_ops. now replace ((lo <=? (c + 1) / 2) && ((c + 1) / 2 <? hi)) with ((2 * lo - 1 <=? c) && (c <? 2 * hi - 1)) by lia.
Qed.

Lemma sph_simd_eq kd ks ok swp A B : good_swap swp -> M mod 2 = 1 -> zlen A = N * M -> zlen B = N * M ->
  acts_on_column N kd opf ->
  acts_on_lanes ks ok (fun m1 m2 i => opf m1 (m2 + 2 * (i / 2))) ->
  (forall m1 m2, 0 <= m1 <= m2 -> (m2 - m1) mod 2 = 0 -> m2 <= M / 2 + 2 - S -> ok m1 m2) ->
  (* orders 0 and 1 need no rotation *)
  opf 0 0 = [] -> opf 1 1 = [] ->
  exists A' B', execute_sph_simd kd ks swp S N M A B = Some (A', B') /\ zlen B' = N * M /\
    execute_sph_default kd N M A = Some A'.
Proof.
  intros Hsw Ho LA LB HKd HKs Hok Z0 Z1. pose proof Lw_pos as HL.
  assert (HS : 0 < S) by (unfold S; lia).
  pose proof (Z.div_mod M (2 * S) ltac:(lia)) as EM. fold R in EM. set (q := M / (2 * S)) in *.
  pose proof (Z.mod_pos_bound M (2 * S) ltac:(lia)) as BR. fold R in BR.
  assert (Hq : 0 <= q) by (apply Z.div_pos; lia).
  assert (RO : R mod 2 = 1).
  { clear - Ho EM. unfold S in EM. clearbody q. lia. }
  assert (G : good_layout N M D) by (apply (ragged_good N M HN S R (2 * q)); lia).
  assert (HRM : R <= M) by nia.
  unfold execute_sph_simd. replace (S / 2) with Lw by (unfold S; lia).
  destruct (warp_spec swp A 0 N M e) as (A1 & E1 & (L1 & P1 & _) & _); auto; try lia.
  fold Lw in E1. rewrite E1. cbn [obind].
  replace (4 * 2 ^ Z.of_nat e) with (2 * S) in P1 by (unfold S, Lw; lia). fold R in P1. fold w in P1.
  pose proof (permute_sph_layout (F:=F) N M S HN HS HM) as (_ & _ & Hf & Hb).
  change (ragged N S (M mod (2 * S)) (fun r c => r + c * N)) with D in *.
  destruct (Hf A1 0 B 0) as (B0 & E2 & L2 & P2 & _); try lia. cbv beta in E2. rewrite E2. cbn [obind].
  (* plain columns *)
  assert (X1 : exists B1, for_up 2 (R / 2 + 1) (sph_body kd N) B0 = Some B1 /\ dwise N M D (pair_ops opf 2 (R / 2 + 1)) B0 B1).
  { destruct (Z.eq_dec R 1) as [ER|ER].
    - rewrite ER. change (1 / 2 + 1) with 1. exists B0. split; [reflexivity|].
      eapply dwise_ext; [|apply dwise_refl]. intros c Hc. unfold pair_ops.
      now replace ((2 <=? (c + 1) / 2) && ((c + 1) / 2 <? 1)) with false by lia.
    - apply sph_loop; auto; try lia. intros r c Hr Hc. unfold D. apply ragged_lo. lia. }
  destruct X1 as (B1 & E3 & D1). fold R. rewrite E3. cbn [obind]. pose proof (proj1 D1) as L3.
  destruct (sph_simd_loop ks ok B1) as (B2 & E4 & D2); auto; try lia.
  rewrite E4. cbn [obind]. pose proof (proj1 D2) as L4.
  destruct (Hb A1 0 B2 0) as (A2 & E5 & L5 & P5 & _); try lia. cbv beta in E5. rewrite E5. cbn [obind].
  destruct (warp_t_spec swp A2 0 N M e) as (A3 & E6 & L6 & W6); auto; try lia. fold Lw in E6, W6. rewrite E6. cbn [obind].
  exists A3, B2. split; [auto|]. split; [lia|].
  destruct (sph_default N M HN kd opf A LA HKd HM Ho) as (A' & E7 & D7). rewrite E7. f_equal.
  destruct (warp_spec swp A3 0 N M e) as (A2' & E8 & (_ & P8 & _) & _); auto; try lia.
  fold Lw in E8. assert (A2' = A2) by congruence. subst A2'.
  replace (4 * 2 ^ Z.of_nat e) with (2 * S) in P8 by (unfold S, Lw; lia). fold R in P8. fold w in P8.
  destruct (C04_warp_bij M e HM) as (w' & Wb).
  replace (4 * 2 ^ Z.of_nat e) with (2 * S) in Wb by (unfold S, Lw; lia). fold R in Wb. fold w in Wb.
  pose proof (proj1 D7) as L7.
  apply (nthZ_ext zero); [lia|]. intros p Hp.
  destruct (pos_split N M p) as (r & c & Hr & Hc & ->); try lia.
  destruct (Wb c Hc) as (Wc1 & Wc2 & Wc3). set (c' := w' c) in *. rewrite <- Wc3 in *.
  (* A3 (w c') = A2 c' = B2 (D c') *)
  specialize (P8 r c' Hr Wc2). specialize (P5 r c' Hr Wc2). rewrite !Z.add_0_l in *.
  unfold nthZ at 2. rewrite <- P8, P5.
  pose proof (proj2 (dwise_trans N M D _ _ B0 B1 B2 D1 D2) c' r Wc2) as V.
  unfold dview at 1 in V. replace ((0 <=? r) && (r <? N)) with true in V by lia.
  pose proof (proj2 D7 (w c') r ltac:(lia)) as V7.
  unfold dview at 1 in V7. replace ((0 <=? r) && (r <? N)) with true in V7 by lia.
  unfold nthZ in V at 1. rewrite V. unfold cm in V7 at 1. rewrite V7.
  (* the two lists of operations and the two columns agree *)
  transitivity (run (pair_ops opf 2 (M / 2 + 1) (w c')) (dview N D B0 c') r).
  - apply run_ext. intros x. unfold dview. destruct ((0 <=? x) && (x <? N)) eqn:Ex; auto.
    unfold nthZ, cm. specialize (P2 x c' ltac:(lia) Wc2). specialize (P1 x c' ltac:(lia) Wc2).
    rewrite !Z.add_0_l in *. now rewrite P2, P1.
  - f_equal. destruct (R <=? c') eqn:ER.
    + assert (Epre : pair_ops opf 2 (R / 2 + 1) c' = []).
      { unfold pair_ops. now replace ((2 <=? (c' + 1) / 2) && ((c' + 1) / 2 <? R / 2 + 1)) with false by lia. }
      rewrite Epre. cbn [app]. unfold pair_ops. set (m := (w c' + 1) / 2).
      destruct (Z_le_dec 2 m).
      * now replace ((2 <=? m) && (m <? M / 2 + 1)) with ((1 <=? m) && (m <? M / 2 + 1)) by lia.
      * replace ((2 <=? m) && (m <? M / 2 + 1)) with false by lia.
        assert (Hm : m = 0 \/ m = 1) by (unfold m; lia).
        destruct Hm as [-> | ->]; cbn [Z.leb Z.compare]; destruct (_ && _); auto.
    + assert (Ew : w c' = c') by (apply wcols_lo; lia). rewrite Ew, app_nil_r.
      unfold pair_ops.
      now replace ((2 <=? (c' + 1) / 2) && ((c' + 1) / 2 <? R / 2 + 1)) with ((2 <=? (c' + 1) / 2) && ((c' + 1) / 2 <? M / 2 + 1)) by lia.
Qed.
End Simd.
