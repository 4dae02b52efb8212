(** Proofs in the form used by Properties_Permute.v *)
From Coq Require Import ZArith List Lia Bool ZifyBool ZifyNat.
From Verif Require Import Base BaseFacts MPermute PPermute.
Import ListNotations.
Open Scope Z_scope.

Section P.
Context {F : Type}.
Implicit Types A B : list F.

Lemma agree_eq A A' A0 N M : zlen A = N * M -> zlen A' = zlen A ->
  (forall p, zget A' p = if (0 <=? p) && (p <? 0 + N * M) then zget A p else zget A0 p) -> A' = A.
Proof.
  intros L1 L2 H. apply zget_ext_in; auto. intros i Hi. rewrite H.
  now replace ((0 <=? i) && (i <? 0 + N * M)) with true by lia.
Qed.

Lemma C01_permute_proof (A B A0 : list F) N M L :
    0 <= N -> 1 <= L -> 0 <= M -> (L | M) ->
    zlen A = N * M -> zlen B = N * M -> zlen A0 = N * M ->
    exists B', permute A 0 B 0 N M L = Some B' /\ zlen B' = N * M /\
      (forall g r c, 0 <= g < M / L -> 0 <= r < N -> 0 <= c < L ->
         zget B' (g * (L * N) + (r * L + c)) = zget A (r + (g * L + c) * N)) /\
      permute_t A0 0 B' 0 N M L = Some A.
Proof.
  intros HN HL HM [q Hq] LA LB LA0.
  assert (Hq0 : 0 <= q) by nia.
  pose proof (permute_layout (F:=F) N M L q HN ltac:(lia) Hq0 Hq) as Lay.
  destruct (layout_fwd_bwd _ _ N M _ HN Lay A 0 B 0) as [B' [E [L1 [_ X]]]]; try lia.
  cbv beta in *. exists B'. split; [auto|split; [lia|split]].
  - destruct (permute_spec A 0 B 0 N M L q) as [B2 [E2 [_ [G _]]]]; try lia.
    assert (B2 = B') by congruence. subst B2. intros g r c Hg Hr Hc.
    assert (g < q). { subst M. rewrite Z.div_mul in Hg; lia. }
    specialize (G r (g * L + c) Hr ltac:(nia)). rewrite dst_group in G by lia.
    rewrite !Z.add_0_l in G. now rewrite Z.add_assoc.
  - destruct (X A0) as [A' [E2 [L2 G]]]; [lia|]. rewrite E2. f_equal.
    apply (agree_eq A A' A0 N M); auto.
Qed.
Lemma C01_permute_t_proof (A B B0 : list F) N M L :
    0 <= N -> 1 <= L -> 0 <= M -> (L | M) ->
    zlen A = N * M -> zlen B = N * M -> zlen B0 = N * M ->
    exists A', permute_t A 0 B 0 N M L = Some A' /\ permute A' 0 B0 0 N M L = Some B.
Proof.
  intros HN HL HM [q Hq] LA LB LB0.
  assert (Hq0 : 0 <= q) by nia.
  pose proof (permute_layout (F:=F) N M L q HN ltac:(lia) Hq0 Hq) as Lay.
  destruct (layout_bwd_fwd _ _ N M _ Lay A 0 B 0) as [A' [E [L1 [_ X]]]]; try lia.
  cbv beta in *. exists A'. split; [auto|].
  destruct (X B0) as [B' [E2 [L2 G]]]; [lia|]. rewrite E2. f_equal.
  apply (agree_eq B B' B0 N M); auto.
Qed.

Lemma ragged_props fwd bwd N M L R q (A B A0 : list F) :
  0 <= N -> 1 <= L -> 0 <= M -> 0 <= R -> 0 <= q -> M - R = q * L ->
  layout_pair fwd bwd N M (ragged N L R (fun r c => r + c * N)) ->
  zlen A = N * M -> zlen B = N * M -> zlen A0 = N * M ->
  exists B', fwd A 0 B 0 = Some B' /\ zlen B' = N * M /\
    (forall r c, 0 <= r < N -> 0 <= c < R -> zget B' (r + c * N) = zget A (r + c * N)) /\
    (forall g r c, 0 <= g < (M - R) / L -> 0 <= r < N -> 0 <= c < L ->
       zget B' (R * N + (g * (L * N) + (r * L + c))) = zget A (r + (R + (g * L + c)) * N)) /\
    bwd A0 0 B' 0 = Some A.
Proof.
  intros HN HL HM HR Hq HMR Lay LA LB LA0.
  destruct (layout_fwd_bwd _ _ N M _ HN Lay A 0 B 0) as [B' [E [L1 [_ X]]]]; try lia.
  exists B'. split; [auto|split; [lia|]].
  destruct Lay as [_ [_ [Hf _]]]. destruct (Hf A 0 B 0) as [B2 [E2 [_ [G _]]]]; try lia.
  assert (B2 = B') by congruence. subst B2.
  split; [|split].
  - intros r c Hr Hc. specialize (G r c Hr ltac:(nia)). unfold ragged in G.
    replace (c <? R) with true in G by lia. exact G.
  - intros g r c Hg Hr Hc. rewrite HMR, Z.div_mul in Hg by lia.
    specialize (G r (R + (g * L + c)) Hr ltac:(nia)). unfold ragged in G.
    replace (R + (g * L + c) <? R) with false in G by nia.
    replace (R + (g * L + c) - R) with (g * L + c) in G by lia.
    rewrite dst_group in G by lia. rewrite !Z.add_0_l in G. now rewrite !Z.add_assoc in *.
  - destruct (X A0) as [A' [E3 [L2 G3]]]; [lia|]. rewrite E3. f_equal.
    apply (agree_eq A A' A0 N M); auto.
Qed.
Lemma back_props fwd bwd N M D (A B B0 : list F) :
  layout_pair fwd bwd N M D -> zlen A = N * M -> zlen B = N * M -> zlen B0 = N * M ->
  exists A', bwd A 0 B 0 = Some A' /\ fwd A' 0 B0 0 = Some B.
Proof.
  intros Lay LA LB LB0.
  destruct (layout_bwd_fwd _ _ N M _ Lay A 0 B 0) as [A' [E [L1 [_ X]]]]; try lia.
  exists A'. split; [auto|]. destruct (X B0) as [B' [E2 [L2 G]]]; [lia|]. rewrite E2. f_equal.
  apply (agree_eq B B' B0 N M); auto.
Qed.

Lemma C02_permute_sph_proof (A B A0 : list F) N M L :
    0 <= N -> 1 <= L -> 0 <= M ->
    zlen A = N * M -> zlen B = N * M -> zlen A0 = N * M ->
    exists B', permute_sph A 0 B 0 N M L = Some B' /\ zlen B' = N * M /\
      (forall r c, 0 <= r < N -> 0 <= c < M mod (2 * L) ->
         zget B' (r + c * N) = zget A (r + c * N)) /\
      (forall g r c, 0 <= g < (M - M mod (2 * L)) / L -> 0 <= r < N -> 0 <= c < L ->
         zget B' (M mod (2 * L) * N + (g * (L * N) + (r * L + c))) =
         zget A (r + (M mod (2 * L) + (g * L + c)) * N)) /\
      permute_t_sph A0 0 B' 0 N M L = Some A.
Proof.
  intros HN HL HM LA LB LA0. destruct (rem_mult M (2 * L)) as [E [H1 H2]]; try lia.
  apply (ragged_props (fun A oA B oB => permute_sph A oA B oB N M L) (fun A oA B oB => permute_t_sph A oA B oB N M L) N M L (M mod (2 * L)) (2 * (M / (2 * L))) A B A0); auto; try lia.
  apply (permute_sph_layout N M L); lia.
Qed.
Lemma C02_permute_t_sph_proof (A B B0 : list F) N M L :
    0 <= N -> 1 <= L -> 0 <= M ->
    zlen A = N * M -> zlen B = N * M -> zlen B0 = N * M ->
    exists A', permute_t_sph A 0 B 0 N M L = Some A' /\ permute_sph A' 0 B0 0 N M L = Some B.
Proof.
  intros. apply (back_props _ _ N M _ A B B0 (permute_sph_layout N M L ltac:(lia) ltac:(lia) ltac:(lia))); auto.
Qed.
Lemma C02_permute_tri_proof (A B A0 : list F) N M L :
    0 <= N -> 1 <= L -> 0 <= M ->
    zlen A = N * M -> zlen B = N * M -> zlen A0 = N * M ->
    exists B', permute_tri A 0 B 0 N M L = Some B' /\ zlen B' = N * M /\
      (forall r c, 0 <= r < N -> 0 <= c < M mod L ->
         zget B' (r + c * N) = zget A (r + c * N)) /\
      (forall g r c, 0 <= g < (M - M mod L) / L -> 0 <= r < N -> 0 <= c < L ->
         zget B' (M mod L * N + (g * (L * N) + (r * L + c))) =
         zget A (r + (M mod L + (g * L + c)) * N)) /\
      permute_t_tri A0 0 B' 0 N M L = Some A.
Proof.
  intros HN HL HM LA LB LA0. destruct (rem_mult M L) as [E [H1 H2]]; try lia.
  apply (ragged_props (fun A oA B oB => permute_tri A oA B oB N M L) (fun A oA B oB => permute_t_tri A oA B oB N M L) N M L (M mod L) (M / L) A B A0); auto; try lia.
  apply (permute_tri_layout N M L); lia.
Qed.
Lemma C02_permute_t_tri_proof (A B B0 : list F) N M L :
    0 <= N -> 1 <= L -> 0 <= M ->
    zlen A = N * M -> zlen B = N * M -> zlen B0 = N * M ->
    exists A', permute_t_tri A 0 B 0 N M L = Some A' /\ permute_tri A' 0 B0 0 N M L = Some B.
Proof.
  intros. apply (back_props _ _ N M _ A B B0 (permute_tri_layout N M L ltac:(lia) ltac:(lia) ltac:(lia))); auto.
Qed.

Lemma old_fuel e : (e < Z.to_nat (2 ^ (Z.of_nat e + 1)) + 2)%nat.
Proof.
  assert (Z.of_nat e + 1 < 2 ^ (Z.of_nat e + 1)) by (apply Z.pow_gt_lin_r; lia). lia.
Qed.
Lemma C03_old_proof (A B A0 : list F) N M (e : nat) :
    0 <= N -> 0 <= M -> zlen A = N * M -> zlen B = N * M -> zlen A0 = N * M ->
    exists B', old_permute_tri A 0 B 0 N M (2 ^ (Z.of_nat e + 1)) = Some B' /\
      zlen B' = N * M /\
      old_permute_t_tri A0 0 B' 0 N M (2 ^ (Z.of_nat e + 1)) = Some A.
Proof.
  intros HN HM LA LB LA0. unfold old_permute_tri, old_permute_t_tri.
  destruct (old_permute_tri_layout (F:=F) e N M HN HM _ (old_fuel e)) as [D Lay].
  destruct (layout_fwd_bwd _ _ N M _ HN Lay A 0 B 0) as [B' [E [L1 [_ X]]]]; try lia.
  exists B'. split; [auto|split; [lia|]].
  destruct (X A0) as [A' [E3 [L2 G3]]]; [lia|]. rewrite E3. f_equal.
  apply (agree_eq A A' A0 N M); auto.
Qed.
Lemma C03_old_t_proof (A B B0 : list F) N M (e : nat) :
    0 <= N -> 0 <= M -> zlen A = N * M -> zlen B = N * M -> zlen B0 = N * M ->
    exists A', old_permute_t_tri A 0 B 0 N M (2 ^ (Z.of_nat e + 1)) = Some A' /\
      old_permute_tri A' 0 B0 0 N M (2 ^ (Z.of_nat e + 1)) = Some B.
Proof.
  intros HN HM LA LB LB0. unfold old_permute_tri, old_permute_t_tri.
  destruct (old_permute_tri_layout (F:=F) e N M HN HM _ (old_fuel e)) as [D Lay].
  apply (back_props _ _ N M _ A B B0 Lay); auto.
Qed.

Lemma good_of swp :
  swp = swap_warp_default \/ (exists S L, 0 < S /\ 0 < L /\ swp = swap_warp_kernel (Z.to_nat S) S L) ->
  good_swap (F:=F) swp.
Proof. intros [->|[S [L [HS [HL ->]]]]]; [apply good_swap_default|now apply good_swap_kernel]. Qed.

(** the inverse of a composition of involutive passes *)
Lemma wcols_app R js1 js2 c : wcols R (js1 ++ js2) c = wcols R js1 (wcols R js2 c).
Proof. induction js1; cbn; congruence. Qed.
Lemma wcols_rev R js c : (forall j, In j js -> 0 < j) -> wcols R (rev js) (wcols R js c) = c.
Proof.
  revert c; induction js as [|j js IH]; intros c Hj; cbn; auto.
  rewrite wcols_app. cbn. rewrite wcol_invol by (apply Hj; now left). apply IH. intros; apply Hj; now right.
Qed.

Lemma warp_js_ok M e j : 0 <= M -> In j (pows 1 e) ->
  0 < j /\ exists q, M = M mod (4 * 2 ^ Z.of_nat e) + q * (4 * j).
Proof.
  intros HM Hj. apply in_pows in Hj; [|lia]. destruct Hj as [f [Hf ->]].
  split; [apply pow2_pos; lia|].
  assert (HL : 0 < 2 ^ Z.of_nat e) by (apply pow2_pos; lia).
  destruct (rem_mult M (4 * 2 ^ Z.of_nat e)) as [E1 [E2 E3]]; try lia.
  exists (M / (4 * 2 ^ Z.of_nat e) * 2 ^ (Z.of_nat e - f)).
  assert (Ep : 2 ^ Z.of_nat e = 2 ^ (Z.of_nat e - f) * 2 ^ f).
  { rewrite <- Z.pow_add_r by lia. f_equal; lia. }
  set (X := M / (4 * 2 ^ Z.of_nat e)) in *. set (Y := M mod (4 * 2 ^ Z.of_nat e)) in *.
  clearbody X Y. rewrite Ep in E1. lia.
Qed.

Lemma C04_warp_proof (swp : list F -> Z -> Z -> Z -> option (list F)) N M (e : nat) :
    swp = swap_warp_default \/ (exists S L, 0 < S /\ 0 < L /\ swp = swap_warp_kernel (Z.to_nat S) S L) ->
    0 <= N -> 0 <= M ->
    exists w w' : Z -> Z,
      (forall c, 0 <= c < M -> 0 <= w c < M /\ 0 <= w' c < M /\ w (w' c) = c /\ w' (w c) = c) /\
      forall A, zlen A = N * M ->
      exists A', warp swp A 0 N M (2 ^ Z.of_nat e) = Some A' /\ zlen A' = N * M /\
        (forall r c, 0 <= r < N -> 0 <= c < M -> zget A' (r + c * N) = zget A (r + w c * N)) /\
        warp_t swp A' 0 N M (2 ^ Z.of_nat e) = Some A.
Proof.
  intros Hs HN HM. apply good_of in Hs.
  set (R := M mod (4 * 2 ^ Z.of_nat e)).
  assert (HL : 0 < 2 ^ Z.of_nat e) by (apply pow2_pos; lia).
  assert (HR : 0 <= R) by (apply Z.mod_pos_bound; lia).
  exists (wcols R (pows 1 e)), (wcols R (rev (pows 1 e))). split.
  - intros c Hc. split; [|split; [|split]].
    + apply (wcols_range R M); auto. intros j Hj. now apply warp_js_ok.
    + apply (wcols_range R M); auto. intros j Hj. apply in_rev in Hj. now apply warp_js_ok.
    + rewrite <- (rev_involutive (pows 1 e)) at 1. apply wcols_rev.
      intros j Hj. apply in_rev in Hj. now apply (warp_js_ok M e j).
    + apply wcols_rev. intros j Hj. now apply (warp_js_ok M e j).
  - intros A LA. destruct (warp_spec swp A 0 N M e) as [A' [E [P B]]]; auto; try lia.
    exists A'. split; [auto|]. destruct P as [L1 [G K]]. split; [lia|]. split; auto.
Qed.
Lemma C04_warp_t_proof (swp : list F -> Z -> Z -> Z -> option (list F)) (A : list F) N M (e : nat) :
    swp = swap_warp_default \/ (exists S L, 0 < S /\ 0 < L /\ swp = swap_warp_kernel (Z.to_nat S) S L) ->
    0 <= N -> 0 <= M -> zlen A = N * M ->
    exists A', warp_t swp A 0 N M (2 ^ Z.of_nat e) = Some A' /\
      warp swp A' 0 N M (2 ^ Z.of_nat e) = Some A.
Proof.
  intros Hs HN HM LA. apply good_of in Hs.
  destruct (warp_t_spec swp A 0 N M e) as [A' [E [P B]]]; auto; try lia. eauto.
Qed.

Lemma C05_swap_proof (A : list F) (oA oB N S L : Z) :
    0 < S -> 0 < L -> 0 <= N -> 0 <= oA -> 0 <= oB ->
    oA + N <= zlen A -> oB + N <= zlen A -> (oA + N <= oB \/ oB + N <= oA) ->
    exists A', swap_warp_kernel (Z.to_nat S) S L A oA oB N = Some A' /\ zlen A' = zlen A /\
      (forall k, 0 <= k < N -> zget A' (oA + k) = zget A (oB + k) /\ zget A' (oB + k) = zget A (oA + k)) /\
      (forall p, ~ oA <= p < oA + N -> ~ oB <= p < oB + N -> zget A' p = zget A p) /\
      swap_warp_default A oA oB N = Some A'.
Proof.
  intros HS HL HN HoA HoB HA HB Hap.
  destruct (swap_warp_kernel_spec A oA oB N S L) as [A' [E P]]; auto.
  destruct (swap_warp_default_spec A oA oB N) as [A2 [E2 P2]]; auto.
  assert (A2 = A') by (eapply is_swapped_uniq; eauto). subst A2.
  exists A'. destruct P as [L1 G]. split; [auto|split; [auto|split; [|split; auto]]].
  - intros k Hk. rewrite !G. unfold swapped. split.
    + replace ((oA <=? oA + k) && (oA + k <? oA + N)) with true by lia. f_equal; lia.
    + replace ((oA <=? oB + k) && (oB + k <? oA + N)) with false by lia.
      replace ((oB <=? oB + k) && (oB + k <? oB + N)) with true by lia. f_equal; lia.
  - intros p H1 H2. rewrite G. unfold swapped.
    replace ((oA <=? p) && (p <? oA + N)) with false by lia.
    now replace ((oB <=? p) && (p <? oB + N)) with false by lia.
Qed.
End P.

Lemma C05_AVX512Ff_refuted_proof :
  (exists (A : list Z) oA oB N, 0 <= oA /\ oA + N <= oB /\ oB + N <= zlen A /\
     swap_warp_kernel 16 8 4 A oA oB N = None) /\
  (exists (A A' : list Z) oA oB N k, 0 <= oA /\ oA + N <= oB /\ oB + N <= zlen A /\ 0 <= k < N /\
     swap_warp_kernel 16 8 4 A oA oB N = Some A' /\ zget A' (oA + k) <> zget A (oB + k)).
Proof.
  split.
  - exists (ztab 64 (fun i => i)), 0, 32, 32. repeat split; try (vm_compute; congruence).
  - exists (ztab 80 (fun i => i)).
    exists (match swap_warp_kernel 16 8 4 (ztab 80 (fun i => i)) 0 40 32 with Some a => a | None => nil end).
    exists 0, 40, 32, 8. repeat split; try (vm_compute; congruence).
Qed.
