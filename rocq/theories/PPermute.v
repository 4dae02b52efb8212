(** Proofs about MPermute. *)
From Coq Require Import ZArith List Lia Bool ZifyBool ZifyNat.
From Verif Require Import Base BaseFacts MPermute.
Import ListNotations.
Open Scope Z_scope.

Section P.
Context {F : Type}.
Implicit Types A B : list F.

Lemma copy_loop_spec src oS dst oD n :
  0 <= n -> 0 <= oS -> oS + n <= @zlen F src -> 0 <= oD -> oD + n <= zlen dst ->
  exists dst', copy_loop src oS dst oD n = Some dst' /\ zlen dst' = zlen dst /\
    (forall i, 0 <= i < n -> zget dst' (oD + i) = zget src (oS + i)) /\
    (forall p, ~ oD <= p < oD + n -> zget dst' p = zget dst p).
Proof.
  intros Hn H1 H2 H3 H4. unfold copy_loop.
  destruct (for_up_inv (fun k d => zlen d = zlen dst /\
    (forall i, 0 <= i < k -> zget d (oD + i) = zget src (oS + i)) /\
    (forall p, ~ oD <= p < oD + n -> zget d p = zget dst p)) 0 n
    (fun i dst => do v <- zget src (oS + i); zset dst (oD + i) v) dst) as [d [E [Ha [Hb Hc]]]].
  - lia.
  - repeat split; auto. intros; lia.
  - intros i d Hi [Ha [Hb Hc]].
    destruct (zget_ex src (oS + i)) as [v Ev]; [lia|].
    rewrite Ev; cbn. rewrite zset_some by lia. eexists; split; [reflexivity|].
    rewrite zlen_zupd. split; [auto|split].
    + intros k Hk. rewrite zget_zupd by lia.
      destruct (Z.eqb_spec (oD + i) (oD + k)).
      * replace k with i by lia. auto.
      * apply Hb. lia.
    + intros p Hp. rewrite zget_zupd_other by lia. auto.
  - exists d; auto.
Qed.

(** position of (row r, column c) inside the interleaved array *)
Definition dst (N L r c : Z) : Z := (c / L) * (L * N) + r * L + c mod L.

Lemma phi_eq N L r c : 0 < L -> 0 <= r < N -> 0 <= c < L ->
  (L * (r + c * N)) mod (L * N) + (L * (r + c * N)) / (L * N) = r * L + c.
Proof.
  intros HL Hr Hc.
  assert (E : L * (r + c * N) = (L * N) * c + L * r) by ring.
  assert (B : 0 <= L * r < L * N) by nia.
  rewrite <- (Z.mod_unique (L * (r + c*N)) (L * N) c (L * r)) by (auto; left; auto).
  rewrite <- (Z.div_unique (L * (r + c*N)) (L * N) c (L * r)) by (auto; left; auto).
  ring.
Qed.

Lemma dst_range N M L r c q : 0 < L -> 0 <= r < N -> M = q * L -> 0 <= c < M ->
  0 <= dst N L r c < N * M.
Proof.
  intros HL Hr HM Hc. unfold dst.
  pose proof (Z.div_mod c L ltac:(lia)). pose proof (Z.mod_pos_bound c L HL).
  set (g := c / L) in *. set (m := c mod L) in *.
  assert (0 <= g < q) by nia.
  assert (0 <= r * L + m < L * N) by nia. subst M.
  assert (0 <= g * (L * N)) by nia. assert (g * (L*N) + L*N <= q * (L*N)) by nia. nia.
Qed.

Lemma dst_inj N L r c r' c' : 0 < L -> 0 <= r < N -> 0 <= r' < N -> 0 <= c -> 0 <= c' ->
  dst N L r c = dst N L r' c' -> r = r' /\ c = c'.
Proof.
  intros HL Hr Hr' Hc Hc' E. unfold dst in E.
  pose proof (Z.div_mod c L ltac:(lia)). pose proof (Z.mod_pos_bound c L HL).
  pose proof (Z.div_mod c' L ltac:(lia)). pose proof (Z.mod_pos_bound c' L HL).
  set (g := c / L) in *. set (m := c mod L) in *.
  set (g' := c' / L) in *. set (m' := c' mod L) in *.
  assert (B : 0 <= r * L + m < L * N) by nia.
  assert (B' : 0 <= r' * L + m' < L * N) by nia.
  destruct (idx2_inj (r*L+m) g (r'*L+m') g' (L*N) B B') as [E1 E2]; [lia|].
  destruct (idx2_inj m r m' r' L) as [E3 E4]; try lia.
Qed.

Lemma dst_surj N M L q p : 0 < L -> 0 < N -> M = q * L -> 0 <= p < N * M ->
  exists r c, 0 <= r < N /\ 0 <= c < M /\ p = dst N L r c.
Proof.
  intros HL HN HM Hp.
  pose proof (Z.div_mod p (L*N) ltac:(nia)). pose proof (Z.mod_pos_bound p (L*N) ltac:(nia)).
  set (g := p / (L*N)) in *. set (x := p mod (L*N)) in *.
  pose proof (Z.div_mod x L ltac:(nia)). pose proof (Z.mod_pos_bound x L ltac:(nia)).
  set (r := x / L) in *. set (m := x mod L) in *.
  assert (0 <= g < q) by nia. assert (0 <= r < N) by nia.
  exists r, (g * L + m). split; [auto|split; [nia|]].
  unfold dst. replace ((g * L + m) / L) with g by (apply Z.div_unique with (r := m); lia).
  replace ((g * L + m) mod L) with m by (apply Z.mod_unique with (q := g); lia). nia.
Qed.

Lemma dst_group N L r c g : 0 < L -> 0 <= c < L ->
  dst N L r (g * L + c) = g * (L * N) + r * L + c.
Proof.
  intros. unfold dst.
  replace ((g * L + c) / L) with g by (apply Z.div_unique with (r := c); lia).
  replace ((g * L + c) mod L) with c by (apply Z.mod_unique with (q := g); lia). lia.
Qed.

Lemma col_split N i : 0 < N -> 0 <= i -> exists r c, i = r + c * N /\ 0 <= r < N /\ 0 <= c /\ c = i / N.
Proof.
  intros. exists (i mod N), (i / N).
  pose proof (Z.div_mod i N ltac:(lia)). pose proof (Z.mod_pos_bound i N ltac:(lia)). nia.
Qed.

Lemma permute_spec A oA B oB N M L q :
  0 <= N -> 0 < L -> 0 <= q -> M = q * L ->
  0 <= oA -> oA + N * M <= zlen A -> 0 <= oB -> oB + N * M <= zlen B ->
  exists B', permute A oA B oB N M L = Some B' /\ zlen B' = zlen B /\
    (forall r c, 0 <= r < N -> 0 <= c < M ->
       zget B' (oB + dst N L r c) = zget A (oA + (r + c * N))) /\
    (forall p, ~ oB <= p < oB + N * M -> zget B' p = zget B p).
Proof.
  intros HN HL Hq HM HoA HA HoB HB. unfold permute.
  destruct (for_upst_inv (fun j B' => zlen B' = zlen B /\
     (forall r c, 0 <= r < N -> 0 <= c < j -> zget B' (oB + dst N L r c) = zget A (oA + (r + c * N))) /\
     (forall p, ~ oB <= p < oB + N * M -> zget B' p = zget B p)) 0 M L
     (fun j B => for_up 0 (L * N) (fun i B =>
        do v <- zget A (oA + (i + j * N));
        zset B (oB + ((L * i) mod (L * N) + (L * i) / (L * N) + j * N)) v) B) B)
   as [B' [E [H1 [H2 H3]]]]; try lia.
  - repeat split; auto. intros; lia.
  - intros k j B1 Hk Hj Hj2 [I1 [I2 I3]].
    assert (Hkq : k < q) by nia.
    destruct (for_up_inv (fun i B' => zlen B' = zlen B /\
     (forall r c, 0 <= r < N -> 0 <= c < j -> zget B' (oB + dst N L r c) = zget A (oA + (r + c * N))) /\
     (forall r c, 0 <= r < N -> 0 <= c < L -> r + c * N < i ->
         zget B' (oB + dst N L r (j + c)) = zget A (oA + (r + (j + c) * N))) /\
     (forall p, ~ oB <= p < oB + N * M -> zget B' p = zget B p)) 0 (L * N)
     (fun i B =>
        do v <- zget A (oA + (i + j * N));
        zset B (oB + ((L * i) mod (L * N) + (L * i) / (L * N) + j * N)) v) B1)
     as [B2 [E [J1 [J2 [J3 J4]]]]]; try nia.
    + repeat split; auto. intros r c Hr Hc Hlt. nia.
    + intros i B2 Hi [J1 [J2 [J3 J4]]].
      destruct (col_split N i) as [r [c [Ei [Hr [Hc _]]]]]; try nia.
      assert (Hc2 : c < L) by nia.
      assert (Hpos : (L * i) mod (L * N) + (L * i) / (L * N) + j * N = dst N L r (j + c)).
      { rewrite Ei, phi_eq by lia. rewrite Hj, Z.add_0_l, dst_group by lia. nia. }
      rewrite Hpos.
      assert (Hrng : 0 <= dst N L r (j + c) < N * M) by (apply (dst_range N M L r (j+c) q); nia).
      destruct (zget_ex A (oA + (i + j * N))) as [v Ev]. { nia. }
      rewrite Ev; cbn [obind]. rewrite zset_some by lia.
      eexists; split; [reflexivity|]. rewrite zlen_zupd. split; [auto|split; [|split]].
      * intros r' c' Hr' Hc'. rewrite zget_zupd_other; auto.
        intros Eq. assert (Eq2 : dst N L r (j + c) = dst N L r' c') by lia.
        apply dst_inj in Eq2; lia.
      * intros r' c' Hr' Hc' Hlt. rewrite zget_zupd by lia.
        destruct (Z.eqb_spec (oB + dst N L r (j + c)) (oB + dst N L r' (j + c'))) as [Eq|Ne].
        -- assert (Eq2 : dst N L r (j + c) = dst N L r' (j + c')) by lia.
           apply dst_inj in Eq2; try lia. destruct Eq2 as [-> Eq2].
           assert (c = c') by lia. subst c'. rewrite <- Ev. f_equal. nia.
        -- apply J3; auto.
           destruct (Z.eq_dec (r' + c' * N) i) as [E1|]; [|lia].
           exfalso. apply Ne. rewrite Ei in E1. apply idx2_inj in E1; try lia.
           destruct E1 as [-> ->]. reflexivity.
      * intros p Hp. rewrite zget_zupd_other by lia. auto.
    + exists B2. split; auto. split; [auto|split; auto].
      intros r c Hr Hc. destruct (Z_lt_dec c j) as [Hlt|Hge]; [apply J2; lia|].
      replace c with (j + (c - j)) by lia. assert (X : 0 <= r + (c - j) * N < L * N). { apply idx2; lia. } apply J3; [lia|lia|apply X].
  - exists B'. split; auto. split; auto. split; auto.
    intros r c Hr Hc. apply H2; auto.
    subst M. replace (q * L) with (0 + q * L) by lia. rewrite end_upst_exact by lia. lia.
Qed.

Lemma permute_t_spec A oA B oB N M L q :
  0 <= N -> 0 < L -> 0 <= q -> M = q * L ->
  0 <= oA -> oA + N * M <= zlen A -> 0 <= oB -> oB + N * M <= zlen B ->
  exists A', permute_t A oA B oB N M L = Some A' /\ zlen A' = zlen A /\
    (forall r c, 0 <= r < N -> 0 <= c < M ->
       zget A' (oA + (r + c * N)) = zget B (oB + dst N L r c)) /\
    (forall p, ~ oA <= p < oA + N * M -> zget A' p = zget A p).
Proof.
  intros HN HL Hq HM HoA HA HoB HB. unfold permute_t.
  destruct (for_upst_inv (fun j A' => zlen A' = zlen A /\
     (forall r c, 0 <= r < N -> 0 <= c < j -> zget A' (oA + (r + c * N)) = zget B (oB + dst N L r c)) /\
     (forall p, ~ oA <= p < oA + N * M -> zget A' p = zget A p)) 0 M L
     (fun j A => for_up 0 (L * N) (fun i A =>
        do v <- zget B (oB + ((L * i) mod (L * N) + (L * i) / (L * N) + j * N));
        zset A (oA + (i + j * N)) v) A) A)
   as [A' [E [H1 [H2 H3]]]]; try lia.
  - repeat split; auto. intros; lia.
  - intros k j A1 Hk Hj Hj2 [I1 [I2 I3]].
    assert (Hkq : k < q) by nia.
    destruct (for_up_inv (fun i A' => zlen A' = zlen A /\
     (forall r c, 0 <= r < N -> 0 <= c < j -> zget A' (oA + (r + c * N)) = zget B (oB + dst N L r c)) /\
     (forall r c, 0 <= r < N -> 0 <= c < L -> r + c * N < i ->
         zget A' (oA + (r + (j + c) * N)) = zget B (oB + dst N L r (j + c))) /\
     (forall p, ~ oA <= p < oA + N * M -> zget A' p = zget A p)) 0 (L * N)
     (fun i A =>
        do v <- zget B (oB + ((L * i) mod (L * N) + (L * i) / (L * N) + j * N));
        zset A (oA + (i + j * N)) v) A1)
     as [A2 [E [J1 [J2 [J3 J4]]]]]; try nia.
    + repeat split; auto. intros r c Hr Hc Hlt. nia.
    + intros i A2 Hi [J1 [J2 [J3 J4]]].
      destruct (col_split N i) as [r [c [Ei [Hr [Hc _]]]]]; try nia.
      assert (Hc2 : c < L) by nia.
      assert (Hpos : (L * i) mod (L * N) + (L * i) / (L * N) + j * N = dst N L r (j + c)).
      { rewrite Ei, phi_eq by lia. rewrite Hj, Z.add_0_l, dst_group by lia. nia. }
      rewrite Hpos.
      assert (Hrng : 0 <= dst N L r (j + c) < N * M) by (apply (dst_range N M L r (j+c) q); nia).
      assert (Hrng2 : 0 <= i + j * N < N * M) by nia.
      destruct (zget_ex B (oB + dst N L r (j + c))) as [v Ev]. { lia. }
      rewrite Ev; cbn [obind]. rewrite zset_some by lia.
      eexists; split; [reflexivity|]. rewrite zlen_zupd.
      replace (i + j * N) with (r + (j + c) * N) in * by lia.
      split; [auto|split; [|split]].
      * intros r' c' Hr' Hc'. rewrite zget_zupd_other; auto.
        intros Eq. assert (Eq2 : r + (j + c) * N = r' + c' * N) by lia.
        apply idx2_inj in Eq2; lia.
      * intros r' c' Hr' Hc' Hlt. rewrite zget_zupd by lia.
        destruct (Z.eqb_spec (oA + (r + (j + c) * N)) (oA + (r' + (j + c') * N))) as [Eq|Ne].
        -- assert (Eq2 : r + (j + c) * N = r' + (j + c') * N) by lia.
           apply idx2_inj in Eq2; try lia. destruct Eq2 as [-> Eq2].
           assert (c = c') by lia. subst c'. auto.
        -- apply J3; auto.
           destruct (Z.eq_dec (r' + c' * N) i) as [E1|]; [|lia].
           exfalso. apply Ne. rewrite Ei in E1. apply idx2_inj in E1; try lia.
      * intros p Hp. rewrite zget_zupd_other by lia. auto.
    + exists A2. split; auto. split; [auto|split; auto].
      intros r c Hr Hc. destruct (Z_lt_dec c j) as [Hlt|Hge]; [apply J2; lia|].
      replace c with (j + (c - j)) by lia. assert (X : 0 <= r + (c - j) * N < L * N). { apply idx2; lia. } apply J3; [lia|lia|apply X].
  - exists A'. split; auto. split; auto. split; auto.
    intros r c Hr Hc. apply H2; auto.
    subst M. replace (q * L) with (0 + q * L) by lia. rewrite end_upst_exact by lia. lia.
Qed.

(** ** Layouts: a forward and a backward copy driven by the same position map [D] *)
Definition layout_pair (fwd bwd : list F -> Z -> list F -> Z -> option (list F)) (N M : Z)
    (D : Z -> Z -> Z) : Prop :=
  (forall r c, 0 <= r < N -> 0 <= c < M -> 0 <= D r c < N * M) /\
  (forall p, 0 <= p < N * M -> exists r c, 0 <= r < N /\ 0 <= c < M /\ p = D r c) /\
  (forall A oA B oB, 0 <= oA -> oA + N * M <= zlen A -> 0 <= oB -> oB + N * M <= zlen B ->
    exists B', fwd A oA B oB = Some B' /\ zlen B' = zlen B /\
    (forall r c, 0 <= r < N -> 0 <= c < M -> zget B' (oB + D r c) = zget A (oA + (r + c * N))) /\
    (forall p, ~ oB <= p < oB + N * M -> zget B' p = zget B p)) /\
  (forall A oA B oB, 0 <= oA -> oA + N * M <= zlen A -> 0 <= oB -> oB + N * M <= zlen B ->
    exists A', bwd A oA B oB = Some A' /\ zlen A' = zlen A /\
    (forall r c, 0 <= r < N -> 0 <= c < M -> zget A' (oA + (r + c * N)) = zget B (oB + D r c)) /\
    (forall p, ~ oA <= p < oA + N * M -> zget A' p = zget A p)).

Lemma pos_split N M p : 0 <= N -> 0 <= p < N * M -> exists r c, 0 <= r < N /\ 0 <= c < M /\ p = r + c * N.
Proof.
  intros HN0 H. assert (0 < N) by (destruct (Z.eq_dec N 0); [subst N; lia|lia]).
  destruct (col_split N p) as [r [c [E [Hr [Hc _]]]]]; try lia.
  assert (c < M).
  { destruct (Z_lt_dec c M); auto. assert (M * N <= c * N) by (apply Z.mul_le_mono_nonneg_r; lia). lia. }
  exists r, c. repeat split; lia.
Qed.

Lemma layout_fwd_bwd fwd bwd N M D : 0 <= N -> layout_pair fwd bwd N M D ->
  forall A oA B oB, 0 <= oA -> oA + N * M <= zlen A -> 0 <= oB -> oB + N * M <= zlen B ->
  exists B', fwd A oA B oB = Some B' /\ zlen B' = zlen B /\ bwd A oA B' oB = Some A /\
   (forall A0, zlen A0 = zlen A -> exists A', bwd A0 oA B' oB = Some A' /\ zlen A' = zlen A /\
      forall p, zget A' p = if (oA <=? p) && (p <? oA + N * M) then zget A p else zget A0 p).
Proof.
  intros HN0 [_ [_ [Hf Hb]]] A oA B oB H1 H2 H3 H4.
  destruct (Hf A oA B oB H1 H2 H3 H4) as [B' [E1 [L1 [G1 K1]]]].
  exists B'. split; [auto|split; [auto|]].
  assert (X : forall A0, zlen A0 = zlen A -> exists A', bwd A0 oA B' oB = Some A' /\ zlen A' = zlen A /\
      forall p, zget A' p = if (oA <=? p) && (p <? oA + N * M) then zget A p else zget A0 p).
  { intros A0 L0. destruct (Hb A0 oA B' oB) as [A' [E2 [L2 [G2 K2]]]]; try lia.
    exists A'. split; [auto|split; [lia|]]. intros p.
    destruct (Z_le_dec oA p); [destruct (Z_lt_dec p (oA + N * M))|].
    - replace ((oA <=? p) && (p <? oA + N * M)) with true by lia.
      destruct (pos_split N M (p - oA)) as [r [c [Hr [Hc Ep]]]]; [lia|lia|].
      replace p with (oA + (r + c * N)) by lia. rewrite G2, G1; auto.
    - replace ((oA <=? p) && (p <? oA + N * M)) with false by lia. apply K2; lia.
    - replace ((oA <=? p) && (p <? oA + N * M)) with false by lia. apply K2; lia. }
  split; [|exact X].
  destruct (X A eq_refl) as [A' [E2 [L2 G2]]]. rewrite E2. f_equal.
  apply zget_ext. intros p. rewrite G2. now destruct (_ && _).
Qed.

Lemma layout_bwd_fwd fwd bwd N M D : layout_pair fwd bwd N M D ->
  forall A oA B oB, 0 <= oA -> oA + N * M <= zlen A -> 0 <= oB -> oB + N * M <= zlen B ->
  exists A', bwd A oA B oB = Some A' /\ zlen A' = zlen A /\ fwd A' oA B oB = Some B /\
   (forall B0, zlen B0 = zlen B -> exists B', fwd A' oA B0 oB = Some B' /\ zlen B' = zlen B /\
      forall p, zget B' p = if (oB <=? p) && (p <? oB + N * M) then zget B p else zget B0 p).
Proof.
  intros [_ [Hs [Hf Hb]]] A oA B oB H1 H2 H3 H4.
  destruct (Hb A oA B oB H1 H2 H3 H4) as [A' [E1 [L1 [G1 K1]]]].
  exists A'. split; [auto|split; [auto|]].
  assert (X : forall B0, zlen B0 = zlen B -> exists B', fwd A' oA B0 oB = Some B' /\ zlen B' = zlen B /\
      forall p, zget B' p = if (oB <=? p) && (p <? oB + N * M) then zget B p else zget B0 p).
  { intros B0 L0. destruct (Hf A' oA B0 oB) as [B' [E2 [L2 [G2 K2]]]]; try lia.
    exists B'. split; [auto|split; [lia|]]. intros p.
    destruct (Z_le_dec oB p); [destruct (Z_lt_dec p (oB + N * M))|].
    - replace ((oB <=? p) && (p <? oB + N * M)) with true by lia.
      destruct (Hs (p - oB)) as [r [c [Hr [Hc Ep]]]]; [lia|].
      replace p with (oB + D r c) by lia. rewrite G2, G1; auto.
    - replace ((oB <=? p) && (p <? oB + N * M)) with false by lia. apply K2; lia.
    - replace ((oB <=? p) && (p <? oB + N * M)) with false by lia. apply K2; lia. }
  split; [|exact X].
  destruct (X B eq_refl) as [B' [E2 [L2 G2]]]. rewrite E2. f_equal.
  apply zget_ext. intros p. rewrite G2. now destruct (_ && _).
Qed.

Lemma permute_layout N M L q : 0 <= N -> 0 < L -> 0 <= q -> M = q * L ->
  layout_pair (fun A oA B oB => permute A oA B oB N M L)
              (fun A oA B oB => permute_t A oA B oB N M L) N M (dst N L).
Proof.
  intros HN HL Hq HM. split; [|split; [|split]].
  - intros. apply (dst_range N M L r c q); auto.
  - intros. apply (dst_surj N M L q p); auto; nia.
  - intros. apply permute_spec with (q := q); auto.
  - intros. apply permute_t_spec with (q := q); auto.
Qed.

(** first [R] columns laid out by [D0], the remaining ones by [permute] with [L] *)
Definition ragged (N L R : Z) (D0 : Z -> Z -> Z) (r c : Z) : Z :=
  if c <? R then D0 r c else R * N + dst N L r (c - R).

Lemma copy_layout N R : 0 <= N -> 0 <= R ->
  layout_pair (fun A oA B oB => copy_loop A oA B oB (R * N))
              (fun A oA B oB => copy_loop B oB A oA (R * N)) N R (fun r c => r + c * N).
Proof.
  intros HN HR. split; [|split; [|split]].
  - intros. rewrite Z.mul_comm with (n := N). apply idx2; auto.
  - intros p Hp. apply pos_split; auto.
  - intros A oA B oB H1 H2 H3 H4.
    destruct (copy_loop_spec A oA B oB (R * N)) as [B' [E [L1 [G K]]]]; try nia.
    exists B'. split; [auto|split; [auto|split]].
    + intros r c Hr Hc. apply G. apply idx2; auto.
    + intros p Hp. apply K. nia.
  - intros A oA B oB H1 H2 H3 H4.
    destruct (copy_loop_spec B oB A oA (R * N)) as [B' [E [L1 [G K]]]]; try nia.
    exists B'. split; [auto|split; [auto|split]].
    + intros r c Hr Hc. apply G. apply idx2; auto.
    + intros p Hp. apply K. nia.
Qed.

Lemma ragged_layout fwd bwd N M L R q D0 :
  0 <= N -> 0 < L -> 0 <= q -> 0 <= R -> M - R = q * L ->
  layout_pair fwd bwd N R D0 ->
  layout_pair
    (fun A oA B oB => do B <- fwd A oA B oB; permute A (oA + R * N) B (oB + R * N) N (M - R) L)
    (fun A oA B oB => do A <- bwd A oA B oB; permute_t A (oA + R * N) B (oB + R * N) N (M - R) L)
    N M (ragged N L R D0).
Proof.
  intros HN HL Hq HR HM [Ha [Hb [Hc Hd]]].
  assert (HMR : N * M = R * N + N * (M - R)) by ring.
  assert (HRN : 0 <= R * N) by nia. assert (HMRN : 0 <= N * (M - R)) by nia.
  split; [|split; [|split]].
  - intros r c Hr Hcc. unfold ragged. destruct (Z.ltb_spec c R).
    + specialize (Ha r c Hr ltac:(lia)). lia.
    + pose proof (dst_range N (M - R) L r (c - R) q HL Hr HM ltac:(lia)). lia.
  - intros p Hp. destruct (Z_lt_dec p (R * N)).
    + destruct (Hb p) as [r [c [Hr [Hcc E]]]]; [lia|].
      exists r, c. repeat split; try lia; try nia. unfold ragged. now replace (c <? R) with true by lia.
    + destruct (dst_surj N (M - R) L q (p - R * N)) as [r [c [Hr [Hcc E]]]]; try lia; try nia.
      exists r, (c + R). repeat split; try lia. unfold ragged. replace (c + R <? R) with false by lia.
      replace (c + R - R) with c by lia. lia.
  - intros A oA B oB H1 H2 H3 H4.
    destruct (Hc A oA B oB) as [B1 [E1 [L1 [G1 K1]]]]; try lia. rewrite E1. cbn [obind].
    destruct (permute_spec A (oA + R * N) B1 (oB + R * N) N (M - R) L q) as [B2 [E2 [L2 [G2 K2]]]]; try lia.
    exists B2. split; [auto|split; [lia|split]].
    + intros r c Hr Hcc. unfold ragged. destruct (Z.ltb_spec c R).
      * rewrite K2. apply G1; auto; lia. specialize (Ha r c Hr ltac:(lia)). lia.
      * replace (oB + (R * N + dst N L r (c - R))) with (oB + R * N + dst N L r (c - R)) by lia.
        rewrite G2 by lia. f_equal. ring.
    + intros p Hp. rewrite K2 by lia. apply K1. lia.
  - intros A oA B oB H1 H2 H3 H4.
    destruct (Hd A oA B oB) as [B1 [E1 [L1 [G1 K1]]]]; try lia. rewrite E1. cbn [obind].
    destruct (permute_t_spec B1 (oA + R * N) B (oB + R * N) N (M - R) L q) as [B2 [E2 [L2 [G2 K2]]]]; try lia.
    exists B2. split; [auto|split; [lia|split]].
    + intros r c Hr Hcc. unfold ragged. destruct (Z.ltb_spec c R).
      * rewrite K2. apply G1; auto; lia. pose proof (idx2 r c N R Hr ltac:(lia)). lia.
      * replace (oB + (R * N + dst N L r (c - R))) with (oB + R * N + dst N L r (c - R)) by lia.
        rewrite <- G2 by lia. f_equal. ring.
    + intros p Hp. rewrite K2 by lia. apply K1. lia.
Qed.

Lemma rem_mult M L : 0 < L -> 0 <= M -> M - M mod L = (M / L) * L /\ 0 <= M / L /\ 0 <= M mod L.
Proof.
  intros. pose proof (Z.div_mod M L ltac:(lia)). pose proof (Z.mod_pos_bound M L ltac:(lia)).
  repeat split; try lia. apply Z.div_pos; lia.
Qed.

Lemma permute_sph_layout N M L : 0 <= N -> 0 < L -> 0 <= M ->
  layout_pair (fun A oA B oB => permute_sph A oA B oB N M L)
              (fun A oA B oB => permute_t_sph A oA B oB N M L) N M
              (ragged N L (M mod (2 * L)) (fun r c => r + c * N)).
Proof.
  intros HN HL HM. destruct (rem_mult M (2 * L)) as [E [H1 H2]]; try lia.
  apply (ragged_layout (fun A oA B oB => copy_loop A oA B oB (M mod (2 * L) * N))
                       (fun A oA B oB => copy_loop B oB A oA (M mod (2 * L) * N)) N M L
           (M mod (2 * L)) (2 * (M / (2 * L)))); try lia.
  apply copy_layout; auto.
Qed.
Lemma permute_tri_layout N M L : 0 <= N -> 0 < L -> 0 <= M ->
  layout_pair (fun A oA B oB => permute_tri A oA B oB N M L)
              (fun A oA B oB => permute_t_tri A oA B oB N M L) N M
              (ragged N L (M mod L) (fun r c => r + c * N)).
Proof.
  intros HN HL HM. destruct (rem_mult M L) as [E [H1 H2]]; try lia.
  apply (ragged_layout (fun A oA B oB => copy_loop A oA B oB (M mod L * N))
                       (fun A oA B oB => copy_loop B oB A oA (M mod L * N)) N M L
           (M mod L) (M / L)); try lia.
  apply copy_layout; auto.
Qed.

Lemma old_permute_tri_layout e : forall N M, 0 <= N -> 0 <= M -> forall fuel, (e < fuel)%nat ->
  exists D, layout_pair (fun A oA B oB => old_permute_tri_f fuel A oA B oB N M (2 ^ (Z.of_nat e + 1)))
              (fun A oA B oB => old_permute_t_tri_f fuel A oA B oB N M (2 ^ (Z.of_nat e + 1))) N M D.
Proof.
  induction e as [|e IH]; intros N M HN HM fuel Hf; (destruct fuel as [|fuel]; [lia|]).
  - cbn [old_permute_tri_f old_permute_t_tri_f].
    change (2 ^ (Z.of_nat 0 + 1)) with 2. cbn [Z.eqb Pos.eqb].
    destruct (Z.eqb_spec (M mod 2) 0) as [E|E].
    + exists (dst N 2). apply permute_layout with (q := M / 2); try lia.
    + assert (M mod 2 = 1) by (pose proof (Z.mod_pos_bound M 2); lia).
      destruct (rem_mult M 2) as [E1 [E2 E3]]; try lia.
      exists (ragged N 2 1 (fun r c => r + c * N)).
      pose proof (ragged_layout (fun A oA B oB => copy_loop A oA B oB (1 * N))
         (fun A oA B oB => copy_loop B oB A oA (1 * N)) N M 2 1 (M / 2) _ HN ltac:(lia) E2 ltac:(lia) ltac:(lia)
         (copy_layout N 1 HN ltac:(lia))) as X.
      rewrite !Z.mul_1_l in X. exact X.
  - assert (E2 : 2 ^ (Z.of_nat (S e) + 1) = 2 * 2 ^ (Z.of_nat e + 1)).
    { rewrite Nat2Z.inj_succ, <- Z.pow_succ_r by lia. f_equal; lia. }
    assert (Hp : 0 < 2 ^ Z.of_nat e) by (apply Z.pow_pos_nonneg; lia).
    assert (E3 : 2 ^ (Z.of_nat e + 1) = 2 * 2 ^ Z.of_nat e).
    { rewrite <- Z.pow_succ_r by lia. f_equal; lia. }
    cbn [old_permute_tri_f old_permute_t_tri_f].
    set (L := 2 ^ (Z.of_nat (S e) + 1)) in *.
    replace (L =? 2) with false by lia.
    assert (HL2 : L / 2 = 2 ^ (Z.of_nat e + 1)) by (rewrite E2, Z.mul_comm; apply Z.div_mul; lia).
    rewrite HL2.
    destruct (rem_mult M (2 * L)) as [E4 [E5 E6]]; try lia.
    destruct (IH N (M mod (2 * L)) HN E6 fuel ltac:(lia)) as [D HD].
    exists (ragged N L (M mod (2 * L)) D).
    apply ragged_layout with (q := 2 * (M / (2 * L)))
      (fwd := fun A oA B oB => old_permute_tri_f fuel A oA B oB N (M mod (2 * L)) (2 ^ (Z.of_nat e + 1)))
      (bwd := fun A oA B oB => old_permute_t_tri_f fuel A oA B oB N (M mod (2 * L)) (2 ^ (Z.of_nat e + 1)));
      try lia. exact HD.
Qed.

(** ** Exchanges *)
Definition swapped (A : list F) (oA oB n p : Z) : option F :=
  if (oA <=? p) && (p <? oA + n) then zget A (p - oA + oB)
  else if (oB <=? p) && (p <? oB + n) then zget A (p - oB + oA)
  else zget A p.
Definition is_swapped (A A' : list F) oA oB n :=
  zlen A' = zlen A /\ forall p, zget A' p = swapped A oA oB n p.
Definition apart (oA oB n : Z) := oA + n <= oB \/ oB + n <= oA.

Lemma swap_step A A1 oA oB i :
  0 <= i -> 0 <= oA -> 0 <= oB -> oA + i < zlen A -> oB + i < zlen A -> apart oA oB (i + 1) ->
  is_swapped A A1 oA oB i ->
  exists A2, (do temp <- zget A1 (oA + i); do b <- zget A1 (oB + i);
    do A <- zset A1 (oA + i) b; zset A (oB + i) temp) = Some A2 /\ is_swapped A A2 oA oB (i + 1).
Proof.
  intros Hi HoA HoB HA HB Hap [HL HS].
  destruct (zget_ex A1 (oA + i)) as [a Ea]; [lia|]. destruct (zget_ex A1 (oB + i)) as [b Eb]; [lia|].
  rewrite Ea, Eb. cbn [obind]. rewrite zset_some by lia. cbn [obind].
  rewrite zset_some by (rewrite zlen_zupd; lia). eexists; split; [reflexivity|].
  split; [now rewrite !zlen_zupd|]. intros p.
  rewrite zget_zupd by (rewrite zlen_zupd; lia). rewrite zget_zupd by lia.
  rewrite HS in Ea, Eb. unfold swapped, apart in *.
  destruct (Z.eqb_spec (oB + i) p); [|destruct (Z.eqb_spec (oA + i) p)].
  - subst p. replace ((oA <=? oB + i) && (oB + i <? oA + (i + 1))) with false by lia.
    replace ((oB <=? oB + i) && (oB + i <? oB + (i + 1))) with true by lia.
    rewrite <- Ea. replace ((oA <=? oA + i) && (oA + i <? oA + i)) with false by lia.
    replace ((oB <=? oA + i) && (oA + i <? oB + i)) with false by lia. f_equal; lia.
  - subst p. replace ((oA <=? oA + i) && (oA + i <? oA + (i + 1))) with true by lia.
    rewrite <- Eb. replace ((oA <=? oB + i) && (oB + i <? oA + i)) with false by lia.
    replace ((oB <=? oB + i) && (oB + i <? oB + i)) with false by lia. f_equal; lia.
  - rewrite HS. unfold swapped.
    replace (p <? oA + (i + 1)) with (p <? oA + i) by lia.
    replace (p <? oB + (i + 1)) with (p <? oB + i) by lia. reflexivity.
Qed.

Lemma swap_scalar A A1 oA oB lo N :
  0 <= lo -> lo <= N -> 0 <= oA -> 0 <= oB -> oA + N <= zlen A -> oB + N <= zlen A -> apart oA oB N ->
  is_swapped A A1 oA oB lo ->
  exists A2, for_up lo N (fun i A =>
    do temp <- zget A (oA + i);
    do b <- zget A (oB + i);
    do A <- zset A (oA + i) b;
    zset A (oB + i) temp) A1 = Some A2 /\ is_swapped A A2 oA oB N.
Proof.
  intros H0 Hl HoA HoB HA HB Hap HS.
  apply (for_up_inv (fun i A2 => is_swapped A A2 oA oB i)); auto.
  intros i A2 Hi HI. apply swap_step; auto; try lia. unfold apart in *; lia.
Qed.

Lemma is_swapped_0 A oA oB : is_swapped A A oA oB 0.
Proof.
  split; auto. intros p. unfold swapped.
  replace ((oA <=? p) && (p <? oA + 0)) with false by lia.
  replace ((oB <=? p) && (p <? oB + 0)) with false by lia. reflexivity.
Qed.
Lemma is_swapped_uniq A A1 A2 oA oB n : is_swapped A A1 oA oB n -> is_swapped A A2 oA oB n -> A1 = A2.
Proof. intros [_ H1] [_ H2]. apply zget_ext. intros. now rewrite H1, H2. Qed.
Lemma is_swapped_invol A A1 oA oB n : apart oA oB n ->
  is_swapped A A1 oA oB n -> is_swapped A1 A oA oB n.
Proof.
  intros Hap [HL HS]. split; [lia|]. intros p. unfold swapped. rewrite !HS. unfold swapped, apart in *.
  destruct ((oA <=? p) && (p <? oA + n)) eqn:E1.
  - replace ((oA <=? p - oA + oB) && (p - oA + oB <? oA + n)) with false by lia.
    replace ((oB <=? p - oA + oB) && (p - oA + oB <? oB + n)) with true by lia. f_equal; lia.
  - destruct ((oB <=? p) && (p <? oB + n)) eqn:E2; auto.
    replace ((oA <=? p - oB + oA) && (p - oB + oA <? oA + n)) with true by lia. f_equal; lia.
Qed.

Lemma vload_spec V A p : 0 <= p -> p + Z.of_nat V <= zlen A ->
  exists vs, vload V A p = Some vs /\ length vs = V /\
    forall k, 0 <= k < Z.of_nat V -> zget vs k = zget A (p + k).
Proof.
  revert p; induction V as [|V IH]; intros p Hp HL.
  - exists []. repeat split; auto. intros; lia.
  - destruct (zget_ex A p) as [v Ev]; [lia|].
    destruct (IH (p + 1)) as [vs [E [L G]]]; try lia.
    exists (v :: vs). cbn [vload]. rewrite Ev, E. repeat split; cbn; auto.
    intros k Hk. destruct (Z.eq_dec k 0) as [->|].
    + rewrite Z.add_0_r, Ev. reflexivity.
    + replace (p + k) with (p + 1 + (k - 1)) by lia. rewrite <- G by lia.
      unfold zget. replace (k <? 0) with false by lia. replace (k - 1 <? 0) with false by lia.
      replace (Z.to_nat k) with (S (Z.to_nat (k - 1))) by lia. reflexivity.
Qed.
Lemma zget_cons (v : F) vs k : 0 < k -> zget (v :: vs) k = zget vs (k - 1).
Proof.
  intros. unfold zget. replace (k <? 0) with false by lia. replace (k - 1 <? 0) with false by lia.
  replace (Z.to_nat k) with (S (Z.to_nat (k - 1))) by lia. reflexivity.
Qed.
Lemma vstore_spec vs : forall A p, 0 <= p -> p + zlen vs <= zlen A ->
  exists A', vstore A p vs = Some A' /\ zlen A' = zlen A /\
    forall q, zget A' q = if (p <=? q) && (q <? p + zlen vs) then zget vs (q - p) else zget A q.
Proof.
  induction vs as [|v vs IH]; intros A p Hp HL.
  - exists A. repeat split; auto. intros q. rewrite zlen_nil in *.
    now replace ((p <=? q) && (q <? p + 0)) with false by lia.
  - rewrite zlen_cons in *. pose proof (zlen_nonneg vs). cbn [vstore].
    rewrite zset_some by lia. cbn [obind].
    destruct (IH (zupd A p v) (p + 1)) as [A' [E [L G]]]; try (rewrite ?zlen_zupd; lia).
    exists A'. rewrite zlen_zupd in L. repeat split; auto. intros q. rewrite G.
    rewrite zget_zupd by lia.
    destruct (Z.eqb_spec p q).
    + subst q. replace ((p + 1 <=? p) && (p <? p + 1 + zlen vs)) with false by lia.
      replace ((p <=? p) && (p <? p + (1 + zlen vs))) with true by lia.
      now replace (p - p) with 0 by lia.
    + replace ((p <=? q) && (q <? p + (1 + zlen vs))) with ((p + 1 <=? q) && (q <? p + 1 + zlen vs)) by lia.
      destruct (_ && _) eqn:E1; auto. rewrite zget_cons by lia. f_equal; lia.
Qed.

Lemma vswap_step A A1 oA oB i (V : nat) :
  0 <= i -> 0 <= oA -> 0 <= oB -> oA + i + Z.of_nat V <= zlen A -> oB + i + Z.of_nat V <= zlen A ->
  apart oA oB (i + Z.of_nat V) ->
  is_swapped A A1 oA oB i ->
  exists A2, (do ta <- vload V A1 (oA + i); do tb <- vload V A1 (oB + i);
    do A <- vstore A1 (oA + i) tb; vstore A (oB + i) ta) = Some A2 /\
    is_swapped A A2 oA oB (i + Z.of_nat V).
Proof.
  intros Hi HoA HoB HA HB Hap [HL HS].
  destruct (vload_spec V A1 (oA + i)) as [ta [Ea [La Ga]]]; try lia.
  destruct (vload_spec V A1 (oB + i)) as [tb [Eb [Lb Gb]]]; try lia.
  rewrite Ea, Eb. cbn [obind].
  assert (Lta : zlen ta = Z.of_nat V) by (unfold zlen; lia).
  assert (Ltb : zlen tb = Z.of_nat V) by (unfold zlen; lia).
  destruct (vstore_spec tb A1 (oA + i)) as [A2 [E2 [L2 G2]]]; try lia.
  rewrite E2. cbn [obind].
  destruct (vstore_spec ta A2 (oB + i)) as [A3 [E3 [L3 G3]]]; try lia.
  rewrite E3. exists A3. split; [auto|]. split; [lia|].
  intros p. rewrite G3, G2, Lta, Ltb. unfold apart in *.
  destruct ((oB + i <=? p) && (p <? oB + i + Z.of_nat V)) eqn:C1;
    [|destruct ((oA + i <=? p) && (p <? oA + i + Z.of_nat V)) eqn:C2].
  - rewrite Ga by lia. rewrite HS. unfold swapped.
    replace ((oA <=? p) && (p <? oA + (i + Z.of_nat V))) with false by lia.
    replace ((oB <=? p) && (p <? oB + (i + Z.of_nat V))) with true by lia.
    replace ((oA <=? oA + i + (p - (oB + i))) && (oA + i + (p - (oB + i)) <? oA + i)) with false by lia.
    replace ((oB <=? oA + i + (p - (oB + i))) && (oA + i + (p - (oB + i)) <? oB + i)) with false by lia.
    f_equal; lia.
  - rewrite Gb by lia. rewrite HS. unfold swapped.
    replace ((oA <=? p) && (p <? oA + (i + Z.of_nat V))) with true by lia.
    replace ((oA <=? oB + i + (p - (oA + i))) && (oB + i + (p - (oA + i)) <? oA + i)) with false by lia.
    replace ((oB <=? oB + i + (p - (oA + i))) && (oB + i + (p - (oA + i)) <? oB + i)) with false by lia.
    f_equal; lia.
  - rewrite HS. unfold swapped.
    replace ((oA <=? p) && (p <? oA + (i + Z.of_nat V))) with ((oA <=? p) && (p <? oA + i)) by lia.
    replace ((oB <=? p) && (p <? oB + (i + Z.of_nat V))) with ((oB <=? p) && (p <? oB + i)) by lia.
    reflexivity.
Qed.

Lemma swap_warp_kernel_spec A oA oB N (S L : Z) :
  0 < S -> 0 < L -> 0 <= N -> 0 <= oA -> 0 <= oB -> oA + N <= zlen A -> oB + N <= zlen A -> apart oA oB N ->
  exists A', swap_warp_kernel (Z.to_nat S) S L A oA oB N = Some A' /\ is_swapped A A' oA oB N.
Proof.
  intros HS HL HN HoA HoB HA HB Hap. unfold swap_warp_kernel.
  destruct (for_upst_inv (fun i A1 => is_swapped A A1 oA oB i) 0 (N + 1 - S * L) (S * L)
    (fun i A => for_up 0 L (fun l A =>
      do ta <- vload (Z.to_nat S) A (oA + i + S * l);
      do tb <- vload (Z.to_nat S) A (oB + i + S * l);
      do A <- vstore A (oA + i + S * l) tb;
      vstore A (oB + i + S * l) ta) A) A) as [A1 [E1 H1]]; try nia.
  - apply is_swapped_0.
  - intros k i A1 Hk Hi Hi2 HI.
    destruct (for_up_inv (fun l A1 => is_swapped A A1 oA oB (i + S * l)) 0 L
      (fun l A => do ta <- vload (Z.to_nat S) A (oA + i + S * l);
      do tb <- vload (Z.to_nat S) A (oB + i + S * l);
      do A <- vstore A (oA + i + S * l) tb;
      vstore A (oB + i + S * l) ta) A1) as [A2 [E2 H2]]; try lia.
    + now rewrite Z.mul_0_r, Z.add_0_r.
    + intros l A2 Hl HI2.
      assert (Hb : 0 <= S * l /\ S * l + S <= S * L) by nia.
      destruct (vswap_step A A2 oA oB (i + S * l) (Z.to_nat S)) as [A3 [E3 H3]]; auto; try lia.
      { unfold apart in *; lia. }
      exists A3. rewrite !Z.add_assoc in E3. split; [exact E3|].
      replace (i + S * (l + 1)) with (i + S * l + Z.of_nat (Z.to_nat S)) by lia. exact H3.
    + exists A2. auto.
  - rewrite E1. cbn [obind]. 
    assert (0 <= end_upst 0 (N + 1 - S * L) (S * L) <= N).
    { destruct (Z_le_dec 0 (N + 1 - S * L)).
      - destruct (end_upst_spec 0 (N + 1 - S * L) (S * L)) as [k [K1 [K2 K3]]]; try nia.
      - rewrite end_upst_nil; nia. }
    apply swap_scalar; auto; lia.
Qed.
Lemma swap_warp_default_spec A oA oB N :
  0 <= N -> 0 <= oA -> 0 <= oB -> oA + N <= zlen A -> oB + N <= zlen A -> apart oA oB N ->
  exists A', swap_warp_default A oA oB N = Some A' /\ is_swapped A A' oA oB N.
Proof.
  intros. unfold swap_warp_default. apply swap_scalar; auto; try lia. apply is_swapped_0.
Qed.

(** ** warp *)
Definition good_swap (swp : list F -> Z -> Z -> Z -> option (list F)) : Prop :=
  forall A oA oB n, 0 <= n -> 0 <= oA -> 0 <= oB -> oA + n <= zlen A -> oB + n <= zlen A -> apart oA oB n ->
  exists A', swp A oA oB n = Some A' /\ is_swapped A A' oA oB n.
Lemma good_swap_default : good_swap swap_warp_default.
Proof. intros A oA oB n ? ? ? ? ? ?. now apply swap_warp_default_spec. Qed.
Lemma good_swap_kernel S L : 0 < S -> 0 < L -> good_swap (swap_warp_kernel (Z.to_nat S) S L).
Proof. intros ? ? A oA oB n ? ? ? ? ? ?. now apply swap_warp_kernel_spec. Qed.

(** source column of column [c] after one pass *)
Definition wcol (j R c : Z) : Z :=
  let x := (c - R) mod (4 * j) in
  if c <? R then c
  else if (j <=? x) && (x <? 2 * j) then c + j
  else if (2 * j <=? x) && (x <? 3 * j) then c - j
  else c.

Definition is_colperm (A A' : list F) (oA N M : Z) (w : Z -> Z) : Prop :=
  zlen A' = zlen A /\
  (forall r c, 0 <= r < N -> 0 <= c < M -> zget A' (oA + (r + c * N)) = zget A (oA + (r + w c * N))) /\
  (forall p, ~ oA <= p < oA + N * M -> zget A' p = zget A p).

Lemma wcol_block j R i c : 0 < j -> (exists k, 0 <= k /\ i = R + k * (4 * j)) -> i <= c < i + 4 * j ->
  wcol j R c = if (j <=? c - i) && (c - i <? 2 * j) then c + j
               else if (2 * j <=? c - i) && (c - i <? 3 * j) then c - j else c.
Proof.
  intros Hj [k [Hk Hi]] Hc. unfold wcol.
  assert (E : (c - R) mod (4 * j) = c - i).
  { symmetry. apply Z.mod_unique with (q := k); lia. }
  rewrite E. replace (c <? R) with false by nia. reflexivity.
Qed.

Lemma block_of j R c : 0 < j -> R <= c -> exists k, 0 <= k /\ R + k * (4 * j) <= c < R + k * (4 * j) + 4 * j.
Proof.
  intros. exists ((c - R) / (4 * j)).
  pose proof (Z.div_mod (c - R) (4 * j) ltac:(lia)). pose proof (Z.mod_pos_bound (c - R) (4 * j) ltac:(lia)).
  split; [apply Z.div_pos; lia|lia].
Qed.

Lemma wcol_invol j R c : 0 < j -> wcol j R (wcol j R c) = c.
Proof.
  intros Hj. destruct (Z_lt_dec c R).
  - unfold wcol. replace (c <? R) with true by lia. now replace (c <? R) with true by lia.
  - destruct (block_of j R c) as [k [Hk Hc]]; try lia.
    rewrite (wcol_block j R (R + k * (4 * j)) c) by (eauto; lia).
    destruct (_ && _) eqn:E1; [|destruct ((2 * j <=? _) && _) eqn:E2].
    + rewrite (wcol_block j R (R + k * (4 * j))) by (eauto; lia).
      replace ((j <=? c + j - (R + k * (4 * j))) && (c + j - (R + k * (4 * j)) <? 2 * j)) with false by lia.
      replace ((2 * j <=? c + j - (R + k * (4 * j))) && (c + j - (R + k * (4 * j)) <? 3 * j)) with true by lia.
      lia.
    + rewrite (wcol_block j R (R + k * (4 * j))) by (eauto; lia).
      replace ((j <=? c - j - (R + k * (4 * j))) && (c - j - (R + k * (4 * j)) <? 2 * j)) with true by lia.
      lia.
    + rewrite (wcol_block j R (R + k * (4 * j))) by (eauto; lia). now rewrite E1, E2.
Qed.
Lemma wcol_range j R M q c : 0 < j -> 0 <= R -> M = R + q * (4 * j) -> 0 <= c < M -> 0 <= wcol j R c < M.
Proof.
  intros Hj HR HM Hc. destruct (Z_lt_dec c R).
  - unfold wcol. now replace (c <? R) with true by lia.
  - destruct (block_of j R c) as [k [Hk Hc2]]; try lia.
    assert (Hkq : k < q) by nia.
    assert (R + k * (4 * j) + 4 * j <= M) by nia.
    assert (0 <= k * (4 * j)) by nia.
    rewrite (wcol_block j R (R + k * (4 * j)) c) by (eauto; lia).
    destruct (_ && _) eqn:E1; [|destruct ((2 * j <=? _) && _) eqn:E2]; lia.
Qed.

Lemma colperm_step A A1 A2 oA N M j R i k :
  0 <= N -> 0 < j -> 0 <= R -> 0 <= k -> i = R + k * (4 * j) -> i + 4 * j <= M -> 0 <= oA ->
  zlen A1 = zlen A ->
  (forall r c, 0 <= r < N -> 0 <= c < i -> zget A1 (oA + (r + c * N)) = zget A (oA + (r + wcol j R c * N))) ->
  (forall r c, 0 <= r < N -> i <= c < M -> zget A1 (oA + (r + c * N)) = zget A (oA + (r + c * N))) ->
  (forall p, ~ oA <= p < oA + N * M -> zget A1 p = zget A p) ->
  is_swapped A1 A2 (oA + (i + j) * N) (oA + (i + 2 * j) * N) (j * N) ->
  zlen A2 = zlen A /\
  (forall r c, 0 <= r < N -> 0 <= c < i + 4 * j -> zget A2 (oA + (r + c * N)) = zget A (oA + (r + wcol j R c * N))) /\
  (forall r c, 0 <= r < N -> i + 4 * j <= c < M -> zget A2 (oA + (r + c * N)) = zget A (oA + (r + c * N))) /\
  (forall p, ~ oA <= p < oA + N * M -> zget A2 p = zget A p).
Proof.
  intros HN Hj HR Hk Hi HM HoA HL H1 H2 H3 [HL2 HS].
  assert (Hi0 : 0 <= i) by nia.
  assert (IN : forall r c x, 0 <= r < N -> 0 <= x ->
    ((oA + x * N <=? oA + (r + c * N)) && (oA + (r + c * N) <? oA + x * N + j * N)) =
    ((x <=? c) && (c <? x + j))).
  { intros r c x Hr Hx. destruct (Z.leb_spec x c), (Z.ltb_spec c (x + j)); cbn [andb].
    - assert (x * N <= c * N) by nia. assert (c * N + N <= (x + j) * N) by nia. lia.
    - assert ((x + j) * N <= c * N) by nia. lia.
    - assert (c * N + N <= x * N) by nia. lia.
    - assert (c * N + N <= x * N) by nia. lia. }
  split; [lia|split; [|split]].
  - intros r c Hr Hc. rewrite HS. unfold swapped. rewrite !IN by lia.
    destruct (Z_lt_dec c i).
    + replace ((i + j <=? c) && (c <? i + j + j)) with false by lia.
      replace ((i + 2 * j <=? c) && (c <? i + 2 * j + j)) with false by lia. apply H1; auto; lia.
    + rewrite (wcol_block j R i c) by (eauto; lia).
      destruct ((j <=? c - i) && (c - i <? 2 * j)) eqn:E1.
      * replace ((i + j <=? c) && (c <? i + j + j)) with true by lia.
        replace (oA + (r + c * N) - (oA + (i + j) * N) + (oA + (i + 2 * j) * N))
          with (oA + (r + (c + j) * N)) by ring. apply H2; auto; lia.
      * replace ((i + j <=? c) && (c <? i + j + j)) with false by lia.
        destruct ((2 * j <=? c - i) && (c - i <? 3 * j)) eqn:E2.
        -- replace ((i + 2 * j <=? c) && (c <? i + 2 * j + j)) with true by lia.
           replace (oA + (r + c * N) - (oA + (i + 2 * j) * N) + (oA + (i + j) * N))
             with (oA + (r + (c - j) * N)) by ring. apply H2; auto; lia.
        -- replace ((i + 2 * j <=? c) && (c <? i + 2 * j + j)) with false by lia. apply H2; auto; lia.
  - intros r c Hr Hc. rewrite HS. unfold swapped. rewrite !IN by lia.
    replace ((i + j <=? c) && (c <? i + j + j)) with false by lia.
    replace ((i + 2 * j <=? c) && (c <? i + 2 * j + j)) with false by lia. apply H2; auto; lia.
  - intros p Hp. rewrite HS. unfold swapped.
    assert (0 <= (i + j) * N) by nia. assert ((i + j) * N + j * N <= N * M) by nia.
    assert (0 <= (i + 2 * j) * N) by nia. assert ((i + 2 * j) * N + j * N <= N * M) by nia.
    replace ((oA + (i + j) * N <=? p) && (p <? oA + (i + j) * N + j * N)) with false by lia.
    replace ((oA + (i + 2 * j) * N <=? p) && (p <? oA + (i + 2 * j) * N + j * N)) with false by lia.
    auto.
Qed.

Lemma warp_pass_spec swp N M L j A oA q :
  good_swap swp -> 0 <= N -> 0 < j -> 0 <= M mod (4 * L) -> 0 <= q -> M = M mod (4 * L) + q * (4 * j) ->
  0 <= oA -> oA + N * M <= zlen A ->
  exists A', warp_pass swp N M L j A oA = Some A' /\ is_colperm A A' oA N M (wcol j (M mod (4 * L))).
Proof.
  intros Hsw HN Hj HR Hq HM HoA HA. unfold warp_pass. set (R := M mod (4 * L)) in *.
  destruct (for_upst_inv (fun i A1 => zlen A1 = zlen A /\
    (forall r c, 0 <= r < N -> 0 <= c < i -> zget A1 (oA + (r + c * N)) = zget A (oA + (r + wcol j R c * N))) /\
    (forall r c, 0 <= r < N -> i <= c < M -> zget A1 (oA + (r + c * N)) = zget A (oA + (r + c * N))) /\
    (forall p, ~ oA <= p < oA + N * M -> zget A1 p = zget A p)) R M (4 * j)
    (fun i A => swp A (oA + (i + j) * N) (oA + (i + 2 * j) * N) (j * N)) A)
    as [A' [E [H1 [H2 [H3 H4]]]]]; try lia.
  - repeat split; auto. intros r c Hr Hc. unfold wcol. now replace (c <? R) with true by lia.
  - intros k i A1 Hk Hi Hi2 [I1 [I2 [I3 I4]]].
    assert (Hkq : k < q) by nia. assert (Hi4 : i + 4 * j <= M) by nia.
    assert (B1 : 0 <= (i + j) * N) by nia. assert (B2 : (i + j) * N + j * N <= N * M) by nia.
    assert (B3 : 0 <= (i + 2 * j) * N) by nia. assert (B4 : (i + 2 * j) * N + j * N <= N * M) by nia.
    destruct (Hsw A1 (oA + (i + j) * N) (oA + (i + 2 * j) * N) (j * N)) as [A2 [E2 S2]]; try nia.
    { unfold apart. left. lia. }
    exists A2. split; [auto|].
    apply (colperm_step A A1 A2 oA N M j R i k); auto.
  - exists A'. split; [auto|]. split; [auto|split; [|auto]].
    intros r c Hr Hc. apply H2; auto. rewrite HM at 1. rewrite end_upst_exact by lia. lia.
Qed.

Lemma colperm_invol A A' oA N M w : 0 <= N ->
  is_colperm A A' oA N M w -> (forall c, 0 <= c < M -> 0 <= w c < M /\ w (w c) = c) ->
  is_colperm A' A oA N M w.
Proof.
  intros HN [H1 [H2 H3]] Hw. split; [lia|split].
  - intros r c Hr Hc. destruct (Hw c Hc) as [W1 W2]. rewrite H2 by auto. now rewrite W2.
  - intros p Hp. symmetry; auto.
Qed.
Lemma colperm_uniq A A1 A2 oA N M w : 0 <= N ->
  is_colperm A A1 oA N M w -> is_colperm A A2 oA N M w -> A1 = A2.
Proof.
  intros HN [L1 [G1 K1]] [L2 [G2 K2]]. apply zget_ext. intros p.
  destruct (Z_le_dec oA p); [destruct (Z_lt_dec p (oA + N * M))|].
  - destruct (pos_split N M (p - oA)) as [r [c [Hr [Hc E]]]]; try lia.
    replace p with (oA + (r + c * N)) by lia. now rewrite G1, G2.
  - rewrite K1, K2; auto; lia.
  - rewrite K1, K2; auto; lia.
Qed.
Lemma colperm_comp A A1 A2 oA N M w1 w2 :
  is_colperm A A1 oA N M w1 -> is_colperm A1 A2 oA N M w2 ->
  (forall c, 0 <= c < M -> 0 <= w2 c < M) ->
  is_colperm A A2 oA N M (fun c => w1 (w2 c)).
Proof.
  intros [L1 [G1 K1]] [L2 [G2 K2]] Hw. split; [lia|split].
  - intros r c Hr Hc. rewrite G2, G1; auto.
  - intros p Hp. rewrite K2, K1; auto.
Qed.
Lemma colperm_id A oA N M : is_colperm A A oA N M (fun c => c).
Proof. repeat split; auto. Qed.

(** the sequence of pass sizes 2, 4, ..., 2^e *)
Fixpoint run_passes swp N M L (js : list Z) (A : list F) oA : option (list F) :=
  match js with
  | [] => Some A
  | j :: js => do A <- warp_pass swp N M L j A oA; run_passes swp N M L js A oA
  end.
Fixpoint pows (f : Z) (e : nat) : list Z :=
  match e with O => [] | S e => 2 ^ f :: pows (f + 1) e end.

Lemma run_passes_app swp N M L js1 js2 A oA :
  run_passes swp N M L (js1 ++ js2) A oA =
  do A <- run_passes swp N M L js1 A oA; run_passes swp N M L js2 A oA.
Proof.
  revert A; induction js1 as [|j js1 IH]; intros A; cbn; auto.
  destruct (warp_pass swp N M L j A oA); cbn; auto.
Qed.

Fixpoint wcols (R : Z) (js : list Z) (c : Z) : Z :=
  match js with [] => c | j :: js => wcol j R (wcols R js c) end.

Definition okpass (M L j : Z) := 0 < j /\ exists q, 0 <= q /\ M = M mod (4 * L) + q * (4 * j).

Lemma wcols_range R M js : 0 <= R ->
  (forall j, In j js -> 0 < j /\ exists q, M = R + q * (4 * j)) ->
  forall c, 0 <= c < M -> 0 <= wcols R js c < M.
Proof.
  intros HR. induction js as [|j js IH]; intros Hj c Hc; cbn; auto.
  destruct (Hj j (or_introl eq_refl)) as [Hj0 [q Hq]].
  apply (wcol_range j R M q); auto. apply IH; auto. intros; apply Hj; now right.
Qed.

Lemma run_passes_spec swp N M L js A oA :
  good_swap swp -> 0 <= N -> 0 <= M mod (4 * L) -> (forall j, In j js -> okpass M L j) ->
  0 <= oA -> oA + N * M <= zlen A ->
  exists A', run_passes swp N M L js A oA = Some A' /\
    is_colperm A A' oA N M (wcols (M mod (4 * L)) js) /\
    run_passes swp N M L (rev js) A' oA = Some A.
Proof.
  intros Hs HN HR. revert A. induction js as [|j js IH]; intros A Hj HoA HA.
  - exists A. split; [reflexivity|]. split; [apply colperm_id|reflexivity].
  - destruct (Hj j (or_introl eq_refl)) as [Hj0 [q [Hq HM]]].
    destruct (warp_pass_spec swp N M L j A oA q) as [A1 [E1 P1]]; auto.
    destruct (IH A1) as [A2 [E2 [P2 B2]]]; auto.
    { intros; apply Hj; now right. } { destruct P1; lia. }
    exists A2. cbn [run_passes rev]. rewrite E1. cbn [obind]. split; [auto|]. split.
    + apply (colperm_comp A A1 A2 oA N M (wcol j (M mod (4 * L))) (wcols (M mod (4 * L)) js)); auto.
      apply wcols_range; auto. intros j' Hj'. destruct (Hj j' (or_intror Hj')) as [Ha [q' [_ Hb]]]. eauto.
    + rewrite run_passes_app, B2. cbn [obind run_passes].
      destruct (warp_pass_spec swp N M L j A1 oA q) as [A0 [E0 P0]]; auto.
      { destruct P1; lia. }
      rewrite E0. cbn [obind]. f_equal.
      apply (colperm_uniq A1 A0 A oA N M (wcol j (M mod (4 * L)))); auto.
      apply colperm_invol; auto. intros c Hc. split; [|now apply wcol_invol].
      apply (wcol_range j _ M q); auto.
Qed.

Lemma pow2_pos e : 0 <= e -> 0 < 2 ^ e. Proof. intros; apply Z.pow_pos_nonneg; lia. Qed.

Lemma warp_from_passes swp N M oA E : 0 <= E ->
  forall (n : nat) f fuel, 0 <= f -> f + Z.of_nat n = E + 1 -> (n < fuel)%nat ->
  forall A, warp_from fuel swp N M (2 ^ E) (2 ^ f) A oA = run_passes swp N M (2 ^ E) (pows f n) A oA.
Proof.
  intros HE. induction n as [|n IH]; intros f fuel Hf Hn Hfuel A; (destruct fuel; [lia|]).
  - cbn [warp_from pows run_passes]. assert (2 ^ E < 2 ^ f) by (apply Z.pow_lt_mono_r; lia).
    now replace (2 ^ f <=? 2 ^ E) with false by lia.
  - cbn [warp_from pows run_passes]. assert (2 ^ f <= 2 ^ E) by (apply Z.pow_le_mono_r; lia).
    replace (2 ^ f <=? 2 ^ E) with true by lia.
    destruct (warp_pass swp N M (2 ^ E) (2 ^ f) A oA) as [A1|]; cbn [obind]; auto.
    replace (2 * 2 ^ f) with (2 ^ (f + 1)) by (rewrite Z.pow_add_r by lia; lia).
    apply IH; lia.
Qed.

Lemma pows_snoc f n : 0 <= f -> pows f (S n) = pows f n ++ [2 ^ (f + Z.of_nat n)].
Proof.
  revert f; induction n as [|n IH]; intros f Hf.
  - cbn. now rewrite Z.add_0_r.
  - change (pows f (S (S n))) with (2 ^ f :: pows (f + 1) (S n)). rewrite IH by lia.
    replace (f + 1 + Z.of_nat n) with (f + Z.of_nat (S n)) by lia. reflexivity.
Qed.

Lemma warp_t_from_passes swp N M L oA :
  forall (n : nat) fuel, (n < fuel)%nat ->
  forall A, warp_t_from fuel swp N M L (2 ^ Z.of_nat n) A oA = run_passes swp N M L (rev (pows 1 n)) A oA.
Proof.
  induction n as [|n IH]; intros fuel Hfuel A; (destruct fuel; [lia|]).
  - reflexivity.
  - rewrite pows_snoc by lia. rewrite rev_app_distr. cbn [rev app].
    cbn [warp_t_from run_passes].
    assert (0 < 2 ^ Z.of_nat n) by (apply pow2_pos; lia).
    assert (E : 2 ^ Z.of_nat (S n) = 2 * 2 ^ Z.of_nat n) by (rewrite Nat2Z.inj_succ, Z.pow_succ_r; lia).
    replace (2 <=? 2 ^ Z.of_nat (S n)) with true by lia.
    replace (1 + Z.of_nat n) with (Z.of_nat (S n)) by lia.
    destruct (warp_pass swp N M L (2 ^ Z.of_nat (S n)) A oA) as [A1|]; cbn [obind]; auto.
    replace (2 ^ Z.of_nat (S n) / 2) with (2 ^ Z.of_nat n). apply IH; lia.
    rewrite E, Z.mul_comm, Z.div_mul; lia.
Qed.

Lemma lt_pow2 n : (n < Z.to_nat (2 ^ Z.of_nat n) + 2)%nat.
Proof.
  assert (Z.of_nat n < 2 ^ Z.of_nat n) by (apply Z.pow_gt_lin_r; lia). lia.
Qed.

Lemma in_pows j n : forall f, 0 <= f -> In j (pows f n) -> exists e, f <= e < f + Z.of_nat n /\ j = 2 ^ e.
Proof.
  induction n as [|n IH]; intros f Hf; cbn [pows]; [easy|].
  intros [<-|H]; [exists f; lia|]. destruct (IH (f + 1)) as [e [He ->]]; auto; [lia|]. exists e; lia.
Qed.

Lemma warp_spec swp A oA N M e :
  good_swap swp -> 0 <= N -> 0 <= M -> 0 <= oA -> oA + N * M <= zlen A ->
  exists A', warp swp A oA N M (2 ^ Z.of_nat e) = Some A' /\
    is_colperm A A' oA N M (wcols (M mod (4 * 2 ^ Z.of_nat e)) (pows 1 e)) /\
    warp_t swp A' oA N M (2 ^ Z.of_nat e) = Some A.
Proof.
  intros Hs HN HM HoA HA. unfold warp, warp_t.
  pose proof (lt_pow2 e).
  assert (HL : 0 < 2 ^ Z.of_nat e) by (apply pow2_pos; lia).
  destruct (run_passes_spec swp N M (2 ^ Z.of_nat e) (pows 1 e) A oA) as [A' [E [P B]]]; auto.
  - apply Z.mod_pos_bound. lia.
  - intros j Hj. apply in_pows in Hj; [|lia]. destruct Hj as [f [Hf ->]].
    split; [apply pow2_pos; lia|].
    destruct (rem_mult M (4 * 2 ^ Z.of_nat e)) as [E1 [E2 E3]]; try lia.
    exists (M / (4 * 2 ^ Z.of_nat e) * 2 ^ (Z.of_nat e - f)).
    assert (0 < 2 ^ (Z.of_nat e - f)) by (apply pow2_pos; lia).
    split; [nia|].
    assert (Ep : 2 ^ Z.of_nat e = 2 ^ (Z.of_nat e - f) * 2 ^ f).
    { rewrite <- Z.pow_add_r by lia. f_equal; lia. }
    set (X := M / (4 * 2 ^ Z.of_nat e)) in *. set (Y := M mod (4 * 2 ^ Z.of_nat e)) in *.
    clearbody X Y. rewrite Ep in E1. lia.
  - exists A'. 
    pose proof (warp_from_passes swp N M oA (Z.of_nat e) ltac:(lia) e 1
      (Z.to_nat (2 ^ Z.of_nat e) + 2)%nat ltac:(lia) ltac:(lia) ltac:(lia)) as X.
    change (2 ^ 1) with 2 in X. rewrite X.
    rewrite warp_t_from_passes by lia. auto.
Qed.

Lemma warp_t_spec swp A oA N M e :
  good_swap swp -> 0 <= N -> 0 <= M -> 0 <= oA -> oA + N * M <= zlen A ->
  exists A', warp_t swp A oA N M (2 ^ Z.of_nat e) = Some A' /\
    zlen A' = zlen A /\
    warp swp A' oA N M (2 ^ Z.of_nat e) = Some A.
Proof.
  intros Hs HN HM HoA HA. unfold warp, warp_t.
  pose proof (lt_pow2 e).
  assert (HL : 0 < 2 ^ Z.of_nat e) by (apply pow2_pos; lia).
  destruct (run_passes_spec swp N M (2 ^ Z.of_nat e) (rev (pows 1 e)) A oA) as [A' [E [P B]]]; auto.
  - apply Z.mod_pos_bound. lia.
  - intros j Hj. apply in_rev in Hj. apply in_pows in Hj; [|lia]. destruct Hj as [f [Hf ->]].
    split; [apply pow2_pos; lia|].
    destruct (rem_mult M (4 * 2 ^ Z.of_nat e)) as [E1 [E2 E3]]; try lia.
    exists (M / (4 * 2 ^ Z.of_nat e) * 2 ^ (Z.of_nat e - f)).
    assert (0 < 2 ^ (Z.of_nat e - f)) by (apply pow2_pos; lia).
    split; [nia|].
    assert (Ep : 2 ^ Z.of_nat e = 2 ^ (Z.of_nat e - f) * 2 ^ f).
    { rewrite <- Z.pow_add_r by lia. f_equal; lia. }
    set (X := M / (4 * 2 ^ Z.of_nat e)) in *. set (Y := M mod (4 * 2 ^ Z.of_nat e)) in *.
    clearbody X Y. rewrite Ep in E1. lia.
  - exists A'. rewrite rev_involutive in B. 
    pose proof (warp_from_passes swp N M oA (Z.of_nat e) ltac:(lia) e 1
      (Z.to_nat (2 ^ Z.of_nat e) + 2)%nat ltac:(lia) ltac:(lia) ltac:(lia)) as X.
    change (2 ^ 1) with 2 in X. rewrite X.
    rewrite warp_t_from_passes by lia. destruct P; auto.
Qed.
End P.
