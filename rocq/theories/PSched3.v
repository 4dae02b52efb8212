(** * Parallel regions: footprints of the kernels *)
From Coq Require Import ZArith List Lia Bool ZifyBool ZifyNat Permutation.
From Verif Require Import Base BaseFacts Arith MPermute MRotations MDrivers MBanded MSched PSched PSched2.
Import ListNotations.
Open Scope Z_scope.

Section W.
Context {F : Type}.
Variable X : Z -> Prop.
(** every access is in [X] and the result, if any, satisfies [Q] *)
Fixpoint wp {T} (Q : T -> Prop) (p : prog F T) : Prop :=
  match p with
  | Ret x => Q x
  | Fault => True
  | Load a k => X a /\ forall v, wp Q (k v)
  | Store a v k => X a /\ wp Q k
  end.
Definition any {T} (_ : T) : Prop := True.
Lemma wp_inside {T} (Q : T -> Prop) p : wp Q p -> inside X p.
Proof. induction p; cbn; intuition; now apply H. Qed.
Lemma wp_bind {T U} (Q : T -> Prop) (Q' : U -> Prop) (p : prog F T) (f : T -> prog F U) :
  wp Q p -> (forall x, Q x -> wp Q' (f x)) -> wp Q' (pbind p f).
Proof. intros Hp Hf. induction p; cbn in *; intuition. Qed.
Lemma wp_seq {T U} (Q' : U -> Prop) (p : prog F T) (f : T -> prog F U) :
  wp any p -> (forall x, wp Q' (f x)) -> wp Q' (pbind p f).
Proof. intros Hp Hf. eapply wp_bind; eauto. Qed.
Lemma wp_lift {T} (Q : T -> Prop) (o : option T) : (forall x, o = Some x -> Q x) -> wp Q (plift o).
Proof. destruct o; cbn; auto. Qed.
Lemma wp_iter {S} (I : S -> Prop) n (f : nat -> S -> prog F S) s :
  I s -> (forall k s, (k < n)%nat -> I s -> wp I (f k s)) -> wp I (piter n f s).
Proof.
  intros Hs Hf. induction n; cbn [piter]; [exact Hs|]. eapply wp_bind; [apply IHn; auto | intros; apply Hf; auto].
Qed.
Lemma wp_up0 {S} (I : S -> Prop) lo hi (f : Z -> S -> prog F S) s :
  I s -> (forall i s, lo <= i < hi -> I s -> wp I (f i s)) -> wp I (pfor_up lo hi f s).
Proof. intros Hs Hf. apply wp_iter; auto. intros. apply Hf; auto. lia. Qed.
Lemma wp_up {S} lo hi (f : Z -> S -> prog F S) s :
  (forall i s, lo <= i < hi -> wp any (f i s)) -> wp any (pfor_up lo hi f s).
Proof. intros. apply wp_up0; [exact I|]. auto. Qed.
Lemma wp_dn {S} hi lo (f : Z -> S -> prog F S) s :
  (forall i s, lo <= i <= hi -> wp any (f i s)) -> wp any (pfor_dn hi lo f s).
Proof. intros Hf. apply wp_iter; [exact I|]. intros. apply Hf; auto. lia. Qed.
Lemma wp_upst {S} lo hi st (f : Z -> S -> prog F S) s : 0 < st ->
  (forall i s, lo <= i < hi -> wp any (f i s)) -> wp any (pfor_upst lo hi st f s).
Proof.
  intros Hst Hf. apply wp_iter; [exact I|]. intros k s' Hk _. apply Hf.
  pose proof (Z.div_mod (hi - lo + st - 1) st). pose proof (Z.mod_pos_bound (hi - lo + st - 1) st).
  set (q := (hi - lo + st - 1) / st) in *. assert (Z.of_nat k + 1 <= q) by lia. nia.
Qed.
Lemma wp_upst' {S} lo hi st (f : Z -> S -> prog F S) s : 0 < st ->
  (forall c s, 0 <= c -> lo <= lo + c * st < hi -> wp any (f (lo + c * st) s)) -> wp any (pfor_upst lo hi st f s).
Proof.
  intros Hst Hf. apply wp_iter; [exact I|]. intros k s' Hk _. apply Hf; [lia|].
  pose proof (Z.div_mod (hi - lo + st - 1) st). pose proof (Z.mod_pos_bound (hi - lo + st - 1) st).
  set (q := (hi - lo + st - 1) / st) in *. assert (Z.of_nat k + 1 <= q) by lia. nia.
Qed.
Lemma wp_dnst {S} hi lo st (f : Z -> S -> prog F S) s : 0 < st ->
  (forall i s, lo <= i <= hi -> wp any (f i s)) -> wp any (pfor_dnst hi lo st f s).
Proof.
  intros Hst Hf. apply wp_iter; [exact I|]. intros k s' Hk _. apply Hf.
  pose proof (Z.div_mod (hi - lo + st) st). pose proof (Z.mod_pos_bound (hi - lo + st) st).
  set (q := (hi - lo + st) / st) in *. assert (Z.of_nat k + 1 <= q) by lia. nia.
Qed.
Lemma wp_load a : X a -> wp any (pload a). Proof. cbn. unfold any. auto. Qed.
Lemma wp_store a (v : F) : X a -> wp any (pstore a v). Proof. cbn. unfold any. auto. Qed.

Lemma wp_vload V p : (forall i, 0 <= i < Z.of_nat V -> X (p + i)) -> wp (fun v => zlen v <= Z.of_nat V) (p_vload V p).
Proof.
  revert p. induction V; intros p Hp; [cbn; lia|]. cbn [p_vload]. apply wp_seq.
  - apply wp_load. replace p with (p + 0) by ring. apply Hp. lia.
  - intros x. eapply wp_bind.
    + apply IHV. intros i Hi. replace (p + 1 + i) with (p + (i + 1)) by ring. apply Hp. lia.
    + intros r Hr. cbn [wp]. unfold zlen in *. cbn [length]. lia.
Qed.
Lemma wp_vstore vs p K : zlen vs <= K -> (forall i, 0 <= i < K -> X (p + i)) -> wp any (p_vstore p vs).
Proof.
  revert p K. induction vs; intros p K HK Hp; [exact I|]. cbn [p_vstore].
  assert (HL : zlen (a :: vs) = zlen vs + 1) by (unfold zlen; cbn [length]; lia).
  pose proof (zlen_nonneg vs).
  apply wp_seq.
  - apply wp_store. replace p with (p + 0) by ring. apply Hp. lia.
  - intros x. apply (IHvs _ (K - 1)); [lia|]. intros i Hi.
    replace (p + 1 + i) with (p + (i + 1)) by ring. apply Hp. lia.
Qed.
End W.

Lemma for_up_keeps {S} (I : S -> Prop) lo hi (body : Z -> S -> option S) s s' :
  I s -> (forall i s s', I s -> body i s = Some s' -> I s') -> for_up lo hi body s = Some s' -> I s'.
Proof.
  unfold for_up. intros Hs Hb. revert s'. induction (Z.to_nat (hi - lo)); cbn [itero]; intros s' E.
  - now injection E as <-.
  - destruct (itero n _ s) eqn:E1; cbn in E; [|discriminate]. eapply Hb; [|exact E]. apply IHn. reflexivity.
Qed.

Section K.
Context {F : Type} `{Arith F}.
Variable rot : F -> F -> F -> F -> F * F.
Variable X : Z -> Prop.
Notation wpa := (wp X any).

Lemma wp_rot s c ix iy : X ix -> X iy -> wpa (p_apply_rot rot s c ix iy).
Proof. cbn. unfold any. auto 10. Qed.
Lemma zlen_vrot1 s c (x y : list F) : zlen (vrot1 rot s c x y) <= zlen x.
Proof. unfold vrot1, zlen. rewrite map_length, combine_length. lia. Qed.
Lemma zlen_vrot2 s c (x y : list F) : zlen (vrot2 rot s c x y) <= zlen x.
Proof. unfold vrot2, zlen. rewrite map_length, combine_length. lia. Qed.
Lemma wp_vrot VS s c ix iy :
  (forall i, 0 <= i < Z.of_nat VS -> X (ix + i)) -> (forall i, 0 <= i < Z.of_nat VS -> X (iy + i)) ->
  wpa (p_vapply_rot rot VS s c ix iy).
Proof.
  intros Hx Hy. unfold p_vapply_rot. eapply wp_bind; [apply wp_vload; auto|]. intros x Lx.
  eapply wp_bind; [apply wp_vload; auto|]. intros y Ly. cbn beta in *.
  pose proof (zlen_vrot1 s c x y). pose proof (zlen_vrot2 s c x y).
  apply wp_seq; [|intros _]; apply wp_vstore with (K := Z.of_nat VS); auto; lia.
Qed.

(** registers hold at most [VS] lanes *)
Definition lanes (VS : nat) (R : list (list F)) : Prop := forall l v, zget R l = Some v -> zlen v <= Z.of_nat VS.
Lemma lanes_set VS R l v R' : lanes VS R -> zlen v <= Z.of_nat VS -> zset R l v = Some R' -> lanes VS R'.
Proof.
  intros HR Hv E. apply zset_inv in E. destruct E as [Hl ->]. intros k w. rewrite zget_zupd by auto.
  destruct (l =? k); [intros [= <-]; auto | apply HR].
Qed.
Lemma lanes_rot VS s c R a b R' : lanes VS R -> reg_rot rot s c R a b = Some R' -> lanes VS R'.
Proof.
  intros HR. unfold reg_rot. destruct (zget R a) eqn:E1; cbn; [|discriminate].
  destruct (zget R b) eqn:E2; cbn; [|discriminate].
  destruct (zset R a _) eqn:E3; cbn; [|discriminate]. intros E4.
  pose proof (HR _ _ E1). pose proof (zlen_vrot1 s c l l0). pose proof (zlen_vrot2 s c l l0).
  eapply lanes_set; [eapply lanes_set; [exact HR| |exact E3]| |exact E4]; lia.
Qed.
Lemma wp_load_block VS K oA S b : (forall l i, 0 <= l < K -> 0 <= i < Z.of_nat VS -> X (oA + (b + l) * S + i)) ->
  wp X (lanes VS) (p_load_block VS K oA S b).
Proof.
  intros HX. unfold p_load_block. apply wp_up0.
  - intros l v E. destruct (Z_le_dec 0 l) as [H1|H1]; [destruct (Z_lt_dec l K)|].
    + rewrite zget_zmake in E by lia. injection E as <-. cbn. lia.
    + pose proof (zget_range _ _ _ E) as Hr. unfold zmake, zlen in Hr. rewrite repeat_length in Hr. lia.
    + pose proof (zget_range _ _ _ E). lia.
  - intros l R Hl HR. eapply wp_bind; [apply wp_vload; intros; apply HX; auto|]. intros v Hv.
    apply wp_lift. intros R' E. eapply lanes_set; [exact HR|exact Hv|exact E].
Qed.
Lemma wp_store_block VS K R oA S b : lanes VS R ->
  (forall l i, 0 <= l < K -> 0 <= i < Z.of_nat VS -> X (oA + (b + l) * S + i)) ->
  wpa (p_store_block K R oA S b).
Proof.
  intros HR HX. unfold p_store_block. apply wp_up. intros l _ Hl.
  eapply wp_bind; [apply (wp_lift X (fun v => zlen v <= Z.of_nat VS)); intros v E; eapply HR; eauto|].
  intros v Hv. apply wp_vstore with (K := Z.of_nat VS); auto.
Qed.
(** a whole block: load, rotate the registers, store *)
Lemma wp_block VS K oA S b (g : list (list F) -> option (list (list F))) :
  (forall l i, 0 <= l < K -> 0 <= i < Z.of_nat VS -> X (oA + (b + l) * S + i)) ->
  (forall R R', lanes VS R -> g R = Some R' -> lanes VS R') ->
  wpa (pdo R <- p_load_block VS K oA S b; pdo R <- plift (g R); p_store_block K R oA S b).
Proof.
  intros HX Hg. eapply wp_bind; [apply wp_load_block; auto|]. intros R HR.
  eapply wp_bind; [apply (wp_lift X (lanes VS)); intros R' E; eapply Hg; eauto|]. intros R' HR'.
  eapply wp_store_block; eauto.
Qed.
Lemma lanes_loop VS L (RP : rotplan F) (ix : Z -> Z -> Z) (a b : Z -> Z -> Z) R R' :
  lanes VS R ->
  for_up 0 L (fun lj R => for_up 0 L (fun lk R =>
    do sc <- tab RP (ix lj lk); reg_rot rot (fst sc) (snd sc) R (a lj lk) (b lj lk)) R) R = Some R' ->
  lanes VS R'.
Proof.
  intros HR. apply for_up_keeps; auto. clear R R' HR. intros lj R R' HR.
  apply for_up_keeps; auto. clear R R' HR. intros lk R R' HR.
  destruct (tab RP (ix lj lk)); cbn [obind]; [|discriminate]. now apply lanes_rot.
Qed.

(** ** default kernels *)
Section Col.
Variables (RP : rotplan F) (oA S : Z).
Let n := rp_n RP.
Variable W : Z.
Hypothesis HX : forall r i, 0 <= r < n -> 0 <= i < W -> X (oA + r * S + i).
Lemma HX0 r i : 0 <= r < n -> 0 <= i < W -> X (oA + i + r * S).
Proof. intros. replace (oA + i + r * S) with (oA + r * S + i) by ring. now apply HX. Qed.
Lemma wp_sph_hi2lo m1 m2 i : 0 <= m1 -> 0 <= i < W -> wpa (p_sph_hi2lo rot RP m1 m2 (oA + i) S).
Proof.
  intros Hm Hi. unfold p_sph_hi2lo. fold n. apply wp_dnst; [lia|]. intros j _ Hj. apply wp_dn. intros k _ Hk.
  eapply wp_seq; [apply wp_lift; intros; exact I|]. intros sc. apply wp_rot; apply HX0; lia.
Qed.
Lemma wp_sph_lo2hi m1 m2 i : 0 <= m1 -> 0 <= i < W -> wpa (p_sph_lo2hi rot RP m1 m2 (oA + i) S).
Proof.
  intros Hm Hi. unfold p_sph_lo2hi. fold n. apply wp_upst; [lia|]. intros j _ Hj. apply wp_up. intros k _ Hk.
  eapply wp_seq; [apply wp_lift; intros; exact I|]. intros sc. apply wp_rot; apply HX0; lia.
Qed.
Lemma wp_tri_hi2lo m1 m2 i : 0 <= m1 -> 0 <= i < W -> wpa (p_tri_hi2lo rot RP m1 m2 (oA + i) S).
Proof.
  intros Hm Hi. unfold p_tri_hi2lo. fold n. apply wp_dn. intros j _ Hj. apply wp_dn. intros k _ Hk.
  eapply wp_seq; [apply wp_lift; intros; exact I|]. intros sc. apply wp_rot; apply HX0; lia.
Qed.
Lemma wp_tri_lo2hi m1 m2 i : 0 <= m1 -> 0 <= i < W -> wpa (p_tri_lo2hi rot RP m1 m2 (oA + i) S).
Proof.
  intros Hm Hi. unfold p_tri_lo2hi. fold n. apply wp_up. intros j _ Hj. apply wp_up. intros k _ Hk.
  eapply wp_seq; [apply wp_lift; intros; exact I|]. intros sc. apply wp_rot; apply HX0; lia.
Qed.
Lemma wp_disk_hi2lo m1 m2 i : 0 <= m1 -> 0 <= i < W -> wpa (p_disk_hi2lo rot RP m1 m2 (oA + i) S).
Proof.
  intros Hm Hi. unfold p_disk_hi2lo. fold n. apply wp_dnst; [lia|]. intros j _ Hj. apply wp_dn. intros k _ Hk.
  eapply wp_seq; [apply wp_lift; intros; exact I|]. intros sc. apply wp_rot; apply HX0; lia.
Qed.
Lemma wp_disk_lo2hi m1 m2 i : 0 <= m1 -> 0 <= i < W -> wpa (p_disk_lo2hi rot RP m1 m2 (oA + i) S).
Proof.
  intros Hm Hi. unfold p_disk_lo2hi. fold n. apply wp_upst; [lia|]. intros j _ Hj. apply wp_up. intros k _ Hk.
  eapply wp_seq; [apply wp_lift; intros; exact I|]. intros sc. apply wp_rot; apply HX0; lia.
Qed.

(** ** vector kernels *)
Section Vec.
Variables (VS : nat) (L : Z).
Hypothesis HL : 0 < L.
Hypothesis HVS : W = Z.of_nat VS.
Lemma wp_vr s c r d : 0 <= r -> 0 <= d -> r + d < n -> wpa (p_vapply_rot rot VS s c (oA + r * S) (oA + (r + d) * S)).
Proof. intros. apply wp_vrot; intros i Hi; apply HX; lia. Qed.
Lemma wp_blk K b g : 0 <= b -> b + K <= n ->
  (forall R R', lanes VS R -> g R = Some R' -> lanes VS R') ->
  wpa (pdo R <- p_load_block VS K oA S b; pdo R <- plift (g R); p_store_block K R oA S b).
Proof. intros. apply wp_block; auto. intros. apply HX; lia. Qed.
Lemma rem_small a : L <= a -> 0 <= Z.rem a L <= a - L.
Proof.
  intros Ha. rewrite Z.rem_mod_nonneg by lia. pose proof (Z.mod_pos_bound a L HL).
  pose proof (Z.div_mod a L ltac:(lia)). assert (1 <= a / L) by (apply Z.div_le_lower_bound; lia). nia.
Qed.
Lemma end_dn_le hi lo st : 0 < st -> end_dnst hi lo st <= hi.
Proof. intros. unfold end_dnst. nia. Qed.
Lemma end_dn_lt hi lo st : 0 < st -> lo <= hi + st -> end_dnst hi lo st < lo.
Proof.
  intros Hs Hl. unfold end_dnst. pose proof (Z.div_mod (hi - lo + st) st). pose proof (Z.mod_pos_bound (hi - lo + st) st).
  assert (0 <= (hi - lo + st) / st) by (apply Z.div_pos; lia). nia.
Qed.
Lemma end_up_ge lo hi st : 0 < st -> lo <= end_upst lo hi st.
Proof. intros. unfold end_upst. nia. Qed.
Ltac tabl := eapply wp_seq; [apply wp_lift; intros; exact I|]; intros.

Lemma wp_SPH_HI2LO m1 m2 : 0 <= m1 -> 0 <= m2 -> wpa (P_SPH_HI2LO rot VS L RP m1 m2 oA S).
Proof.
  intros H1 H2. unfold P_SPH_HI2LO. fold n. apply wp_seq; [|intros _; apply wp_seq; [|intros _]].
  - apply wp_up. intros s _ Hs. apply wp_seq; [|intros _; rewrite <- Z.add_assoc]; apply wp_sph_hi2lo; lia.
  - apply wp_dnst; [lia|]. intros j _ Hj. apply wp_seq; [|intros _].
    + apply wp_dnst; [lia|]. intros k _ Hk. apply wp_blk; [lia|lia|].
      intros R R'. apply (lanes_loop VS L RP (fun lj lk => sidx n (k - lk + 2 * lj) (j - 2 * lj))).
    + cbv zeta. apply wp_up. intros lj _ Hlj. apply wp_dn. intros lk _ Hlk. tabl.
      pose proof (end_dn_le (n - 3 - j) (L - 1) L HL). apply wp_vr; lia.
  - apply wp_dnst; [lia|]. intros j _ Hj. apply wp_dn. intros k _ Hk. tabl. apply wp_vr; lia.
Qed.
Lemma wp_SPH_LO2HI m1 m2 : 0 <= m1 -> 0 <= m2 -> m2 <= n + 2 * W - 4 -> (m2 - m1) mod 2 = 0 ->
  wpa (P_SPH_LO2HI rot VS L RP m1 m2 oA S).
Proof.
  intros H1 H2 Hmn Hpar. unfold P_SPH_LO2HI. fold n. rewrite <- HVS. apply wp_seq; [|intros _; apply wp_seq; [|intros _]].
  - apply wp_upst'; [lia|]. intros c _ Hc Hj. cbv zeta.
    assert (HTj : L <= n - L - 2 - (m1 + c * (2 * L))).
    { assert (exists q, m2 - (m1 + c * (2 * L)) = 2 * q) as [q Hq]; [|lia].
      exists ((m2 - m1) / 2 - c * L). lia. }
    remember (m1 + c * (2 * L)) as j eqn:Ej.
    pose proof (rem_small _ HTj) as Hr. apply wp_seq; [|intros _].
    + apply wp_up. intros lj _ Hlj. apply wp_up. intros lk _ Hlk. tabl. apply wp_vr; lia.
    + apply wp_upst; [lia|]. intros k _ Hk. apply wp_blk; [lia|lia|].
      intros R R'. apply (lanes_loop VS L RP (fun lj lk => sidx n (k + lk - 2 * lj) (j + 2 * lj))).
  - apply wp_upst; [lia|]. intros j _ Hj. pose proof (end_up_ge m1 (m2 - 2 * L - 2 * W + 4) (2 * L) ltac:(lia)).
    apply wp_up. intros k _ Hk. tabl. apply wp_vr; lia.
  - apply wp_up. intros s _ Hs. apply wp_seq; [|intros _; rewrite <- Z.add_assoc]; apply wp_sph_lo2hi; lia.
Qed.
Lemma wp_TRI_HI2LO m1 m2 : 0 <= m1 -> 0 <= m2 -> wpa (P_TRI_HI2LO rot VS L RP m1 m2 oA S).
Proof.
  intros H1 H2. unfold P_TRI_HI2LO. fold n. apply wp_seq; [|intros _; apply wp_seq; [|intros _]].
  - apply wp_up. intros s _ Hs. apply wp_tri_hi2lo; lia.
  - apply wp_dnst; [lia|]. intros j _ Hj. apply wp_seq; [|intros _].
    + apply wp_dnst; [lia|]. intros k _ Hk. apply wp_blk; [lia|lia|].
      intros R R'. apply (lanes_loop VS L RP (fun lj lk => sidx n (k - lk + lj) (j - lj))).
    + cbv zeta. apply wp_up. intros lj _ Hlj. apply wp_dn. intros lk _ Hlk. tabl.
      pose proof (end_dn_le (n - 2 - j) (L - 1) L HL). apply wp_vr; lia.
  - apply wp_dn. intros j _ Hj. apply wp_dn. intros k _ Hk. tabl. apply wp_vr; lia.
Qed.
Lemma wp_TRI_LO2HI m1 m2 : 0 <= m1 -> 0 <= m2 -> m2 <= n + W - 2 -> wpa (P_TRI_LO2HI rot VS L RP m1 m2 oA S).
Proof.
  intros H1 H2 Hmn. unfold P_TRI_LO2HI. fold n. rewrite <- HVS. apply wp_seq; [|intros _; apply wp_seq; [|intros _]].
  - apply wp_upst; [lia|]. intros j _ Hj. cbv zeta.
    destruct (Z_le_dec L (n - L - 1 - j)) as [HTj|HTj].
    + pose proof (rem_small _ HTj) as Hr. apply wp_seq; [|intros _].
      * apply wp_up. intros lj _ Hlj. apply wp_up. intros lk _ Hlk. tabl. apply wp_vr; lia.
      * apply wp_upst; [lia|]. intros k _ Hk. apply wp_blk; [lia|lia|].
        intros R R'. apply (lanes_loop VS L RP (fun lj lk => sidx n (k + lk - lj) (j + lj))).
    + assert (Hr : 0 <= Z.rem (n - L - 1 - j) L <= n - L - 1 - j) by (rewrite Z.rem_small by lia; lia).
      apply wp_seq; [|intros _].
      * apply wp_up. intros lj _ Hlj. apply wp_up. intros lk _ Hlk. tabl. apply wp_vr; lia.
      * apply wp_upst; [lia|]. intros k _ Hk. apply wp_blk; [lia|lia|].
        intros R R'. apply (lanes_loop VS L RP (fun lj lk => sidx n (k + lk - lj) (j + lj))).
  - apply wp_up. intros j _ Hj. pose proof (end_up_ge m1 (m2 - L - W + 2) L ltac:(lia)).
    apply wp_up. intros k _ Hk. tabl. apply wp_vr; lia.
  - apply wp_up. intros s _ Hs. apply wp_tri_lo2hi; lia.
Qed.
Lemma wp_DISK_HI2LO m1 m2 : 0 <= m1 -> 0 <= m2 -> wpa (P_DISK_HI2LO rot VS L RP m1 m2 oA S).
Proof.
  intros H1 H2. unfold P_DISK_HI2LO. fold n. apply wp_seq; [|intros _; apply wp_seq; [|intros _]].
  - apply wp_up. intros s _ Hs. apply wp_seq; [|intros _; rewrite <- Z.add_assoc]; apply wp_disk_hi2lo; lia.
  - apply wp_dnst; [lia|]. intros j _ Hj. apply wp_seq; [|intros _].
    + apply wp_dnst; [lia|]. intros k _ Hk. apply wp_blk; [lia|lia|].
      intros R R'. apply (lanes_loop VS L RP (fun lj lk => sdidx n (k - lk + lj) (j - 2 * lj))).
    + cbv zeta. apply wp_up. intros lj _ Hlj. apply wp_dn. intros lk _ Hlk. tabl.
      pose proof (end_dn_le (n - 2 - (j + 1) / 2) (L - 1) L HL). apply wp_vr; lia.
  - apply wp_dnst; [lia|]. intros j _ Hj. apply wp_dn. intros k _ Hk. tabl. apply wp_vr; lia.
Qed.
Lemma wp_DISK_LO2HI m1 m2 : 2 <= W -> 0 <= m1 -> 0 <= m2 -> m2 <= 2 * n - 2 -> wpa (P_DISK_LO2HI rot VS L RP m1 m2 oA S).
Proof.
  intros HW2 H1 H2 Hmn. unfold P_DISK_LO2HI. fold n. rewrite <- HVS. apply wp_seq; [|intros _; apply wp_seq; [|intros _]].
  - apply wp_upst; [lia|]. intros j _ Hj. cbv zeta.
    assert (Hr : 0 <= Z.rem (n - L - 1 - (j + 1) / 2) L <= n - L - 1 - (j + 1) / 2).
    { destruct (Z_le_dec L (n - L - 1 - (j + 1) / 2)) as [HTj|HTj].
      - pose proof (rem_small _ HTj). lia.
      - rewrite Z.rem_small by lia. lia. }
    apply wp_seq; [|intros _].
    + apply wp_up. intros lj _ Hlj. apply wp_up. intros lk _ Hlk. tabl. apply wp_vr; lia.
    + apply wp_upst; [lia|]. intros k _ Hk. apply wp_blk; [lia|lia|].
      intros R R'. apply (lanes_loop VS L RP (fun lj lk => sdidx n (k + lk - lj) (j + 2 * lj))).
  - apply wp_upst; [lia|]. intros j _ Hj. pose proof (end_up_ge m1 (m2 - 2 * L - 2 * W + 4) (2 * L) ltac:(lia)).
    apply wp_up. intros k _ Hk. tabl. apply wp_vr; lia.
  - apply wp_up. intros s _ Hs. apply wp_seq; [|intros _; rewrite <- Z.add_assoc]; apply wp_disk_lo2hi; lia.
Qed.
End Vec.
End Col.

(** ** tetrahedron, dense triangular products *)
Lemma wp_tet_hi2lo (RP : rotplan F) L m oA :
  (forall p, 0 <= p < rp_n RP * L -> X (oA + p)) -> wpa (p_tet_hi2lo rot RP L m oA).
Proof.
  intros HX. unfold p_tet_hi2lo. apply wp_dn. intros j _ Hj. apply wp_dn. intros l _ Hl.
  eapply wp_seq; [apply wp_lift; intros; exact I|]; intros sc. apply wp_up. intros k _ Hk.
  pose proof (Z.mul_le_mono_nonneg_l (l + 2) L (rp_n RP)). pose proof (Z.mul_nonneg_nonneg (rp_n RP) l).
  apply wp_rot; rewrite <- Z.add_assoc; apply HX; lia.
Qed.
Lemma wp_tet_lo2hi (RP : rotplan F) L m oA :
  (forall p, 0 <= p < rp_n RP * L -> X (oA + p)) -> wpa (p_tet_lo2hi rot RP L m oA).
Proof.
  intros HX. unfold p_tet_lo2hi. apply wp_up. intros j _ Hj. apply wp_up. intros l _ Hl.
  eapply wp_seq; [apply wp_lift; intros; exact I|]; intros sc. apply wp_up. intros k _ Hk.
  pose proof (Z.mul_le_mono_nonneg_l (l + 2) L (rp_n RP)). pose proof (Z.mul_nonneg_nonneg (rp_n RP) l).
  apply wp_rot; rewrite <- Z.add_assoc; apply HX; lia.
Qed.
Ltac steps := repeat first
  [ apply wp_up; intros ? _ ? | apply wp_dn; intros ? _ ?
  | eapply wp_seq; [apply wp_lift; intros; exact I|]; intros
  | eapply wp_seq; [apply wp_load; solve [auto with zarith]|]; intros
  | eapply wp_seq; [apply wp_store; solve [auto with zarith]|]; intros
  | eapply wp_seq; [|intros] | apply wp_store; solve [auto with zarith] ].
Lemma wp_trmv tr n T oT LDT o : (forall i, 0 <= i < n -> X (o + i)) -> wpa (p_trmv tr n T oT LDT o).
Proof. intros HX. unfold p_trmv. destruct tr; steps. Qed.
Lemma wp_trsv tr n T oT LDT o : (forall i, 0 <= i < n -> X (o + i)) -> wpa (p_trsv tr n T oT LDT o).
Proof. intros HX. unfold p_trsv. destruct tr; steps. Qed.

Lemma wp_rotc (r : F -> F -> F -> F -> F * F) s c ix iy : X ix -> X iy -> X (ix + 1) -> X (iy + 1) ->
  wpa (p_apply_rotc r s c ix iy).
Proof. cbn. unfold any. auto 20. Qed.
End K.

Section Spin.
Context {F : Type} `{Arith F}.
Variables (rot rot_t : F -> F -> F -> F -> F * F).
Variable X : Z -> Prop.
Lemma wp_spin_hi2lo SRP m oA : (forall p, 0 <= p < 2 * sp_n SRP -> X (oA + p)) ->
  wp X any (p_spinsph_hi2lo rot rot_t SRP m oA 1).
Proof.
  intros HX. unfold p_spinsph_hi2lo. apply wp_seq; [|intros _].
  - apply wp_dn. intros j _ Hj. apply wp_dn. intros k _ Hk.
    eapply wp_seq; [apply wp_lift; intros; exact I|]; intros sc. apply wp_rotc; rewrite <- ?Z.add_assoc; apply HX; lia.
  - apply wp_dnst; [lia|]. intros j _ Hj. apply wp_dn. intros k _ Hk.
    eapply wp_seq; [apply wp_lift; intros; exact I|]; intros sc.
    assert (0 <= Z.rem (Z.abs m + Z.abs (sp_s SRP)) 2) by (apply Z.rem_nonneg; lia).
    apply wp_rotc; rewrite <- ?Z.add_assoc; apply HX; lia.
Qed.
Lemma wp_spin_lo2hi SRP m oA : (forall p, 0 <= p < 2 * sp_n SRP -> X (oA + p)) ->
  wp X any (p_spinsph_lo2hi rot rot_t SRP m oA 1).
Proof.
  intros HX. unfold p_spinsph_lo2hi. apply wp_seq; [|intros _].
  - apply wp_upst; [lia|]. intros j _ Hj. apply wp_up. intros k _ Hk.
    eapply wp_seq; [apply wp_lift; intros; exact I|]; intros sc.
    assert (0 <= Z.rem (Z.abs m + Z.abs (sp_s SRP)) 2) by (apply Z.rem_nonneg; lia).
    apply wp_rotc; rewrite <- ?Z.add_assoc; apply HX; lia.
  - apply wp_up. intros j _ Hj. apply wp_up. intros k _ Hk.
    eapply wp_seq; [apply wp_lift; intros; exact I|]; intros sc. apply wp_rotc; rewrite <- ?Z.add_assoc; apply HX; lia.
Qed.
End Spin.
