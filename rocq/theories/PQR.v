(** * Proofs: banded QR and QL factorisations and the product with Q *)
From Coq Require Import ZArith List Lia Bool ZifyBool ZifyNat Reals Lra.
From Verif Require Import Arith Base BaseFacts SpecSum PSum SpecLin MBanded SpecBanded PTri PBand MFactor PFactor PClen PReflect.
Import ListNotations.
Open Scope Z_scope.

Definition wv (a h z : Z) (w0 : Z -> R) (r : Z) : R := if (a <=? r) && (r <? a + h) then wof w0 z (r - a) else 0%R.
Lemma wv_sum m a h z w0 (f : Z -> R) : 0 <= a -> 0 <= h -> a + h <= m ->
  sumZ m (fun r => (wv a h z w0 r * f r)%R) = sumZ h (fun i => (wof w0 z i * f (a + i)%Z)%R).
Proof.
  intros Ha Hh Hm. rewrite (sumZ_window m a (a + h)); try lia.
  - replace (a + h - a) with h by lia. apply sumZ_ext. intros i Hi. unfold wv.
    replace ((a <=? a + i) && (a + i <? a + h)) with true by lia. now replace (a + i - a) with i by lia.
  - intros k Hk Hn. unfold wv. replace ((a <=? k) && (k <? a + h)) with false by lia. lra.
Qed.
Lemma wv_refl m a h z w0 t (f : Z -> R) r : 0 <= a -> 0 <= h -> a + h <= m ->
  (f r - wv a h z w0 r * (t * sumZ m (fun k => wv a h z w0 k * f k)))%R =
  if (a <=? r) && (r <? a + h) then refl h z w0 t (fun i => f (a + i)) (r - a) else f r.
Proof.
  intros Ha Hh Hm. rewrite wv_sum by auto. unfold wv, refl. destruct ((a <=? r) && (r <? a + h)).
  - now replace (a + (r - a)) with r by lia.
  - lra.
Qed.
Lemma refl_zero h z w0 t f k : 0 <= k < h -> (forall i, 0 <= i < h -> f i = 0%R) -> refl h z w0 t f k = 0%R.
Proof. intros Hk H. unfold refl. rewrite H by auto. rewrite sumZ_zero; [lra|]. intros i Hi. rewrite H by auto. lra. Qed.
Lemma refl_ext h z w0 w1 t f f' k : 0 <= k < h -> (forall i, 0 <= i < h -> f i = f' i) -> (forall i, 0 <= i < h -> i <> z -> w0 i = w1 i) ->
  refl h z w0 t f k = refl h z w1 t f' k.
Proof.
  intros Hk Hf Hw. unfold refl. rewrite Hf by auto.
  assert (W : forall i, 0 <= i < h -> wof w0 z i = wof w1 z i) by (intros i Hi; unfold wof; destruct (Z.eqb_spec i z); auto).
  rewrite W by auto. rewrite (sumZ_ext h (fun i => (wof w0 z i * f i)%R) (fun i => (wof w1 z i * f' i)%R)); auto.
  intros i Hi. now rewrite Hf, W.
Qed.
Lemma for_up_rev {S} p (f : Z -> S -> option S) s : for_up 0 p f s = for_dn (p - 1) 0 (fun k => f (p - 1 - k)) s.
Proof.
  unfold for_up, for_dn. replace (p - 1 - 0 + 1) with (p - 0) by lia. apply itero_ext. intros k s' Hk. cbv beta. f_equal; lia.
Qed.
Lemma for_dn_rev {S} p (f : Z -> S -> option S) s : for_dn (p - 1) 0 f s = for_up 0 p (fun k => f (p - 1 - k)) s.
Proof.
  unfold for_up, for_dn. replace (p - 1 - 0 + 1) with (p - 0) by lia. apply itero_ext. intros k s' Hk. cbv beta. f_equal; lia.
Qed.

Section QX.
Variables l u n len : Z.
Hypothesis Hl : 0 <= l.
Hypothesis Hu : 0 <= u.
Hypothesis Hlen : n * (l + u + 1) <= len.
Notation pos := (pos l u).
Notation inb := (inb l u n).
Notation dm := (dm l u n).

(** the reflector stored in rows [a, a+h) of column [j] *)
Definition wD (D : list R) a h z j r := wv a h z (fun i => g D (pos (a + i) j)) r.

Lemma house_out D D1 t a h z j r c : house h z (pos a j) D D1 t -> inb a j -> a + h - 1 <= j + l -> inb r c -> c <> j \/ r < a \/ a + h <= r ->
  g D1 (pos r c) = g D (pos r c).
Proof.
  intros (_ & O & _) Ia Hh Irc Hc. apply O. pose proof (pos_seg l u n a j r c 0 h Ia Hh ltac:(lia) Irc). lia.
Qed.

(** the loop over the columns [col k], k = 1 .. K-1 *)
Lemma refl_loop (D D1 tau : list R) t a h z j (col : Z -> Z) K (app : Z -> (list R -> Z -> option R) -> R -> list R -> Z -> option (list R)) :
  zlen D = len -> zlen D1 = len -> 1 <= h -> 0 <= z < h -> 1 <= K ->
  inb a j -> a + h - 1 <= j + l ->
  (forall k, 1 <= k < K -> inb a (col k) /\ a + h - 1 <= col k + l /\ col k <> j) ->
  (forall k k', 1 <= k < K -> 1 <= k' < K -> col k = col k' -> k = k') ->
  house h z (pos a j) D D1 t -> zget tau j = Some t ->
  (forall getv tau (A : list R) o w, 0 <= o -> o + h <= zlen A ->
     (forall A' i, 0 <= i < h -> i <> z -> zlen A' = zlen A -> (forall p, p < o \/ o + h <= p -> g A' p = g A p) -> getv A' i = Some (w i)) ->
     exists A', app h getv tau A o = Some A' /\ zlen A' = zlen A /\
       forall p, g A' p = if (o <=? p) && (p <? o + h) then refl h z w tau (fun i => g A (o + i)%Z) (p - o) else g A p) ->
  exists D', for_up 1 K (fun k D => do tj <- zget tau j; app h (own_v (pos a j)) tj D (pos a (col k))) D1 = Some D' /\ zlen D' = len /\
    (forall k r, 1 <= k < K -> a <= r < a + h ->
       g D' (pos r (col k)) = refl h z (fun i => g D1 (pos (a + i) j)) t (fun i => g D (pos (a + i) (col k))) (r - a)) /\
    (forall r c, inb r c -> (forall k, 1 <= k < K -> ~ (c = col k /\ a <= r < a + h)) -> g D' (pos r c) = g D1 (pos r c)).
Proof.
  intros LD LD1 Hh Hz HK Ia Hha Hcol Hinj Hh1 Ht Happ.
  destruct (for_up_inv (fun k D' => zlen D' = len /\
    (forall k' r, 1 <= k' < k -> a <= r < a + h ->
       g D' (pos r (col k')) = refl h z (fun i => g D1 (pos (a + i) j)) t (fun i => g D (pos (a + i) (col k'))) (r - a)) /\
    (forall r c, inb r c -> (forall k', 1 <= k' < k -> ~ (c = col k' /\ a <= r < a + h)) -> g D' (pos r c) = g D1 (pos r c))) 1 K
    (fun k D => do tj <- zget tau j; app h (own_v (pos a j)) tj D (pos a (col k))) D1) as (D' & E & L & V & O).
  - lia.
  - split; [auto|split; [intros; lia|auto]].
  - intros k D2 Hk (L2 & V2 & O2). rewrite Ht. cbn [obind]. destruct (Hcol k ltac:(lia)) as (Ik & Hk1 & Hk2).
    destruct (seg_fits l u n Hl Hu len Hlen a (col k) h Ik Hk1) as (F1 & F2).
    destruct (seg_fits l u n Hl Hu len Hlen a j h Ia Hha) as (F3 & F4).
    destruct (Happ (own_v (pos a j)) t D2 (pos a (col k)) (fun i => g D1 (pos (a + i) j))) as (D3 & E3 & L3 & V3); try lia.
    { intros A' i Hi Nz LA HA. unfold own_v. replace (pos a j + i) with (pos (a + i) j) by (unfold pos; lia).
      assert (Ii : inb (a + i) j) by (unfold PFactor.inb in *; lia).
      pose proof (pos_range l u n (a + i) j len Hlen Ii).
      rewrite gget by lia. f_equal. rewrite HA.
      - apply O2; auto. intros k' Hk' (Q & _). destruct (Hcol k' ltac:(lia)) as (_ & _ & NN). auto.
      - pose proof (pos_seg l u n a (col k) (a + i) j 0 h Ik Hk1 ltac:(lia) Ii). lia. }
    rewrite E3. exists D3. split; [reflexivity|]. split; [lia|split].
    + intros k' r Hk' Hr.
      assert (Ir : inb r (col k')) by (destruct (Hcol k' ltac:(lia)) as ((Q1 & Q2) & Q3 & _); unfold PFactor.inb; lia).
      rewrite V3. pose proof (pos_seg l u n a (col k) r (col k') 0 h Ik Hk1 ltac:(lia) Ir) as PS.
      destruct (Z.eq_dec k' k) as [->|Nk].
      * replace ((pos a (col k) <=? pos r (col k)) && (pos r (col k) <? pos a (col k) + h)) with true by lia.
        replace (pos r (col k) - pos a (col k)) with (r - a) by (unfold pos; lia).
        apply refl_ext; auto; try lia. intros i Hi. replace (pos a (col k) + i) with (pos (a + i) (col k)) by (unfold pos; lia).
        assert (Ii : inb (a + i) (col k)) by (unfold PFactor.inb in *; lia).
        rewrite O2; auto.
        -- eapply house_out; eauto.
        -- intros k' Hk'2 (Q & _). apply Hinj in Q; lia.
      * assert (col k' <> col k) by (intros Q; apply Hinj in Q; lia).
        replace ((pos a (col k) <=? pos r (col k')) && (pos r (col k') <? pos a (col k) + h)) with false by lia.
        apply V2; lia.
    + intros r c Irc Hc. rewrite V3. pose proof (pos_seg l u n a (col k) r c 0 h Ik Hk1 ltac:(lia) Irc).
      specialize (Hc k ltac:(lia)) as Hck.
      replace ((pos a (col k) <=? pos r c) && (pos r c <? pos a (col k) + h)) with false by lia.
      apply O2; auto. intros; apply Hc; lia.
  - exists D'. auto.
Qed.
Lemma house_rok m D D1 D' t a h z j : 0 <= a -> 0 <= h -> a + h <= m -> house h z (pos a j) D D1 t ->
  (forall i, 0 <= i < h -> i <> z -> g D' (pos (a + i) j) = g D1 (pos (a + i) j)) -> rok m (wD D' a h z j) t.
Proof.
  intros Ha Hh Hm (_ & _ & [->|R] & _) HE; [now left|right]. rewrite <- R. f_equal. unfold wD.
  rewrite wv_sum by auto. apply sumZ_ext. intros i Hi.
  unfold wv. replace ((a <=? a + i) && (a + i <? a + h)) with true by lia. replace (a + i - a) with i by lia.
  unfold wof. destruct (Z.eqb_spec i z); auto. rewrite HE by auto. now replace (pos a j + i) with (pos (a + i) j) by (unfold pos; lia).
Qed.
End QX.

(** ** QR *)
Section QR.
Variables l uA m n len : Z.
Hypothesis Hl : 0 <= l.
Hypothesis HuA : 0 <= uA.
Hypothesis Hm0 : 0 <= m.
Hypothesis Hn0 : 0 <= n.
Let u := l + uA.
Hypothesis Hlen : n * (l + u + 1) <= len.
Notation pos := (pos l u).
Notation inb := (inb l u n).
Notation dm := (dm l u n).
Let lh j := Z.min (l + 1) (m - j).
Definition wq (D : list R) j r := wD l u D j (lh j) 0 j r.
Definition Tq (D : list R) j r c : R := if (c <? j) && (c <? r) then 0%R else dm D r c.
Definition prof (D : list R) j := forall r c, j <= r < m -> 0 <= c < n -> Z.max (j - 1 + l) r + uA < c -> dm D r c = 0%R.

Lemma Hu : 0 <= u. Proof. unfold u; lia. Qed.

Lemma qr_step D tau j : zlen D = len -> 0 <= j < Z.min m n -> prof D j -> 0 <= j < zlen tau ->
  exists D1 t D', compute_reflector (lh j) D (u + j * (l + u + 1)) = Some (D1, t) /\
    for_up 1 (Z.min u (n - j - 1) + 1) (fun k D =>
      do tj <- zget (zupd tau j t) j;
      apply_reflector (lh j) (own_v (u + j * (l + u + 1))) tj D (u - k + (j + k) * (l + u + 1))) D1 = Some D' /\
    zlen D' = len /\ prof D' (j + 1) /\ rok m (wq D' j) t /\
    (forall j' r, 0 <= j' < j -> 0 <= r < m -> wq D' j' r = wq D j' r) /\
    (forall r c, 0 <= r < m -> 0 <= c < n -> Tq D' (j + 1) r c = matmul m (Hm (wq D' j) t) (Tq D j) r c).
Proof.
  intros HD Hj HP Hjt. pose proof Hu as Hu.
  replace (u + j * (l + u + 1)) with (pos j j) by (unfold PFactor.pos; lia).
  assert (Ij : inb j j) by (unfold PFactor.inb; lia).
  assert (H1 : 1 <= lh j) by (unfold lh; lia). assert (H2 : j + lh j - 1 <= j + l) by (unfold lh; lia).
  destruct (seg_fits l u n Hl Hu len Hlen j j (lh j) Ij H2) as (F1 & F2).
  destruct (compute_reflector_val (lh j) D (pos j j)) as (D1 & t & E1 & HH); try lia. rewrite E1.
  exists D1, t.
  assert (LD1 : zlen D1 = len) by (destruct HH as (Q & _); lia).
  destruct (refl_loop l u n len Hl Hu Hlen D D1 (zupd tau j t) t j (lh j) 0 j (fun k => j + k) (Z.min u (n - j - 1) + 1) (@apply_reflector R _)) as (D' & E' & L' & V' & O'); auto; try lia.
  - intros k Hk. unfold PFactor.inb. lia.
  - now apply zget_zupd_same.
  - intros getv t0 A o w Ho HA Hg. apply apply_reflector_val; auto. intros A' i Hi. apply Hg; lia.
  - exists D'. split; [reflexivity|].
    split. { rewrite <- E'. apply for_up_ext. intros k s Hk. replace (u - k + (j + k) * (l + u + 1)) with (pos j (j + k)) by (unfold PFactor.pos; lia). reflexivity. }
    split; [exact L'|].
    assert (Vout : forall r c, 0 <= c < n -> c < j \/ j + u < c \/ (c <> j /\ (r < j \/ j + lh j <= r)) -> dm D' r c = dm D r c).
    { intros r c Hc Hrc. destruct (band_dec l u n r c Hc) as [I|O]; [|now rewrite !dm_out].
      rewrite !dm_in by auto. rewrite O' by (auto; intros; lia). eapply house_out; eauto; lia. }
    assert (Vj : forall r, inb r j -> g D' (pos r j) = g D1 (pos r j)).
    { intros r I. apply O'; auto. intros; lia. }
    assert (Vup : forall r, r < j -> dm D' r j = dm D r j).
    { intros r Hr. destruct (band_dec l u n r j ltac:(lia)) as [I|O]; [|now rewrite !dm_out].
      rewrite !dm_in by auto. rewrite Vj by auto. eapply house_out; eauto; lia. }
    split; [|split; [|split]].
    + intros r c Hr Hc Hrc. rewrite Vout by (unfold u; lia). apply HP; lia.
    + apply (house_rok l u m D D1 D' t j (lh j) 0 j); auto; try (unfold lh; lia).
      intros i Hi Ni. apply Vj. unfold PFactor.inb. lia.
    + intros j' r Hj' Hr. unfold wq, wD, wv. destruct ((j' <=? r) && (r <? j' + lh j')) eqn:E; auto.
      unfold wof. destruct (r - j' =? 0); auto. replace (j' + (r - j')) with r by lia.
      assert (I : inb r j') by (unfold PFactor.inb, lh in *; lia).
      pose proof (Vout r j' ltac:(lia) ltac:(lia)) as Q. rewrite !dm_in in Q by auto. exact Q.
    + intros r c Hr Hc. rewrite Hm_apply by auto. unfold wq, wD. rewrite (wv_refl m j (lh j) 0 _ t (fun k => Tq D j k c)) by (unfold lh; lia).
      destruct ((j <=? r) && (r <? j + lh j)) eqn:Eseg.
      * assert (Ecomp : forall f, refl (lh j) 0 (fun i => g D' (pos (j + i) j)) t f (r - j) = refl (lh j) 0 (fun i => g D1 (pos j j + i)) t f (r - j)).
        { intros f. apply refl_ext; auto; try lia. intros i Hi Ni. rewrite Vj by (unfold PFactor.inb; lia). f_equal. unfold PFactor.pos; lia. }
        destruct (Z.compare_spec c j) as [->|Hcj|Hcj].
        -- rewrite Ecomp. destruct HH as (_ & _ & _ & HH).
           rewrite (refl_ext _ _ _ (fun i => g D1 (pos j j + i)) t _ (fun i => g D (pos j j + i))); auto; try lia.
           2:{ intros i Hi. unfold Tq. rewrite Z.ltb_irrefl. cbn [andb]. rewrite dm_in by (unfold PFactor.inb; lia). f_equal. unfold PFactor.pos; lia. }
           rewrite HH by lia. unfold Tq. replace (j <? j + 1) with true by lia. cbn [andb].
           destruct (Z.eqb_spec (r - j) 0).
           ++ replace r with j by lia. rewrite Z.ltb_irrefl, Z.add_0_r. rewrite dm_in by auto. now apply Vj.
           ++ now replace (j <? r) with true by lia.
        -- rewrite refl_zero; [|lia|].
           ++ unfold Tq. now replace ((c <? j + 1) && (c <? r)) with true by lia.
           ++ intros i Hi. unfold Tq. now replace ((c <? j) && (c <? j + i)) with true by lia.
        -- unfold Tq at 1. replace (c <? j + 1) with false by lia. cbn [andb].
           destruct (Z.leb_spec c (j + u)).
           ++ assert (I : inb r c) by (unfold PFactor.inb; lia). rewrite dm_in by auto.
              replace c with (j + (c - j)) at 1 by lia. rewrite V' by lia.
              apply refl_ext; auto; try lia.
              ** intros i Hi. unfold Tq. replace (c <? j) with false by lia. cbn [andb]. rewrite dm_in by (unfold PFactor.inb; lia).
                 now replace (j + (c - j)) with c by lia.
              ** intros i Hi Ni. symmetry. apply Vj. unfold PFactor.inb; lia.
           ++ rewrite Vout by lia. rewrite refl_zero; [|lia|].
              ** apply HP; unfold u in *; lia.
              ** intros i Hi. unfold Tq. replace (c <? j) with false by lia. cbn [andb]. apply HP; unfold u, lh in *; lia.
      * unfold Tq. destruct (Z.compare_spec c j) as [->|Hcj|Hcj].
        -- replace (j <? j + 1) with true by lia. rewrite Z.ltb_irrefl. cbn [andb].
           destruct (Z.ltb_spec j r).
           ++ symmetry. apply dm_out. unfold lh in *. lia.
           ++ apply Vup. lia.
        -- replace (c <? j + 1) with true by lia. replace (c <? j) with true by lia. cbn [andb].
           destruct (c <? r); [reflexivity|apply Vout; lia].
        -- replace (c <? j + 1) with false by lia. replace (c <? j) with false by lia. cbn [andb]. apply Vout; lia.
Qed.

Lemma qr_all D0 (A : Z -> Z -> R) : zlen D0 = len -> prof D0 0 -> (forall r c, 0 <= r < m -> 0 <= c < n -> dm D0 r c = A r c) ->
  let p := Z.min m n in
  exists D tau, for_up 0 p (fun j Dt =>
             let '(D, tau) := Dt in
             let lh := Z.min (l + 1) (m - j) in
             let v := u + j * (l + u + 1) in
             do Dt <- compute_reflector lh D v;
             let '(D, t) := Dt in
             do tau <- zset tau j t;
             do D <- for_up 1 (Z.min u (n - j - 1) + 1) (fun k D =>
                       do tj <- zget tau j;
                       apply_reflector lh (own_v v) tj D (u - k + (j + k) * (l + u + 1))) D;
             Some (D, tau)) (D0, zmake p zero) = Some (D, tau) /\ zlen D = len /\ zlen tau = p /\
    (forall j, 0 <= j < p -> rok m (wq D j) (g tau j)) /\
    same_matrix m n (matmul m (Qm m (wq D) (g tau) (Z.to_nat p)) (upper (dm D))) A.
Proof.
  intros H0 HP0 HA p.
  match goal with |- exists D tau, for_up 0 p ?b _ = _ /\ _ =>
  destruct (for_up_inv (fun j Dt => let '(D, tau) := Dt in zlen D = len /\ zlen tau = p /\ prof D j /\
    (forall j', 0 <= j' < j -> rok m (wq D j') (g tau j')) /\
    same_matrix m n (matmul m (Qm m (wq D) (g tau) (Z.to_nat j)) (Tq D j)) A) 0 p b (D0, zmake p zero)) as ((D & tau) & E & L & Lt & P & RK & EA) end.
  - unfold p; lia.
  - split; [auto|]. split; [apply zlen_zmake; unfold p; lia|]. split; [auto|]. split; [intros; lia|].
    intros r c Hr Hc. cbn [Z.to_nat Qm]. rewrite matmul_delta_l by auto. unfold Tq. replace (c <? 0) with false by lia. apply HA; auto.
  - intros j (D & tau) Hj (L & Lt & P & RK & EA).
    destruct (qr_step D tau j L ltac:(unfold p in *; lia) P ltac:(lia)) as (D1 & t & D' & E1 & E2 & L' & P' & RK' & W' & T').
    cbv zeta. fold (lh j). rewrite E1. cbn [obind]. rewrite zset_some by lia. cbn [obind]. rewrite E2. cbn [obind].
    eexists; split; [reflexivity|]. split; [auto|]. split; [now rewrite zlen_zupd|]. split; [auto|].
    assert (RKn : forall j', 0 <= j' < j + 1 -> rok m (wq D' j') (g (zupd tau j t) j')).
    { intros j' Hj'. destruct (Z.eq_dec j' j) as [->|Nj].
      - rewrite nthZ_zupd_same by lia. auto.
      - rewrite nthZ_zupd_other by lia. destruct (RK j' ltac:(lia)) as [Q|Q]; [now left|right]. rewrite <- Q. f_equal. apply sumZ_ext.
        intros i Hi. now rewrite W' by lia. }
    split; [exact RKn|]. intros r c Hr Hc. rewrite <- EA by auto.
    replace (Z.to_nat (j + 1)) with (S (Z.to_nat j)) by lia. cbn [Qm]. rewrite Z2Nat.id by lia. rewrite nthZ_zupd_same by lia.
    rewrite matmul_assoc.
    apply matmul_meq2; auto.
    + apply Qm_ext; rewrite Z2Nat.id by lia; intros; [now apply W'|now rewrite nthZ_zupd_other by lia].
    + intros k Hk. transitivity (matmul m (Hm (wq D' j) t) (matmul m (Hm (wq D' j) t) (Tq D j)) k c).
      * apply matmul_meq2; auto.
      * rewrite <- matmul_assoc. rewrite (matmul_meq2 m _ delta _ (Tq D j)); auto.
        -- now apply matmul_delta_l.
        -- intros a b Ha Hb. now apply Hm_invol.
  - exists D, tau. split; [exact E|]. split; [auto|]. split; [auto|]. split; [auto|].
    intros r c Hr Hc. rewrite <- EA by auto. apply matmul_meq2; auto. intros k Hk. unfold upper, Tq.
    destruct (Z.leb_spec k c).
    + now replace ((c <? p) && (c <? k)) with false by lia.
    + now replace ((c <? p) && (c <? k)) with true by (unfold p; lia).
Qed.
End QR.

Lemma qrfact_proof (A : banded R) : bd_ok A -> 0 <= bd_l A -> 0 <= bd_u A ->
  exists Q, banded_qrfact A = Some Q /\ bd_ok (bq_factors Q) /\
    bd_m (bq_factors Q) = bd_m A /\ bd_n (bq_factors Q) = bd_n A /\ bd_l (bq_factors Q) = bd_l A /\ bd_u (bq_factors Q) = bd_l A + bd_u A /\
    bq_up Q = true /\ exists Qx, orthogonal_m (bd_m A) Qx /\
    same_matrix (bd_m A) (bd_n A) (matmul (bd_m A) Qx (upper (bd_mat (bq_factors Q)))) (bd_mat A) /\
    forall t x o, fits o (bd_m A) x -> exists x', bqmv t Q x o = Some x' /\ acts o (bd_m A) x x' (isprod (bd_m A) (op t Qx)).
Proof.
  destruct A as [B m n l uA]. intros (H1 & H2 & H3) Hl Hu. cbn [bd_m bd_n bd_l bd_u bd_data] in *. unfold banded_qrfact. cbn [bd_m bd_n bd_l bd_u bd_data].
  unfold calloc_banded. cbn [bd_m bd_n bd_l bd_u bd_data].
  set (u := l + uA). set (len := n * (l + u + 1)).
  assert (Hlen0 : 0 <= len) by (unfold len, u; apply Z.mul_nonneg_nonneg; lia).
  destruct (fill2 (fun i j => zget B (i + j * (l + uA + 1))) (fun i j => l + i + j * (2 * l + uA + 1)) n (l + uA + 1) len (zmake len (zero : R))) as (D0 & E0 & L0 & G0 & O0); auto; try lia.
  { apply zlen_zmake. auto. }
  { intros i j Hj Hi. pose proof (idx2 i j (l + uA + 1) n). apply zget_ex. lia. }
  { intros i j Hj Hi. unfold len. pose proof (idx2 (l + i) j (l + u + 1) n). unfold u in *. lia. }
  { intros i j i' j' Hj Hi Hj' Hi' E. pose proof (idx2_inj (l + i) j (l + i') j' (l + u + 1)). unfold u in *. lia. }
  cbv zeta. unfold len, u in E0 |- *. rewrite E0. cbn [obind]. fold u.
  assert (HA0 : forall r c, 0 <= c < n -> dm l u n D0 r c = bd_mat (Banded B m n l uA) r c).
  { intros r c Hc. destruct (band_dec l u n r c Hc) as [I|O].
    - rewrite dm_in by auto. unfold bd_mat, mat. cbn [bd_m bd_n bd_l bd_u bd_data].
      destruct ((- l <=? c - r) && (c - r <=? uA)) eqn:E.
      + unfold nthZ. replace (0 + (uA + r - c + c * (l + uA + 1))) with (uA + r - c + c * (l + uA + 1)) by lia.
        rewrite <- (G0 (uA + r - c) c) by lia. replace (pos l u r c) with (l + (uA + r - c) + c * (2 * l + uA + 1)) by (unfold pos, u; lia). reflexivity.
      + unfold inb in I. assert (zget D0 (pos l u r c) = Some 0%R).
        { rewrite O0.
          - apply zget_zmake. apply (pos_range l u n r c); [unfold len; lia|exact I].
          - intros i j Hj Hi Ep. pose proof (idx2_inj (u + r - c) c (l + i) j (l + u + 1)). unfold pos, u in *. lia. }
        unfold nthZ. now rewrite H.
    - rewrite dm_out by auto. unfold bd_mat. cbn [bd_m bd_n bd_l bd_u bd_data]. replace ((- l <=? c - r) && (c - r <=? uA)) with false by (unfold u in *; lia). reflexivity. }
  destruct (qr_all l uA m n len Hl Hu H1 H2 (Z.le_refl _) D0 (bd_mat (Banded B m n l uA)) L0) as (D & tau & E & L & Lt & RK & EA).
  { intros r c Hr Hc Hrc. fold u. rewrite HA0 by auto. unfold bd_mat. cbn [bd_m bd_n bd_l bd_u bd_data]. now replace ((- l <=? c - r) && (c - r <=? uA)) with false by lia. }
  { intros. now apply HA0. }
  cbv zeta in E, EA. fold u in E, EA, RK. rewrite E. cbn [obind].
  eexists. split; [reflexivity|]. cbn [bq_factors bq_up bd_m bd_n bd_l bd_u bd_data].
  split. { split; [|split]; cbn [bd_m bd_n bd_l bd_u bd_data]; try lia; rewrite L; unfold len, u; lia. }
  split; [auto|]. split; [auto|]. split; [auto|]. split; [reflexivity|]. split; [auto|].
  exists (Qm m (wq l uA m D) (g tau) (Z.to_nat (Z.min m n))).
  split. { apply Qm_orth. intros j Hj. apply RK. lia. }
  split; [exact EA|].
  intros t x o Hx. unfold bqmv. cbn [bq_factors bq_up bq_tau bd_m bd_n bd_l bd_u bd_data].
  set (step := fun j x => _).
  assert (Hstep : forall j x, 0 <= j < Z.min m n -> fits o m x -> exists x', step j x = Some x' /\
     acts o m x x' (fun v v' => forall i, 0 <= i < m -> v' i = matvec m (Hm (wq l uA m D j) (g tau j)) v i)).
  { clear x Hx. intros j x Hj (Hx1 & Hx2). unfold step. rewrite (gget tau j) by lia. cbn [obind].
    destruct (apply_reflector_val (Z.min (l + 1) (m - j)) (other_v D (u + j * (l + u + 1))) (g tau j) x (o + j) (fun i => g D (pos l u (j + i) j))) as (x' & Ex & Lx & Vx); try lia.
    { intros A' i Hi _ _. unfold other_v. replace (u + j * (l + u + 1) + i) with (pos l u (j + i) j) by (unfold pos; lia). apply gget.
      apply (pos_range l u n); [unfold len in *; lia|]. unfold inb, u. lia. }
    exists x'. split; [exact Ex|]. split; [exact Lx|split].
    - intros i Hi. rewrite Hm_vec by auto. unfold wq, wD. rewrite (wv_refl m j (Z.min (l + 1) (m - j))) by lia.
      unfold vec. rewrite Vx. destruct ((j <=? i) && (i <? j + Z.min (l + 1) (m - j))) eqn:Es.
      + replace ((o + j <=? o + i) && (o + i <? o + j + Z.min (l + 1) (m - j))) with true by lia.
        replace (o + i - (o + j)) with (i - j) by lia. apply refl_ext; try lia; auto. intros k Hk. f_equal. lia.
      + now replace ((o + j <=? o + i) && (o + i <? o + j + Z.min (l + 1) (m - j))) with false by lia.
    - intros q Hq. destruct (Z_lt_dec q 0) as [|Q0]; [now rewrite !zget_none by (pose proof (zlen_nonneg x'); lia)|].
      destruct (Z_lt_dec q (zlen x)) as [Q1|]; [|now rewrite !zget_none by lia].
      rewrite !gget by lia. rewrite Vx. now replace ((o + j <=? q) && (q <? o + j + Z.min (l + 1) (m - j))) with false by lia. }
  destruct t.
  - destruct (Q_trans m (wq l uA m D) (g tau) step o (Z.min m n) ltac:(lia) Hstep x Hx) as (x' & Ex & Ax). eauto.
  - destruct (Q_notrans m (wq l uA m D) (g tau) step o (Z.min m n) ltac:(lia) Hstep x Hx) as (x' & Ex & Ax). eauto.
Qed.

(** ** QL (square) *)
Section QL.
Variables lA u n len : Z.
Hypothesis HlA : 0 <= lA.
Hypothesis Hu : 0 <= u.
Hypothesis Hn0 : 0 <= n.
Let l := lA + u.
Hypothesis Hlen : n * (l + u + 1) <= len.
Notation pos := (pos l u).
Notation inb := (inb l u n).
Notation dm := (dm l u n).
Let lh j := Z.min (u + 1) (j + 1).
Let a0 j := j + 1 - lh j.
Definition wl (D : list R) j r := wD l u D (a0 j) (lh j) (lh j - 1) j r.
Definition Tl (D : list R) j r c : R := if (j <? c) && (r <? c) then 0%R else dm D r c.
Definition profl (D : list R) j := forall r c, 0 <= r <= j -> 0 <= c < n -> c < Z.min (j + 1 - u) r - lA -> dm D r c = 0%R.

Lemma Hll : 0 <= l. Proof. unfold l; lia. Qed.

Lemma ql_step D tau j : zlen D = len -> 0 <= j < n -> profl D j -> 0 <= j < zlen tau ->
  exists D1 t D', compute_ql_reflector (lh j) D (u + 1 - lh j + j * (l + u + 1)) = Some (D1, t) /\
    for_up 1 (Z.min l j + 1) (fun k D =>
      do tj <- zget (zupd tau j t) j;
      apply_ql_reflector (lh j) (own_v (u + 1 - lh j + j * (l + u + 1))) tj D (u + 1 - lh j + k + (j - k) * (l + u + 1))) D1 = Some D' /\
    zlen D' = len /\ profl D' (j - 1) /\ rok n (wl D' j) t /\
    (forall j' r, j < j' < n -> 0 <= r < n -> wl D' j' r = wl D j' r) /\
    (forall r c, 0 <= r < n -> 0 <= c < n -> Tl D' (j - 1) r c = matmul n (Hm (wl D' j) t) (Tl D j) r c).
Proof.
  intros HD Hj HP Hjt. pose proof Hll as Hl. set (a := a0 j) in *. set (h := lh j) in *.
  assert (Ha : a = j + 1 - h) by reflexivity. assert (Hh : h = Z.min (u + 1) (j + 1)) by reflexivity.
  replace (u + 1 - h + j * (l + u + 1)) with (pos a j) by (unfold PFactor.pos; lia).
  assert (Ij : inb a j) by (unfold PFactor.inb; lia).
  assert (H1 : 1 <= h) by lia. assert (H2 : a + h - 1 <= j + l) by lia.
  destruct (seg_fits l u n Hl Hu len Hlen a j h Ij H2) as (F1 & F2).
  destruct (compute_ql_reflector_val h D (pos a j)) as (D1 & t & E1 & HH); try lia. rewrite E1.
  exists D1, t.
  assert (LD1 : zlen D1 = len) by (destruct HH as (Q & _); lia).
  destruct (refl_loop l u n len Hl Hu Hlen D D1 (zupd tau j t) t a h (h - 1) j (fun k => j - k) (Z.min l j + 1) (@apply_ql_reflector R _)) as (D' & E' & L' & V' & O'); auto; try lia.
  - intros k Hk. unfold PFactor.inb. unfold l in *. lia.
  - now apply zget_zupd_same.
  - intros getv t0 A o w Ho HA Hg. apply apply_ql_reflector_val; auto. intros A' i Hi. apply Hg; lia.
  - exists D'. split; [reflexivity|].
    split. { rewrite <- E'. apply for_up_ext. intros k s Hk. replace (u + 1 - h + k + (j - k) * (l + u + 1)) with (pos a (j - k)) by (unfold PFactor.pos; lia). reflexivity. }
    split; [exact L'|].
    assert (Vout : forall r c, 0 <= c < n -> j < c \/ c < j - l \/ (c <> j /\ (r < a \/ j < r)) -> dm D' r c = dm D r c).
    { intros r c Hc Hrc. destruct (band_dec l u n r c Hc) as [I|O]; [|now rewrite !dm_out].
      rewrite !dm_in by auto. rewrite O' by (auto; intros; lia). eapply house_out; eauto; lia. }
    assert (Vj : forall r, inb r j -> g D' (pos r j) = g D1 (pos r j)).
    { intros r I. apply O'; auto. intros; lia. }
    assert (Vdn : forall r, j < r -> dm D' r j = dm D r j).
    { intros r Hr. destruct (band_dec l u n r j ltac:(lia)) as [I|O]; [|now rewrite !dm_out].
      rewrite !dm_in by auto. rewrite Vj by auto. eapply house_out; eauto; lia. }
    split; [|split; [|split]].
    + intros r c Hr Hc Hrc. rewrite Vout by (unfold l; lia). apply HP; lia.
    + apply (house_rok l u n D D1 D' t a h (h - 1) j); auto; try lia.
      intros i Hi Ni. apply Vj. unfold PFactor.inb. lia.
    + intros j' r Hj' Hr. unfold wl, wD, wv. destruct ((a0 j' <=? r) && (r <? a0 j' + lh j')) eqn:E; auto.
      unfold wof. destruct (r - a0 j' =? lh j' - 1); auto. replace (a0 j' + (r - a0 j')) with r by lia.
      assert (I : inb r j') by (unfold PFactor.inb, a0, lh in *; lia).
      pose proof (Vout r j' ltac:(lia) ltac:(lia)) as Q. rewrite !dm_in in Q by auto. exact Q.
    + intros r c Hr Hc. rewrite Hm_apply by auto. unfold wl, wD. fold a h. rewrite (wv_refl n a h (h - 1) _ t (fun k => Tl D j k c)) by lia.
      destruct ((a <=? r) && (r <? a + h)) eqn:Eseg.
      * assert (Ecomp : forall f, refl h (h - 1) (fun i => g D' (pos (a + i) j)) t f (r - a) = refl h (h - 1) (fun i => g D1 (pos a j + i)) t f (r - a)).
        { intros f. apply refl_ext; auto; try lia. intros i Hi Ni. rewrite Vj by (unfold PFactor.inb; lia). f_equal. unfold PFactor.pos; lia. }
        destruct (Z.compare_spec c j) as [->|Hcj|Hcj].
        -- rewrite Ecomp. destruct HH as (_ & _ & _ & HH).
           rewrite (refl_ext _ _ _ (fun i => g D1 (pos a j + i)) t _ (fun i => g D (pos a j + i))); auto; try lia.
           2:{ intros i Hi. unfold Tl. rewrite Z.ltb_irrefl. cbn [andb]. rewrite dm_in by (unfold PFactor.inb; lia). f_equal. unfold PFactor.pos; lia. }
           rewrite HH by lia. unfold Tl. replace (j - 1 <? j) with true by lia. cbn [andb].
           destruct (Z.eqb_spec (r - a) (h - 1)).
           ++ replace r with j by lia. rewrite Z.ltb_irrefl. rewrite dm_in by (unfold PFactor.inb; lia). rewrite Vj by (unfold PFactor.inb; lia). f_equal. unfold PFactor.pos; lia.
           ++ now replace (r <? j) with true by lia.
        -- unfold Tl at 1. replace (j - 1 <? c) with false by lia. cbn [andb].
           destruct (Z.leb_spec (j - l) c).
           ++ assert (I : inb r c) by (unfold PFactor.inb, l in *; lia). rewrite dm_in by auto.
              replace c with (j - (j - c)) at 1 by lia. rewrite V' by lia.
              apply refl_ext; auto; try lia.
              ** intros i Hi. unfold Tl. replace (j <? c) with false by lia. cbn [andb]. rewrite dm_in by (unfold PFactor.inb, l in *; lia).
                 now replace (j - (j - c)) with c by lia.
              ** intros i Hi Ni. symmetry. apply Vj. unfold PFactor.inb; lia.
           ++ rewrite Vout by lia. rewrite refl_zero; [|lia|].
              ** apply HP; unfold l in *; lia.
              ** intros i Hi. unfold Tl. replace (j <? c) with false by lia. cbn [andb]. apply HP; unfold l in *; lia.
        -- rewrite refl_zero; [|lia|].
           ++ unfold Tl. now replace ((j - 1 <? c) && (r <? c)) with true by lia.
           ++ intros i Hi. unfold Tl. now replace ((j <? c) && (a + i <? c)) with true by lia.
      * unfold Tl. destruct (Z.compare_spec c j) as [->|Hcj|Hcj].
        -- replace (j - 1 <? j) with true by lia. rewrite Z.ltb_irrefl. cbn [andb].
           destruct (Z.ltb_spec r j).
           ++ symmetry. apply dm_out. lia.
           ++ apply Vdn. lia.
        -- replace (j - 1 <? c) with false by lia. replace (j <? c) with false by lia. cbn [andb]. apply Vout; lia.
        -- replace (j - 1 <? c) with true by lia. replace (j <? c) with true by lia. cbn [andb].
           destruct (r <? c); [reflexivity|apply Vout; lia].
Qed.

Lemma ql_all D0 (A : Z -> Z -> R) : zlen D0 = len -> profl D0 (n - 1) -> (forall r c, 0 <= r < n -> 0 <= c < n -> dm D0 r c = A r c) ->
  exists D tau, for_dn (n - 1) 0 (fun j Dt =>
             let '(D, tau) := Dt in
             let lh := Z.min (u + 1) (j + 1) in
             let v := u + 1 - lh + j * (l + u + 1) in
             do Dt <- compute_ql_reflector lh D v;
             let '(D, t) := Dt in
             do tau <- zset tau j t;
             do D <- for_up 1 (Z.min l j + 1) (fun k D =>
                       do tj <- zget tau j;
                       apply_ql_reflector lh (own_v v) tj D (u + 1 - lh + k + (j - k) * (l + u + 1))) D;
             Some (D, tau)) (D0, zmake n zero) = Some (D, tau) /\ zlen D = len /\ zlen tau = n /\
    (forall j, 0 <= j < n -> rok n (wl D j) (g tau j)) /\
    same_matrix n n (matmul n (Qm n (fun k => wl D (n - 1 - k)) (fun k => g tau (n - 1 - k)) (Z.to_nat n)) (lower (dm D))) A.
Proof.
  intros H0 HP0 HA.
  match goal with |- exists D tau, for_dn _ _ ?b _ = _ /\ _ =>
  destruct (for_dn_inv (fun j Dt => let '(D, tau) := Dt in zlen D = len /\ zlen tau = n /\ profl D j /\
    (forall j', j < j' < n -> rok n (wl D j') (g tau j')) /\
    same_matrix n n (matmul n (Qm n (fun k => wl D (n - 1 - k)) (fun k => g tau (n - 1 - k)) (Z.to_nat (n - 1 - j))) (Tl D j)) A) (n - 1) 0 b (D0, zmake n zero)) as ((D & tau) & E & L & Lt & P & RK & EA) end.
  - lia.
  - split; [auto|]. split; [apply zlen_zmake; lia|]. split; [auto|]. split; [intros; lia|].
    intros r c Hr Hc. rewrite Z.sub_diag. cbn [Z.to_nat Qm]. rewrite matmul_delta_l by auto. unfold Tl. replace (n - 1 <? c) with false by lia. apply HA; auto.
  - intros j (D & tau) Hj (L & Lt & P & RK & EA).
    destruct (ql_step D tau j L ltac:(lia) P ltac:(lia)) as (D1 & t & D' & E1 & E2 & L' & P' & RK' & W' & T').
    cbv zeta. fold (lh j). rewrite E1. cbn [obind]. rewrite zset_some by lia. cbn [obind]. rewrite E2. cbn [obind].
    eexists; split; [reflexivity|]. split; [auto|]. split; [now rewrite zlen_zupd|]. split; [auto|].
    assert (RKn : forall j', j - 1 < j' < n -> rok n (wl D' j') (g (zupd tau j t) j')).
    { intros j' Hj'. destruct (Z.eq_dec j' j) as [->|Nj].
      - rewrite nthZ_zupd_same by lia. auto.
      - rewrite nthZ_zupd_other by lia. destruct (RK j' ltac:(lia)) as [Q|Q]; [now left|right]. rewrite <- Q. f_equal. apply sumZ_ext.
        intros i Hi. now rewrite W' by lia. }
    split; [exact RKn|]. intros r c Hr Hc. rewrite <- EA by auto.
    replace (Z.to_nat (n - 1 - (j - 1))) with (S (Z.to_nat (n - 1 - j))) by lia. cbn [Qm]. rewrite Z2Nat.id by lia.
    replace (n - 1 - (n - 1 - j)) with j by lia. rewrite nthZ_zupd_same by lia.
    rewrite matmul_assoc.
    apply matmul_meq2; auto.
    + apply Qm_ext; rewrite Z2Nat.id by lia; intros; [apply W'; lia|now rewrite nthZ_zupd_other by lia].
    + intros k Hk. transitivity (matmul n (Hm (wl D' j) t) (matmul n (Hm (wl D' j) t) (Tl D j)) k c).
      * apply matmul_meq2; auto.
      * rewrite <- matmul_assoc. rewrite (matmul_meq2 n _ delta _ (Tl D j)); auto.
        -- now apply matmul_delta_l.
        -- intros a b Ha Hb. apply Hm_invol; auto.
  - exists D, tau. split; [exact E|]. split; [auto|]. split; [auto|]. split; [intros; apply RK; lia|].
    intros r c Hr Hc. rewrite <- EA by auto. replace (n - 1 - (0 - 1)) with n by lia. apply matmul_meq2; auto. intros k Hk. unfold lower, Tl.
    destruct (Z.leb_spec c k).
    + now replace ((0 - 1 <? c) && (k <? c)) with false by lia.
    + now replace ((0 - 1 <? c) && (k <? c)) with true by lia.
Qed.
End QL.

Lemma qlfact_proof (A : banded R) : bd_ok A -> bd_m A = bd_n A -> 0 <= bd_l A -> 0 <= bd_u A ->
  exists Q, banded_qlfact A = Some Q /\ bd_ok (bq_factors Q) /\
    bd_m (bq_factors Q) = bd_m A /\ bd_n (bq_factors Q) = bd_n A /\ bd_l (bq_factors Q) = bd_l A + bd_u A /\ bd_u (bq_factors Q) = bd_u A /\
    bq_up Q = false /\ exists Qx, orthogonal_m (bd_n A) Qx /\
    same_matrix (bd_n A) (bd_n A) (matmul (bd_n A) Qx (lower (bd_mat (bq_factors Q)))) (bd_mat A) /\
    forall t x o, fits o (bd_n A) x -> exists x', bqmv t Q x o = Some x' /\ acts o (bd_n A) x x' (isprod (bd_n A) (op t Qx)).
Proof.
  destruct A as [B m n lA u]. intros (H1 & H2 & H3) Hmn Hl Hu. cbn [bd_m bd_n bd_l bd_u bd_data] in *. subst m. unfold banded_qlfact. cbn [bd_m bd_n bd_l bd_u bd_data].
  unfold calloc_banded. cbn [bd_m bd_n bd_l bd_u bd_data]. rewrite Z.min_id.
  set (l := lA + u). set (len := n * (l + u + 1)).
  assert (Hlen0 : 0 <= len) by (unfold len, l; apply Z.mul_nonneg_nonneg; lia).
  destruct (fill2 (fun i j => zget B (i + j * (lA + u + 1))) (fun i j => i + j * (lA + 2 * u + 1)) n (lA + u + 1) len (zmake len (zero : R))) as (D0 & E0 & L0 & G0 & O0); auto; try lia.
  { apply zlen_zmake. auto. }
  { intros i j Hj Hi. pose proof (idx2 i j (lA + u + 1) n). apply zget_ex. lia. }
  { intros i j Hj Hi. unfold len. pose proof (idx2 i j (l + u + 1) n). unfold l in *. lia. }
  { intros i j i' j' Hj Hi Hj' Hi' E. pose proof (idx2_inj i j i' j' (l + u + 1)). unfold l in *. lia. }
  cbv zeta. unfold len, l in E0 |- *. rewrite E0. cbn [obind]. fold l.
  assert (HA0 : forall r c, 0 <= c < n -> dm l u n D0 r c = bd_mat (Banded B n n lA u) r c).
  { intros r c Hc. destruct (band_dec l u n r c Hc) as [I|O].
    - rewrite dm_in by auto. unfold bd_mat, mat. cbn [bd_m bd_n bd_l bd_u bd_data].
      destruct ((- lA <=? c - r) && (c - r <=? u)) eqn:E.
      + unfold nthZ. replace (0 + (u + r - c + c * (lA + u + 1))) with (u + r - c + c * (lA + u + 1)) by lia.
        rewrite <- (G0 (u + r - c) c) by lia. replace (pos l u r c) with ((u + r - c) + c * (lA + 2 * u + 1)) by (unfold pos, l; lia). reflexivity.
      + unfold inb in I. assert (zget D0 (pos l u r c) = Some 0%R).
        { rewrite O0.
          - apply zget_zmake. apply (pos_range l u n r c); [unfold len; lia|exact I].
          - intros i j Hj Hi Ep. pose proof (idx2_inj (u + r - c) c i j (l + u + 1)). unfold pos, l in *. lia. }
        unfold nthZ. now rewrite H.
    - rewrite dm_out by auto. unfold bd_mat. cbn [bd_m bd_n bd_l bd_u bd_data]. replace ((- lA <=? c - r) && (c - r <=? u)) with false by (unfold l in *; lia). reflexivity. }
  destruct (ql_all lA u n len Hl Hu H1 (Z.le_refl _) D0 (bd_mat (Banded B n n lA u)) L0) as (D & tau & E & L & Lt & RK & EA).
  { intros r c Hr Hc Hrc. fold l. rewrite HA0 by auto. unfold bd_mat. cbn [bd_m bd_n bd_l bd_u bd_data]. now replace ((- lA <=? c - r) && (c - r <=? u)) with false by lia. }
  { intros. now apply HA0. }
  cbv zeta in E, EA. fold l in E, EA, RK. rewrite E. cbn [obind].
  eexists. split; [reflexivity|]. cbn [bq_factors bq_up bd_m bd_n bd_l bd_u bd_data].
  split. { split; [|split]; cbn [bd_m bd_n bd_l bd_u bd_data]; try lia; rewrite L; unfold len, l; lia. }
  split; [auto|]. split; [auto|]. split; [reflexivity|]. split; [auto|]. split; [auto|].
  exists (Qm n (fun k => wl lA u D (n - 1 - k)) (fun k => g tau (n - 1 - k)) (Z.to_nat n)).
  split. { apply Qm_orth. intros j Hj. apply RK. lia. }
  split; [exact EA|].
  intros t x o Hx. unfold bqmv. cbn [bq_factors bq_up bq_tau bd_m bd_n bd_l bd_u bd_data]. rewrite Z.min_id.
  set (step := fun j x => _).
  assert (Hstep : forall j x, 0 <= j < n -> fits o n x -> exists x', step j x = Some x' /\
     acts o n x x' (fun v v' => forall i, 0 <= i < n -> v' i = matvec n (Hm (wl lA u D j) (g tau j)) v i)).
  { clear x Hx. intros j x Hj (Hx1 & Hx2). unfold step. rewrite (gget tau j) by lia. cbn [obind].
    set (h := Z.min (u + 1) (j + 1)).
    destruct (apply_ql_reflector_val h (other_v D (u + 1 - h + j * (l + u + 1))) (g tau j) x (o - h + 1 + j) (fun i => g D (pos l u ((j + 1 - h) + i) j))) as (x' & Ex & Lx & Vx); try lia.
    { intros A' i Hi _ _. unfold other_v. replace (u + 1 - h + j * (l + u + 1) + i) with (pos l u (j + 1 - h + i) j) by (unfold pos; lia). apply gget.
      apply (pos_range l u n); [unfold len in *; lia|]. unfold inb, l. lia. }
    exists x'. split; [exact Ex|]. split; [exact Lx|split].
    - intros i Hi. rewrite Hm_vec by auto. unfold wl, wD. fold l. fold h. rewrite (wv_refl n (j + 1 - h) h) by lia.
      unfold vec. rewrite Vx. destruct ((j + 1 - h <=? i) && (i <? j + 1 - h + h)) eqn:Es.
      + replace ((o - h + 1 + j <=? o + i) && (o + i <? o - h + 1 + j + h)) with true by lia.
        replace (o + i - (o - h + 1 + j)) with (i - (j + 1 - h)) by lia. apply refl_ext; try lia; auto. intros k Hk. f_equal. lia.
      + now replace ((o - h + 1 + j <=? o + i) && (o + i <? o - h + 1 + j + h)) with false by lia.
    - intros q Hq. destruct (Z_lt_dec q 0) as [|Q0]; [now rewrite !zget_none by (pose proof (zlen_nonneg x'); lia)|].
      destruct (Z_lt_dec q (zlen x)) as [Q1|]; [|now rewrite !zget_none by lia].
      rewrite !gget by lia. rewrite Vx. now replace ((o - h + 1 + j <=? q) && (q <? o - h + 1 + j + h)) with false by lia. }
  assert (Hstep' : forall k x, 0 <= k < n -> fits o n x -> exists x', step (n - 1 - k) x = Some x' /\
     acts o n x x' (fun v v' => forall i, 0 <= i < n -> v' i = matvec n (Hm (wl lA u D (n - 1 - k)) (g tau (n - 1 - k))) v i)).
  { intros. apply Hstep; auto; lia. }
  destruct t.
  - rewrite for_dn_rev. destruct (Q_trans n (fun k => wl lA u D (n - 1 - k)) (fun k => g tau (n - 1 - k)) (fun k => step (n - 1 - k)) o n ltac:(lia) Hstep' x Hx) as (x' & Ex & Ax). eauto.
  - rewrite for_up_rev. destruct (Q_notrans n (fun k => wl lA u D (n - 1 - k)) (fun k => g tau (n - 1 - k)) (fun k => step (n - 1 - k)) o n ltac:(lia) Hstep' x Hx) as (x' & Ex & Ax). eauto.
Qed.
