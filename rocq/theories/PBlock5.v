(** * Proofs: plans for 2x2-block triangular eigenvectors *)
From Coq Require Import ZArith List Lia Bool ZifyBool ZifyNat Reals Lra.
From Verif Require Import Arith Base BaseFacts SpecSum PSum SpecLin MBanded SpecBanded PBand PTri PTri2 PBandedThms MHier PHier2 MEig MButter SpecButter PButter2 MBlock SpecBlock PBlock PBlock2.
Import ListNotations.
Open Scope Z_scope.

Lemma rot_diag s c i p : p = 0 \/ p = 1 -> rotations s c (2 * i + p) (2 * i) = (if p =? 0 then nthZ 0%R c i else nthZ 0%R s i) /\
  rotations s c (2 * i + p) (2 * i + 1) = (if p =? 0 then (- nthZ 0 s i)%R else nthZ 0%R c i).
Proof.
  intros Hp. unfold rotations. replace ((2 * i + p) / 2) with i by lia. rewrite even_div, odd_div, Z.eqb_refl. cbn [negb].
  destruct Hp as [-> | ->]; cbn [Z.eqb Pos.eqb]; split;
    repeat match goal with |- context [if ?b then _ else _] => first [replace b with true by lia | replace b with false by lia] end; reflexivity.
Qed.
Lemma rot_off s c i k p q : i <> k -> p = 0 \/ p = 1 -> q = 0 \/ q = 1 -> rotations s c (2 * i + p) (2 * k + q) = 0%R.
Proof. intros H Hp Hq. unfold rotations. replace ((2 * i + p) / 2 =? (2 * k + q) / 2) with false by lia. reflexivity. Qed.
Lemma rot_row n s c v i p : 0 <= i < n -> p = 0 \/ p = 1 -> matvec (2 * n) (rotations s c) v (2 * i + p) =
  (if p =? 0 then nthZ 0 c i * v (2 * i)%Z - nthZ 0 s i * v (2 * i + 1)%Z else nthZ 0 c i * v (2 * i + 1)%Z + nthZ 0 s i * v (2 * i)%Z)%R.
Proof.
  intros Hi Hp. rewrite matvec_blocks, (sumZ_single n i); auto.
  - unfold brow. destruct (rot_diag s c i p Hp) as [-> ->]. destruct Hp as [-> | ->]; cbn [Z.eqb Pos.eqb]; ring.
  - intros k Hk Hki. unfold brow. pose proof (rot_off s c i k p 0) as Z0. pose proof (rot_off s c i k p 1) as Z1. rewrite Z.add_0_r in Z0. rewrite Z0, Z1 by auto. ring.
Qed.
Lemma rot_row_t n s c v i p : 0 <= i < n -> p = 0 \/ p = 1 -> matvec (2 * n) (transp (rotations s c)) v (2 * i + p) =
  (if p =? 0 then nthZ 0 c i * v (2 * i)%Z + nthZ 0 s i * v (2 * i + 1)%Z else nthZ 0 c i * v (2 * i + 1)%Z - nthZ 0 s i * v (2 * i)%Z)%R.
Proof.
  intros Hi Hp. rewrite matvec_blocks, (sumZ_single n i); auto.
  - unfold brow, transp. destruct (rot_diag s c i 0 ltac:(auto)) as [A0 A1]. destruct (rot_diag s c i 1 ltac:(auto)) as [B0 B1]. rewrite Z.add_0_r in A0, A1.
    cbn [Z.eqb Pos.eqb] in *. destruct Hp as [-> | ->]; rewrite ?Z.add_0_r; cbn [Z.eqb Pos.eqb]; rewrite ?A0, ?A1, ?B0, ?B1; ring.
  - intros k Hk Hki. unfold brow, transp. pose proof (rot_off s c k i 0 p) as Z0. pose proof (rot_off s c k i 1 p) as Z1. rewrite Z.add_0_r in Z0. rewrite Z0, Z1 by auto. ring.
Qed.
Lemma rotate_pairs_proof inv n s c x o : 0 <= n -> n <= zlen s -> n <= zlen c -> fits o (2 * n) x ->
  exists x', rotate_pairs inv n s c x o = Some x' /\ acts o (2 * n) x x' (isprod (2 * n) (op inv (rotations s c))).
Proof.
  intros Hn Hs Hc HF. unfold rotate_pairs. assert (F0 := HF). destruct F0 as [F0 F1].
  match goal with |- context [for_up 0 n ?f x] => destruct (for_up_inv (fun i x' => zlen x' = zlen x /\
    (forall q p, 0 <= q < i -> p = 0 \/ p = 1 -> vec o x' (2 * q + p) = matvec (2 * n) (op inv (rotations s c)) (vec o x) (2 * q + p)) /\
    (forall k, k < 0 \/ 2 * i <= k -> zget x' (o + k) = zget x (o + k))) 0 n f x) as [x' [E (L1 & G & O)]] end; auto.
  - repeat split; auto. intros; lia.
  - intros i x1 Hi (L1 & G & O). rewrite (zget_nthZ 0%R s), (zget_nthZ 0%R c) by lia. cbn [obind]. rewrite !(zget_nthZ 0%R x1) by lia. cbn [obind].
    assert (X0 : nthZ 0%R x1 (o + 2 * i) = vec o x (2 * i)). { apply nthZ_zget. rewrite O by lia. apply zget_nthZ. lia. }
    assert (X1 : nthZ 0%R x1 (o + (2 * i + 1)) = vec o x (2 * i + 1)). { apply nthZ_zget. rewrite O by lia. apply zget_nthZ. lia. }
    rewrite X0, X1. destruct inv;
    (match goal with |- context [set_pair x1 o i ?t0 ?t1] => destruct (set_pair_val x1 o n i t0 t1 ltac:(split; lia) Hi) as (x2 & E2 & L2 & V0 & V1 & O2) end;
      exists x2; split; auto; split; [lia|split; [|intros k Hk; rewrite O2 by lia; apply O; lia]];
      intros q p Hq Hp; destruct (Z.eq_dec q i) as [->|]; [|rewrite (vec_ext x1) by (apply O2; lia); apply G; auto; lia]).
    + cbn [op]. rewrite rot_row_t by auto. destruct Hp as [-> | ->]; cbn [Z.eqb Pos.eqb]; rewrite ?Z.add_0_r; auto.
    + cbn [op]. rewrite rot_row by auto. destruct Hp as [-> | ->]; cbn [Z.eqb Pos.eqb]; rewrite ?Z.add_0_r; auto.
  - exists x'. split; auto. split; [|split]; auto.
    + apply isprod_blocks. auto.
    + intros p Hp. replace p with (o + (p - o)) by lia. apply O. lia.
Qed.
Lemma rot_inv n s c inv v i : unit_rotations n s c -> 0 <= i < 2 * n -> matvec (2 * n) (op (negb inv) (rotations s c)) (matvec (2 * n) (op inv (rotations s c)) v) i = v i.
Proof.
  intros Hu Hi. replace i with (2 * (i / 2) + i mod 2) by lia. assert (Hq : 0 <= i / 2 < n) by lia. assert (Hp : i mod 2 = 0 \/ i mod 2 = 1) by lia.
  set (q := i / 2) in *. set (p := i mod 2) in *. specialize (Hu q Hq).
  pose proof (fun p Hp => rot_row n s c v q p Hq Hp) as R. pose proof (fun p Hp => rot_row_t n s c v q p Hq Hp) as T.
  pose proof (R 0 ltac:(auto)) as R0. pose proof (R 1 ltac:(auto)) as R1. pose proof (T 0 ltac:(auto)) as T0. pose proof (T 1 ltac:(auto)) as T1. rewrite Z.add_0_r in R0, T0. cbn [Z.eqb Pos.eqb] in *.
  destruct inv; cbn [negb op]; [rewrite rot_row by auto | rewrite rot_row_t by auto]; rewrite ?R0, ?R1, ?T0, ?T1; destruct Hp as [-> | ->]; cbn [Z.eqb Pos.eqb]; rewrite ?Z.add_0_r;
    match goal with |- _ = ?w => transitivity (w * 1)%R; [rewrite <- Hu; ring | ring] end.
Qed.
Section Plan.
Variables (BS tn : Z) (E : btbeig R).
Hypothesis Htn : 0 <= tn.
Hypothesis Hw : bf_wf BS tn E.
Local Notation n := (bf_n E).
Lemma bbfmv_proof t x o : fits o (2 * n) x -> exists x', bbfmv BS tn t E x o = Some x' /\ acts o (2 * n) x x' (isprod (2 * n) (op t (bf_mat E))).
Proof.
  intros HF. destruct Hw as (Hn & Hs & Hc & Ht & HE & HW). unfold bbfmv. destruct t.
  - destruct (rotate_pairs_proof true n (bf_s E) (bf_c E) x o Hn Hs Hc HF) as (y & E1 & A1). rewrite E1. cbn [obind].
    destruct (bfmv_proof BS tn (bf_F E) Htn HW true y o) as (z & E2 & A2). { rewrite HE. eapply acts_fits; eauto. }
    exists z. split; auto. rewrite HE in A2. destruct A1 as (L1 & P1 & O1), A2 as (L2 & P2 & O2). split; [lia|split].
    + intros i Hi. rewrite (P2 i Hi). cbn [op] in *. rewrite (mv_ext (2 * n) (transp (tb_V (bf_F E))) (transp (tb_V (bf_F E))) (vec o y) (matvec (2 * n) (transp (rotations (bf_s E) (bf_c E))) (vec o x))) by (auto; intros; apply P1; auto).
      rewrite <- mv_assoc. apply mv_ext; auto. intros k Hk. unfold bf_mat. now rewrite <- transp_mm.
    + intros. rewrite O2, O1 by auto. reflexivity.
  - destruct (bfmv_proof BS tn (bf_F E) Htn HW false x o) as (y & E2 & A2). { now rewrite HE. } rewrite E2. cbn [obind].
    rewrite HE in A2. destruct (rotate_pairs_proof false n (bf_s E) (bf_c E) y o Hn Hs Hc) as (z & E1 & A1). { eapply acts_fits; eauto. }
    exists z. split; auto. destruct A1 as (L1 & P1 & O1), A2 as (L2 & P2 & O2). split; [lia|split].
    + intros i Hi. rewrite (P1 i Hi). cbn [op] in *. rewrite (mv_ext (2 * n) (rotations (bf_s E) (bf_c E)) (rotations (bf_s E) (bf_c E)) (vec o y) (matvec (2 * n) (tb_V (bf_F E)) (vec o x))) by (auto; intros; apply P2; auto).
      now rewrite <- mv_assoc.
    + intros. rewrite O1, O2 by auto. reflexivity.
Qed.
Hypothesis Hu : unit_rotations n (bf_s E) (bf_c E).
Hypothesis Hd : nonzero_diag (2 * n) (tb_V (bf_F E)).
Lemma bbfsv_proof t x o : fits o (2 * n) x -> exists x', bbfsv BS tn t E x o = Some x' /\ acts o (2 * n) x x' (fun v w => isprod (2 * n) (op t (bf_mat E)) w v).
Proof.
  intros HF. destruct Hw as (Hn & Hs & Hc & Ht & HE & HW). unfold bbfsv. assert (Hd' : nonzero_diag (tbeig_n (bf_F E)) (tb_V (bf_F E))) by now rewrite HE. destruct t.
  - destruct (bfsv_proof BS tn (bf_F E) Htn HW Hd' true x o) as (y & E2 & A2). { now rewrite HE. } rewrite E2. cbn [obind].
    rewrite HE in A2. destruct (rotate_pairs_proof false n (bf_s E) (bf_c E) y o Hn Hs Hc) as (z & E1 & A1). { eapply acts_fits; eauto. }
    exists z. split; auto. destruct A1 as (L1 & P1 & O1), A2 as (L2 & P2 & O2). split; [lia|split].
    + intros i Hi. rewrite (P2 i Hi). cbn [op] in *.
      rewrite (mv_ext (2 * n) (transp (bf_mat E)) (transp (bf_mat E)) (vec o z) (matvec (2 * n) (rotations (bf_s E) (bf_c E)) (vec o y))) by (auto; intros; apply P1; auto).
      rewrite (mv_ext (2 * n) (transp (bf_mat E)) (matmul (2 * n) (transp (tb_V (bf_F E))) (transp (rotations (bf_s E) (bf_c E)))) _ _ i ltac:(intros k Hk; unfold bf_mat; now rewrite <- transp_mm) (fun k Hk => eq_refl)).
      rewrite mv_assoc. apply mv_ext; auto. intros k Hk. symmetry. exact (rot_inv n (bf_s E) (bf_c E) false (vec o y) k Hu Hk).
    + intros. rewrite O1, O2 by auto. reflexivity.
  - destruct (rotate_pairs_proof true n (bf_s E) (bf_c E) x o Hn Hs Hc HF) as (y & E1 & A1). rewrite E1. cbn [obind].
    destruct (bfsv_proof BS tn (bf_F E) Htn HW Hd' false y o) as (z & E2 & A2). { rewrite HE. eapply acts_fits; eauto. }
    exists z. split; auto. rewrite HE in A2. destruct A1 as (L1 & P1 & O1), A2 as (L2 & P2 & O2). split; [lia|split].
    + intros i Hi. cbn [op] in *. unfold bf_mat. rewrite mv_assoc.
      rewrite (mv_ext (2 * n) (rotations (bf_s E) (bf_c E)) (rotations (bf_s E) (bf_c E)) _ (matvec (2 * n) (transp (rotations (bf_s E) (bf_c E))) (vec o x)) i (fun k Hk => eq_refl)).
      * symmetry. exact (rot_inv n (bf_s E) (bf_c E) true (vec o x) i Hu Hi).
      * intros k Hk. rewrite <- (P2 k Hk). apply P1; auto.
    + intros. rewrite O2, O1 by auto. reflexivity.
Qed.
Lemma bf_unique t v w : (forall i, 0 <= i < 2 * n -> matvec (2 * n) (op t (bf_mat E)) v i = matvec (2 * n) (op t (bf_mat E)) w i) -> forall i, 0 <= i < 2 * n -> v i = w i.
Proof.
  intros H. destruct Hw as (Hn & Hs & Hc & Ht & HE & HW). pose proof (tb_V_upper BS tn (bf_F E) HW) as Up. rewrite HE in Up.
  set (G := rotations (bf_s E) (bf_c E)) in *. set (V := tb_V (bf_F E)) in *. destruct t; cbn [op] in H.
  - assert (K : forall i, 0 <= i < 2 * n -> matvec (2 * n) (transp G) v i = matvec (2 * n) (transp G) w i).
    { apply (tri_unique (2 * n) (transp V)). { apply (op_tri (2 * n) true V). now left. } { apply (op_diag (2 * n) true V). exact Hd. }
      intros i Hi. rewrite <- !mv_assoc. specialize (H i Hi).
      rewrite !(mv_ext (2 * n) (transp (bf_mat E)) (matmul (2 * n) (transp V) (transp G)) _ _ i ltac:(intros k Hk; unfold bf_mat; now rewrite <- transp_mm) (fun k Hk => eq_refl)) in H. exact H. }
    intros i Hi. rewrite <- (rot_inv n (bf_s E) (bf_c E) true v i Hu Hi), <- (rot_inv n (bf_s E) (bf_c E) true w i Hu Hi). apply mv_ext; auto.
  - apply (tri_unique (2 * n) V); auto. intros i Hi.
    rewrite <- (rot_inv n (bf_s E) (bf_c E) false (matvec (2 * n) V v) i Hu Hi), <- (rot_inv n (bf_s E) (bf_c E) false (matvec (2 * n) V w) i Hu Hi).
    apply mv_ext; auto. intros k Hk. cbn [op]. rewrite <- !mv_assoc. apply H; auto.
Qed.
Lemma bbf_inverse_proof t x o : fits o (2 * n) x ->
  (do y <- bbfmv BS tn t E x o; bbfsv BS tn t E y o) = Some x /\ (do y <- bbfsv BS tn t E x o; bbfmv BS tn t E y o) = Some x.
Proof.
  intros HF. split.
  - destruct (bbfmv_proof t x o HF) as (y & E1 & A1). rewrite E1. cbn [obind]. destruct (bbfsv_proof t y o (acts_fits _ _ _ _ _ A1 HF)) as (z & E2 & A2). rewrite E2. f_equal.
    apply (acts_id o (2 * n)); auto. destruct A1 as (L1 & P1 & O1), A2 as (L2 & P2 & O2). split; [lia|split].
    + apply (bf_unique t). intros i Hi. rewrite <- (P2 i Hi), <- (P1 i Hi). reflexivity.
    + intros p Hp. rewrite O2, O1 by auto. reflexivity.
  - destruct (bbfsv_proof t x o HF) as (y & E1 & A1). rewrite E1. cbn [obind]. destruct (bbfmv_proof t y o (acts_fits _ _ _ _ _ A1 HF)) as (z & E2 & A2). rewrite E2. f_equal.
    eapply mul_solve_id; eauto.
Qed.
Lemma bbf_columns_proof t B LDB N : 0 <= N -> fits_mat 0 (2 * n) N LDB B ->
  (exists B', bbfmm BS tn t E B LDB N = Some B' /\ acts_columns (2 * n) N LDB B B' (isprod (2 * n) (op t (bf_mat E)))) /\
  (do B' <- bbfmm BS tn t E B LDB N; bbfsm BS tn t E B' LDB N) = Some B /\ (do B' <- bbfsm BS tn t E B LDB N; bbfmm BS tn t E B' LDB N) = Some B.
Proof.
  intros HN HB. destruct Hw as (Hn & _). apply columns_unique; auto; try lia.
  - intros v w. apply bf_unique.
  - intros. now apply bbfmv_proof.
  - intros. now apply bbfsv_proof.
Qed.
End Plan.

(** ** Half blocks *)
Lemma spread_proof d n x o t ot : 0 <= n -> fits o n x -> fits ot (2 * n) t ->
  exists t', spread d n x o t ot = Some t' /\ zlen t' = zlen t /\
    forall i, 0 <= i < n -> vec ot t' (2 * i + odd d) = vec o x i /\ vec ot t' (2 * i + odd (negb d)) = 0%R.
Proof.
  intros Hn [F0 F1] [T0 T1]. unfold spread.
  match goal with |- context [for_up 0 n ?f t] => destruct (for_up_inv (fun q t' => zlen t' = zlen t /\
    forall i, 0 <= i < q -> vec ot t' (2 * i + odd d) = vec o x i /\ vec ot t' (2 * i + odd (negb d)) = 0%R) 0 n f t) as [t' [E (L & G)]] end; auto.
  - split; auto. intros; lia.
  - intros i t1 Hi (L & G). rewrite (zget_nthZ 0%R x) by lia. cbn [obind]. destruct d;
    (match goal with |- context [set_pair t1 ot i ?t0 ?t1'] => destruct (set_pair_val t1 ot n i t0 t1' ltac:(split; lia) Hi) as (x2 & E2 & L2 & V0 & V1 & O2) end;
      exists x2; split; auto; split; [lia|]; intros q Hq; cbn [odd negb]; rewrite Z.add_0_r; destruct (Z.eq_dec q i) as [->|]; [split; assumption|];
      destruct (G q ltac:(lia)) as [Ga Gb]; cbn [odd negb] in Ga, Gb; rewrite Z.add_0_r in *; split; [rewrite <- Ga | rewrite <- Gb]; apply vec_ext; apply O2; lia).
  - exists t'. auto.
Qed.
Lemma collect_proof r n t ot x o : 0 <= n -> fits o n x -> fits ot (2 * n) t ->
  exists x', collect r n t ot x o = Some x' /\ zlen x' = zlen x /\ (forall i, 0 <= i < n -> vec o x' i = vec ot t (2 * i + odd r)) /\ (forall p, p < o \/ o + n <= p -> zget x' p = zget x p).
Proof.
  intros Hn [F0 F1] [T0 T1]. unfold collect. assert (Hr : odd r = 0 \/ odd r = 1) by (destruct r; cbn; auto). change (if r then 1 else 0) with (odd r).
  match goal with |- context [for_up 0 n ?f x] => destruct (for_up_inv (fun q x' => zlen x' = zlen x /\
    (forall i, 0 <= i < q -> vec o x' i = vec ot t (2 * i + odd r)) /\ (forall p, p < o \/ o + q <= p -> zget x' p = zget x p)) 0 n f x) as [x' [E (L & G & O)]] end; auto.
  - repeat split; auto. intros; lia.
  - intros i x1 Hi (L & G & O). rewrite (zget_nthZ 0%R t) by lia. cbn [obind]. rewrite zset_some by lia. eexists; split; [reflexivity|]. rewrite zlen_zupd. split; auto. split.
    + intros q Hq. destruct (Z.eq_dec q i) as [->|].
      * unfold vec at 1. rewrite nthZ_zupd_same by lia. reflexivity.
      * rewrite <- G by lia. apply vec_ext. rewrite zget_zupd_other by lia. reflexivity.
    + intros p Hp. rewrite zget_zupd_other by lia. apply O. lia.
  - exists x'. auto.
Qed.
Lemma half_sum n U d r (v w : Z -> R) i : 0 <= n -> (forall k, 0 <= k < n -> w (2 * k + odd d) = v k /\ w (2 * k + odd (negb d)) = 0%R) ->
  matvec (2 * n) U w (2 * i + odd r) = matvec n (half_block r d U) v i.
Proof.
  intros Hn H. rewrite matvec_blocks. unfold matvec, half_block. apply sumZ_ext. intros k Hk. destruct (H k Hk) as [H0 H1]. unfold brow.
  destruct d; cbn [odd negb] in *; rewrite Z.add_0_r in *; rewrite H0, H1; ring.
Qed.
Section HalfPlan.
Variables (BS tn : Z) (E : btbeig R).
Hypothesis Htn : 0 <= tn.
Hypothesis Hw : bf_wf BS tn E.
Local Notation n := (bf_n E).
Lemma bbbfmv_proof t d r x o : fits o n x -> exists x', bbbfmv BS tn t d r E x o = Some x' /\ acts o n x x' (isprod n (half_block r d (op t (bf_mat E)))).
Proof.
  intros HF. assert (W := Hw). destruct W as (Hn & Hs & Hc & Ht & HE & HW). unfold bbbfmv.
  assert (HT : fits (2 * n * tn) (2 * n) (bf_t E)) by (split; nia).
  destruct (spread_proof d n x o (bf_t E) (2 * n * tn) Hn HF HT) as (t1 & E1 & L1 & G1). rewrite E1. cbn [obind].
  assert (HT1 : fits (2 * n * tn) (2 * n) t1) by (destruct HT; split; lia).
  destruct (bbfmv_proof BS tn E Htn Hw t t1 (2 * n * tn) HT1) as (t2 & E2 & A2). rewrite E2. cbn [obind].
  destruct (collect_proof r n t2 (2 * n * tn) x o Hn HF (acts_fits _ _ _ _ _ A2 HT1)) as (x' & E3 & L3 & G3 & O3). exists x'. split; auto. split; [auto|split; [|auto]].
  intros i Hi. rewrite G3 by auto. destruct A2 as (_ & P2 & _). rewrite (P2 (2 * i + odd r)) by (destruct r; cbn [odd]; lia). apply half_sum; auto.
Qed.
Lemma bbbfsv_proof t d r x o U : unit_rotations n (bf_s E) (bf_c E) -> nonzero_diag (2 * n) (tb_V (bf_F E)) ->
  (forall i j, 0 <= i < 2 * n -> 0 <= j < 2 * n -> matmul (2 * n) (op t (bf_mat E)) U i j = delta i j) -> fits o n x ->
  exists x', bbbfsv BS tn t d r E x o = Some x' /\ acts o n x x' (isprod n (half_block d r U)).
Proof.
  intros Hu Hd HU HF. assert (W := Hw). destruct W as (Hn & Hs & Hc & Ht & HE & HW). unfold bbbfsv.
  assert (HT : fits (2 * n * tn) (2 * n) (bf_t E)) by (split; nia).
  destruct (spread_proof r n x o (bf_t E) (2 * n * tn) Hn HF HT) as (t1 & E1 & L1 & G1). rewrite E1. cbn [obind].
  assert (HT1 : fits (2 * n * tn) (2 * n) t1) by (destruct HT; split; lia).
  destruct (bbfsv_proof BS tn E Htn Hw Hu Hd t t1 (2 * n * tn) HT1) as (t2 & E2 & A2). rewrite E2. cbn [obind].
  destruct (collect_proof d n t2 (2 * n * tn) x o Hn HF (acts_fits _ _ _ _ _ A2 HT1)) as (x' & E3 & L3 & G3 & O3). exists x'. split; auto. split; [auto|split; [|auto]].
  intros i Hi. rewrite G3 by auto. destruct A2 as (_ & P2 & _).
  assert (K : forall k, 0 <= k < 2 * n -> vec (2 * n * tn) t2 k = matvec (2 * n) U (vec (2 * n * tn) t1) k).
  { apply (bf_unique BS tn E Hw Hu Hd t). intros k Hk. rewrite <- (P2 k Hk). rewrite <- mv_assoc. symmetry.
    unfold matvec. rewrite (sumZ_ext (2 * n) _ (fun j => (delta k j * vec (2 * n * tn) t1 j)%R)) by (intros j Hj; now rewrite HU by auto).
    rewrite (sumZ_single (2 * n) k); auto. { unfold delta. rewrite Z.eqb_refl. ring. } intros j Hj Hne. unfold delta. replace (k =? j) with false by lia. ring. }
  rewrite K by (destruct d; cbn [odd]; lia). apply half_sum; auto.
Qed.
Lemma bbbfmm_proof t d r B LDB N : 0 <= N -> fits_mat 0 n N LDB B ->
  exists B', bbbfmm BS tn t d r E B LDB N = Some B' /\ acts_columns n N LDB B B' (isprod n (half_block r d (op t (bf_mat E)))).
Proof.
  intros HN HB. destruct Hw as (Hn & _). apply columnwise_proof; auto.
  - intros; eapply isprod_ext; eauto.
  - intros. now apply bbbfmv_proof.
Qed.
End HalfPlan.
