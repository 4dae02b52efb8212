(** Linearity, adjoints and inverses of array programs; products along one dimension *)
From Coq Require Import ZArith List Lia Bool Reals Lra ZifyBool ZifyNat.
From Verif Require Import Base Arith BaseFacts SpecSum PSum SpecLin PTri MRotations MDrivers SpecRot SpecDrivers PDrivers PDrivers4 MHarmonic SpecHarm.
Open Scope Z_scope.

(** ** axpy *)
Lemma zlen_axpy a X Y : zlen X = zlen Y -> zlen (axpy a X Y) = zlen X.
Proof. unfold zlen, axpy. intros H. rewrite map_length, combine_length. lia. Qed.
Lemma zget_axpy a X Y i x y : zget X i = Some x -> zget Y i = Some y -> zget (axpy a X Y) i = Some (a * x + y)%R.
Proof.
  unfold zget, axpy. destruct (i <? 0); [discriminate|]. generalize (Z.to_nat i). clear i. intros n. revert X Y.
  induction n; intros [|x0 X] [|y0 Y] HX HY; cbn in *; try discriminate.
  - injection HX as ->. injection HY as ->. reflexivity.
  - now apply IHn.
Qed.
Lemma nthZ_axpy a X Y i : zlen X = zlen Y -> nthZ 0%R (axpy a X Y) i = (a * nthZ 0 X i + nthZ 0 Y i)%R.
Proof.
  intros E. destruct (Z_le_dec 0 i); [destruct (Z_lt_dec i (zlen X))|].
  - apply nthZ_zget. apply zget_axpy; apply zget_nthZ; lia.
  - rewrite !nthZ_default by (rewrite ?zlen_axpy; lia). ring.
  - rewrite !nthZ_default by (rewrite ?zlen_axpy; lia). ring.
Qed.
Lemma axpy_zupd a X Y i v w : zlen X = zlen Y -> axpy a (zupd X i v) (zupd Y i w) = zupd (axpy a X Y) i (a * v + w)%R.
Proof.
  intros E. apply (nthZ_ext 0%R).
  - rewrite zlen_axpy; rewrite ?zlen_zupd; auto. rewrite zlen_axpy; auto.
  - intros j Hj. rewrite zlen_axpy in Hj by (rewrite !zlen_zupd; auto). rewrite zlen_zupd in Hj.
    rewrite nthZ_axpy by (rewrite !zlen_zupd; auto).
    destruct (Z.eq_dec i j) as [->|Hn].
    + rewrite !nthZ_zupd_same by (rewrite ?zlen_axpy; lia). reflexivity.
    + rewrite !nthZ_zupd_other by auto. rewrite nthZ_axpy; auto.
Qed.

(** ** linear programs (no claim about success) *)
Definition linp (p : list R -> option (list R)) : Prop :=
  forall a X Y X' Y', zlen X = zlen Y -> p X = Some X' -> p Y = Some Y' ->
  zlen X' = zlen X /\ zlen Y' = zlen Y /\ p (axpy a X Y) = Some (axpy a X' Y').
Lemma linp_ret : linp (fun A => Some A).
Proof. intros a X Y X' Y' E HX HY. injection HX as <-. injection HY as <-. auto. Qed.
Lemma linp_seq p q : linp p -> linp q -> linp (fun A => do A <- p A; q A).
Proof.
  intros Hp Hq a X Y X' Y' E HX HY. apply obind_inv in HX. apply obind_inv in HY.
  destruct HX as (X1 & H1 & H2), HY as (Y1 & H3 & H4).
  destruct (Hp a _ _ _ _ E H1 H3) as (L1 & L2 & E1).
  assert (E' : zlen X1 = zlen Y1) by lia. destruct (Hq a _ _ _ _ E' H2 H4) as (L3 & L4 & E2).
  rewrite E1. cbn [obind]. repeat split; congruence.
Qed.
Lemma linp_itero n f : (forall k, linp (f k)) -> linp (itero n f).
Proof. intros H. induction n; cbn [itero]; [apply linp_ret|]. apply (linp_seq (itero n f)); auto. Qed.
Lemma linp_up lo hi f : (forall k, linp (f k)) -> linp (for_up lo hi f).
Proof. intros H. apply linp_itero; auto. Qed.
Lemma linp_dn lo hi f : (forall k, linp (f k)) -> linp (for_dn lo hi f).
Proof. intros H. apply linp_itero; auto. Qed.
Lemma linp_upst lo hi st f : (forall k, linp (f k)) -> linp (for_upst lo hi st f).
Proof. intros H. apply linp_itero; auto. Qed.
Lemma linp_dnst lo hi st f : (forall k, linp (f k)) -> linp (for_dnst lo hi st f).
Proof. intros H. apply linp_itero; auto. Qed.
Lemma linp_bind {T} (o : option T) (f : T -> list R -> option (list R)) : (forall t, linp (f t)) -> linp (fun A => do t <- o; f t A).
Proof. intros H. destruct o; cbn [obind]. - apply H. - intros a X Y X' Y' _ HX. discriminate. Qed.
(** a rotation formula is linear in the two values *)
Definition lin_rot (rot : R -> R -> R -> R -> R * R) : Prop :=
  forall s c a x y u v, fst (rot s c (a * x + u)%R (a * y + v)%R) = (a * fst (rot s c x y) + fst (rot s c u v))%R /\
                        snd (rot s c (a * x + u)%R (a * y + v)%R) = (a * snd (rot s c x y) + snd (rot s c u v))%R.
Lemma lin_givens : lin_rot givens. Proof. intros s c a x y u v. cbn. split; ring. Qed.
Lemma lin_givens_t : lin_rot givens_t. Proof. intros s c a x y u v. cbn. split; ring. Qed.
Lemma linp_apply_rot rot s c ix iy : lin_rot rot -> linp (fun A => apply_rot rot s c A ix iy).
Proof.
  intros HR a X Y X' Y' E HX HY. unfold apply_rot in *.
  apply obind_inv in HX. destruct HX as (x & G1 & HX). apply obind_inv in HX. destruct HX as (y & G2 & HX).
  apply obind_inv in HX. destruct HX as (X1 & S1 & S2).
  apply obind_inv in HY. destruct HY as (u & G3 & HY). apply obind_inv in HY. destruct HY as (v & G4 & HY).
  apply obind_inv in HY. destruct HY as (Y1 & S3 & S4).
  apply zset_inv in S1, S2, S3, S4. destruct S1 as (B1 & ->), S2 as (B2 & ->), S3 as (B3 & ->), S4 as (B4 & ->).
  rewrite !zlen_zupd in *.
  rewrite (zget_axpy a _ _ _ _ _ G1 G3), (zget_axpy a _ _ _ _ _ G2 G4). cbn [obind].
  destruct (HR s c a x y u v) as (-> & ->).
  rewrite zset_some by (rewrite zlen_axpy; lia). cbn [obind].
  rewrite zset_some by (rewrite zlen_zupd, zlen_axpy; lia).
  repeat split; auto. rewrite <- !axpy_zupd; rewrite ?zlen_zupd; auto.
Qed.
Lemma linp_apply_rotc s c ix iy rot : lin_rot rot -> linp (fun A => apply_rotc rot s c A ix iy).
Proof.
  intros HR. unfold apply_rotc. apply (linp_seq (fun A => apply_rot rot s c A ix iy) (fun A => apply_rot rot s c A (ix+1) (iy+1))); now apply linp_apply_rot.
Qed.

Lemma linp_if (c : bool) p q : linp p -> linp q -> linp (fun A => if c then p A else q A).
Proof. destruct c; auto. Qed.

Section Kernels.
Variable RP : rotplan R.
Variable rot : R -> R -> R -> R -> R * R.
Hypothesis HR : lin_rot rot.
Lemma lk_sph_hi m1 m2 oA S : linp (fun A => kernel_sph_hi2lo rot RP m1 m2 A oA S).
Proof. unfold kernel_sph_hi2lo. apply linp_dnst; intros. apply linp_dn; intros. apply (linp_bind (tab RP _) (fun sc A => apply_rot rot (fst sc) (snd sc) A _ _)). intros. now apply linp_apply_rot. Qed.
Lemma lk_sph_lo m1 m2 oA S : linp (fun A => kernel_sph_lo2hi rot RP m1 m2 A oA S).
Proof. unfold kernel_sph_lo2hi. apply linp_upst; intros. apply linp_up; intros. apply (linp_bind (tab RP _) (fun sc A => apply_rot rot (fst sc) (snd sc) A _ _)). intros. now apply linp_apply_rot. Qed.
Lemma lk_tri_hi m1 m2 oA S : linp (fun A => kernel_tri_hi2lo rot RP m1 m2 A oA S).
Proof. unfold kernel_tri_hi2lo. apply linp_dn; intros. apply linp_dn; intros. apply (linp_bind (tab RP _) (fun sc A => apply_rot rot (fst sc) (snd sc) A _ _)). intros. now apply linp_apply_rot. Qed.
Lemma lk_tri_lo m1 m2 oA S : linp (fun A => kernel_tri_lo2hi rot RP m1 m2 A oA S).
Proof. unfold kernel_tri_lo2hi. apply linp_up; intros. apply linp_up; intros. apply (linp_bind (tab RP _) (fun sc A => apply_rot rot (fst sc) (snd sc) A _ _)). intros. now apply linp_apply_rot. Qed.
Lemma lk_disk_hi m1 m2 oA S : linp (fun A => kernel_disk_hi2lo rot RP m1 m2 A oA S).
Proof. unfold kernel_disk_hi2lo. apply linp_dnst; intros. apply linp_dn; intros. apply (linp_bind (tab RP _) (fun sc A => apply_rot rot (fst sc) (snd sc) A _ _)). intros. now apply linp_apply_rot. Qed.
Lemma lk_disk_lo m1 m2 oA S : linp (fun A => kernel_disk_lo2hi rot RP m1 m2 A oA S).
Proof. unfold kernel_disk_lo2hi. apply linp_upst; intros. apply linp_up; intros. apply (linp_bind (tab RP _) (fun sc A => apply_rot rot (fst sc) (snd sc) A _ _)). intros. now apply linp_apply_rot. Qed.
Lemma lk_tet_hi L m oA : linp (fun A => kernel_tet_hi2lo rot RP L m A oA).
Proof.
  unfold kernel_tet_hi2lo. apply linp_dn; intros. apply linp_dn; intros.
  apply (linp_bind (tab RP _) (fun sc A => for_up 0 _ (fun k A => apply_rot rot (fst sc) (snd sc) A _ _) A)). intros.
  apply linp_up; intros. now apply linp_apply_rot.
Qed.
Lemma lk_tet_lo L m oA : linp (fun A => kernel_tet_lo2hi rot RP L m A oA).
Proof.
  unfold kernel_tet_lo2hi. apply linp_up; intros. apply linp_up; intros.
  apply (linp_bind (tab RP _) (fun sc A => for_up 0 _ (fun k A => apply_rot rot (fst sc) (snd sc) A _ _) A)). intros.
  apply linp_up; intros. now apply linp_apply_rot.
Qed.
End Kernels.

Section Drv.
Variable k : kern R.
Hypothesis HK : forall m1 m2 oA S, linp (fun A => k m1 m2 A oA S).
Lemma ld_sph N M : linp (execute_sph_default k N M).
Proof. apply linp_up; intros m. apply (linp_seq (fun A => k _ _ A _ _) (fun A => k _ _ A _ _)); apply HK. Qed.
Lemma ld_sphv N M : linp (execute_sphv_default k N M).
Proof. apply linp_up; intros m. apply (linp_seq (fun A => k _ _ A _ _) (fun A => k _ _ A _ _)); apply HK. Qed.
Lemma ld_tri N M : linp (execute_tri_default k N M).
Proof. apply linp_up; intros m. apply HK. Qed.
Lemma ld_rectdisk N M : linp (execute_rectdisk_default k N M).
Proof. apply linp_up; intros m. apply HK. Qed.
Variable kt : Z -> Z -> list R -> Z -> option (list R).
Hypothesis HKT : forall L m oA, linp (fun A => kt L m A oA).
Lemma ld_tet_hi N L M : linp (execute_tet_hi2lo k kt N L M).
Proof. apply linp_up; intros m. apply (linp_seq (for_up 0 (L - m) _) (fun A => kt L m A _)); auto. apply linp_up; intros. apply HK. Qed.
Lemma ld_tet_lo N L M : linp (execute_tet_lo2hi k kt N L M).
Proof. apply linp_up; intros m. apply (linp_seq (fun A => kt L m A _) (for_up 0 (L - m) _)); auto. apply linp_up; intros. apply HK. Qed.
End Drv.

(** ** inner products *)
Lemma frob_dot A : frobenius2 A = dot A A.
Proof. unfold frobenius2, dot. rewrite sumsq_sum. apply sumZ_ext. intros i Hi. now rewrite Z.mul_1_r. Qed.
Lemma dot_axpy X Y : zlen X = zlen Y -> dot (axpy 1 X Y) (axpy 1 X Y) = (dot X X + 2 * dot X Y + dot Y Y)%R.
Proof.
  intros E. unfold dot. rewrite zlen_axpy by auto. rewrite <- E. rewrite <- (sumZ_scal _ 2), <- !sumZ_plus.
  apply sumZ_ext. intros i Hi. rewrite nthZ_axpy by auto. ring.
Qed.
Lemma dot_comm X Y : zlen X = zlen Y -> dot X Y = dot Y X.
Proof. intros E. unfold dot. rewrite E. apply sumZ_ext. intros; ring. Qed.
Definition iso_pair (len : Z) (p q : list R -> option (list R)) : Prop :=
  forall A, zlen A = len -> mutually_inverse_on p q A /\ keeps_frobenius p A /\ keeps_frobenius q A.
Lemma iso_inverse len p q : iso_pair len p q -> inverse len p q.
Proof.
  intros H X LX. destruct (H X LX) as (((B & H1 & H2) & (B' & H3 & H4)) & (P1 & E1 & L1 & _) & (P2 & E2 & L2 & _)).
  split; [exists B | exists B']; repeat split; auto; congruence.
Qed.
Lemma iso_keeps_dot len p q X Y X' Y' : iso_pair len p q -> linp p -> zlen X = len -> zlen Y = len ->
  p X = Some X' -> p Y = Some Y' -> dot X' Y' = dot X Y.
Proof.
  intros H HL LX LY EX EY. assert (E : zlen X = zlen Y) by lia. destruct (HL 1%R X Y X' Y' E EX EY) as (L1 & L2 & EA).
  assert (NX : dot X' X' = dot X X). { destruct (H X LX) as (_ & (A & E1 & _ & F1) & _). rewrite !frob_dot in F1. congruence. }
  assert (NY : dot Y' Y' = dot Y Y). { destruct (H Y LY) as (_ & (A & E1 & _ & F1) & _). rewrite !frob_dot in F1. congruence. }
  assert (NA : dot (axpy 1 X' Y') (axpy 1 X' Y') = dot (axpy 1 X Y) (axpy 1 X Y)).
  { destruct (H (axpy 1 X Y)) as (_ & (A & E1 & _ & F1) & _). { rewrite zlen_axpy; auto. } rewrite !frob_dot in F1. congruence. }
  rewrite !dot_axpy in NA by lia. lra.
Qed.
Lemma iso_adjoint len p q : iso_pair len p q -> linp p -> adjoint len p q.
Proof.
  intros H HL X Y LX LY. destruct (iso_inverse _ _ _ H X LX) as ((X' & E1 & L1 & _) & _).
  destruct (iso_inverse _ _ _ H Y LY) as (_ & (Y' & E2 & L2 & E3)).
  exists X', Y'. repeat split; auto. eapply iso_keeps_dot; eauto.
Qed.

Lemma inverse_sym len p q : inverse len p q -> inverse len q p.
Proof. intros H X L. destruct (H X L). auto. Qed.
Lemma adjoint_sym len p q : adjoint len p q -> adjoint len q p.
Proof.
  intros H X Y LX LY. destruct (H Y X LY LX) as (Y' & X' & E1 & E2 & L1 & L2 & E). exists X', Y'. repeat split; auto.
  rewrite (dot_comm X'), (dot_comm X) by lia. auto.
Qed.
Lemma inverse_seq len p q p' q' : inverse len p q -> inverse len p' q' -> inverse len (fun A => do A <- p A; p' A) (fun A => do A <- q' A; q A).
Proof.
  intros H H' X L. split.
  - destruct (H X L) as ((X1 & E1 & L1 & E2) & _). destruct (H' X1 L1) as ((X2 & E3 & L2 & E4) & _).
    exists X2. rewrite E1. cbn [obind]. rewrite E4. auto.
  - destruct (H' X L) as (_ & (X1 & E1 & L1 & E2)). destruct (H X1 L1) as (_ & (X2 & E3 & L2 & E4)).
    exists X2. rewrite E1. cbn [obind]. rewrite E4. auto.
Qed.
Lemma adjoint_seq len p q p' q' : adjoint len p q -> adjoint len p' q' -> adjoint len (fun A => do A <- p A; p' A) (fun A => do A <- q' A; q A).
Proof.
  intros H H' X Y LX LY.
  destruct (H X Y LX LY) as (X1 & _ & E1 & _ & L1 & _ & _).
  destruct (H' X1 Y L1 LY) as (X2 & Y1 & E2 & E3 & L2 & L3 & D).
  destruct (H X Y1 LX L3) as (X1' & Y2 & E4 & E5 & L4 & L5 & D').
  exists X2, Y2. rewrite E1, E3. cbn [obind]. repeat split; auto. rewrite D, <- D'. congruence.
Qed.
Lemma inverse_id len : inverse len (fun A => Some A) (fun A => Some A).
Proof. intros X L. split; exists X; auto. Qed.
Lemma adjoint_id len : adjoint len (fun A => Some A) (fun A => Some A).
Proof. intros X Y LX LY. exists X, Y. auto. Qed.
Lemma inverse_guard len c p q : (c = true -> inverse len p q) -> inverse len (guard c p) (guard c q).
Proof. unfold guard. destruct c; auto. intros _. apply inverse_id. Qed.
Lemma adjoint_guard len c p q : (c = true -> adjoint len p q) -> adjoint len (guard c p) (guard c q).
Proof. unfold guard. destruct c; auto. intros _. apply adjoint_id. Qed.
Lemma inverse_ext len p q p' q' : (forall A, p A = p' A) -> (forall A, q A = q' A) -> inverse len p q -> inverse len p' q'.
Proof.
  intros E1 E2 H X L. destruct (H X L) as ((A & H1 & H2 & H3) & (B & H4 & H5 & H6)).
  split; [exists A|exists B]; rewrite <- ?E1, <- ?E2; auto.
Qed.
Lemma adjoint_ext len p q p' q' : (forall A, p A = p' A) -> (forall A, q A = q' A) -> adjoint len p q -> adjoint len p' q'.
Proof. intros E1 E2 H X Y LX LY. destruct (H X Y LX LY) as (A & B & H1). exists A, B. rewrite <- E1, <- E2. auto. Qed.

(** ** products along one dimension *)
Section Mode.
Variables (a b c : Z).
Hypotheses (Ha : 0 <= a) (Hb : 0 <= b) (Hc : 0 <= c).
Lemma mode_pos x y z : 0 <= x < a -> 0 <= y < b -> 0 <= z < c -> 0 <= x + a * (y + b * z) < a * b * c.
Proof.
  intros Hx Hy Hz. pose proof (idx2 y z b c Hy Hz) as H1. pose proof (idx2 x (y + z * b) a (c * b) Hx H1) as H2.
  replace (x + a * (y + b * z)) with (x + (y + z * b) * a) by ring. replace (a * b * c) with (c * b * a) by ring. exact H2.
Qed.
Lemma mode_split p : 0 <= p < a * b * c -> exists x y z, 0 <= x < a /\ 0 <= y < b /\ 0 <= z < c /\ p = x + a * (y + b * z).
Proof.
  intros Hp. assert (0 < a) by nia. assert (0 < b) by nia.
  exists (p mod a), ((p / a) mod b), (p / a / b).
  assert (0 <= p / a < b * c). { split; [apply Z.div_pos; lia|apply Z.div_lt_upper_bound; [lia|]; nia]. }
  pose proof (Z.mod_pos_bound p a ltac:(lia)). pose proof (Z.mod_pos_bound (p / a) b ltac:(lia)).
  split; [lia|]. split; [lia|]. split; [split; [apply Z.div_pos; lia|apply Z.div_lt_upper_bound; lia]|].
  pose proof (Z.div_mod p a ltac:(lia)). pose proof (Z.div_mod (p / a) b ltac:(lia)). nia.
Qed.
Lemma entry_ext B B' : zlen B = a * b * c -> zlen B' = a * b * c ->
  (forall x y z, 0 <= x < a -> 0 <= y < b -> 0 <= z < c -> entry a b B x y z = entry a b B' x y z) -> B = B'.
Proof.
  intros L L' H. apply (nthZ_ext 0%R); [congruence|]. intros p Hp. rewrite L in Hp.
  destruct (mode_split p Hp) as (x & y & z & Hx & Hy & Hz & ->). now apply H.
Qed.
Lemma sum3 f : sumZ (a * b * c) f = sumZ c (fun z => sumZ a (fun x => sumZ b (fun y => f (x + a * (y + b * z))))).
Proof.
  replace (a * b * c) with (c * (b * a)) by ring. rewrite sumZ_block by nia.
  apply sumZ_ext. intros z Hz. rewrite sumZ_block by nia. rewrite sumZ_swap.
  apply sumZ_ext. intros x Hx. apply sumZ_ext. intros y Hy. f_equal. ring.
Qed.
Lemma dot3 X Y : zlen X = a * b * c -> dot X Y = sumZ c (fun z => sumZ a (fun x => sumZ b (fun y => (entry a b X x y z * entry a b Y x y z)%R))).
Proof. intros L. unfold dot. rewrite L, sum3. reflexivity. Qed.

Lemma mode_dot U X X' Y Y' : mode a b c U X X' -> mode a b c (fun z => transp (U z)) Y Y' -> dot X' Y = dot X Y'.
Proof.
  intros (L1 & L2 & H) (L3 & L4 & H'). rewrite !dot3 by auto.
  apply sumZ_ext. intros z Hz. apply sumZ_ext. intros x Hx.
  rewrite (sumZ_ext b _ (fun i => sumZ b (fun k => (U z i k * entry a b X x k z * entry a b Y x i z)%R))).
  2:{ intros i Hi. rewrite H by auto. now rewrite sumZ_scal_r. }
  rewrite (sumZ_ext b (fun y => (entry a b X x y z * entry a b Y' x y z)%R) (fun k => sumZ b (fun i => (U z i k * entry a b X x k z * entry a b Y x i z)%R))).
  2:{ intros i Hi. rewrite H' by auto. rewrite <- sumZ_scal. apply sumZ_ext. intros k Hk. unfold transp. ring. }
  apply sumZ_swap.
Qed.
Lemma mode_fun U X X1 X2 : mode a b c U X X1 -> mode a b c U X X2 -> X1 = X2.
Proof. intros (L1 & L2 & H) (L3 & L4 & H'). apply entry_ext; auto. intros. now rewrite H, H'. Qed.
Lemma mode_compose U V X X1 X2 : (forall z i j, 0 <= z < c -> 0 <= i < b -> 0 <= j < b -> matmul b (V z) (U z) i j = delta i j) ->
  mode a b c U X X1 -> mode a b c V X1 X2 -> X2 = X.
Proof.
  intros HI (L1 & L2 & H) (L3 & L4 & H'). apply entry_ext; auto. intros x i z Hx Hi Hz. rewrite H' by auto.
  rewrite (sumZ_ext b _ (fun k => sumZ b (fun l => (V z i k * U z k l * entry a b X x l z)%R))).
  2:{ intros k Hk. rewrite H by auto. rewrite <- sumZ_scal. apply sumZ_ext. intros; ring. }
  rewrite sumZ_swap.
  rewrite (sumZ_ext b _ (fun l => (delta i l * entry a b X x l z)%R)).
  2:{ intros l Hl. rewrite sumZ_scal_r. f_equal. apply (HI z i l); auto. }
  rewrite (sumZ_single b i); auto.
  - unfold delta. rewrite Z.eqb_refl. ring.
  - intros l Hl Hn. unfold delta. replace (i =? l) with false by lia. ring.
Qed.
Definition is_mode U (p : list R -> option (list R)) : Prop :=
  forall X, zlen X = a * b * c -> exists X', p X = Some X' /\ mode a b c U X X'.
Definition is_comode U (p : list R -> option (list R)) : Prop :=
  forall X, zlen X = a * b * c -> exists X', p X = Some X' /\ mode a b c U X' X.
Lemma is_mode_adjoint U p q : is_mode U p -> is_mode (fun z => transp (U z)) q -> adjoint (a * b * c) p q.
Proof.
  intros Hp Hq X Y LX LY. destruct (Hp X LX) as (X' & E1 & M1). destruct (Hq Y LY) as (Y' & E2 & M2).
  exists X', Y'. pose proof M1 as (_ & ? & _). pose proof M2 as (_ & ? & _). repeat split; auto. eapply mode_dot; eauto.
Qed.
Lemma is_comode_adjoint U p q : is_comode U p -> is_comode (fun z => transp (U z)) q -> adjoint (a * b * c) p q.
Proof.
  intros Hp Hq X Y LX LY. destruct (Hp X LX) as (X' & E1 & M1). destruct (Hq Y LY) as (Y' & E2 & M2).
  exists X', Y'. pose proof M1 as (? & _ & _). pose proof M2 as (? & _ & _). repeat split; auto.
  symmetry. eapply mode_dot; eauto.
Qed.
Lemma is_mode_inverse U V p q : (forall z, 0 <= z < c -> inverse_of b (U z) (V z)) -> is_mode U p -> is_mode V q -> inverse (a * b * c) p q.
Proof.
  intros HI Hp Hq X LX. split.
  - destruct (Hp X LX) as (X1 & E1 & M1). pose proof M1 as (_ & L1 & _). destruct (Hq X1 L1) as (X2 & E2 & M2).
    exists X1. repeat split; auto. rewrite E2. f_equal. eapply mode_compose; [|exact M1|exact M2]. intros; now apply HI.
  - destruct (Hq X LX) as (X1 & E1 & M1). pose proof M1 as (_ & L1 & _). destruct (Hp X1 L1) as (X2 & E2 & M2).
    exists X1. repeat split; auto. rewrite E2. f_equal. eapply mode_compose; [|exact M1|exact M2]. intros; now apply HI.
Qed.
Lemma is_mode_ext U V p : (forall z i k, 0 <= z < c -> 0 <= i < b -> 0 <= k < b -> U z i k = V z i k) -> is_mode U p -> is_mode V p.
Proof.
  intros E H X L. destruct (H X L) as (X' & E1 & L1 & L2 & H1). exists X'. repeat split; auto.
  intros. rewrite H1 by auto. apply sumZ_ext. intros. now rewrite E.
Qed.
End Mode.

(** ** families of disjoint lines *)
Definition glines {I} (dom : I -> Prop) (n s : Z) (base : I -> Z) (U : I -> Z -> Z -> R) (B B' : list R) : Prop :=
  zlen B' = zlen B /\
  (forall j i, dom j -> 0 <= i < n -> nthZ 0%R B' (base j + i * s) = sumZ n (fun k => (U j i k * nthZ 0%R B (base j + k * s))%R)) /\
  (forall p, (forall j i, dom j -> 0 <= i < n -> p <> base j + i * s) -> zget B' p = zget B p).
Lemma lines_glines n s m base U B B' : lines n s m base U B B' <-> glines (fun j => 0 <= j < m) n s base U B B'.
Proof. unfold lines, glines. tauto. Qed.
Lemma nthZ_of_zget (B B' : list R) p : zget B' p = zget B p -> nthZ 0%R B' p = nthZ 0%R B p.
Proof. unfold nthZ. now intros ->. Qed.
Lemma glines_seq {I} (d1 d2 : I -> Prop) n s base U B B1 B2 :
  (forall j j' i i', d1 j -> d2 j' -> 0 <= i < n -> 0 <= i' < n -> base j + i * s <> base j' + i' * s) ->
  glines d1 n s base U B B1 -> glines d2 n s base U B1 B2 -> glines (fun j => d1 j \/ d2 j) n s base U B B2.
Proof.
  intros HD (L1 & V1 & K1) (L2 & V2 & K2). repeat split.
  - congruence.
  - intros j i [H|H] Hi.
    + rewrite (nthZ_of_zget B1 B2). 2:{ apply K2. intros. apply HD; auto. } auto.
    + rewrite V2 by auto. apply sumZ_ext. intros k Hk. f_equal. apply nthZ_of_zget. apply K1.
      intros j' i' Hd Hi'. apply not_eq_sym. apply HD; auto.
  - intros p Hp. rewrite K2, K1; auto.
Qed.
Lemma glines_weaken {I J} (d : I -> Prop) (d' : J -> Prop) n s base base' U U' B B' (f : J -> I) (g : I -> J) :
  (forall j, d' j -> d (f j) /\ base (f j) = base' j /\ forall i k, 0 <= i < n -> 0 <= k < n -> U (f j) i k = U' j i k) ->
  (forall i, d i -> d' (g i) /\ base' (g i) = base i) ->
  glines d n s base U B B' -> glines d' n s base' U' B B'.
Proof.
  intros Hf Hg (L & V & K). repeat split; auto.
  - intros j i Hj Hi. destruct (Hf j Hj) as (D & E & EU). rewrite <- E, V by auto. apply sumZ_ext. intros k Hk. now rewrite EU.
  - intros p Hp. apply K. intros i x Hi Hx. destruct (Hg i Hi) as (D & E). rewrite <- E. now apply Hp.
Qed.
Lemma glines_loop {I} lo hi (d : Z -> I -> Prop) n s (base : Z -> I -> Z) U body B :
  lo <= hi ->
  (forall t t' j j' i i', lo <= t < hi -> lo <= t' < hi -> t <> t' -> d t j -> d t' j' -> 0 <= i < n -> 0 <= i' < n ->
     base t j + i * s <> base t' j' + i' * s) ->
  (forall t X, lo <= t < hi -> zlen X = zlen B -> exists X', body t X = Some X' /\ glines (d t) n s (base t) (U t) X X') ->
  exists B', for_up lo hi body B = Some B' /\
    glines (fun tj : Z * I => lo <= fst tj < hi /\ d (fst tj) (snd tj)) n s (fun tj => base (fst tj) (snd tj)) (fun tj => U (fst tj) (snd tj)) B B'.
Proof.
  intros Hl HD HB.
  destruct (for_up_inv (fun t X => glines (fun tj : Z * I => lo <= fst tj < t /\ d (fst tj) (snd tj)) n s (fun tj => base (fst tj) (snd tj)) (fun tj => U (fst tj) (snd tj)) B X) lo hi body B)
    as (B' & E & H); auto.
  - repeat split; auto. intros j i ((H1 & H2) & _). lia.
  - intros t X Ht HX. destruct (HB t X Ht) as (X' & E & H1). { apply HX. }
    exists X'. split; auto.
    assert (H2 : glines (fun tj : Z * I => fst tj = t /\ d (fst tj) (snd tj)) n s (fun tj => base (fst tj) (snd tj)) (fun tj => U (fst tj) (snd tj)) X X').
    { revert H1. apply (glines_weaken _ _ n s _ _ _ _ X X' snd (fun j => (t, j))).
      - intros (t', j) (E1 & D). cbn [fst snd] in *. subst t'. auto.
      - intros j D. cbn. auto. }
    assert (H3 := fun D => glines_seq _ _ _ _ _ _ _ _ _ D HX H2). cbv beta in H3.
    match type of H3 with ?P -> _ => assert (HP : P) end.
    { intros (t1, j1) (t2, j2) i i' (H4 & D1) (H5 & D2) Hi Hi'. cbn [fst snd] in *. apply HD; auto; lia. }
    specialize (H3 HP). revert H3. apply (glines_weaken _ _ n s _ _ _ _ B X' (fun j => j) (fun j => j)).
    + intros (t', j) (H3 & D). cbn [fst snd] in *. split; auto. destruct (Z.eq_dec t' t); [right|left]; split; auto; lia.
    + intros (t', j) [(H3 & D)|(H3 & D)]; cbn [fst snd] in *; split; auto; split; auto; lia.
  - exists B'. split; auto.
Qed.
Lemma glines_mode {I} (d : I -> Prop) a b c base U V B B' (f : Z -> Z -> I) :
  0 <= a -> 0 <= b -> 0 <= c -> zlen B = a * b * c -> glines d b a base U B B' ->
  (forall x z, 0 <= x < a -> 0 <= z < c -> d (f x z) /\ base (f x z) = x + a * (b * z) /\ forall i k, 0 <= i < b -> 0 <= k < b -> U (f x z) i k = V z i k) ->
  mode a b c V B B'.
Proof.
  intros Ha Hb Hc LB (L & H & _) Hf. split; [auto|]. split; [congruence|]. intros x i z Hx Hi Hz. unfold entry.
  destruct (Hf x z Hx Hz) as (D & E & EU). replace (x + a * (i + b * z)) with (base (f x z) + i * a) by (rewrite E; ring).
  rewrite H by auto. apply sumZ_ext. intros k Hk. rewrite EU by auto. f_equal. f_equal. rewrite E. ring.
Qed.
