(** * The gradient and curl differentiate the function *)
From Coq Require Import ZArith List Lia Bool Reals Lra ZifyBool.
From Verif Require Import Base BaseFacts Arith SpecSum PSum SpecLin MBanded SpecBanded PTri PBand MFactor MGrad SpecIso SpecGeo SpecGrad PGrad1 PGrad2 PGrad3 PGrad4 PGrad5.
Import ListNotations.
Open Scope Z_scope.

Definition dvsphP (m i : Z) (t : R) : R := let mu := if m =? 0 then 1 else m - 1 in (nrm mu i * lf m * dL (Z.to_nat mu) (Z.to_nat i) t)%R.
Lemma vsphP_C1 m i : C1 (vsphP m i) (dvsphP m i).
Proof.
  set (mu := if m =? 0 then 1 else m - 1).
  apply (C1_ext (fun t => nrm mu i * lf m * L (Z.to_nat mu) (Z.to_nat i) t)%R (fun t => nrm mu i * lf m * dL (Z.to_nat mu) (Z.to_nat i) t)%R).
  - intros. unfold vsphP. fold mu. unfold nrm, fz, lf, L. ring.
  - reflexivity.
  - apply C1_scal, L_C1.
Qed.
Lemma C1_scal_r a f f' : C1 f f' -> C1 (fun t => f t * a)%R (fun t => f' t * a)%R.
Proof. intros H. apply (C1_ext (fun t => a * f t)%R (fun t => a * f' t)%R); [intros; ring|intros; ring|now apply C1_scal]. Qed.
(** a general series: column 0 with [N] entries, order m with [r m] entries *)
Definition series (P : Z -> Z -> R -> R) (N h : Z) (r : Z -> Z) (A : list R) (t phi : R) : R :=
  (sumZ N (fun i => P 0%Z i t * nthZ 0 A i) +
  sumZ h (fun k => sumZ (r (k + 1)%Z) (fun i => P (k + 1)%Z i t * (nthZ 0 A (i + N * (2 * (k + 1) - 1))%Z * sin (IZR (k + 1) * phi) + nthZ 0 A (i + N * (2 * (k + 1)))%Z * cos (IZR (k + 1) * phi)))))%R.
Lemma series_C1 P P' N h r A phi : (forall m i, C1 (P m i) (P' m i)) -> C1 (fun t => series P N h r A t phi) (fun t => series P' N h r A t phi).
Proof.
  intros H. unfold series. apply C1_plus.
  - apply (C1_sum N (fun i t => P 0%Z i t * nthZ 0 A i)%R (fun i t => P' 0%Z i t * nthZ 0 A i)%R). intros. apply C1_scal_r. apply H.
  - apply (C1_sum h (fun k t => sumZ (r (k + 1)%Z) (fun i => P (k + 1)%Z i t * (nthZ 0 A (i + N * (2 * (k + 1) - 1))%Z * sin (IZR (k + 1) * phi) + nthZ 0 A (i + N * (2 * (k + 1)))%Z * cos (IZR (k + 1) * phi))))%R
                    (fun k t => sumZ (r (k + 1)%Z) (fun i => P' (k + 1)%Z i t * (nthZ 0 A (i + N * (2 * (k + 1) - 1))%Z * sin (IZR (k + 1) * phi) + nthZ 0 A (i + N * (2 * (k + 1)))%Z * cos (IZR (k + 1) * phi))))%R).
    intros k Hk. apply (C1_sum (r (k + 1)) (fun i t => P (k + 1)%Z i t * _)%R (fun i t => P' (k + 1)%Z i t * _)%R). intros i Hi. apply C1_scal_r. apply H.
Qed.
Lemma harmonic_is_series N h A t phi : harmonic_series sphP N h A t phi = series sphP N h (fun m => N - m) A t phi.
Proof. reflexivity. Qed.
Lemma vector_is_series N h A t phi : vector_series N h A t phi = series vsphP N h (fun m => N + 1 - m)%Z A t phi.
Proof. reflexivity. Qed.
Lemma split_cols (P : Z -> Z -> R -> R) m K (N : Z) A t s c : sumZ K (fun i => P m i t * (nthZ 0 A (i + N * (2 * m - 1))%Z * s + nthZ 0 A (i + N * (2 * m))%Z * c))%R =
  (s * sumZ K (fun i => P m i t * vec (N * (2 * m - 1)) A i) + c * sumZ K (fun i => P m i t * vec (N * (2 * m)) A i))%R.
Proof. rewrite <- !sumZ_scal, <- sumZ_plus. apply sumZ_ext. intros i Hi. unfold vec. rewrite (Z.add_comm (N * (2 * m - 1)) i), (Z.add_comm (N * (2 * m)) i). ring. Qed.

Definition last_zero (N h : Z) (U : list R) : Prop := forall m, 1 <= m <= h -> vec (N * (2 * m - 1)) U (N - m) = 0%R /\ vec (N * (2 * m)) U (N - m) = 0%R.
Lemma theta_identity N h U Ut Up t phi : 1 <= N -> 0 <= h <= N -> last_zero N h U -> graded N h U Ut Up ->
  (sin t * series dsphP N h (fun m => N - m)%Z U t phi = sin t * vector_series N h Ut t phi)%R.
Proof.
  intros HN Hh HZ (W1 & W2 & _ & W4). rewrite vector_is_series. unfold series. rewrite !Rmult_plus_distr_l. f_equal.
  - f_equal. rewrite (sumZ_first N) by lia. change (0 + 1) with 1. rewrite dsphP_00. rewrite Rmult_0_l, Rplus_0_l.
    rewrite (sumZ_split N (N - 1) (fun i => vsphP 0%Z i t * nthZ 0 Ut i)%R) by lia. rewrite (sumZ_zero (N - (N - 1))).
    + rewrite Rplus_0_r. apply sumZ_ext. intros i Hi. rewrite W1 by lia. replace (1 + i) with (i + 1) by lia. rewrite zonal_der by lia. ring.
    + intros i Hi. replace (N - 1 + i) with (N - 1) by lia. rewrite W2. ring.
  - rewrite <- !sumZ_scal. apply sumZ_ext. intros k Hk. set (m := k + 1). assert (Hm : 1 <= m <= h) by (unfold m; lia). rewrite !split_cols. destruct (W4 m Hm) as (A1 & A2 & _ & _). destruct (HZ m Hm) as (Z1 & Z2).
    pose proof (col_T m (N + 1 - m) _ _ t ltac:(lia) A1) as T1. pose proof (col_T m (N + 1 - m) _ _ t ltac:(lia) A2) as T2.
    pose proof (col_B m (N + 1 - m) (vec (N * (2 * m - 1)) U) (matvec (N + 1 - m) (Bmat m) (vec (N * (2 * m - 1)) U)) t ltac:(lia) ltac:(lia)) as B1.
    pose proof (col_B m (N + 1 - m) (vec (N * (2 * m)) U) (matvec (N + 1 - m) (Bmat m) (vec (N * (2 * m)) U)) t ltac:(lia) ltac:(lia)) as B2.
    replace (N + 1 - m - 1) with (N - m) in B1, B2 by lia. specialize (B1 Z1 ltac:(intros i Hi; reflexivity)). specialize (B2 Z2 ltac:(intros i Hi; reflexivity)).
    rewrite !Rmult_plus_distr_l. rewrite (Rmult_comm (sin t) (sin (IZR m * phi) * sumZ (N - m) _)), (Rmult_comm (sin t) (sin (IZR m * phi) * sumZ (N + 1 - m) _)), (Rmult_comm (sin t) (cos (IZR m * phi) * sumZ (N - m) _)), (Rmult_comm (sin t) (cos (IZR m * phi) * sumZ (N + 1 - m) _)).
    rewrite !Rmult_assoc. rewrite !(Rmult_comm _ (sin t)). rewrite T1, T2, B1, B2. reflexivity.
Qed.
Lemma theta_derivative N h U Ut Up t phi : 1 <= N -> 0 <= h <= N -> last_zero N h U -> graded N h U Ut Up ->
  derivable_pt_lim (fun t => harmonic_series sphP N h U t phi) t (vector_series N h Ut t phi).
Proof.
  intros HN Hh HZ HG. pose proof (series_C1 sphP dsphP N h (fun m => N - m) U phi (fun m i => sphP_C1 m i)) as C.
  assert (E : series dsphP N h (fun m => N - m) U t phi = vector_series N h Ut t phi).
  { apply Rminus_diag_uniq. revert t. apply (dense_sin (fun t => series dsphP N h (fun m => N - m)%Z U t phi - vector_series N h Ut t phi)%R).
    - intros t. apply (continuity_pt_minus (fun t => series dsphP N h (fun m => N - m)%Z U t phi) (fun t => vector_series N h Ut t phi)); [apply C|].
      eapply (C1_cont (fun t => vector_series N h Ut t phi)). apply (series_C1 vsphP dvsphP N h (fun m => N + 1 - m) Ut phi (fun m i => vsphP_C1 m i)).
    - intros t. rewrite Rmult_minus_distr_l, (theta_identity N h U Ut Up) by auto. ring. }
  rewrite <- E. exact (proj1 (C t)).
Qed.
Lemma C1_sin_m a : C1 (fun x => sin (a * x)) (fun x => a * cos (a * x))%R.
Proof.
  assert (D : forall f f', (forall x, derivable_pt_lim f x (f' x)) -> forall x, derivable_pt_lim (fun x => f (a * x)%R) x (f' (a * x) * a)%R).
  { intros f f' H x. apply (derivable_pt_lim_comp (fun x => a * x)%R f x a (f' (a * x)%R)); [|apply H]. pose proof (derivable_pt_lim_scal id a x 1 (derivable_pt_lim_id x)) as E. rewrite Rmult_1_r in E. exact E. }
  intros x. split.
  - rewrite Rmult_comm. apply (D sin cos). apply derivable_pt_lim_sin.
  - apply (continuity_pt_scal (fun x => cos (a * x))%R). apply derivable_continuous_pt. exists (- sin (a * x) * a)%R. apply (D cos (fun x => - sin x)%R). apply derivable_pt_lim_cos.
Qed.
Lemma C1_cos_m a : C1 (fun x => cos (a * x)) (fun x => - a * sin (a * x))%R.
Proof.
  assert (D : forall f f', (forall x, derivable_pt_lim f x (f' x)) -> forall x, derivable_pt_lim (fun x => f (a * x)%R) x (f' (a * x) * a)%R).
  { intros f f' H x. apply (derivable_pt_lim_comp (fun x => a * x)%R f x a (f' (a * x)%R)); [|apply H]. pose proof (derivable_pt_lim_scal id a x 1 (derivable_pt_lim_id x)) as E. rewrite Rmult_1_r in E. exact E. }
  intros x. split.
  - replace (- a * sin (a * x))%R with (- sin (a * x) * a)%R by ring. apply (D cos (fun x => - sin x)%R). apply derivable_pt_lim_cos.
  - apply (continuity_pt_scal (fun x => sin (a * x))%R). apply derivable_continuous_pt. exists (cos (a * x) * a)%R. apply (D sin cos). apply derivable_pt_lim_sin.
Qed.
Lemma phi_derivative N h U Ut Up t phi : 1 <= N -> 0 <= h <= N -> last_zero N h U -> graded N h U Ut Up ->
  derivable_pt_lim (fun phi => harmonic_series sphP N h U t phi) phi (sin t * vector_series N h Up t phi)%R.
Proof.
  intros HN Hh HZ (_ & _ & W3 & W4).
  assert (C : C1 (fun phi => harmonic_series sphP N h U t phi) (fun phi => 0 + sumZ h (fun k => sumZ (N - (k + 1))%Z (fun i => sphP (k + 1)%Z i t *
     (nthZ 0 U (i + N * (2 * (k + 1) - 1))%Z * (IZR (k + 1) * cos (IZR (k + 1) * phi)) + nthZ 0 U (i + N * (2 * (k + 1)))%Z * (- IZR (k + 1) * sin (IZR (k + 1) * phi))))))%R).
  { unfold harmonic_series. cbv zeta. apply C1_plus; [apply C1_const|].
    apply (C1_sum h (fun k phi => sumZ (N - (k + 1))%Z (fun i => sphP (k + 1)%Z i t * (nthZ 0 U (i + N * (2 * (k + 1) - 1))%Z * sin (IZR (k + 1) * phi) + nthZ 0 U (i + N * (2 * (k + 1)))%Z * cos (IZR (k + 1) * phi))))%R
      (fun k phi => sumZ (N - (k + 1))%Z (fun i => sphP (k + 1)%Z i t * (nthZ 0 U (i + N * (2 * (k + 1) - 1))%Z * (IZR (k + 1) * cos (IZR (k + 1) * phi)) + nthZ 0 U (i + N * (2 * (k + 1)))%Z * (- IZR (k + 1) * sin (IZR (k + 1) * phi)))))%R).
    intros k Hk. apply (C1_sum (N - (k + 1)) (fun i phi => sphP (k + 1)%Z i t * (nthZ 0 U (i + N * (2 * (k + 1) - 1))%Z * sin (IZR (k + 1) * phi) + nthZ 0 U (i + N * (2 * (k + 1)))%Z * cos (IZR (k + 1) * phi)))%R
      (fun i phi => sphP (k + 1)%Z i t * (nthZ 0 U (i + N * (2 * (k + 1) - 1))%Z * (IZR (k + 1) * cos (IZR (k + 1) * phi)) + nthZ 0 U (i + N * (2 * (k + 1)))%Z * (- IZR (k + 1) * sin (IZR (k + 1) * phi))))%R).
    intros i Hi. apply C1_scal, C1_plus; apply C1_scal; [apply C1_sin_m|apply C1_cos_m]. }
  destruct (C phi) as (D & _).
  match type of D with derivable_pt_lim _ _ ?d => replace (sin t * vector_series N h Up t phi)%R with d; [exact D|] end.
  unfold vector_series. rewrite Rmult_plus_distr_l. f_equal.
  - rewrite sumZ_zero; [ring|]. intros i Hi. rewrite W3 by lia. ring.
  - rewrite <- sumZ_scal. apply sumZ_ext. intros k Hk. cbv zeta. set (m := k + 1). assert (Hm : 1 <= m <= h) by (unfold m; lia). rewrite !split_cols. destruct (W4 m Hm) as (_ & _ & A1 & A2). destruct (HZ m Hm) as (Z1 & Z2).
    pose proof (col_T m (N + 1 - m) _ _ t ltac:(lia) A1) as T1. pose proof (col_T m (N + 1 - m) _ _ t ltac:(lia) A2) as T2.
    assert (X : forall o a, vec o U (N - m) = 0%R -> sumZ (N + 1 - m)%Z (fun p => sphP m p t * (a * vec o U p))%R = (a * sumZ (N - m)%Z (fun p => sphP m p t * vec o U p))%R).
    { intros o a Hz. rewrite (sumZ_split (N + 1 - m) (N - m)) by lia. rewrite (sumZ_zero (N + 1 - m - (N - m))); [|intros i Hi; replace (N - m + i) with (N - m) by lia; rewrite Hz; ring].
      rewrite Rplus_0_r, <- sumZ_scal. apply sumZ_ext. intros; ring. }
    cbv beta in T1, T2. rewrite X in T1 by exact Z2. rewrite X in T2 by exact Z1.
    set (S1 := sumZ (N + 1 - m)%Z (fun i => vsphP m i t * vec (N * (2 * m - 1)) Up i)%R) in *. set (S2 := sumZ (N + 1 - m)%Z (fun i => vsphP m i t * vec (N * (2 * m)) Up i)%R) in *.
    set (R1 := sumZ (N - m)%Z (fun i => sphP m i t * vec (N * (2 * m - 1)) U i)%R) in *. set (R2 := sumZ (N - m)%Z (fun i => sphP m i t * vec (N * (2 * m)) U i)%R) in *.
    replace (sin t * (sin (IZR m * phi) * S1 + cos (IZR m * phi) * S2))%R with (sin (IZR m * phi) * (sin t * S1) + cos (IZR m * phi) * (sin t * S2))%R by ring. rewrite T1, T2. ring.
Qed.

Lemma degrees_last N M h U : M = 2 * h + 1 -> 1 <= N -> 0 <= h <= N -> degrees_up_to N M U -> last_zero N h U.
Proof.
  intros -> HN Hh H m Hm. unfold vec. rewrite !(Z.add_comm (N * _)). split; apply H; try lia.
Qed.
Lemma odd_half M : Z.odd M = true -> M = 2 * (M / 2) + 1.
Proof. intros H. pose proof (Zdiv.Z_div_mod_eq_full M 2). rewrite Zmod_odd, H in H0. lia. Qed.
Lemma C61_gradient_proof N M U Ut Up : 1 <= N -> Z.odd M = true -> 0 <= M / 2 <= N -> zlen U = N * M -> zlen Ut = N * M -> zlen Up = N * M -> degrees_up_to N M U ->
  exists P Ut' Up', plan_sph_gradient N = Some P /\ execute_sph_gradient P U Ut Up N M = Some (Ut', Up') /\ zlen Ut' = N * M /\ zlen Up' = N * M /\
    forall t phi, derivable_pt_lim (fun t => harmonic_series sphP N (M / 2) U t phi) t (vector_series N (M / 2) Ut' t phi) /\
                  derivable_pt_lim (fun phi => harmonic_series sphP N (M / 2) U t phi) phi (sin t * vector_series N (M / 2) Up' t phi)%R.
Proof.
  intros HN HM Hh LU LUt LUp HD. apply odd_half in HM. set (h := M / 2) in *. rewrite HM in LU, LUt, LUp |- *.
  destruct (plan_val N HN) as (P & EP & HP). destruct (gradient_graded N h U Ut Up HN Hh ltac:(lia) ltac:(lia) ltac:(lia) P HP) as (a & b & E & La & Lb & G).
  exists P, a, b. split; [exact EP|]. split; [exact E|]. split; [lia|]. split; [lia|]. intros t phi. pose proof (degrees_last N M h U HM HN Hh HD) as HZ.
  split; [eapply theta_derivative; eauto|eapply phi_derivative; eauto].
Qed.
Lemma vector_opp N h A B t phi : 1 <= N -> 0 <= h <= N -> (forall p, 0 <= p < N * (2 * h + 1) -> nthZ 0%R B p = (- nthZ 0 A p)%R) -> vector_series N h B t phi = (- vector_series N h A t phi)%R.
Proof.
  intros HN Hh H. unfold vector_series. rewrite Ropp_plus_distr. f_equal.
  - replace (- sumZ N _)%R with (-1 * sumZ N (fun i => vsphP 0%Z i t * nthZ 0 A i))%R by ring. rewrite <- sumZ_scal. apply sumZ_ext. intros i Hi. rewrite H by nia. ring.
  - match goal with |- _ = (- ?s)%R => replace (- s)%R with (-1 * s)%R by ring end. rewrite <- sumZ_scal. apply sumZ_ext. intros k Hk. cbv zeta. rewrite <- sumZ_scal. apply sumZ_ext. intros i Hi. rewrite !H by nia. ring.
Qed.
Lemma curl_val P N M U Ut Up a b : zlen a = N * M -> 0 <= N * M -> execute_sph_gradient P U Up Ut N M = Some (b, a) ->
  exists a', execute_sph_curl P U Ut Up N M = Some (a', b) /\ zlen a' = N * M /\ forall p, 0 <= p < N * M -> nthZ 0%R a' p = (- nthZ 0 a p)%R.
Proof.
  intros La Hn E. unfold execute_sph_curl. rewrite E. cbn [obind].
  match goal with |- exists a', obind (for_up 0 _ ?bd a) _ = _ /\ _ =>
  destruct (for_up_inv (fun k y => zlen y = N * M /\ forall p, 0 <= p < N * M -> nthZ 0%R y p = if p <? k then (- nthZ 0 a p)%R else nthZ 0%R a p) 0 (N * M) bd a) as (y & Ey & Ly & Wy) end.
  - lia.
  - split; [lia|]. intros p Hp. replace (p <? 0) with false by lia. reflexivity.
  - intros i y Hi (Ly & Wy). rewrite (zget_nthZ 0%R y i) by lia. cbn [obind]. rewrite zset_some by lia. eexists. split; [reflexivity|]. split; [now rewrite zlen_zupd|].
    intros p Hp. rewrite nthZ_zupd by lia. destruct (Z.eqb_spec i p) as [->|]; [rewrite Wy by lia; replace (p <? p) with false by lia; replace (p <? p + 1) with true by lia; reflexivity|].
    rewrite Wy by lia. replace (p <? i + 1) with (p <? i) by lia. reflexivity.
  - rewrite Ey. cbn [obind]. exists y. split; [reflexivity|]. split; [exact Ly|]. intros p Hp. rewrite Wy by lia. replace (p <? N * M) with true by lia. reflexivity.
Qed.
Lemma C61_curl_proof N M U Ut Up : 1 <= N -> Z.odd M = true -> 0 <= M / 2 <= N -> zlen U = N * M -> zlen Ut = N * M -> zlen Up = N * M -> degrees_up_to N M U ->
  exists P Ut' Up', plan_sph_gradient N = Some P /\ execute_sph_curl P U Ut Up N M = Some (Ut', Up') /\ zlen Ut' = N * M /\ zlen Up' = N * M /\
    forall t phi, derivable_pt_lim (fun phi => harmonic_series sphP N (M / 2) U t phi) phi (- (sin t * vector_series N (M / 2) Ut' t phi))%R /\
                  derivable_pt_lim (fun t => harmonic_series sphP N (M / 2) U t phi) t (vector_series N (M / 2) Up' t phi).
Proof.
  intros HN HM Hh LU LUt LUp HD. destruct (C61_gradient_proof N M U Up Ut HN HM Hh LU LUp LUt HD) as (P & b & a & EP & E & Lb & La & G).
  destruct (curl_val P N M U Ut Up a b La ltac:(unfold zlen in LU; lia) E) as (a' & E' & La' & Wa).
  exists P, a', b. split; [exact EP|]. split; [exact E'|]. split; [exact La'|]. split; [exact Lb|]. intros t phi. destruct (G t phi) as (D1 & D2). split; [|exact D1].
  apply odd_half in HM. rewrite (vector_opp N (M / 2) a a' t phi HN Hh) by (intros p Hp; apply Wa; lia). replace (- (sin t * - vector_series N (M / 2) a t phi))%R with (sin t * vector_series N (M / 2) a t phi)%R by ring. exact D2.
Qed.
