(** Synthesis and analysis of functions of given spin weight *)
From Coq Require Import ZArith List Lia Bool Reals Lra ZifyBool ZifyNat.
From Verif Require Import Base Arith BaseFacts SpecSum PSum SpecLin PTri MHarmonic SpecHarm PDrivers4 PHarm PHarm2 PHarm3 MFftw SpecFftw PTrig PFftw PFftw2 PFftw3 PFftw4 PFftw5.
Open Scope Z_scope.

(** ** complex kernels *)
Section Complex.
Variables (N M : Z).
Hypotheses (HN : 0 <= N) (HM : 0 <= M).
Notation cev := (cevaluates N M).
Definition ck (Ar Ai : Z -> Z -> Z -> Z -> R) (l z k j : Z) : R :=
  if l mod 2 =? k mod 2 then Ar (l / 2) z (k / 2) j else if k mod 2 =? 0 then (- Ai (l / 2)%Z z (k / 2)%Z j)%R else Ai (l / 2) z (k / 2) j.
Lemma par_d i r : 0 <= r < 2 -> (i * 2 + r) / 2 = i /\ (i * 2 + r) mod 2 = r. Proof. lia. Qed.
Lemma sum_pairs f : sumZ (2 * N) f = sumZ N (fun i => (f (i * 2 + 0)%Z + f (i * 2 + 1)%Z)%R).
Proof.
  rewrite Z.mul_comm, sumZ_block by lia. apply sumZ_ext. intros i Hi. change 2 with (0 + 1 + 1) at 1. rewrite !sumZ_S by lia. rewrite sumZ_0 by lia. cbn [Z.add]. ring.
Qed.
Lemma cev_ev Ar Ai p : cev Ar Ai p -> evaluates (2 * N) M (ck Ar Ai) p.
Proof.
  intros H X L. destruct (H X) as (X' & E & L' & V); [lia|]. exists X'. split; auto. split; [lia|]. intros k j Hk Hj.
  destruct (V (k / 2) j) as (V1 & V2); try lia.
  assert (D : k mod 2 = 0 /\ k + j * (2 * N) = 2 * (k / 2 + j * N) \/ k mod 2 = 1 /\ k + j * (2 * N) = 2 * (k / 2 + j * N) + 1) by lia.
  destruct D as [(Dm & ->)|(Dm & ->)].
  - unfold re in V1. rewrite V1. apply sumZ_ext. intros z Hz. rewrite sum_pairs. apply sumZ_ext. intros l Hl. unfold ck. rewrite Dm.
    destruct (par_d l 0 ltac:(lia)) as (-> & ->). destruct (par_d l 1 ltac:(lia)) as (-> & ->). cbn [Z.eqb Pos.eqb]. unfold im.
    replace (l * 2 + 0 + z * (2 * N)) with (2 * (l + z * N)) by lia. replace (l * 2 + 1 + z * (2 * N)) with (2 * (l + z * N) + 1) by lia. ring.
  - unfold im in V2 at 1. rewrite V2. apply sumZ_ext. intros z Hz. rewrite sum_pairs. apply sumZ_ext. intros l Hl. unfold ck. rewrite Dm.
    destruct (par_d l 0 ltac:(lia)) as (-> & ->). destruct (par_d l 1 ltac:(lia)) as (-> & ->). cbn [Z.eqb Pos.eqb]. unfold im, re.
    replace (l * 2 + 0 + z * (2 * N)) with (2 * (l + z * N)) by lia. replace (l * 2 + 1 + z * (2 * N)) with (2 * (l + z * N) + 1) by lia. ring.
Qed.
Lemma cev_ext Ar Ai Br Bi p : (forall l z k j, 0 <= l < N -> 0 <= z < M -> 0 <= k < N -> 0 <= j < M -> Ar l z k j = Br l z k j /\ Ai l z k j = Bi l z k j) -> cev Ar Ai p -> cev Br Bi p.
Proof.
  intros HE H X L. destruct (H X L) as (X' & E & L' & V). exists X'. split; auto. split; auto. intros k j Hk Hj. destruct (V k j Hk Hj) as (-> & ->).
  split; apply sumZ_ext; intros z Hz; apply sumZ_ext; intros l Hl; destruct (HE l z k j) as (-> & ->); auto.
Qed.
Lemma cev_prog Ar Ai p q : (forall X, p X = q X) -> cev Ar Ai p -> cev Ar Ai q.
Proof. intros E H X L. destruct (H X L) as (X' & E1 & V). exists X'. rewrite <- E. auto. Qed.
Lemma cev_adjoint Ar Ai Br Bi p q :
  (forall l z k j, 0 <= l < N -> 0 <= z < M -> 0 <= k < N -> 0 <= j < M -> Br k j l z = Ar l z k j /\ Bi k j l z = (- Ai l z k j)%R) ->
  cev Ar Ai p -> cev Br Bi q -> adjoint (2 * N * M) p q.
Proof.
  intros E Hp Hq. eapply (ev_adjoint (2 * N) M); [lia|lia| |apply cev_ev; exact Hp|apply cev_ev; exact Hq].
  intros l z k j Hl Hz Hk Hj. unfold ck. destruct (E (l / 2) z (k / 2) j) as (E1 & E2); try lia. rewrite E1, E2.
  assert (D : (k mod 2 = 0 \/ k mod 2 = 1) /\ (l mod 2 = 0 \/ l mod 2 = 1)) by lia. destruct D as ([-> | ->] & [-> | ->]); cbn [Z.eqb Pos.eqb]; ring.
Qed.
Lemma ck_mul Ar Ai Br Bi l' z' l z :
  0 <= l < 2 * N -> 0 <= l' < 2 * N ->
  sumZ M (fun j => sumZ N (fun k => (Br k j (l' / 2)%Z z' * Ar (l / 2)%Z z k j - Bi k j (l' / 2)%Z z' * Ai (l / 2)%Z z k j)%R)) = (delta (l' / 2)%Z (l / 2)%Z * delta z' z)%R ->
  sumZ M (fun j => sumZ N (fun k => (Br k j (l' / 2)%Z z' * Ai (l / 2)%Z z k j + Bi k j (l' / 2)%Z z' * Ar (l / 2)%Z z k j)%R)) = 0%R ->
  sumZ M (fun j => sumZ (2 * N) (fun k => (ck Br Bi k j l' z' * ck Ar Ai l z k j)%R)) = (delta l' l * delta z' z)%R.
Proof.
  intros Hl Hl' H1 H2.
  assert (D : (l' mod 2 = 0 \/ l' mod 2 = 1) /\ (l mod 2 = 0 \/ l mod 2 = 1)) by lia.
  set (s := if l' mod 2 =? l mod 2 then 0%R else if l' mod 2 =? 0 then (-1)%R else 1%R).
  set (t := if l' mod 2 =? l mod 2 then 1%R else 0%R).
  transitivity (t * (delta (l' / 2)%Z (l / 2)%Z * delta z' z) + s * 0)%R.
  - rewrite <- H1, <- H2. rewrite <- !sumZ_scal, <- sumZ_plus. apply sumZ_ext. intros j Hj. rewrite <- !sumZ_scal, <- sumZ_plus. rewrite sum_pairs. apply sumZ_ext. intros k Hk.
    unfold ck, s, t. destruct (par_d k 0 ltac:(lia)) as (-> & ->). destruct (par_d k 1 ltac:(lia)) as (-> & ->).
    destruct D as ([-> | ->] & [-> | ->]); cbn [Z.eqb Pos.eqb]; ring.
  - unfold t, delta. destruct (Z.eqb_spec l' l).
    + subst. rewrite !Z.eqb_refl. ring.
    + destruct (Z.eqb_spec (l' mod 2) (l mod 2)); [|ring]. replace (l' / 2 =? l / 2) with false by lia. ring.
Qed.
Lemma cev_inverse Ar Ai Br Bi p q :
  (forall l z l' z', 0 <= l < N -> 0 <= z < M -> 0 <= l' < N -> 0 <= z' < M ->
    sumZ M (fun j => sumZ N (fun k => (Br k j l' z' * Ar l z k j - Bi k j l' z' * Ai l z k j)%R)) = (delta l' l * delta z' z)%R /\
    sumZ M (fun j => sumZ N (fun k => (Br k j l' z' * Ai l z k j + Bi k j l' z' * Ar l z k j)%R)) = 0%R) ->
  (forall l z l' z', 0 <= l < N -> 0 <= z < M -> 0 <= l' < N -> 0 <= z' < M ->
    sumZ M (fun j => sumZ N (fun k => (Ar k j l' z' * Br l z k j - Ai k j l' z' * Bi l z k j)%R)) = (delta l' l * delta z' z)%R /\
    sumZ M (fun j => sumZ N (fun k => (Ar k j l' z' * Bi l z k j + Ai k j l' z' * Br l z k j)%R)) = 0%R) ->
  cev Ar Ai p -> cev Br Bi q -> inverse (2 * N * M) p q.
Proof.
  intros H1 H2 Hp Hq. eapply (ev_inverse (2 * N) M); [lia| | |apply cev_ev; exact Hp|apply cev_ev; exact Hq];
  intros l z l' z' Hl Hz Hl' Hz'; apply ck_mul; auto; [apply H1|apply H1|apply H2|apply H2]; lia.
Qed.
(** scalings by real factors *)
Definition csc (w : Z -> Z -> R) (p : list R -> option (list R)) : Prop := sc (2 * N) M (fun z r => w z (r / 2)) p.
Lemma csc_val w p X : csc w p -> zlen X = 2 * (N * M) -> exists X', p X = Some X' /\ zlen X' = 2 * (N * M) /\
  forall x z r, 0 <= x < 2 -> 0 <= z < M -> 0 <= r < N -> entry 2 N X' x r z = (w z r * entry 2 N X x r z)%R.
Proof.
  intros H L. destruct (H X) as (X' & E & L' & V); [lia|]. exists X'. split; auto. split; [lia|]. intros x z r Hx Hz Hr. unfold entry.
  replace (x + 2 * (r + N * z)) with (x + 2 * r + z * (2 * N)) by lia. rewrite V by lia. now replace ((x + 2 * r) / 2) with r by lia.
Qed.
Definition cat (c : R) (r0 z0 : Z) : Z -> Z -> R := pt z0 r0 c.
Lemma csc_at c i z0 r0 : 0 <= z0 < M -> 0 <= r0 < N -> i = r0 + z0 * N -> csc (pt z0 r0 c) (mulatc c i).
Proof.
  intros Hz Hr ->. unfold csc, mulatc. eapply sc_ext; [|apply (sc_seq (2 * N) M); [apply (sc_at (2 * N) M c _ z0 (2 * r0)); lia|apply (sc_at (2 * N) M c _ z0 (2 * r0 + 1)); lia]].
  intros z r Hz' Hr'. unfold pt. cases.
Qed.
Lemma csc_pairs lo off c (body : Z -> list R -> option (list R)) : 0 <= lo -> 0 <= off < N -> Z.odd lo = true -> Z.odd M = true ->
  (forall j X, body j X = do X <- mulatc c (off + j * N) X; mulatc c (off + (j + 1) * N) X) ->
  csc (sel4w lo off c) (for_upst lo M 4 body).
Proof.
  intros Hlo Hoff Olo OM Hb. rewrite odd_b in Olo, OM.
  apply (sc_forst (2 * N) M lo M 4 (fun t z r => (pt t off c z (r / 2) * pt (t + 1) off c z (r / 2))%R)
    (fun t z r => if (r / 2 =? off) && (lo <=? z) && (z <? t) && ((z - lo) mod 4 <=? 1) then c else 1%R)); try lia.
  - intros k t Hk Et Ht. apply (sc_prog (2 * N) M _ (fun X => do X <- mulatc c (off + t * N) X; mulatc c (off + (t + 1) * N) X)).
    { intros X. now rewrite Hb. }
    apply (sc_seq (2 * N) M (fun z r => pt t off c z (r / 2)) (fun z r => pt (t + 1) off c z (r / 2))); apply csc_at; auto; lia.
  - intros z r Hz Hr. cases.
  - intros k t z r Hk Et Ht Hz Hr. unfold pt. set (r2 := r / 2). clearbody r2. clear - Hk Et Hlo. cases.
  - intros t z r Ht Ht' Hz Hr. unfold sel4w. set (r2 := r / 2). clearbody r2. cases.
Qed.
Lemma csc_seq w w' p q : csc w p -> csc w' q -> csc (fun z r => (w z r * w' z r)%R) (fun X => do X <- p X; q X).
Proof. apply sc_seq. Qed.
Lemma csc_first4 lo c : 0 < N -> 0 <= lo -> Z.odd lo = true -> Z.odd M = true -> csc (sel4w lo 0 c) (first4c lo N M c).
Proof. intros. unfold first4c. apply csc_pairs; auto; try lia. Qed.
Lemma csc_last4 lo c : 0 < N -> 0 <= lo -> Z.odd lo = true -> Z.odd M = true -> csc (sel4w lo (N - 1) c) (last4c lo N M c).
Proof. intros. unfold last4c. apply csc_pairs; auto; try lia. intros j X. replace ((j + 1) * N - 1) with (N - 1 + j * N) by lia. replace ((j + 2) * N - 1) with (N - 1 + (j + 1) * N) by lia. reflexivity. Qed.
Lemma csc_all c : 0 < N -> csc (fun _ _ => c) (mulfor (2 * N * M) c).
Proof. intros. apply (sc_all (2 * N) M); lia. Qed.
(** real matrices on the real and imaginary parts *)
Lemma csc_mode w U p q : csc w p -> is_mode 2 N M U q -> is_mode 2 N M (fun z i k => (U z i k * w z k)%R) (fun X => do X <- p X; q X).
Proof.
  intros Hp Hq X L. destruct (csc_val w p X Hp ltac:(lia)) as (X1 & E1 & L1 & V1). destruct (Hq X1) as (X2 & E2 & L2 & L3 & V2); [lia|].
  exists X2. rewrite E1. cbn [obind]. split; auto. repeat split; auto. intros x i z Hx Hi Hz. rewrite V2 by auto. apply sumZ_ext. intros k Hk. rewrite V1 by auto. ring.
Qed.
Lemma mode_csc w U p q : is_mode 2 N M U p -> csc w q -> is_mode 2 N M (fun z i k => (w z i * U z i k)%R) (fun X => do X <- p X; q X).
Proof.
  intros Hp Hq X L. destruct (Hp X L) as (X1 & E1 & L1 & L2 & V1). destruct (csc_val w q X1 Hq ltac:(lia)) as (X2 & E2 & L3 & V2).
  exists X2. rewrite E1. cbn [obind]. split; auto. repeat split; auto; try lia. intros x i z Hx Hi Hz. rewrite V2, V1 by auto. rewrite <- sumZ_scal. apply sumZ_ext. intros k Hk. ring.
Qed.
(** the rows multiplied by a complex matrix *)
Definition crows (Cr Ci : Z -> Z -> R) (p : list R -> option (list R)) : Prop :=
  forall X, zlen X = 2 * (N * M) -> exists X', p X = Some X' /\ zlen X' = 2 * (N * M) /\
    forall k j, 0 <= k < N -> 0 <= j < M ->
      re X' (k + j * N) = sumZ M (fun z => Cr j z * re X (k + z * N)%Z - Ci j z * im X (k + z * N)%Z)%R /\
      im X' (k + j * N) = sumZ M (fun z => Cr j z * im X (k + z * N)%Z + Ci j z * re X (k + z * N)%Z)%R.
Lemma re_entry X k j : re X (k + j * N) = entry 2 N X 0 k j.
Proof. unfold re, entry. f_equal. lia. Qed.
Lemma im_entry X k j : im X (k + j * N) = entry 2 N X 1 k j.
Proof. unfold im, entry. f_equal. lia. Qed.
Lemma mode_crows U Cr Ci p q : is_mode 2 N M U p -> crows Cr Ci q ->
  cev (fun l z k j => (U z k l * Cr j z)%R) (fun l z k j => (U z k l * Ci j z)%R) (fun X => do X <- p X; q X).
Proof.
  intros Hp Hq X L. destruct (Hp X) as (X1 & E1 & L1 & L2 & V1); [lia|]. destruct (Hq X1) as (X2 & E2 & L3 & V2); [lia|].
  exists X2. rewrite E1. cbn [obind]. split; auto. split; auto. intros k j Hk Hj. destruct (V2 k j Hk Hj) as (-> & ->).
  split; apply sumZ_ext; intros z Hz; rewrite re_entry, im_entry, !V1 by lia; rewrite <- !sumZ_scal.
  - rewrite <- sumZ_minus. apply sumZ_ext. intros l Hl. rewrite re_entry, im_entry. ring.
  - rewrite <- sumZ_plus. apply sumZ_ext. intros l Hl. rewrite re_entry, im_entry. ring.
Qed.
Lemma crows_mode U Cr Ci p q : crows Cr Ci p -> is_mode 2 N M U q ->
  cev (fun l z k j => (U j k l * Cr j z)%R) (fun l z k j => (U j k l * Ci j z)%R) (fun X => do X <- p X; q X).
Proof.
  intros Hp Hq X L. destruct (Hp X) as (X1 & E1 & L1 & V1); [lia|]. destruct (Hq X1) as (X2 & E2 & L2 & L3 & V2); [lia|].
  exists X2. rewrite E1. cbn [obind]. split; auto. split; [lia|]. intros k j Hk Hj. rewrite re_entry, im_entry. rewrite !V2 by lia.
  split.
  - rewrite (sumZ_ext N _ (fun l => sumZ M (fun z => U j k l * Cr j z * re X (l + z * N)%Z - U j k l * Ci j z * im X (l + z * N)%Z)%R)); [apply sumZ_swap|].
    intros l Hl. rewrite <- re_entry. rewrite (proj1 (V1 l j Hl Hj)). rewrite <- sumZ_scal. apply sumZ_ext. intros z Hz. ring.
  - rewrite (sumZ_ext N _ (fun l => sumZ M (fun z => U j k l * Cr j z * im X (l + z * N)%Z + U j k l * Ci j z * re X (l + z * N)%Z)%R)); [apply sumZ_swap|].
    intros l Hl. rewrite <- im_entry. rewrite (proj2 (V1 l j Hl Hj)). rewrite <- sumZ_scal. apply sumZ_ext. intros z Hz. ring.
Qed.
End Complex.

(** ** the azimuthal transforms *)
Section Azim.
Variables (h : Z).
Hypothesis Hh : 0 <= h.
Let M := 2 * h + 1.
Let rM : (IZR M <> 0)%R. Proof. apply IZR_neq. unfold M. lia. Qed.
Lemma sum_freq f : sumZ M f = sumZ M (fun z => f (freq M z)).
Proof.
  unfold M. rewrite (sumZ_odd h (fun z => f (freq (2 * h + 1) z))) by auto. replace (2 * h + 1) with (1 + (h + h)) at 1 by lia. rewrite sumZ_app by lia. rewrite sumZ_1.
  replace (freq (2 * h + 1) 0) with 0 by reflexivity. f_equal. rewrite sumZ_app, sumZ_plus by lia. rewrite Rplus_comm. f_equal.
  - rewrite sumZ_rev. apply sumZ_ext. intros k Hk. f_equal. replace (2 * k + 1) with (2 * (k + 1) - 1) by lia. rewrite freq_odd. lia.
  - apply sumZ_ext. intros k Hk. f_equal. replace (2 * k + 2) with (2 * (k + 1)) by lia. rewrite freq_even. lia.
Qed.
Lemma shift_turns x j n : 0 <= n -> cos (x + 2 * PI * IZR j * IZR n) = cos x /\ sin (x + 2 * PI * IZR j * IZR n) = sin x.
Proof.
  intros Hn. assert (E : forall m x, cos (x + 2 * INR m * PI) = cos x /\ sin (x + 2 * INR m * PI) = sin x) by (intros; split; [apply cos_period|apply sin_period]).
  rewrite Rmult_assoc, <- mult_IZR. destruct (Z_le_dec 0 (j * n)).
  - destruct (E (Z.to_nat (j * n)) x) as (E1 & E2). rewrite INR_IZR_INZ, Z2Nat.id in E1, E2 by auto. replace (2 * PI * IZR (j * n))%R with (2 * IZR (j * n) * PI)%R by ring. auto.
  - destruct (E (Z.to_nat (- (j * n))) (x + 2 * PI * IZR (j * n)))%R as (E1 & E2). rewrite INR_IZR_INZ, Z2Nat.id, opp_IZR in E1, E2 by lia.
    replace (x + 2 * PI * IZR (j * n) + 2 * - IZR (j * n) * PI)%R with x in E1, E2 by ring. split; congruence.
Qed.
Lemma freq_order j z : cos (angle M j (freq M z)) = cos (angle M j (order z)) /\ sin (angle M j (freq M z)) = sin (angle M j (order z)).
Proof.
  unfold freq, order. destruct (Z.odd z); auto.
  assert (E : angle M j (M - (z + 1) / 2) = (angle M j (- ((z + 1) / 2)) + 2 * PI * IZR j * IZR 1)%R).
  { unfold angle. rewrite minus_IZR, opp_IZR. field. auto. }
  rewrite E. apply shift_turns. lia.
Qed.
Lemma angle_sym n j k : angle n j k = angle n k j. Proof. unfold angle. rewrite !(Rmult_assoc (2 * PI)). rewrite (Rmult_comm (IZR j)). reflexivity. Qed.
Lemma freq0 z : 0 <= z < M -> 0 <= freq M z < M. Proof. apply freq_range. Qed.

Variables (N : Z).
Hypothesis (HN : 0 < N).
Variable FT : fftw R.
Hypothesis OK : fftw_ok FT.
Definition sg (b : bool) : R := if b then 1%R else (-1)%R.
Variable Y : list R.
Hypothesis LY : zlen Y = 2 * (N * M).
Lemma back_crows P : pN P = N -> pM P = M ->
  crows N M (fun j z => cos (angle M j (order z))) (fun j z => (sg (p_back P) * sin (angle M j (order z)))%R) (back_phic FT P N M Y).
Proof.
  intros EN EM X LX. unfold back_phic. destruct (colswap_spec N h X Y) as (Y1 & E1 & L1 & V1); auto; try lia. fold M in E1, V1. rewrite E1. cbn [obind]. rewrite EN, EM.
  destruct (ok_dft FT OK (p_back P) M N Y1 X) as (X' & E2 & L2 & V2); try (unfold M; lia); try lia. exists X'. split; auto. split; [lia|]. intros k j Hk Hj.
  destruct (V2 k j Hk Hj) as (-> & ->). fold (sg (p_back P)). split; rewrite sum_freq; apply sumZ_ext; intros z Hz;
    rewrite !(angle_sym M (freq M z) j); destruct (freq_order j z) as (-> & ->); pose proof (V1 k z 0 Hk Hz ltac:(lia)) as R1; pose proof (V1 k z 1 Hk Hz ltac:(lia)) as R2;
    rewrite !Z.add_0_r in R1; unfold re, im, nthZ; rewrite R1, R2; ring.
Qed.
Lemma forw_crows P : pN P = N -> pM P = M ->
  crows N M (fun z j => cos (angle M j (order z))) (fun z j => (sg (p_back P) * sin (angle M j (order z)))%R) (forw_phic FT P N M Y).
Proof.
  intros EN EM X LX. unfold forw_phic. rewrite EN, EM.
  destruct (ok_dft FT OK (p_back P) M N X Y) as (Y1 & E1 & L1 & V1); try (unfold M; lia); try lia. rewrite E1. cbn [obind].
  destruct (colswap_t_spec N h X Y1) as (X' & E2 & L2 & V2); auto; try lia. fold M in E2, V2. exists X'. split; auto. split; [lia|]. intros k z Hk Hz.
  pose proof (V2 k z 0 Hk Hz ltac:(lia)) as R1. pose proof (V2 k z 1 Hk Hz ltac:(lia)) as R2. rewrite !Z.add_0_r in R1.
  destruct (V1 k (freq M z) Hk (freq0 z Hz)) as (W1 & W2). fold (sg (p_back P)) in W1, W2. unfold re, im, nthZ in W1, W2 |- *. rewrite R1, R2, W1, W2.
  split; apply sumZ_ext; intros j Hj; destruct (freq_order j z) as (-> & ->); ring.
Qed.
(** the characters are orthogonal *)
Lemma order_inj z z' : 0 <= z < M -> 0 <= z' < M -> z <> z' -> ~ (M | order z - order z').
Proof.
  intros Hz Hz' Hn (q & Hq). unfold order in Hq. rewrite !odd_b in Hq. assert (B : - M < (if z mod 2 =? 1 then - ((z + 1) / 2) else z / 2) - (if z' mod 2 =? 1 then - ((z' + 1) / 2) else z' / 2) < M).
  { unfold M in *. destruct (z mod 2 =? 1), (z' mod 2 =? 1); lia. }
  assert (q = 0) by nia. subst q. unfold M in *. destruct (z mod 2 =? 1) eqn:?, (z' mod 2 =? 1) eqn:?; lia.
Qed.
Lemma sum_char z z' : 0 <= z < M -> 0 <= z' < M ->
  sumZ M (fun j => cos (angle M j (order z - order z'))) = (IZR M * delta z' z)%R /\ sumZ M (fun j => sin (angle M j (order z - order z'))) = 0%R.
Proof.
  intros Hz Hz'. split.
  - unfold delta. destruct (Z.eqb_spec z' z) as [->|Hn].
    + rewrite (sumZ_ext M _ (fun _ => 1%R)). { rewrite sumZ_one by (unfold M; lia). ring. } intros. rewrite Z.sub_diag. unfold angle. rewrite ?Rmult_0_r, ?Rmult_0_l. unfold Rdiv. rewrite ?Rmult_0_r, ?Rmult_0_l. apply cos_0.
    + rewrite Rmult_0_r. apply (full_cos M h eq_refl Hh). apply order_inj; auto.
  - apply (full_sin M h eq_refl Hh).
Qed.
Lemma sum_order j j' : 0 <= j < M -> 0 <= j' < M ->
  sumZ M (fun z => cos (angle M (j - j') (order z))) = (IZR M * delta j' j)%R /\ sumZ M (fun z => sin (angle M (j - j') (order z))) = 0%R.
Proof.
  intros Hj Hj'. split.
  - rewrite (sumZ_ext M _ (fun z => cos (angle M (freq M z) (j - j')))). 2: { intros z Hz. rewrite (angle_sym M (freq M z)). now destruct (freq_order (j - j') z). }
    rewrite <- (sum_freq (fun w => cos (angle M w (j - j')))). unfold delta. destruct (Z.eqb_spec j' j) as [->|Hn].
    + rewrite (sumZ_ext M _ (fun _ => 1%R)). { rewrite sumZ_one by (unfold M; lia). ring. } intros. rewrite Z.sub_diag. unfold angle. rewrite ?Rmult_0_r, ?Rmult_0_l. unfold Rdiv. rewrite ?Rmult_0_r, ?Rmult_0_l. apply cos_0.
    + rewrite Rmult_0_r. apply (full_cos M h eq_refl Hh). intros (q & Hq). assert (- M < j - j' < M) by lia. assert (q = 0) by nia. subst q. lia.
  - rewrite (sumZ_ext M _ (fun z => sin (angle M (freq M z) (j - j')))). 2: { intros z Hz. rewrite (angle_sym M (freq M z)). now destruct (freq_order (j - j') z). }
    rewrite <- (sum_freq (fun w => sin (angle M w (j - j')))). apply (full_sin M h eq_refl Hh).
Qed.
End Azim.

(** ** the polar transforms on the real and the imaginary parts *)
Section Oct.
Variable FT : fftw R.
Hypothesis OK : fftw_ok FT.
Lemma r2rc_step N M c x k A : 0 < N -> 0 <= M -> 0 <= c < 4 -> 0 <= x < 2 -> zlen A = 2 * N * M ->
  exists A', r2r FT N ((M + (3 - c)) / 4) 2 (8 * N) k A (2 * c * N + x) = Some A' /\
    glines (fun xz : Z * Z => fst xz = x /\ 0 <= snd xz < M /\ snd xz mod 4 = c) N 2 (fun xz => fst xz + 2 * (N * snd xz)) (fun _ => kind_mat k N) A A'.
Proof.
  intros HN HM Hc Hx LA. set (m := (M + (3 - c)) / 4).
  assert (Hm : forall j, 0 <= j < m -> 0 <= 4 * j + c < M) by (unfold m; lia).
  destruct (ok_r2r FT OK N m 2 (8 * N) k A (2 * c * N + x)) as (A' & E & H).
  - auto.
  - unfold m. lia.
  - intros j i Hj Hi. specialize (Hm j Hj). pose proof (in_grid N M i (4 * j + c) Hi Hm). lia.
  - intros j i j' i' Hj Hi Hj' Hi' E. assert (E' : i + (4 * j + c) * N = i' + (4 * j' + c) * N) by lia. apply idx2_inj in E'; auto. lia.
  - exists A'. split; auto. apply lines_glines in H. revert H.
    apply (glines_weaken _ _ N 2 _ _ _ _ A A' (fun xz : Z * Z => snd xz / 4) (fun j => (x, 4 * j + c))).
    + intros (x', z) (Hx' & Hz & Hmz). cbn [fst snd] in *. subst x'. split; [unfold m; lia|]. split; [|reflexivity].
      replace (N * z) with (N * (4 * (z / 4) + c)) by (f_equal; lia). ring.
    + intros j Hj. cbn [fst snd]. split; [|ring]. split; [auto|]. split; [auto|]. lia.
Qed.
Lemma oct_mode P N M : 0 < N -> 0 <= M -> pN P = N -> pM P = M ->
  is_mode 2 N M (fun z => kind_mat (if even_order z then k_even P else k_odd P) N) (oct_r2r FT P).
Proof.
  intros HN HM EN EM A LA. unfold oct_r2r. rewrite EN, EM.
  set (V := fun xz : Z * Z => kind_mat (if even_order (snd xz) then k_even P else k_odd P) N).
  set (base := fun xz : Z * Z => fst xz + 2 * (N * snd xz)).
  set (d := fun c x (xz : Z * Z) => fst xz = x /\ 0 <= snd xz < M /\ snd xz mod 4 = c).
  assert (Step : forall c k A o, 0 <= c < 4 -> zlen A = 2 * N * M -> o = 2 * c * N -> (forall z, z mod 4 = c -> (if even_order z then k_even P else k_odd P) = k) ->
    exists A', (do X <- r2r FT N ((M + (3 - c)) / 4) 2 (8 * N) k A o; r2r FT N ((M + (3 - c)) / 4) 2 (8 * N) k X (o + 1)) = Some A' /\ glines (fun xz => d c 0 xz \/ d c 1 xz) N 2 base V A A').
  { intros c k B o Hc LB -> Hk. destruct (r2rc_step N M c 0 k B) as (B1 & E1 & H1); auto; try lia. rewrite Z.add_0_r in E1. rewrite E1. cbn [obind].
    assert (LB1 : zlen B1 = 2 * N * M) by (rewrite (proj1 H1); auto).
    destruct (r2rc_step N M c 1 k B1) as (B2 & E2 & H2); auto; try lia. exists B2. split; auto.
    apply (glines_seq _ _ N 2 base V B B1 B2).
    - intros (x, z) (x', z') i i' (D1 & D2 & D3) (D4 & D5 & D6) Hi Hi'. unfold base. cbn [fst snd] in *. lia.
    - revert H1. apply change_U. intros (x, z) i j (_ & _ & Hm) _ _. unfold V. cbn [snd] in *. now rewrite Hk.
    - revert H2. apply change_U. intros (x, z) i j (_ & _ & Hm) _ _. unfold V. cbn [snd] in *. now rewrite Hk. }
  assert (Disj : forall c c' xz xz' i i', c <> c' -> d c 0 xz \/ d c 1 xz -> d c' 0 xz' \/ d c' 1 xz' -> 0 <= i < N -> 0 <= i' < N -> base xz + i * 2 <> base xz' + i' * 2).
  { intros c c' (x, z) (x', z') i i' Hn H1 H2 Hi Hi'. unfold base, d in *. cbn [fst snd] in *. apply zcols_disj; auto; lia. }
  destruct (Step 0 (k_even P) A 0) as (A1 & E1 & H1); auto; try lia. { intros z Hz. unfold even_order. now rewrite Hz. }
  change (3 - 0) with 3 in E1. change (0 + 1) with 1 in *. rewrite E1. cbn [obind]. assert (LA1 : zlen A1 = 2 * N * M) by (rewrite (proj1 H1); auto).
  destruct (Step 1 (k_odd P) A1 (2 * N)) as (A2 & E2 & H2); auto; try lia. { intros z Hz. unfold even_order. now rewrite Hz. }
  change (3 - 1) with 2 in E2. rewrite E2. cbn [obind]. assert (LA2 : zlen A2 = 2 * N * M) by (rewrite (proj1 H2); auto).
  destruct (Step 2 (k_odd P) A2 (4 * N)) as (A3 & E3 & H3); auto; try lia. { intros z Hz. unfold even_order. now rewrite Hz. }
  change (3 - 2) with 1 in E3. rewrite E3. cbn [obind]. assert (LA3 : zlen A3 = 2 * N * M) by (rewrite (proj1 H3); auto).
  destruct (Step 3 (k_even P) A3 (6 * N)) as (A4 & E4 & H4); auto; try lia. { intros z Hz. unfold even_order. now rewrite Hz. }
  change (3 - 3) with 0 in E4. rewrite Z.add_0_r in E4. rewrite E4. exists A4. split; auto.
  assert (V5 : glines (fun xz => (((d 0 0 xz \/ d 0 1 xz) \/ (d 1 0 xz \/ d 1 1 xz)) \/ (d 2 0 xz \/ d 2 1 xz)) \/ (d 3 0 xz \/ d 3 1 xz)) N 2 base V A A4).
  { apply (glines_seq _ _ N 2 base V A A3 A4); auto.
    + intros xz xz' i i' [[H5|H5]|H5] H6 Hi Hi'; eapply (Disj _ 3); eauto; lia.
    + apply (glines_seq _ _ N 2 base V A A2 A3); auto.
      * intros xz xz' i i' [H5|H5] H6 Hi Hi'; eapply (Disj _ 2); eauto; lia.
      * apply (glines_seq _ _ N 2 base V A A1 A2); auto.
        intros xz xz' i i' H5 H6 Hi Hi'; eapply (Disj 0 1); eauto; lia. }
  apply (glines_mode _ 2 N M base V _ A A4 (fun x z => (x, z)) ltac:(lia) ltac:(lia) ltac:(lia) LA V5).
  intros x z Hx Hz. unfold d, base, V. cbn [fst snd]. split; [|split; auto].
  assert (Dz : z mod 4 = 0 \/ z mod 4 = 1 \/ z mod 4 = 2 \/ z mod 4 = 3) by (clear; lia). assert (Dx : x = 0 \/ x = 1) by (clear - Hx; lia).
  destruct Dz as [Dz|[Dz|[Dz|Dz]]], Dx as [->| ->]; tauto.
Qed.
End Oct.

Section Spin.
Variable FT : fftw R.
Hypothesis OK : fftw_ok FT.
Variables (N h S : Z).
Hypotheses (HN : 0 < N) (Hh : 0 <= h).
Let M := 2 * h + 1.
Let OM : Z.odd M = true. Proof. rewrite odd_b. unfold M. lia. Qed.
Let HM0 : 0 <= M. Proof. unfold M. lia. Qed.
Let HN0 : 0 <= N. Proof. lia. Qed.
Let rN : (IZR N <> 0)%R. Proof. apply IZR_neq. lia. Qed.
Let rM : (IZR M <> 0)%R. Proof. apply IZR_neq. unfold M. lia. Qed.
Variables (Y : list R).
Hypothesis (LY : zlen Y = 2 * (N * M)).
Notation K := real_const.
Notation cev := (cevaluates N M).
Lemma even_rem : (Z.rem S 2 =? 0) = Z.even S.
Proof. rewrite even_b. assert (Z.rem S 2 = 0 <-> S mod 2 = 0) by (Z.to_euclidean_division_equations; lia). lia. Qed.
Definition par (z : Z) : bool := if Z.even S then even_order z else negb (even_order z).
Definition kspin (z : Z) : kind := if par z then REDFT01 else RODFT01.
Definition wf (c : R) (z l : Z) : R := if par z && (l =? 0) then c else 1%R.
Definition wl (c : R) (z l : Z) : R := if negb (par z) && (l =? N - 1) then c else 1%R.
Lemma csc_ext w w' p : (forall z r, 0 <= z < M -> 0 <= r < N -> w z r = w' z r) -> csc N M w p -> csc N M w' p.
Proof. intros E. apply sc_ext. intros. apply E; lia. Qed.
Lemma csc_first c : csc N M (wf c) (spin_first S N M c).
Proof.
  unfold spin_first, wf, par. rewrite even_rem. destruct (Z.even S).
  - eapply csc_ext; [|apply (csc_seq N M (pt 0 0 c) (sel4w 3 0 c)); [apply csc_at; unfold M; lia|apply csc_first4; auto; lia]].
    intros z r Hz Hr. unfold pt, sel4w, even_order. cases.
  - eapply csc_ext; [|apply csc_first4; auto; lia]. intros z r Hz Hr. rewrite (b1_val 0) by lia. reflexivity.
Qed.
Lemma csc_last c : csc N M (wl c) (spin_last S N M c).
Proof.
  unfold spin_last, wl, par. rewrite even_rem. destruct (Z.even S).
  - eapply csc_ext; [|apply csc_last4; auto; lia]. intros z r Hz Hr. rewrite (b1_val (N - 1)) by lia. reflexivity.
  - eapply csc_ext; [|apply (csc_seq N M (pt 0 (N - 1) c) (sel4w 3 (N - 1) c)); [apply csc_at; unfold M; lia|apply csc_last4; auto; lia]].
    intros z r Hz Hr. rewrite negb_involutive. unfold pt, sel4w, even_order. cases.
Qed.
Notation PS := (plan_spinsph_synthesis N M S).
Notation PA := (plan_spinsph_analysis N M S).
Lemma plan_S : pN PS = N /\ pM PS = M /\ p_back PS = true /\ forall z, (if even_order z then k_even PS else k_odd PS) = kspin z.
Proof. unfold plan_spinsph_synthesis, kspin, par. rewrite even_rem. destruct (Z.even S); cbn; repeat split; auto; intros z; destruct (even_order z); auto. Qed.
Lemma plan_A : pN PA = N /\ pM PA = M /\ p_back PA = false /\ forall z, (if even_order z then k_even PA else k_odd PA) = kinv (kspin z).
Proof. unfold plan_spinsph_analysis, kspin, par. rewrite even_rem. destruct (Z.even S); cbn; repeat split; auto; intros z; destruct (even_order z); auto. Qed.
Lemma oct_S : is_mode 2 N M (fun z => kind_mat (kspin z) N) (oct_r2r FT PS).
Proof. destruct plan_S as (E1 & E2 & _ & E). eapply is_mode_ext; [|apply (oct_mode FT OK PS N M); auto]. intros. cbv beta. now rewrite E. Qed.
Lemma oct_A : is_mode 2 N M (fun z => kind_mat (kinv (kspin z)) N) (oct_r2r FT PA).
Proof. destruct plan_A as (E1 & E2 & _ & E). eapply is_mode_ext; [|apply (oct_mode FT OK PA N M); auto]. intros. cbv beta. now rewrite E. Qed.
Notation co := (fun j z => cos (angle M j (order z))).
Notation si := (fun j z => sin (angle M j (order z))).
Lemma back_S : crows N M co si (back_phic FT PS N M Y).
Proof.
  destruct plan_S as (E1 & E2 & E3 & _). pose proof (back_crows h Hh N HN FT OK Y LY PS E1 E2) as H. rewrite E3 in H. unfold sg in H. cbv iota in H. fold M in H.
  intros X L. destruct (H X L) as (X' & E & L' & V). exists X'. split; auto. split; auto. intros k j Hk Hj. destruct (V k j Hk Hj) as (-> & ->).
  split; apply sumZ_ext; intros; ring.
Qed.
Lemma forw_A : crows N M (fun z j => co j z) (fun z j => (- si j z)%R) (forw_phic FT PA N M Y).
Proof.
  destruct plan_A as (E1 & E2 & E3 & _). pose proof (forw_crows h Hh N HN FT OK Y LY PA E1 E2) as H. rewrite E3 in H. unfold sg in H. cbv iota in H. fold M in H.
  intros X L. destruct (H X L) as (X' & E & L' & V). exists X'. split; auto. split; auto. intros k j Hk Hj. destruct (V k j Hk Hj) as (-> & ->).
  split; apply sumZ_ext; intros; ring.
Qed.
Notation c1 := (fun _ _ : Z => k1_2S2P K).
Notation c2 := (fun _ _ : Z => (k2S2P K / IZR (2 * N * M))%R).
Lemma syn_cev c w0 p0 : csc N M w0 p0 ->
  cev (fun l z k j => (Uk N kspin (fun _ _ => c) w0 z k l * co j z)%R) (fun l z k j => (Uk N kspin (fun _ _ => c) w0 z k l * si j z)%R)
    (fun X => do X <- p0 X; do X <- oct_r2r FT PS X; do X <- mulfor (2 * N * M) c X; back_phic FT PS N M Y X).
Proof.
  intros H. eapply cev_prog; [|eapply (mode_crows N M); [|exact back_S]].
  2: { apply (mode_csc N M HM0 (fun _ _ => c) (fun z i k => (kind_mat (kspin z) N i k * w0 z k)%R)); [|apply csc_all; auto]. apply (csc_mode N M HM0 _ _ _ _ H oct_S). }
  assoc.
Qed.
Lemma ana_cev c w1 p1 : csc N M w1 p1 ->
  cev (fun l z k j => (Vk N kspin (fun _ _ => c) w1 j k l * co z j)%R) (fun l z k j => (Vk N kspin (fun _ _ => c) w1 j k l * - si z j)%R)
    (fun X => do X <- forw_phic FT PA N M Y X; do X <- mulfor (2 * N * M) c X; do X <- oct_r2r FT PA X; p1 X).
Proof.
  intros H. eapply cev_prog; [|eapply (crows_mode N M); [exact forw_A|]].
  2: { eapply (mode_csc N M HM0 w1 (fun z i k => (kind_mat (kinv (kspin z)) N i k * c)%R)); [|exact H]. eapply (csc_mode N M HM0 (fun _ _ => c) _ _ (oct_r2r FT PA)); [apply csc_all; auto|exact oct_A]. }
  assoc.
Qed.
Lemma spin_syn_ev : cev (fun l z k j => (Uk N kspin c1 (wf 2) z k l * co j z)%R) (fun l z k j => (Uk N kspin c1 (wf 2) z k l * si j z)%R) (spinsph_synthesis FT K false PS S Y N M).
Proof. exact (syn_cev (k1_2S2P K) (wf 2) _ (csc_first 2)). Qed.
Lemma spin_synT_ev : cev (fun l z k j => (Vk N kspin c1 (wl hlf) j k l * co z j)%R) (fun l z k j => (Vk N kspin c1 (wl hlf) j k l * - si z j)%R) (spinsph_synthesis FT K true PA S Y N M).
Proof. exact (ana_cev (k1_2S2P K) (wl hlf) _ (csc_last hlf)). Qed.
Lemma spin_ana_ev : cev (fun l z k j => (Vk N kspin c2 (wf hlf) j k l * co z j)%R) (fun l z k j => (Vk N kspin c2 (wf hlf) j k l * - si z j)%R) (spinsph_analysis FT K false PA S Y N M).
Proof. exact (ana_cev (k2S2P K / IZR (2 * N * M)) (wf hlf) _ (csc_first hlf)). Qed.
Lemma spin_anaT_ev : cev (fun l z k j => (Uk N kspin c2 (wl 2) z k l * co j z)%R) (fun l z k j => (Uk N kspin c2 (wl 2) z k l * si j z)%R) (spinsph_analysis FT K true PS S Y N M).
Proof. exact (syn_cev (k2S2P K / IZR (2 * N * M)) (wl 2) _ (csc_last 2)). Qed.
Lemma c12 : (k1_2S2P K * (k2S2P K / IZR (2 * N * M)) = / (2 * IZR N) * / IZR M)%R.
Proof. cbn [k1_2S2P k2S2P real_const]. rewrite !mult_IZR. assert (0 < sqrt (2 * PI))%R by (apply sqrt_lt_R0; pose proof PI_RGT_0; lra). field. repeat split; auto; lra. Qed.
Lemma spin_inverse : inverse (2 * N * M) (spinsph_synthesis FT K false PS S Y N M) (spinsph_analysis FT K false PA S Y N M).
Proof.
  assert (BD : forall z k, 0 <= z < M -> 0 <= k < N -> (wf 2 z k * wf hlf z k = 1)%R) by (intros; unfold wf; cases; lra).
  assert (VU : forall z l l', 0 <= z < M -> 0 <= l < N -> 0 <= l' < N -> sumZ N (fun k => (Vk N kspin c2 (wf hlf) z l' k * Uk N kspin c1 (wf 2) z k l)%R) = (/ IZR M * delta l' l)%R).
  { intros. eapply (diag_VU N M); eauto. intros. apply c12. }
  assert (UV : forall z l l', 0 <= z < M -> 0 <= l < N -> 0 <= l' < N -> sumZ N (fun k => (Uk N kspin c1 (wf 2) z l' k * Vk N kspin c2 (wf hlf) z k l)%R) = (/ IZR M * delta l' l)%R).
  { intros. eapply (diag_UV N M); eauto. intros. apply c12. }
  eapply (cev_inverse N M); try lia; [| |exact spin_syn_ev|exact spin_ana_ev].
  - intros l z l' z' Hl Hz Hl' Hz'. cbv beta.
    destruct (sum_char h Hh z z' Hz Hz') as (C1 & C2). fold M in C1, C2. split.
    + rewrite (sumZ_ext M _ (fun j => (sumZ N (fun k => Vk N kspin c2 (wf hlf) z' l' k * Uk N kspin c1 (wf 2) z k l) * cos (angle M j (order z - order z')))%R)).
      2: { intros j Hj. rewrite <- sumZ_scal_r. apply sumZ_ext. intros k Hk. rewrite <- (angle_minus M h eq_refl), cos_minus. ring. }
      rewrite sumZ_scal, C1. destruct (Z.eq_dec z' z) as [->|Hn]; [rewrite VU by auto; unfold delta at 2 4; rewrite Z.eqb_refl; field; auto|].
      unfold delta. replace (z' =? z) with false by lia. ring.
    + rewrite (sumZ_ext M _ (fun j => (sumZ N (fun k => Vk N kspin c2 (wf hlf) z' l' k * Uk N kspin c1 (wf 2) z k l) * sin (angle M j (order z - order z')))%R)).
      2: { intros j Hj. rewrite <- sumZ_scal_r. apply sumZ_ext. intros k Hk. rewrite <- (angle_minus M h eq_refl), sin_minus. ring. }
      rewrite sumZ_scal, C2. ring.
  - intros l z l' z' Hl Hz Hl' Hz'. cbv beta.
    destruct (sum_order h Hh z' z Hz' Hz) as (C1 & C2). fold M in C1, C2. split.
    + rewrite (sumZ_ext M _ (fun j => (/ IZR M * delta l' l * cos (angle M (z' - z) (order j)))%R)).
      2: { intros j Hj. rewrite <- (UV j) by auto. rewrite <- sumZ_scal_r. apply sumZ_ext. intros k Hk. rewrite <- (angle_minus' M h eq_refl), cos_minus. ring. }
      rewrite sumZ_scal, C1. rewrite (delta_sym z z'). field. auto.
    + rewrite (sumZ_ext M _ (fun j => (/ IZR M * delta l' l * sin (angle M (z' - z) (order j)))%R)).
      2: { intros j Hj. rewrite <- (UV j) by auto. rewrite <- sumZ_scal_r. apply sumZ_ext. intros k Hk. rewrite <- (angle_minus' M h eq_refl), sin_minus. ring. }
      rewrite sumZ_scal, C2. ring.
Qed.
Lemma kspin3 z : kspin z = REDFT01 \/ kspin z = RODFT01 \/ kspin z = REDFT11. Proof. unfold kspin. destruct (par z); auto. Qed.
Lemma spin_adj_fact c z k l : (Vk N kspin (fun _ _ => c) (wl hlf) z l k = Uk N kspin (fun _ _ => c) (wf 2) z k l)%R.
Proof.
  unfold Uk, Vk. pose proof (kind_transp N HN (kspin z) k l (kspin3 z)) as E.
  replace (wl hlf z l) with (tr N (kspin z) l). 2: { unfold wl, kspin. destruct (par z); cbn [tr negb andb]; cases; lra. }
  replace (wf 2 z l) with (br (kspin z) l). 2: { unfold wf, kspin. destruct (par z); cbn [br andb]; cases. }
  rewrite <- E. ring.
Qed.
Lemma spin_adj_fact' c z k l : (Vk N kspin (fun _ _ => c) (wf hlf) z l k = Uk N kspin (fun _ _ => c) (wl 2) z k l)%R.
Proof.
  unfold Uk, Vk. pose proof (kind_transp N HN (kspin z) k l (kspin3 z)) as E.
  assert (E1 : (wl 2 z l * tr N (kspin z) l = 1)%R). { unfold wl, kspin. destruct (par z); cbn [tr negb andb]; cases; lra. }
  assert (E2 : (wf hlf z l * br (kspin z) l = 1)%R). { unfold wf, kspin. destruct (par z); cbn [br andb]; cases; lra. }
  set (kt := kind_mat (kinv _) N l k) in *. set (kk := kind_mat _ N k l) in *.
  transitivity (c * wf hlf z l * wl 2 z l * (tr N (kspin z) l * kt))%R; [transitivity (c * wf hlf z l * (wl 2 z l * tr N (kspin z) l) * kt)%R; [rewrite E1; ring|ring]|].
  rewrite E. transitivity (c * (wf hlf z l * br (kspin z) l) * wl 2 z l * kk)%R; [ring|]. rewrite E2. ring.
Qed.
Lemma spin_adjoint : adjoint (2 * N * M) (spinsph_synthesis FT K false PS S Y N M) (spinsph_synthesis FT K true PA S Y N M).
Proof.
  eapply (cev_adjoint N M); try lia; [|exact spin_syn_ev|exact spin_synT_ev]. intros l z k j Hl Hz Hk Hj. cbv beta. rewrite spin_adj_fact. split; ring.
Qed.
Lemma spin_ana_adjoint : adjoint (2 * N * M) (spinsph_analysis FT K false PA S Y N M) (spinsph_analysis FT K true PS S Y N M).
Proof.
  apply adjoint_sym. eapply (cev_adjoint N M); try lia; [|exact spin_anaT_ev|exact spin_ana_ev]. intros l z k j Hl Hz Hk Hj. cbv beta. rewrite spin_adj_fact'. split; ring.
Qed.
Lemma spin_grid : cev (fun l z k j => (spin_polar S N z l (theta N k) * cos (IZR (order z) * phi M j) / sqrt (2 * PI))%R)
  (fun l z k j => (spin_polar S N z l (theta N k) * sin (IZR (order z) * phi M j) / sqrt (2 * PI))%R) (spinsph_synthesis FT K false PS S Y N M).
Proof.
  eapply cev_ext; [|exact spin_syn_ev]. intros l z k j Hl Hz Hk Hj. cbv beta.
  assert (E : (kind_mat (kspin z) N k l * wf 2 z l = 2 * spin_polar S N z l (theta N k))%R).
  { unfold kspin, wf, spin_polar, par, sph_polar, sphv_polar. destruct (Z.even S), (even_order z); cbn [negb andb]; try rewrite c01 by auto; try rewrite o01s by auto; ring. }
  assert (EA : angle M j (order z) = (IZR (order z) * phi M j)%R) by (unfold angle, phi; field; auto).
  unfold Uk. rewrite E, EA. cbn [k1_2S2P real_const]. assert (0 < sqrt (2 * PI))%R by (apply sqrt_lt_R0; pose proof PI_RGT_0; lra).
  split; field; lra.
Qed.
End Spin.
