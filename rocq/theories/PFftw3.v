(** The steps of the synthesis and analysis functions: scalings, column and row transforms *)
From Coq Require Import ZArith List Lia Bool Reals Lra ZifyBool ZifyNat.
From Verif Require Import Base Arith BaseFacts SpecSum PSum SpecLin PTri MHarmonic SpecHarm PDrivers4 PHarm PHarm2 MFftw SpecFftw PTrig PFftw PFftw2.
Open Scope Z_scope.

Ltac cases := repeat match goal with |- context [if ?b then _ else _] => destruct b eqn:? end; try ring; try (exfalso; lia).

Section Scale.
Variables (N M : Z).
Hypotheses (HN : 0 < N) (HM : 0 <= M).
Notation sc := (sc N M).

Lemma pos_split t : 0 <= t < N * M -> 0 <= t / N < M /\ 0 <= t mod N < N /\ t = t mod N + t / N * N.
Proof.
  intros Ht. pose proof (Z.div_mod t N ltac:(lia)). pose proof (Z.mod_pos_bound t N HN).
  split; [split; [apply Z.div_pos; lia|apply Z.div_lt_upper_bound; lia]|]. split; [auto|]. rewrite Z.mul_comm. lia.
Qed.
Lemma pos_pt t c z r : 0 <= z < M -> 0 <= r < N -> 0 <= t < N * M -> pt (t / N) (t mod N) c z r = if r + z * N =? t then c else 1%R.
Proof.
  intros Hz Hr Ht. destruct (pos_split t Ht) as (A & B & E). unfold pt.
  destruct (Z.eqb_spec (r + z * N) t) as [Ee|Ee].
  - rewrite E in Ee. apply idx2_inj in Ee; auto. destruct Ee as (-> & ->). now rewrite !Z.eqb_refl.
  - destruct (Z.eqb_spec z (t / N)), (Z.eqb_spec r (t mod N)); cbn [andb]; auto. exfalso. apply Ee. subst. auto.
Qed.
Lemma sc_mulfor n c : 0 <= n <= N * M -> sc (fun z r => if r + z * N <? n then c else 1%R) (mulfor n c).
Proof.
  intros Hn. unfold mulfor. apply (sc_for N M 0 n (fun t => pt (t / N) (t mod N) c) (fun t z r => if r + z * N <? t then c else 1%R)); try lia.
  - intros t Ht. destruct (pos_split t ltac:(lia)) as (A & B & E). apply sc_at; auto; lia.
  - intros z r Hz Hr. pose proof (in_grid N M r z Hr Hz). cases.
  - intros t z r Ht Hz Hr. rewrite pos_pt by lia. cases.
Qed.
Lemma sc_divfor n c : 0 <= n <= N * M -> sc (fun z r => if r + z * N <? n then / c else 1)%R (divfor n c).
Proof.
  intros Hn. unfold divfor. apply (sc_for N M 0 n (fun t => pt (t / N) (t mod N) (/ c)%R) (fun t z r => if r + z * N <? t then / c else 1)%R); try lia.
  - intros t Ht. destruct (pos_split t ltac:(lia)) as (A & B & E). apply sc_divat; auto; lia.
  - intros z r Hz Hr. pose proof (in_grid N M r z Hr Hz). cases.
  - intros t z r Ht Hz Hr. rewrite pos_pt by lia. cases.
Qed.
Lemma sc_all c : sc (fun _ _ => c) (mulfor (N * M) c).
Proof. eapply sc_ext; [|apply sc_mulfor; nia]. intros z r Hz Hr. pose proof (in_grid N M r z Hr Hz). cbv beta. cases. Qed.
Lemma sc_divall c : sc (fun _ _ => / c)%R (divfor (N * M) c).
Proof. eapply sc_ext; [|apply sc_divfor; nia]. intros z r Hz Hr. pose proof (in_grid N M r z Hr Hz). cbv beta. cases. Qed.
Lemma sc_col0 c : 0 < M -> sc (fun z _ => if z =? 0 then c else 1%R) (mulfor N c).
Proof.
  intros HM'. eapply sc_ext; [|apply sc_mulfor; nia]. intros z r Hz Hr. cbv beta. destruct (Z.eqb_spec z 0).
  - subst. replace (r + 0 * N <? N) with true by lia. auto.
  - replace (r + z * N <? N) with false by nia. auto.
Qed.
Definition sel4w (lo off : Z) (c : R) (z r : Z) : R := if (r =? off) && (lo <=? z) && ((z - lo) mod 4 <=? 1) then c else 1%R.
Lemma sc_pairs lo off c (body : Z -> list R -> option (list R)) : 0 <= lo -> 0 <= off < N -> Z.odd lo = true -> Z.odd M = true ->
  (forall j X, body j X = do X <- mulat c (off + j * N) X; mulat c (off + (j + 1) * N) X) ->
  sc (sel4w lo off c) (for_upst lo M 4 body).
Proof.
  intros Hlo Hoff Olo OM Hb. rewrite odd_b in Olo, OM.
  apply (sc_forst N M lo M 4 (fun t z r => (pt t off c z r * pt (t + 1) off c z r)%R)
    (fun t z r => if (r =? off) && (lo <=? z) && (z <? t) && ((z - lo) mod 4 <=? 1) then c else 1%R)); try lia.
  - intros k t Hk Et Ht. apply (sc_prog N M _ (fun X => do X <- mulat c (off + t * N) X; mulat c (off + (t + 1) * N) X)).
    { intros X. now rewrite Hb. }
    apply sc_seq; apply sc_at; auto; lia.
  - intros z r Hz Hr. cases.
  - intros k t z r Hk Et Ht Hz Hr. unfold pt. cases.
  - intros t z r Ht Ht' Hz Hr. unfold sel4w. cases.
Qed.
Lemma sc_first4 lo c : 0 <= lo -> Z.odd lo = true -> Z.odd M = true -> sc (sel4w lo 0 c) (first4 lo N M c).
Proof. intros. unfold first4. apply sc_pairs; auto; lia. Qed.
Lemma sc_last4 lo c : 0 <= lo -> Z.odd lo = true -> Z.odd M = true -> sc (sel4w lo (N - 1) c) (last4 lo N M c).
Proof.
  intros. unfold last4. apply sc_pairs; auto; try lia. intros j X. replace (N - 1 + j * N) with ((j + 1) * N - 1) by ring.
  now replace (N - 1 + (j + 1) * N) with ((j + 2) * N - 1) by ring.
Qed.
Lemma sc_firstrow c : sc (fun z r => if r =? 0 then c else 1%R) (firstrow N M c).
Proof.
  unfold firstrow. eapply sc_ext; [|apply (sc_for N M 0 M (fun t => pt t 0 c) (fun t z r => if (r =? 0) && (z <? t) then c else 1%R))]; try lia.
  - intros. cbv beta. cases.
  - intros t Ht. apply sc_at; auto; lia.
  - intros. cases.
  - intros. unfold pt. cases.
Qed.
Lemma sc_steps2 lo off c (body : Z -> list R -> option (list R)) : 0 <= lo -> 0 <= off < N ->
  (forall j X, body j X = mulat c (off + j * N) X) ->
  sc (fun z r => if (r =? off) && (lo <=? z) && ((z - lo) mod 2 =? 0) then c else 1%R) (for_upst lo M 2 body).
Proof.
  intros Hlo Hoff Hb. 
  apply (sc_forst N M lo M 2 (fun t => pt t off c)
    (fun t z r => if (r =? off) && (lo <=? z) && (z <? t) && ((z - lo) mod 2 =? 0) then c else 1%R)); try lia.
  - intros k t Hk Et Ht. apply (sc_prog N M _ (mulat c (off + t * N))). { intros X. now rewrite Hb. }
    apply sc_at; auto; lia.
  - intros z r Hz Hr. cases.
  - intros k t z r Hk Et Ht Hz Hr. unfold pt. cases.
  - intros t z r Ht Ht' Hz Hr. cases.
Qed.
Lemma sc_first2 c : sc (fun z r => if (r =? 0) && (z mod 2 =? 0) then c else 1%R) (first2 N M c).
Proof. eapply sc_ext; [|apply (sc_steps2 0 0 c); try lia; reflexivity]. intros. cbv beta. cases. Qed.
Lemma sc_last2 c : sc (fun z r => if (r =? N - 1) && (z mod 2 =? 1) then c else 1%R) (last2 N M c).
Proof.
  eapply sc_ext; [|apply (sc_steps2 1 (N - 1) c); try lia].
  - intros. cbv beta. cases.
  - intros j X. cbv beta. now replace (N - 1 + j * N) with ((j + 1) * N - 1) by ring.
Qed.
(** weights on the columns of odd order *)
Definition wsel (W : Z -> R) (z r : Z) : R := if even_order z then 1%R else W r.
Lemma sc_weigh op (W : Z -> R) w : Z.odd M = true -> zlen w = N ->
  (forall z0 r0 i, 0 <= z0 < M -> 0 <= r0 < N -> i = r0 + z0 * N -> sc (pt z0 r0 (W r0)) (op (nthZ 0%R w r0) i)) ->
  sc (wsel W) (weigh op w N M).
Proof.
  intros OM Lw Hop. rewrite odd_b in OM. unfold weigh.
  apply (sc_forst N M 1 M 4 (fun t z r => if (z =? t) || (z =? t + 1) then W r else 1%R)
    (fun t z r => if negb (even_order z) && (z <? t) then W r else 1%R)); try lia.
  - intros k t Hk Et Ht.
    eapply sc_ext; [|apply (sc_for N M 0 N (fun i z r => (pt t i (W i) z r * pt (t + 1) i (W i) z r)%R) (fun i z r => if ((z =? t) || (z =? t + 1)) && (r <? i) then W r else 1%R))]; try lia.
    + intros. cbv beta. cases.
    + intros i Hi. apply (sc_prog N M _ (fun X => do X <- op (nthZ 0%R w i) (i + t * N) X; op (nthZ 0%R w i) (i + (t + 1) * N) X)).
      { intros X. rewrite (zget_nthZ 0%R) by lia. reflexivity. }
      apply sc_seq; apply Hop; auto; lia.
    + intros. cases.
    + intros i z r Hi Hz Hr. unfold pt. destruct (Z.eq_dec r i) as [->|]; cases.
  - intros z r Hz Hr. unfold even_order. cases.
  - intros k t z r Hk Et Ht Hz Hr. unfold even_order. cases.
  - intros t z r Ht Ht' Hz Hr. unfold wsel, even_order. cases.
Qed.
End Scale.

Section Steps.
Variable FT : fftw R.
Hypothesis OK : fftw_ok FT.

(** [r2r] on the columns congruent to [c] modulo [q] *)
Lemma r2r_step N M q c k A : 0 < N -> 0 <= M -> 0 < q -> 0 <= c < q -> zlen A = N * M ->
  exists A', r2r FT N ((M + (q - 1 - c)) / q) 1 (q * N) k A (c * N) = Some A' /\
    glines (fun z => 0 <= z < M /\ z mod q = c) N 1 (fun z => z * N) (fun _ => kind_mat k N) A A'.
Proof.
  intros HN HM Hq Hc LA. set (m := (M + (q - 1 - c)) / q).
  assert (Hm : forall j, 0 <= j < m -> 0 <= q * j + c < M).
  { intros j Hj. pose proof (Z.mul_div_le (M + (q - 1 - c)) q ltac:(lia)). fold m in H. nia. }
  destruct (ok_r2r FT OK N m 1 (q * N) k A (c * N)) as (A' & E & H).
  - auto.
  - apply Z.div_pos; lia.
  - intros j i Hj Hi. specialize (Hm j Hj). pose proof (in_grid N M i (q * j + c) Hi Hm). lia.
  - intros j i j' i' Hj Hi Hj' Hi' E. assert (E' : i + (q * j + c) * N = i' + (q * j' + c) * N) by lia. apply idx2_inj in E'; auto. nia.
  - exists A'. split; auto. apply lines_glines in H. revert H.
    apply (glines_weaken _ _ N 1 _ _ _ _ A A' (fun z => z / q) (fun j => q * j + c)).
    + intros z (Hz & Hmz). pose proof (Z.div_mod z q ltac:(lia)). split; [|split; [|auto]].
      * split; [apply Z.div_pos; lia|]. assert (z / q + 1 <= m); [|lia]. apply Z.div_le_lower_bound; lia.
      * replace (z * N) with ((q * (z / q) + z mod q) * N) by (f_equal; lia). rewrite Hmz. ring.
    + intros j Hj. split; [|ring]. split; [auto|]. rewrite Z.add_comm, Z.mul_comm, Z.mod_add by lia. apply Z.mod_small; lia.
Qed.
Lemma quad_cols P N M : 0 < N -> 0 <= M -> pN P = N -> pM P = M ->
  cols N M (fun z => kind_mat (if even_order z then k_even P else k_odd P) N) (quad_r2r FT P).
Proof.
  intros HN HM EN EM A LA. rewrite Z.mul_1_l in LA. unfold quad_r2r. rewrite EN, EM.
  destruct (r2r_step N M 4 0 (k_even P) A) as (A1 & E1 & H1); try lia; auto.
  change (4 - 1 - 0) with 3 in E1. change (0 * N) with 0 in E1. rewrite E1. cbn [obind].
  assert (LA1 : zlen A1 = N * M) by (rewrite (proj1 H1); auto).
  destruct (r2r_step N M 4 1 (k_odd P) A1) as (A2 & E2 & H2); try lia; auto.
  change (4 - 1 - 1) with 2 in E2. rewrite Z.mul_1_l in E2. rewrite E2. cbn [obind].
  assert (LA2 : zlen A2 = N * M) by (rewrite (proj1 H2); auto).
  destruct (r2r_step N M 4 2 (k_odd P) A2) as (A3 & E3 & H3); try lia; auto.
  change (4 - 1 - 2) with 1 in E3. rewrite E3. cbn [obind].
  assert (LA3 : zlen A3 = N * M) by (rewrite (proj1 H3); auto).
  destruct (r2r_step N M 4 3 (k_even P) A3) as (A4 & E4 & H4); try lia; auto.
  change (4 - 1 - 3) with 0 in E4. rewrite Z.add_0_r in E4. rewrite E4.
  exists A4. split; auto.
  set (V := fun z => kind_mat (if even_order z then k_even P else k_odd P) N).
  assert (V1 : glines (fun z => 0 <= z < M /\ z mod 4 = 0) N 1 (fun z => z * N) V A A1).
  { revert H1. apply change_U. intros j i k (Hj & Hm) _ _. unfold V, even_order. rewrite Hm. reflexivity. }
  assert (V2 : glines (fun z => 0 <= z < M /\ z mod 4 = 1) N 1 (fun z => z * N) V A1 A2).
  { revert H2. apply change_U. intros j i k (Hj & Hm) _ _. unfold V, even_order. rewrite Hm. reflexivity. }
  assert (V3 : glines (fun z => 0 <= z < M /\ z mod 4 = 2) N 1 (fun z => z * N) V A2 A3).
  { revert H3. apply change_U. intros j i k (Hj & Hm) _ _. unfold V, even_order. rewrite Hm. reflexivity. }
  assert (V4 : glines (fun z => 0 <= z < M /\ z mod 4 = 3) N 1 (fun z => z * N) V A3 A4).
  { revert H4. apply change_U. intros j i k (Hj & Hm) _ _. unfold V, even_order. rewrite Hm. reflexivity. }
  apply (columns_mode N M V (fun j => ((0 <= j < M /\ j mod 4 = 0 \/ 0 <= j < M /\ j mod 4 = 1) \/ 0 <= j < M /\ j mod 4 = 2) \/ 0 <= j < M /\ j mod 4 = 3)); auto.
  - intros z Hz. pose proof (Z.mod_pos_bound z 4). lia.
  - apply (glines_seq _ _ N 1 (fun z => z * N) V A A3 A4); auto.
    + intros j j' i i' H5 H6 Hi Hi'. apply cols_disj; auto. intros ->. lia.
    + apply (glines_seq _ _ N 1 (fun z => z * N) V A A2 A3); auto.
      * intros j j' i i' H5 H6 Hi Hi'. apply cols_disj; auto. intros ->. lia.
      * apply (glines_seq _ _ N 1 (fun z => z * N) V A A1 A2); auto.
        intros j j' i i' H5 H6 Hi Hi'. apply cols_disj; auto. intros ->. lia.
Qed.
Lemma pair_cols P N M : 0 < N -> 0 <= M -> pN P = N -> pM P = M ->
  cols N M (fun z => kind_mat (if Z.even z then k_even P else k_odd P) N) (pair_r2r FT P).
Proof.
  intros HN HM EN EM A LA. rewrite Z.mul_1_l in LA. unfold pair_r2r. rewrite EN, EM.
  destruct (r2r_step N M 2 0 (k_even P) A) as (A1 & E1 & H1); try lia; auto.
  change (2 - 1 - 0) with 1 in E1. change (0 * N) with 0 in E1. rewrite E1. cbn [obind].
  assert (LA1 : zlen A1 = N * M) by (rewrite (proj1 H1); auto).
  destruct (r2r_step N M 2 1 (k_odd P) A1) as (A2 & E2 & H2); try lia; auto.
  change (2 - 1 - 1) with 0 in E2. rewrite Z.add_0_r, Z.mul_1_l in E2. rewrite E2.
  exists A2. split; auto.
  set (V := fun z => kind_mat (if Z.even z then k_even P else k_odd P) N).
  assert (V1 : glines (fun z => 0 <= z < M /\ z mod 2 = 0) N 1 (fun z => z * N) V A A1).
  { revert H1. apply change_U. intros j i k (Hj & Hm) _ _. unfold V. rewrite even_b, Hm. reflexivity. }
  assert (V2 : glines (fun z => 0 <= z < M /\ z mod 2 = 1) N 1 (fun z => z * N) V A1 A2).
  { revert H2. apply change_U. intros j i k (Hj & Hm) _ _. unfold V. rewrite even_b, Hm. reflexivity. }
  apply (columns_mode N M V (fun j => 0 <= j < M /\ j mod 2 = 0 \/ 0 <= j < M /\ j mod 2 = 1)); auto.
  - intros z Hz. pose proof (Z.mod_pos_bound z 2). lia.
  - apply (glines_seq _ _ N 1 (fun z => z * N) V A A1 A2); auto.
    intros j j' i i' H5 H6 Hi Hi'. apply cols_disj; auto. intros ->. lia.
Qed.
Lemma all_cols P N M : 0 < N -> 0 <= M -> pN P = N -> pM P = M -> cols N M (fun _ => kind_mat (k_even P) N) (all_r2r FT P).
Proof.
  intros HN HM EN EM A LA. rewrite Z.mul_1_l in LA. unfold all_r2r. rewrite EN, EM.
  destruct (r2r_step N M 1 0 (k_even P) A) as (A1 & E1 & H1); try lia; auto.
  change (1 - 1 - 0) with 0 in E1. rewrite Z.add_0_r, Z.div_1_r, !Z.mul_1_l, Z.mul_0_l in E1. exists A1. split; auto.
  apply (columns_mode N M _ (fun z => 0 <= z < M /\ z mod 1 = 0)); auto. intros z Hz. split; auto. apply Z.mod_1_r.
Qed.
Lemma rows_rows P N M : 0 <= N -> 0 < M -> pN P = N -> pM P = M -> rows N M (kind_mat (if p_back P then REDFT01 else REDFT10) M) (rows_r2r FT P).
Proof.
  intros HN HM EN EM. apply rows_intro. intros X LX. unfold rows_r2r. rewrite EN, EM. set (k := if p_back P then _ else _).
  destruct (ok_r2r FT OK M N N 1 k X 0) as (X' & E & L & V & _); auto.
  - intros j i Hj Hi. pose proof (in_grid N M j i Hj Hi). lia.
  - intros j i j' i' Hj Hi Hj' Hi' E. rewrite !Z.mul_1_r in E. apply idx2_inj in E; auto.
  - exists X'. split; auto. split; [congruence|]. intros i j Hi Hj. specialize (V i j Hi Hj). replace (i + j * N) with (0 + i * 1 + j * N) by lia. rewrite V.
    apply sumZ_ext. intros z Hz. do 2 f_equal. lia.
Qed.

(** ** the azimuthal direction *)
Lemma re_zget (Y : list R) p x : zget Y (2 * p) = Some x -> re Y p = x.
Proof. apply nthZ_zget. Qed.
Lemma im_zget (Y : list R) p x : zget Y (2 * p + 1) = Some x -> im Y p = x.
Proof. apply nthZ_zget. Qed.
Lemma back_rows P N h Y : 0 < N -> 0 <= h -> pN P = N -> pM P = 2 * h + 1 -> p_back P = true -> zlen Y = 2 * (N * (h + 1)) ->
  rows N (2 * h + 1) (Wm (2 * h + 1)) (back_phi FT P N (2 * h + 1) Y).
Proof.
  intros HN Hh EN EM EB LY. apply rows_intro. intros X LX. unfold back_phi, run_c2r. rewrite EN, EM, EB.
  destruct (data_r2c_spec N h X Y) as (Y' & E & L & A & B & C & _); auto; [lia|]. rewrite E. cbn [obind].
  destruct (ok_c2r FT OK (2 * h + 1) N Y' X) as (X' & E' & L' & V); try lia.
  { rewrite odd_b. lia. } { replace ((2 * h + 1) / 2) with h by lia. congruence. }
  exists X'. split; auto. split; auto. intros i j Hi Hj. rewrite V by auto.
  assert (X0 : re Y' i = nthZ 0%R X i). { apply re_zget. apply A; auto. apply zget_nthZ. pose proof (in_grid N (2 * h + 1) i 0 Hi). lia. }
  assert (X1 : forall k, 0 <= k < h -> re Y' (i + (k + 1) * N) = nthZ 0%R X (i + (2 * k + 2) * N) /\ im Y' (i + (k + 1) * N) = (- nthZ 0 X (i + (2 * k + 1) * N))%R).
  { intros k Hk. split.
    - apply re_zget. apply B; auto; [lia|]. replace (2 * (k + 1)) with (2 * k + 2) by lia. apply zget_nthZ. pose proof (in_grid N (2 * h + 1) i (2 * k + 2) Hi). lia.
    - apply im_zget. apply (C (k + 1) i (nthZ 0%R X (i + (2 * k + 1) * N))); auto; [lia|]. replace (2 * (k + 1) - 1) with (2 * k + 1) by lia. apply zget_nthZ. pose proof (in_grid N (2 * h + 1) i (2 * k + 1) Hi). lia. }
  rewrite sumZ_odd by auto. rewrite X0. unfold Wm at 1. rewrite Z.eqb_refl, Z.mul_0_l, Z.add_0_r, Rmult_1_l. f_equal.
  replace ((2 * h + 1) / 2) with h by lia. rewrite <- sumZ_scal. apply sumZ_ext. intros k Hk. destruct (X1 k Hk) as (-> & ->).
  unfold Wm. replace (2 * k + 1 =? 0) with false by lia. replace (2 * k + 2 =? 0) with false by lia. rewrite Vm_s, Vm_c by lia. ring.
Qed.
Lemma forw_rows P N h Y : 0 < N -> 0 <= h -> pN P = N -> pM P = 2 * h + 1 -> p_back P = false -> zlen Y = 2 * (N * (h + 1)) ->
  rows N (2 * h + 1) (Vm (2 * h + 1)) (forw_phi FT P N (2 * h + 1) Y).
Proof.
  intros HN Hh EN EM EB LY. apply rows_intro. intros X LX. unfold forw_phi, run_r2c. rewrite EN, EM, EB.
  assert (Eh : (2 * h + 1) / 2 = h) by lia.
  destruct (ok_r2c FT OK (2 * h + 1) N X Y) as (Y' & E & L & V); try lia.
  rewrite E, Eh in *. cbn [obind].
  destruct (data_c2r_spec N h X Y') as (X' & E' & L' & A & B & C); auto; [lia|].
  exists X'. split; auto. split; [lia|]. intros i j Hi Hj.
  assert (GY : forall k r, 0 <= k < h + 1 -> 0 <= r < 2 -> zget Y' (2 * (i + k * N) + r) = Some (nthZ 0%R Y' (2 * (i + k * N) + r))).
  { intros k r Hk Hr. apply zget_nthZ. pose proof (in_grid N (h + 1) i k Hi Hk). lia. }
  destruct (colcase (2 * h + 1) h eq_refl j Hj) as [->|[(k & Hk & ->)|(k & Hk & ->)]].
  - destruct (V i 0 Hi ltac:(lia)) as (V0 & _). specialize (GY 0 0 ltac:(lia) ltac:(lia)). rewrite Z.add_0_r in GY.
    rewrite Z.mul_0_l, Z.add_0_r in *. rewrite (nthZ_zget _ _ _ _ (A i _ Hi GY)). fold (re Y' i). rewrite V0. apply sumZ_ext. intros t Ht.
    unfold angle. rewrite Vm_0. replace (2 * PI * IZR t * 0 / IZR (2 * h + 1))%R with 0%R by (unfold Rdiv; ring). rewrite cos_0. ring.
  - destruct (V i (k + 1) Hi ltac:(lia)) as (_ & V1). specialize (GY (k + 1) 1 ltac:(lia) ltac:(lia)).
    pose proof (C (k + 1) i _ ltac:(lia) Hi GY) as G. replace (2 * (k + 1) - 1) with (2 * k + 1) in G by lia. rewrite (nthZ_zget _ _ _ _ G).
    fold (im Y' (i + (k + 1) * N)). rewrite V1. cbn [opp R_arith]. rewrite Ropp_involutive. apply sumZ_ext. intros t Ht. rewrite Vm_s by lia. ring.
  - destruct (V i (k + 1) Hi ltac:(lia)) as (V0 & _). specialize (GY (k + 1) 0 ltac:(lia) ltac:(lia)). rewrite Z.add_0_r in GY.
    pose proof (B (k + 1) i _ ltac:(lia) Hi GY) as G. replace (2 * (k + 1)) with (2 * k + 2) in G by lia. rewrite (nthZ_zget _ _ _ _ G).
    fold (re Y' (i + (k + 1) * N)). rewrite V0. apply sumZ_ext. intros t Ht. rewrite Vm_c by lia. ring.
Qed.
End Steps.
