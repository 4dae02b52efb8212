(** * The tridiagonal pencils: signs and definiteness *)
From Coq Require Import ZArith List Lia Bool Reals Lra ZifyBool ZifyNat.
From Verif Require Import Arith Base BaseFacts SpecSum SpecLin PSum PTri MTridiag SpecTri SpecDprk MDprk PDprk MSht SpecTdc.
Import ListNotations.
Open Scope Z_scope.

Lemma sht_fill_val shft K f (x : list R) : 0 <= shft <= 1 -> 0 <= K <= zlen x ->
  exists x', sht_fill shft (2 * K + 1 + shft) f x = Some x' /\ zlen x' = zlen x /\ forall k, 0 <= k < K -> nR x' k = f (IZR (2 * k + 1 + shft)).
Proof.
  intros Hs HK. unfold sht_fill.
  destruct (for_upst_inv (fun l (x' : list R) => zlen x' = zlen x /\ forall k, 0 <= k -> 2 * k + 1 + shft < l -> k < K -> nR x' k = f (IZR (2 * k + 1 + shft)))
    (1 + shft) (2 * K + 1 + shft) 2 (fun l x => zset x ((l - 1) / 2) (f (ofZ l))) x) as (x' & E & L & V).
  - lia.
  - split; [reflexivity|]. intros; lia.
  - intros k l y Hk -> Hl (L & V). replace ((1 + shft + k * 2 - 1) / 2) with k by (apply Z.div_unique with shft; lia).
    rewrite zset_some by lia. eexists; split; [reflexivity|]. rewrite zlen_zupd. split; [exact L|].
    intros j Hj Hjl HjK. rewrite nthZ_zupd by lia. destruct (k =? j) eqn:E.
    + replace j with k by lia. change (f (IZR (1 + shft + k * 2)) = f (IZR (2 * k + 1 + shft))). do 2 f_equal. lia.
    + apply V; lia.
  - exists x'. split; [exact E|]. split; [exact L|]. intros k Hk. apply V; try lia.
    destruct (end_upst_spec (1 + shft) (2 * K + 1 + shft) 2 ltac:(lia) ltac:(lia)) as (_ & _ & _ & H). lia.
Qed.
Definition shf (odd : bool) : Z := if odd then 1 else 0.
Definition rat_ (m l : R) : R := ((l / (2 * l + 2 * m + 1)) * ((l + 1) / (2 * l + 2 * m + 3)) * ((l + 2 * m + 2) / (2 * l + 2 * m + 3)) * ((l + 2 * m + 3) / (2 * l + 2 * m + 5)))%R.
Definition ell (odd : bool) (k : Z) : R := IZR (2 * k + 1 + shf odd).
Lemma ell_ge odd k : 0 <= k -> (1 <= ell odd k)%R.
Proof. intros. unfold ell, shf. apply IZR_le. destruct odd; lia. Qed.
Lemma create_B_val n m odd : 1 <= n -> exists B, @create_B_shtsdtev R R_arith n m odd = Some B /\ st_n B = n /\ zlen (st_a B) = n /\ zlen (st_b B) = n - 1 /\
  (forall k, 0 <= k < n -> nR (st_a B) k = (2 * (ell odd k * (ell odd k + 1) + IZR m * (2 * ell odd k + 3 + 2 * IZR m)) / ((2 * ell odd k + 2 * IZR m - 1) * (2 * ell odd k + 2 * IZR m + 3)))%R) /\
  (forall k, 0 <= k < n - 1 -> nR (st_b B) k = (- sqrt (rat_ (IZR m) (ell odd k)))%R).
Proof.
  intros Hn. unfold create_B_shtsdtev. fold (shf odd). assert (Hs : 0 <= shf odd <= 1) by (destruct odd; cbn; lia).
  set (fa := fun ld : R => _). destruct (sht_fill_val (shf odd) n fa (zmake n zero) Hs) as (a & Ea & La & Va); [rewrite zlen_zmake by lia; lia|].
  rewrite Ea. cbn [obind]. set (fb := fun ld : R => _). replace (2 * n - 1 + shf odd) with (2 * (n - 1) + 1 + shf odd) by ring.
  destruct (sht_fill_val (shf odd) (n - 1) fb (zmake (n - 1) zero) Hs) as (b & Eb & Lb & Vb); [rewrite zlen_zmake by lia; lia|].
  rewrite Eb. cbn [obind]. eexists; split; [reflexivity|]. cbn [st_n st_a st_b]. rewrite zlen_zmake in La, Lb by lia. repeat split; auto.
Qed.
Lemma create_A_val n mu m odd : 1 <= n -> exists A, @create_A_shtsdtev R R_arith n mu m odd = Some A /\ st_n A = n /\ zlen (st_a A) = n /\ zlen (st_b A) = n - 1 /\
  (forall k, 0 <= k < n - 1 -> nR (st_b A) k = (- (ell odd k + IZR m + 1) * (ell odd k + IZR m + 2) * sqrt (rat_ (IZR m) (ell odd k)))%R).
Proof.
  intros Hn. unfold create_A_shtsdtev. fold (shf odd). assert (Hs : 0 <= shf odd <= 1) by (destruct odd; cbn; lia).
  set (fa := fun ld : R => _). destruct (sht_fill_val (shf odd) n fa (zmake n zero) Hs) as (a & Ea & La & Va); [rewrite zlen_zmake by lia; lia|].
  rewrite Ea. cbn [obind]. set (fb := fun ld : R => _). replace (2 * n - 1 + shf odd) with (2 * (n - 1) + 1 + shf odd) by ring.
  destruct (sht_fill_val (shf odd) (n - 1) fb (zmake (n - 1) zero) Hs) as (b & Eb & Lb & Vb); [rewrite zlen_zmake by lia; lia|].
  rewrite Eb. cbn [obind]. eexists; split; [reflexivity|]. cbn [st_n st_a st_b]. rewrite zlen_zmake in La, Lb by lia. repeat split; auto.
Qed.
Lemma create_R_val n m odd : 1 <= n -> exists B, @create_R_shtsdtev R R_arith n m odd = Some B /\ bi_n B = n /\ zlen (bi_c B) = n /\ zlen (bi_d B) = n - 1 /\
  (forall k, 0 <= k < n -> nR (bi_c B) k = sqrt (((ell odd k + 2 * IZR m) / (2 * ell odd k + 2 * IZR m - 1)) * ((ell odd k + 2 * IZR m + 1) / (2 * ell odd k + 2 * IZR m + 1)))) /\
  (forall k, 0 <= k < n - 1 -> nR (bi_d B) k = (- sqrt ((ell odd k / (2 * ell odd k + 2 * IZR m + 1)) * ((ell odd k + 1) / (2 * ell odd k + 2 * IZR m + 3))))%R).
Proof.
  intros Hn. unfold create_R_shtsdtev. fold (shf odd). assert (Hs : 0 <= shf odd <= 1) by (destruct odd; cbn; lia).
  set (fa := fun ld : R => _). destruct (sht_fill_val (shf odd) n fa (zmake n zero) Hs) as (a & Ea & La & Va); [rewrite zlen_zmake by lia; lia|].
  rewrite Ea. cbn [obind]. set (fb := fun ld : R => _). replace (2 * n - 1 + shf odd) with (2 * (n - 1) + 1 + shf odd) by ring.
  destruct (sht_fill_val (shf odd) (n - 1) fb (zmake (n - 1) zero) Hs) as (b & Eb & Lb & Vb); [rewrite zlen_zmake by lia; lia|].
  rewrite Eb. cbn [obind]. eexists; split; [reflexivity|]. cbn [bi_n bi_c bi_d]. rewrite zlen_zmake in La, Lb by lia. repeat split; auto.
Qed.
Theorem sht_nonpositive_proof n mu m odd : 1 <= n -> 0 <= m ->
  exists A B, @create_A_shtsdtev R R_arith n mu m odd = Some A /\ @create_B_shtsdtev R R_arith n m odd = Some B /\
    st_ok A /\ st_n A = n /\ nonpositive_off A /\ st_ok B /\ st_n B = n /\ nonpositive_off B.
Proof.
  intros Hn Hm. destruct (create_A_val n mu m odd Hn) as (A & EA & NA & LA & LA' & VA). destruct (create_B_val n m odd Hn) as (B & EB & NB & LB & LB' & _ & VB).
  exists A, B. apply IZR_le in Hm.
  repeat split; auto; try lia; intros k Hk.
  - rewrite VA by lia. pose proof (ell_ge odd k ltac:(lia)). pose proof (sqrt_pos (rat_ (IZR m) (ell odd k))).
    assert (0 <= (ell odd k + IZR m + 1) * (ell odd k + IZR m + 2) * sqrt (rat_ (IZR m) (ell odd k)))%R by (repeat apply Rmult_le_pos; lra). lra.
  - rewrite VB by lia. pose proof (sqrt_pos (rat_ (IZR m) (ell odd k))). lra.
Qed.
Lemma quot_pos a b : (0 <= a -> 0 < b -> 0 <= a / b)%R.
Proof. intros. apply Rmult_le_pos; [lra|left; now apply Rinv_0_lt_compat]. Qed.
(** B = R R^T plus a positive number in the last diagonal position *)
Theorem sht_factor_proof n m odd : 1 <= n -> 0 <= m ->
  exists B C delta_, @create_B_shtsdtev R R_arith n m odd = Some B /\ @create_R_shtsdtev R R_arith n m odd = Some C /\ bi_ok C /\ bi_n C = n /\ (0 < delta_)%R /\
    (forall i, 0 <= i < n -> (0 < nthZ 0 (bi_c C) i)%R) /\
    forall i j, 0 <= i < n -> 0 <= j < n -> st_mat B i j = (matmul n (bi_mat C) (transp (bi_mat C)) i j + (if ((i =? n - 1) && (j =? n - 1))%bool then delta_ else 0))%R.
Proof.
  intros Hn Hm. destruct (create_B_val n m odd Hn) as (B & EB & NB & LB & LB' & VA & VB). destruct (create_R_val n m odd Hn) as (C & EC & NC & LC & LC' & VC & VD).
  apply IZR_le in Hm. set (M := IZR m) in *.
  set (dd := fun k => ((ell odd k / (2 * ell odd k + 2 * M + 1)) * ((ell odd k + 1) / (2 * ell odd k + 2 * M + 3)))%R) in *.
  set (cc := fun k => (((ell odd k + 2 * M) / (2 * ell odd k + 2 * M - 1)) * ((ell odd k + 2 * M + 1) / (2 * ell odd k + 2 * M + 1)))%R) in *.
  assert (Pd : forall k, 0 <= k -> (0 < dd k)%R).
  { intros k Hk. pose proof (ell_ge odd k Hk). unfold dd. apply Rmult_lt_0_compat; apply Rdiv_lt_0_compat; lra. }
  assert (Pc : forall k, 0 <= k -> (0 < cc k)%R).
  { intros k Hk. pose proof (ell_ge odd k Hk). unfold cc. apply Rmult_lt_0_compat; apply Rdiv_lt_0_compat; lra. }
  exists B, C, (dd (n - 1)). split; [exact EB|]. split; [exact EC|]. split; [unfold bi_ok; lia|]. split; [exact NC|]. split; [apply Pd; lia|].
  split; [intros i Hi; rewrite VC by lia; apply sqrt_lt_R0, Pc; lia|].
  assert (Diag : forall k, 0 <= k < n -> nR (st_a B) k = (cc k + dd k)%R).
  { intros k Hk. rewrite VA by lia. pose proof (ell_ge odd k ltac:(lia)). fold M. unfold cc, dd. field. repeat split; lra. }
  assert (Off : forall k, 0 <= k < n - 1 -> nR (st_b B) k = (nR (bi_d C) k * nR (bi_c C) (k + 1))%R).
  { intros k Hk. rewrite VB, VD, VC by lia. fold M.  change (- sqrt (rat_ M (ell odd k)) = - sqrt (dd k) * sqrt (cc (k + 1)%Z))%R.
    rewrite <- Ropp_mult_distr_l, <- sqrt_mult by (left; first [apply Pd|apply Pc]; lia). do 2 f_equal. unfold rat_, dd, cc.
    replace (ell odd (k + 1)) with (ell odd k + 2)%R by (unfold ell; rewrite <- plus_IZR; f_equal; lia).
    pose proof (ell_ge odd k ltac:(lia)). field. repeat split; lra. }
  assert (Sc : forall k, 0 <= k < n -> (nR (bi_c C) k * nR (bi_c C) k = cc k)%R) by (intros; rewrite VC by lia; apply sqrt_def; left; apply Pc; lia).
  assert (Sd : forall k, 0 <= k < n - 1 -> (nR (bi_d C) k * nR (bi_d C) k = dd k)%R).
  { intros. rewrite VD by lia. fold (dd k). replace (- sqrt (dd k) * - sqrt (dd k))%R with (sqrt (dd k) * sqrt (dd k))%R by ring. apply sqrt_def; left; apply Pd; lia. }
  (* the product *)
  assert (MM : forall i j, 0 <= i < n -> 0 <= j < n -> matmul n (bi_mat C) (transp (bi_mat C)) i j = (nR (bi_c C) i * bi_mat C j i + (if i + 1 <? n then nR (bi_d C) i * bi_mat C j (i + 1) else 0))%R).
  { intros i j Hi Hj. unfold matmul, transp. rewrite (sumZ_pick n i) by lia. f_equal.
    - f_equal. unfold bi_mat. rewrite Z.eqb_refl. reflexivity.
    - destruct (i + 1 <? n) eqn:E.
      + rewrite (sumZ_single n (i + 1)); [|lia|intros k Hk Hne; unfold bi_mat; destruct (k =? i) eqn:E1; [reflexivity|]; replace (i =? k) with false by lia; replace (k =? i + 1) with false by lia; ring].
        replace (i + 1 =? i) with false by lia. f_equal. unfold bi_mat. replace (i =? i + 1) with false by lia. rewrite Z.eqb_refl. reflexivity.
      + apply sumZ_zero. intros k Hk. destruct (k =? i) eqn:E1; [reflexivity|]. unfold bi_mat. replace (i =? k) with false by lia. replace (k =? i + 1) with false by lia. ring. }
  intros i j Hi Hj. rewrite MM by lia. unfold st_mat, bi_mat. destruct (i =? j) eqn:Eij.
  - assert (i = j) by lia; subst j. rewrite Z.eqb_refl, Diag by lia. replace (i =? i + 1) with false by lia. rewrite Z.eqb_refl, Sc by lia.
    destruct (i + 1 <? n) eqn:E.
    + rewrite Sd by lia. replace (i =? n - 1) with false by lia. cbn [andb]. ring.
    + replace (i =? n - 1) with true by lia. cbn [andb]. replace i with (n - 1) by lia. ring.
  - replace (j =? i) with false by lia. destruct (j =? i + 1) eqn:E1.
    + replace (i =? j + 1) with false by lia. replace (i + 1 <? n) with true by lia. replace (i =? n - 1) with false by lia. cbn [andb]. rewrite Off by lia. replace j with (i + 1) by lia. ring.
    + destruct (i =? j + 1) eqn:E2.
      * rewrite Off by lia. replace (j =? n - 1) with false by lia. rewrite andb_false_r. replace (i + 1 =? j + 1) with false by lia. replace i with (j + 1) by lia. destruct (j + 1 + 1 <? n); ring.
      * replace (i + 1 =? j + 1) with false by lia. destruct (i =? n - 1) eqn:E3, (j =? n - 1) eqn:E4; cbn [andb]; try lia; destruct (i + 1 <? n); ring.
Qed.
Lemma sumsq_zero n f : (forall i, 0 <= i < n -> (0 <= f i)%R) -> sumZ n f = 0%R -> forall i, 0 <= i < n -> f i = 0%R.
Proof.
  intros Hp Hs i Hi. rewrite (sumZ_pick n i) in Hs by lia. pose proof (Hp i Hi).
  assert (0 <= sumZ n (fun k => if k =? i then 0 else f k))%R by (apply sumZ_pos; intros k Hk; destruct (k =? i); [lra|auto]). lra.
Qed.
Theorem sht_posdef_proof n m odd : 1 <= n -> 0 <= m -> exists B, @create_B_shtsdtev R R_arith n m odd = Some B /\ st_ok B /\ st_n B = n /\ posdef n (st_mat B).
Proof.
  intros Hn Hm. destruct (sht_factor_proof n m odd Hn Hm) as (B & C & dl & EB & EC & OC & NC & Pdl & Pc & H).
  destruct (sht_nonpositive_proof n 0 m odd Hn Hm) as (_ & B' & _ & EB' & _ & _ & _ & OB & NB & _). rewrite EB in EB'. injection EB' as <-.
  exists B. split; [exact EB|]. split; [exact OB|]. split; [exact NB|]. intros v Hv.
  set (u := fun k => matvec n (transp (bi_mat C)) v k).
  assert (Q : sumZ n (fun i => v i * matvec n (st_mat B) v i)%R = (sumZ n (fun k => u k * u k) + dl * (v (n - 1)%Z * v (n - 1)%Z))%R).
  { rewrite (sumZ_ext n _ (fun i => (sumZ n (fun k => (bi_mat C i k * v i * u k)) + (if i =? n - 1 then dl * (v (n - 1)%Z * v (n - 1)%Z) else 0))%R)).
    - rewrite sumZ_plus, sumZ_swap. f_equal.
      + apply sumZ_ext. intros k Hk. rewrite sumZ_scal_r. f_equal.
      + rewrite (sumZ_single n (n - 1)) by (try lia; intros k Hk Hne; replace (k =? n - 1) with false by lia; reflexivity). now rewrite Z.eqb_refl.
    - intros i Hi. unfold matvec. rewrite (sumZ_ext n (fun k => (st_mat B i k * v k)%R) (fun k => (matmul n (bi_mat C) (transp (bi_mat C)) i k * v k + (if ((i =? n - 1) && (k =? n - 1))%bool then dl else 0) * v k)%R)) by (intros k Hk; rewrite H by lia; ring).
      rewrite sumZ_plus. rewrite Rmult_plus_distr_l. f_equal.
      + change (v i * matvec n (matmul n (bi_mat C) (transp (bi_mat C))) v i = sumZ n (fun k => (bi_mat C i k * v i * u k)%R))%R.
        transitivity (v i * matvec n (bi_mat C) u i)%R.
        * f_equal. unfold u, matvec, matmul. rewrite (sumZ_ext n _ (fun k => sumZ n (fun l => (bi_mat C i l * transp (bi_mat C) l k * v k)%R))) by (intros; now rewrite <- sumZ_scal_r).
          rewrite sumZ_swap. apply sumZ_ext. intros l Hl. rewrite <- sumZ_scal. apply sumZ_ext. intros; ring.
        * unfold matvec. rewrite <- sumZ_scal. apply sumZ_ext. intros; ring.
      + destruct (i =? n - 1) eqn:E; cbn [andb].
        * rewrite (sumZ_single n (n - 1)) by (try lia; intros k Hk Hne; replace (k =? n - 1) with false by lia; ring). rewrite Z.eqb_refl. replace i with (n - 1) by lia. ring.
        * rewrite sumZ_zero by (intros; ring). ring. }
  rewrite Q. assert (P1 : (0 <= sumZ n (fun k => u k * u k))%R) by (apply sumZ_pos; intros; apply Rle_0_sqr).
  assert (P2 : (0 <= dl * (v (n - 1)%Z * v (n - 1)%Z))%R) by (apply Rmult_le_pos; [lra|apply Rle_0_sqr]).
  destruct (Req_EM_T (sumZ n (fun k => u k * u k)%R) 0) as [E|E]; [|lra].
  exfalso. destruct Hv as (i & Hi & Ei). apply Ei.
  apply (tri_unique n (transp (bi_mat C)) v (fun _ => 0%R)); try lia.
  - right. intros a b Ha Hb Hab. unfold transp, bi_mat. replace (b =? a) with false by lia. replace (a =? b + 1) with false by lia. reflexivity.
  - intros k Hk. unfold transp, bi_mat. rewrite Z.eqb_refl. specialize (Pc k Hk). lra.
  - intros k Hk. pose proof (sumsq_zero n _ (fun a _ => Rle_0_sqr (u a)) E k Hk) as Hz. unfold Rsqr in Hz. apply Rmult_integral in Hz. fold (u k).
    replace (matvec n (transp (bi_mat C)) (fun _ => 0%R) k) with 0%R by (symmetry; apply sumZ_zero; intros; ring). tauto.
Qed.
