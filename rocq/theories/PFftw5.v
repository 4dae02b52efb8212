(** Synthesis and analysis on the rectangularised disk, the triangle and the tetrahedron *)
From Coq Require Import ZArith List Lia Bool Reals Lra ZifyBool ZifyNat.
From Verif Require Import Base Arith BaseFacts SpecSum PSum SpecLin PTri MHarmonic SpecHarm PDrivers4 PHarm PHarm2 PHarm3 MFftw SpecFftw PTrig PFftw PFftw2 PFftw3 PFftw4.
Open Scope Z_scope.
Notation hlf := (1 / 2)%R.
Notation qtr := (1 / 4)%R.

Lemma sumZ_1 f : sumZ 1 f = f 0. Proof. change 1 with (0 + 1). rewrite sumZ_S by lia. rewrite sumZ_0 by lia. ring. Qed.
(** scaling before and after a general kernel *)
Lemma sc_ev N M w A p q : sc N M w p -> evaluates N M A q -> evaluates N M (fun l z k j => (A l z k j * w z l)%R) (fun X => do X <- p X; q X).
Proof.
  intros Hp Hq X L. destruct (Hp X L) as (X1 & E1 & L1 & V1). destruct (Hq X1 L1) as (X2 & E2 & L2 & V2). exists X2. rewrite E1. cbn [obind].
  split; auto. split; auto. intros k j Hk Hj. rewrite V2 by auto. apply sumZ_ext. intros z Hz. apply sumZ_ext. intros l Hl. rewrite V1 by auto. ring.
Qed.
Lemma ev_sc N M w A p q : evaluates N M A p -> sc N M w q -> evaluates N M (fun l z k j => (w j k * A l z k j)%R) (fun X => do X <- p X; q X).
Proof.
  intros Hp Hq X L. destruct (Hp X L) as (X1 & E1 & L1 & V1). destruct (Hq X1 L1) as (X2 & E2 & L2 & V2). exists X2. rewrite E1. cbn [obind].
  split; auto. split; auto. intros k j Hk Hj. rewrite V2, V1 by auto. rewrite <- sumZ_scal. apply sumZ_ext. intros z Hz. rewrite <- sumZ_scal. apply sumZ_ext. intros l Hl. ring.
Qed.

Section Rect.
Variable FT : fftw R.
Hypothesis OK : fftw_ok FT.
Variables (N M : Z).
Hypotheses (HN : 0 < N) (HM : 0 < M).
Let HM0 : 0 <= M. Proof. lia. Qed.
Let HN0 : 0 <= N. Proof. lia. Qed.
Let rN : (IZR N <> 0)%R. Proof. apply IZR_neq. lia. Qed.
Let rM : (IZR M <> 0)%R. Proof. apply IZR_neq. lia. Qed.
Notation ev := (evaluates N M).
Notation krect := (fun z => if Z.even z then REDFT01 else RODFT01).
Definition f2 (c : R) (z r : Z) : R := if (r =? 0) && (z mod 2 =? 0) then c else 1%R.
Definition l2 (c : R) (z r : Z) : R := if (r =? N - 1) && (z mod 2 =? 1) then c else 1%R.
Definition q2 (z _ : Z) : R := ((if z =? 0 then 2 else 1) * qtr)%R.
Definition d2 (z _ : Z) : R := (/ IZR (N * M) * (if z =? 0 then hlf else 1))%R.
Lemma sc_q2 : sc N M q2 (fun X => do X <- mulfor N 2%R X; mulfor (N * M) qtr X).
Proof. apply (sc_seq N M (fun z _ => if z =? 0 then 2%R else 1%R) (fun _ _ => qtr)); [apply sc_col0|apply sc_all]; auto. Qed.
Lemma sc_d2 : sc N M d2 (fun X => do X <- divfor (N * M) (IZR (N * M)) X; mulfor N hlf X).
Proof. apply (sc_seq N M (fun _ _ => / IZR (N * M))%R (fun z _ => if z =? 0 then hlf else 1%R)); [apply sc_divall|apply sc_col0]; auto. Qed.
Ltac by_pair := eapply cols_ext; [|apply pair_cols; auto]; intros; cbv [k_even k_odd plan_rectdisk_synthesis plan_rectdisk_analysis]; match goal with |- context [Z.even ?z] => destruct (Z.even z) end; reflexivity.
Lemma rect_syn_ev : ev (fun l z k j => (Uk N krect q2 (f2 2) z k l * kind_mat REDFT01 M j z)%R) (rectdisk_synthesis FT false (plan_rectdisk_synthesis N M) N M).
Proof.
  eapply ev_prog; [|eapply (cols_rows N M); [|apply (rows_rows FT OK (plan_rectdisk_synthesis N M) N M); auto]].
  2: { eapply (cols_sc N M q2 (fun z i k => (kind_mat (krect z) N i k * f2 2 z k)%R) _ _); [|exact sc_q2]. eapply (sc_cols N M (f2 2) _ _ (pair_r2r FT (plan_rectdisk_synthesis N M)) (sc_first2 N M HN 2)). by_pair. }
  unfold rectdisk_synthesis. assoc.
Qed.
Lemma rect_ana_ev : ev (fun l z k j => (kind_mat REDFT10 M j z * Vk N krect d2 (f2 hlf) j k l)%R) (rectdisk_analysis FT false (plan_rectdisk_analysis N M) N M).
Proof.
  eapply ev_prog; [|eapply (rows_cols N M); [apply (rows_rows FT OK (plan_rectdisk_analysis N M) N M); auto|]].
  2: { eapply (cols_sc N M (f2 hlf) (fun z i k => (kind_mat (kinv (krect z)) N i k * d2 z k)%R) _ _); [|exact (sc_first2 N M HN hlf)]. eapply (sc_cols N M d2 _ _ (pair_r2r FT (plan_rectdisk_analysis N M)) sc_d2). by_pair. }
  unfold rectdisk_analysis. assoc.
Qed.
Lemma rect_synT_ev : ev (fun l z k j => (kind_mat REDFT10 M j z * Vk N krect (fun _ _ => qtr) (l2 hlf) j k l)%R) (rectdisk_synthesis FT true (plan_rectdisk_analysis N M) N M).
Proof.
  eapply ev_prog; [|eapply (rows_cols N M); [apply (rows_rows FT OK (plan_rectdisk_analysis N M) N M); auto|]].
  2: { eapply (cols_sc N M (l2 hlf) (fun z i k => (kind_mat (kinv (krect z)) N i k * qtr)%R) _ _); [|exact (sc_last2 N M HN hlf)]. eapply (sc_cols N M (fun _ _ => qtr) _ _ (pair_r2r FT (plan_rectdisk_analysis N M)) (sc_all N M HN HM0 qtr)). by_pair. }
  unfold rectdisk_synthesis. assoc.
Qed.
Lemma rect_anaT_ev : ev (fun l z k j => (/ IZR (N * M) * (Uk N krect (fun _ _ => 1) (l2 2) z k l * kind_mat REDFT01 M j z))%R) (rectdisk_analysis FT true (plan_rectdisk_synthesis N M) N M).
Proof.
  eapply ev_prog; [|apply (ev_sc N M (fun _ _ => / IZR (N * M))%R); [|apply (sc_divall N M HN HM0)]].
  2: { eapply (cols_rows N M); [|apply (rows_rows FT OK (plan_rectdisk_synthesis N M) N M); auto].
       eapply (cols_sc N M (fun _ _ => 1%R) (fun z i k => (kind_mat (krect z) N i k * l2 2 z k)%R) _ (fun X => Some X)); [|apply sc_id]. eapply (sc_cols N M (l2 2) _ _ (pair_r2r FT (plan_rectdisk_synthesis N M)) (sc_last2 N M HN 2)). by_pair. }
  unfold rectdisk_analysis. assoc.
Qed.
Lemma rect_inverse : inverse (N * M) (rectdisk_synthesis FT false (plan_rectdisk_synthesis N M) N M) (rectdisk_analysis FT false (plan_rectdisk_analysis N M) N M).
Proof.
  eapply (pipe_inverse N M (Uk N krect q2 (f2 2)) (Vk N krect d2 (f2 hlf)) (kind_mat REDFT01 M) (kind_mat REDFT10 M) (/ (2 * IZR M))%R (2 * IZR M)%R); auto; [| | | | |exact rect_syn_ev|exact rect_ana_ev].
  - field. auto.
  - intros. apply (diag_VU N M); auto.
    + intros. unfold q2, d2. rewrite mult_IZR. cases; field; auto.
    + intros. unfold f2. cases; lra.
  - intros. apply (diag_UV N M); auto.
    + intros. unfold q2, d2. rewrite mult_IZR. cases; field; auto.
    + intros. unfold f2. cases; lra.
  - intros. apply (kind_inverse M HM REDFT01); auto.
  - intros. apply (kind_inverse M HM REDFT10); auto.
Qed.
Lemma krect3 z : krect z = REDFT01 \/ krect z = RODFT01 \/ krect z = REDFT11. Proof. cbv beta. destruct (Z.even z); auto. Qed.
Lemma rect_adjoint : adjoint (N * M) (rectdisk_synthesis FT false (plan_rectdisk_synthesis N M) N M) (rectdisk_synthesis FT true (plan_rectdisk_analysis N M) N M).
Proof.
  eapply (ev_adjoint N M); [lia|lia| |exact rect_syn_ev|exact rect_synT_ev]. intros l z k j Hl Hz Hk Hj. cbv beta. rewrite t_01 by auto.
  pose proof (kind_transp N HN (krect z) k l (krect3 z)) as E. unfold Uk, Vk.
  replace (l2 hlf z l) with (tr N (krect z) l). 2: { unfold l2. rewrite even_b. cbv beta. destruct (z mod 2 =? 0) eqn:E0; cbn [tr]; cases; lra. }
  replace (f2 2 z l) with (br (krect z) l). 2: { unfold f2. rewrite even_b. cbv beta. destruct (z mod 2 =? 0) eqn:E0; cbn [br]; cases. }
  rewrite <- E. unfold q2. cases.
Qed.
Lemma rect_ana_adjoint : adjoint (N * M) (rectdisk_analysis FT false (plan_rectdisk_analysis N M) N M) (rectdisk_analysis FT true (plan_rectdisk_synthesis N M) N M).
Proof.
  apply adjoint_sym. eapply (ev_adjoint N M); [lia|lia| |exact rect_anaT_ev|exact rect_ana_ev]. intros l z k j Hl Hz Hk Hj. cbv beta. rewrite t_01 by auto.
  pose proof (kind_transp N HN (krect z) k l (krect3 z)) as E. unfold Uk, Vk.
  assert (E1 : (l2 2 z l * tr N (krect z) l = 1)%R). { unfold l2. rewrite even_b. cbv beta. destruct (z mod 2 =? 0) eqn:E0; cbn [tr]; cases; lra. }
  assert (E2 : (f2 hlf z l * br (krect z) l = 1)%R). { unfold f2. rewrite even_b. cbv beta. destruct (z mod 2 =? 0) eqn:E0; cbn [br]; cases; lra. }
  set (kt := kind_mat (kinv _) N l k) in *. set (kk := kind_mat _ N k l) in *. set (m := kind_mat REDFT01 M j z).
  assert (Ez : ((if z =? 0 then 2 else 1) * d2 z k = / IZR (N * M))%R) by (unfold d2; cases; field; apply IZR_neq; nia).
  transitivity (m * ((if z =? 0 then 2 else 1) * d2 z k) * (f2 hlf z l * (l2 2 z l * tr N (krect z) l) * kt))%R; [rewrite E1; ring|].
  rewrite Ez. transitivity (m * / IZR (N * M) * (f2 hlf z l * l2 2 z l * (tr N (krect z) l * kt)))%R; [ring|]. rewrite E.
  transitivity (m * / IZR (N * M) * ((f2 hlf z l * br (krect z) l) * l2 2 z l * kk))%R; [ring|]. rewrite E2. ring.
Qed.
Lemma rect_grid : ev (fun l z k j => (rectdisk_first N z l (theta N k) * cosine M z (theta M j))%R) (rectdisk_synthesis FT false (plan_rectdisk_synthesis N M) N M).
Proof.
  eapply ev_ext; [|exact rect_syn_ev]. intros l z k j Hl Hz Hk Hj. cbv beta. unfold Uk.
  assert (E : (kind_mat (krect z) N k l * f2 2 z l = 2 * rectdisk_first N z l (theta N k))%R).
  { unfold f2, rectdisk_first. rewrite even_b. cbv beta. destruct (z mod 2 =? 0) eqn:E0.
    - rewrite <- c01 by auto. f_equal. cases.
    - rewrite o01s by auto. cases. }
  rewrite E. assert (E2 : (q2 z k * kind_mat REDFT01 M j z = / 2 * cosine M z (theta M j))%R).
  { unfold q2. pose proof (c01 M j z HM) as E1. transitivity (qtr * (kind_mat REDFT01 M j z * (if z =? 0 then 2 else 1)))%R; [ring|]. rewrite E1. field. }
  transitivity (q2 z k * kind_mat REDFT01 M j z * (2 * rectdisk_first N z l (theta N k)))%R; [ring|]. rewrite E2. field.
Qed.
End Rect.

(** ** one transform of the whole array, seen as an [A] by [B] array *)
Section Flat.
Variables (A B : Z) (P P' Q Q' : Z -> Z -> R) (w w' : Z -> Z -> R) (ka kb : R).
Hypotheses (HA : 0 < A) (HB : 0 < B).
Hypothesis PP : forall i j, 0 <= i < A -> 0 <= j < A -> matmul A P P' i j = (ka * delta i j)%R /\ matmul A P' P i j = (ka * delta i j)%R.
Hypothesis QQ : forall i j, 0 <= i < B -> 0 <= j < B -> matmul B Q Q' i j = (kb * delta i j)%R /\ matmul B Q' Q i j = (kb * delta i j)%R.
Hypothesis WW : forall z r, 0 <= z < B -> 0 <= r < A -> (w z r * w' z r * (ka * kb) = 1)%R.
Lemma flat_inverse p0 run run' q0 : sc A B w p0 -> sc A B w' q0 ->
  evaluates A B (fun l z k j => (P k l * Q j z)%R) run -> evaluates A B (fun l z k j => (P' k l * Q' j z)%R) run' ->
  inverse (A * B) (fun X => do X <- p0 X; run X) (fun X => do X <- run' X; q0 X).
Proof.
  intros H0 H0' HR HR'. eapply (ev_inverse A B); [lia| | |exact (sc_ev A B _ _ _ _ H0 HR)|exact (ev_sc A B _ _ _ _ HR' H0')].
  - intros l z l' z' Hl Hz Hl' Hz'. cbv beta.
    rewrite (sumZ_ext B _ (fun j => (Q' z' j * Q j z * (w' z' l' * w z l * matmul A P' P l' l))%R)).
    2: { intros j Hj. unfold matmul. rewrite <- !sumZ_scal. apply sumZ_ext. intros; ring. }
    rewrite sumZ_scal_r. fold (matmul B Q' Q z' z). rewrite (proj2 (QQ z' z Hz' Hz)), (proj2 (PP l' l Hl' Hl)).
    unfold delta. destruct (Z.eqb_spec l' l), (Z.eqb_spec z' z); subst; try ring. pose proof (WW z l Hz Hl). nra.
  - intros l z l' z' Hl Hz Hl' Hz'. cbv beta.
    rewrite (sumZ_ext B _ (fun j => sumZ A (fun k => (/ (ka * kb) * (Q z' j * Q' j z) * (P l' k * P' k l))%R))).
    2: { intros j Hj. apply sumZ_ext. intros k Hk. pose proof (WW j k Hj Hk) as E.
         assert (ka * kb <> 0)%R by (intros E0; rewrite E0, Rmult_0_r in E; lra).
         assert (Ew : (w j k * w' j k = / (ka * kb))%R). { apply (Rmult_eq_reg_r (ka * kb)); auto. rewrite E. field. split; intros ->; apply H; ring. }
         rewrite <- Ew. ring. }
    rewrite (sumZ_ext B _ (fun j => (Q z' j * Q' j z * (/ (ka * kb) * matmul A P P' l' l))%R)).
    2: { intros j Hj. unfold matmul. rewrite <- !sumZ_scal. apply sumZ_ext. intros; ring. }
    rewrite sumZ_scal_r. fold (matmul B Q Q' z' z). rewrite (proj1 (QQ z' z Hz' Hz)), (proj1 (PP l' l Hl' Hl)).
    assert (N0 : (ka * kb <> 0)%R). { intros E0. pose proof (WW z l Hz Hl) as E. rewrite E0, Rmult_0_r in E. lra. }
    assert (ka <> 0)%R by (intros E0; apply N0; rewrite E0; ring). assert (kb <> 0)%R by (intros E0; apply N0; rewrite E0; ring).
    field. auto.
Qed.
End Flat.
(** the same scaling, the array seen with other dimensions *)
Lemma sc_view N M A B w p : 0 < N -> 0 < A -> N * M = A * B -> sc N M w p -> sc A B (fun z r => w ((r + z * A) / N) ((r + z * A) mod N)) p.
Proof.
  intros HN HA E H X L. destruct (H X) as (X' & E1 & L1 & V); [lia|]. exists X'. split; auto. split; [lia|]. intros z r Hz Hr.
  pose proof (in_grid A B r z Hr Hz) as HB. rewrite <- E in HB. destruct (pos_split N M HN (r + z * A) HB) as (B1 & B2 & E2).
  pose proof (V _ _ B1 B2) as V'. rewrite <- E2 in V'. exact V'.
Qed.

(** ** the triangle *)
Section Tri.
Variable FT : fftw R.
Hypothesis OK : fftw_ok FT.
Definition kdir (back : bool) := if back then REDFT01 else REDFT10.
Lemma run_tri_ev back N M : 0 < N -> 0 < M -> evaluates M N (fun l z k j => (kind_mat (kdir back) M k l * kind_mat (kdir back) N j z)%R) (run_tri FT back N M).
Proof.
  intros HN HM X LX. unfold run_tri. fold (kdir back). destruct (ok_r2r2 FT OK N M (kdir back) (kdir back) X) as (X' & E & L & V); auto; try lia.
  exists X'. split; auto. split; [lia|]. intros k j Hk Hj. replace (k + j * M) with (j * M + k) by lia. rewrite V by auto.
  apply sumZ_ext. intros z Hz. apply sumZ_ext. intros l Hl. replace (z * M + l) with (l + z * M) by lia. ring.
Qed.
Definition tw (c d : R) (z r : Z) : R := ((if z =? 0 then c else 1) * (if r =? 0 then c else 1) * d)%R.
Lemma sc_tri N M c d : 0 < N -> 0 < M -> sc N M (tw c d) (fun X => do X <- mulfor N c X; do X <- firstrow N M c X; mulfor (N * M) d X).
Proof.
  intros HN HM. eapply sc_ext; [|apply (sc_seq N M (fun z _ => if z =? 0 then c else 1%R)); [apply sc_col0; lia|apply (sc_seq N M (fun _ r => if r =? 0 then c else 1%R)); [apply sc_firstrow; lia|apply sc_all; lia]]].
  intros. unfold tw. ring.
Qed.
Lemma sc_tri_div N M c d : 0 < N -> 0 < M -> sc N M (tw c (/ d)%R) (fun X => do X <- mulfor N c X; do X <- firstrow N M c X; divfor (N * M) d X).
Proof.
  intros HN HM. eapply sc_ext; [|apply (sc_seq N M (fun z _ => if z =? 0 then c else 1%R)); [apply sc_col0; lia|apply (sc_seq N M (fun _ r => if r =? 0 then c else 1%R)); [apply sc_firstrow; lia|apply sc_divall; lia]]].
  intros. unfold tw. ring.
Qed.
Lemma kdir_pair n : 0 < n -> forall i j, 0 <= i < n -> 0 <= j < n ->
  matmul n (kind_mat (kdir true) n) (kind_mat (kdir false) n) i j = (2 * IZR n * delta i j)%R /\
  matmul n (kind_mat (kdir false) n) (kind_mat (kdir true) n) i j = (2 * IZR n * delta i j)%R.
Proof. intros Hn i j Hi Hj. split; [apply (kind_inverse n Hn REDFT01)|apply (kind_inverse n Hn REDFT10)]; auto. Qed.
Lemma tri_inverse N M : 0 < N -> 0 < M -> inverse (N * M) (tri_synthesis FT false true N M) (tri_analysis FT false false N M).
Proof.
  intros HN HM. unfold tri_synthesis, tri_analysis. destruct ((1 <? N) && (1 <? M)); [|apply inverse_id].
  assert (rN : (IZR N <> 0)%R) by (apply IZR_neq; lia). assert (rM : (IZR M <> 0)%R) by (apply IZR_neq; lia).
  pose proof (fun w w' => flat_inverse M N _ _ _ _ w w' (2 * IZR M)%R (2 * IZR N)%R HM (kdir_pair M HM) (kdir_pair N HN)) as FI.
  pose proof (fun W => FI _ _ W _ _ _ _ (sc_view N M M N _ _ HN HM ltac:(lia) (sc_tri N M 2 qtr HN HM)) (sc_view N M M N _ _ HN HM ltac:(lia) (sc_tri_div N M hlf (IZR (N * M)) HN HM))
    (run_tri_ev true N M HN HM) (run_tri_ev false N M HN HM)) as FI'.
  replace (N * M) with (M * N) at 1 by lia. eapply inverse_ext; [| |apply FI'].
  - cbv beta. assoc.
  - cbv beta. assoc.
  - intros z r Hz Hr. unfold tw. rewrite mult_IZR. cases; field; auto.
Qed.
Lemma tri_run N : 1 < N -> forall t b X, tri_synthesis FT t b N N X =
  if t then do X <- mulfor (N * N) qtr X; run_tri FT b N N X
  else do X <- (do X <- mulfor N 2%R X; do X <- firstrow N N 2%R X; mulfor (N * N) qtr X); run_tri FT b N N X.
Proof. intros HN t b X. unfold tri_synthesis. replace (1 <? N) with true by lia. destruct t; cbn [andb]; auto. assoc. Qed.
Lemma tri_ana_run N : 1 < N -> forall t b X, tri_analysis FT t b N N X =
  if t then do X <- divfor (N * N) (IZR (N * N)) X; run_tri FT b N N X
  else do X <- run_tri FT b N N X; (do X <- mulfor N hlf X; do X <- firstrow N N hlf X; divfor (N * N) (IZR (N * N)) X).
Proof. intros HN t b X. unfold tri_analysis. replace (1 <? N) with true by lia. destruct t; cbn [andb]; auto. Qed.
Lemma tri_syn_ev N : 1 < N -> evaluates N N (fun l z k j => (kind_mat REDFT01 N k l * kind_mat REDFT01 N j z * tw 2 qtr z l)%R) (tri_synthesis FT false true N N).
Proof. intros HN. eapply ev_prog; [|apply sc_ev; [apply (sc_tri N N 2 qtr)|apply (run_tri_ev true N N)]; lia]. intros X. now rewrite tri_run. Qed.
Lemma tri_synT_ev N : 1 < N -> evaluates N N (fun l z k j => (kind_mat REDFT10 N k l * kind_mat REDFT10 N j z * qtr)%R) (tri_synthesis FT true false N N).
Proof. intros HN. eapply ev_prog; [|apply sc_ev; [apply (sc_all N N)|apply (run_tri_ev false N N)]; lia]. intros X. now rewrite tri_run. Qed.
Lemma tri_ana_ev N : 1 < N -> evaluates N N (fun l z k j => (tw hlf (/ IZR (N * N)) j k * (kind_mat REDFT10 N k l * kind_mat REDFT10 N j z))%R) (tri_analysis FT false false N N).
Proof. intros HN. eapply ev_prog; [|apply ev_sc; [apply (run_tri_ev false N N)|apply (sc_tri_div N N hlf (IZR (N * N)))]; lia]. intros X. now rewrite tri_ana_run. Qed.
Lemma tri_anaT_ev N : 1 < N -> evaluates N N (fun l z k j => (kind_mat REDFT01 N k l * kind_mat REDFT01 N j z * / IZR (N * N))%R) (tri_analysis FT true true N N).
Proof. intros HN. eapply ev_prog; [|apply sc_ev; [apply (sc_divall N N)|apply (run_tri_ev true N N)]; lia]. intros X. now rewrite tri_ana_run. Qed.
Lemma one_by_one N : 0 < N -> N = 1 \/ 1 < N. Proof. lia. Qed.
Lemma tri_adjoint N : 0 < N -> adjoint (N * N) (tri_synthesis FT false true N N) (tri_synthesis FT true false N N).
Proof.
  intros HN. destruct (one_by_one N HN) as [->|H1]; [exact (adjoint_id 1)|].
  eapply (ev_adjoint N N); [lia|lia| |apply tri_syn_ev; auto|apply tri_synT_ev; auto]. intros l z k j Hl Hz Hk Hj. cbv beta. rewrite !t_01 by auto. unfold tw. ring.
Qed.
Lemma tri_ana_adjoint N : 0 < N -> adjoint (N * N) (tri_analysis FT false false N N) (tri_analysis FT true true N N).
Proof.
  intros HN. destruct (one_by_one N HN) as [->|H1]; [exact (adjoint_id 1)|].
  apply adjoint_sym. eapply (ev_adjoint N N); [lia|lia| |apply tri_anaT_ev; auto|apply tri_ana_ev; auto]. intros l z k j Hl Hz Hk Hj. cbv beta. rewrite !t_01 by auto. unfold tw. cases; field; apply IZR_neq; nia.
Qed.
Lemma tri_grid N : 0 < N -> evaluates N N (fun l z k j => (cosine N l (theta N k) * cosine N z (theta N j))%R) (tri_synthesis FT false true N N).
Proof.
  intros HN. destruct (one_by_one N HN) as [->|H1].
  - intros X LX. exists X. split; auto. split; auto. intros k j Hk Hj. rewrite !sumZ_1. unfold cosine. rewrite !Rmult_0_l, cos_0. replace (k + j * 1) with 0 by lia. cbn [Z.add Z.mul]. ring.
  - eapply ev_ext; [|apply tri_syn_ev; auto]. intros l z k j Hl Hz Hk Hj. cbv beta. pose proof (c01 N k l HN) as E1. pose proof (c01 N j z HN) as E2. unfold tw.
    transitivity (qtr * (kind_mat REDFT01 N k l * (if l =? 0 then 2 else 1)) * (kind_mat REDFT01 N j z * (if z =? 0 then 2 else 1)))%R; [ring|]. rewrite E1, E2. field.
Qed.
End Tri.

(** ** the tetrahedron *)
Section Tet.
Variable FT : fftw R.
Hypothesis OK : fftw_ok FT.
Definition kron (L : Z) (P Q : Z -> Z -> R) (j z : Z) : R := (P (j / L)%Z (z / L)%Z * Q (j mod L)%Z (z mod L)%Z)%R.
Lemma blk L r i : 0 <= i < L -> (r * L + i) / L = r /\ (r * L + i) mod L = i.
Proof. intros H. rewrite (Z.add_comm (r * L)). split; [rewrite Z.div_add by lia; rewrite Z.div_small by lia; lia|rewrite Z.mod_add by lia; apply Z.mod_small; lia]. Qed.
Lemma blk_range N L j : 0 < L -> 0 <= j < N * L -> 0 <= j / L < N /\ 0 <= j mod L < L /\ j = (j / L) * L + j mod L.
Proof. intros HL Hj. destruct (pos_split L N HL j) as (A & B & C); [lia|]. lia. Qed.
Lemma run_tet_ev back N L M : 0 < N -> 0 < L -> 0 < M ->
  evaluates M (N * L) (fun l z k j => (kind_mat (kdir back) M k l * kron L (kind_mat (kdir back) N) (kind_mat (kdir back) L) j z)%R) (run_tet FT back N L M).
Proof.
  intros HN HL HM X LX. unfold run_tet. fold (kdir back). destruct (ok_r2r3 FT OK N L M (kdir back) (kdir back) (kdir back) X) as (X' & E & LE & V); auto; try lia.
  exists X'. split; auto. split; [lia|]. intros k j Hk Hj. destruct (blk_range N L j HL Hj) as (A & B & C).
  replace (k + j * M) with ((j / L * L + j mod L) * M + k) by (rewrite <- C; lia). rewrite V by auto. rewrite sumZ_block by lia.
  apply sumZ_ext. intros z0 Hz0. apply sumZ_ext. intros z1 Hz1. apply sumZ_ext. intros l Hl. unfold kron. destruct (blk L z0 z1 Hz1) as (-> & ->).
  replace (l + (z0 * L + z1) * M) with ((z0 * L + z1) * M + l) by lia. ring.
Qed.
Lemma kron_pair N L P P' Q Q' a b : 0 < N -> 0 < L ->
  (forall i j, 0 <= i < N -> 0 <= j < N -> matmul N P P' i j = (a * delta i j)%R) -> (forall i j, 0 <= i < L -> 0 <= j < L -> matmul L Q Q' i j = (b * delta i j)%R) ->
  forall i j, 0 <= i < N * L -> 0 <= j < N * L -> matmul (N * L) (kron L P Q) (kron L P' Q') i j = (a * b * delta i j)%R.
Proof.
  intros HN HL HP HQ i j Hi Hj. destruct (blk_range N L i HL Hi) as (A1 & A2 & A3). destruct (blk_range N L j HL Hj) as (B1 & B2 & B3).
  unfold matmul. rewrite sumZ_block by lia.
  rewrite (sumZ_ext N _ (fun r => P (i / L)%Z r * P' r (j / L)%Z * matmul L Q Q' (i mod L)%Z (j mod L)%Z)%R).
  2: { intros r Hr. unfold matmul. rewrite <- sumZ_scal. apply sumZ_ext. intros s Hs. unfold kron. destruct (blk L r s Hs) as (-> & ->). ring. }
  rewrite sumZ_scal_r. fold (matmul N P P' (i / L) (j / L)). rewrite HP, HQ by auto.
  unfold delta. destruct (Z.eqb_spec (i / L) (j / L)), (Z.eqb_spec (i mod L) (j mod L)), (Z.eqb_spec i j); try ring; exfalso; congruence.
Qed.
(** weights: a factor for each of the three indices that vanishes *)
Definition tw3 (L : Z) (c d : R) (z r : Z) : R := ((if z <? L then c else 1) * (if r =? 0 then c else 1) * (if z mod L =? 0 then c else 1) * d)%R.
Lemma sc_tet N L M c : 0 < N -> 0 < L -> 0 < M -> sc N (L * M) (tw3 L c 1) (tet_scale N L M c).
Proof.
  intros HN HL HM. assert (HLM : L <= L * M) by nia. unfold tet_scale. eapply sc_ext; [|apply (sc_seq N (L * M) (fun z _ => if z <? L then c else 1%R)); [|apply (sc_seq N (L * M) (fun _ r => if r =? 0 then c else 1%R) (fun z _ => if z mod L =? 0 then c else 1%R))]].
  - intros. unfold tw3. ring.
  - apply (sc_for N (L * M) 0 L (fun t z r => if z =? t then c else 1%R) (fun t z r => if z <? t then c else 1%R)); try lia.
    + intros t Ht. eapply sc_ext; [|apply (sc_for N (L * M) 0 N (fun i => pt t i c) (fun i z r => if (z =? t) && (r <? i) then c else 1%R)); try lia].
      * intros z r Hz Hr. cbv beta. cases.
      * intros i Hi. apply sc_at; lia.
      * intros z r Hz Hr. cases.
      * intros i z r Hi Hz Hr. unfold pt. cases.
    + intros z r Hz Hr. cases.
    + intros t z r Ht Hz Hr. cases.
  - eapply sc_ext; [|apply (sc_for N (L * M) 0 M (fun t z r => if (r =? 0) && (t * L <=? z) && (z <? t * L + L) then c else 1%R) (fun t z r => if (r =? 0) && (z <? t * L) then c else 1%R)); try lia].
    + intros z r Hz Hr. cbv beta. rewrite (Z.mul_comm M L). cases.
    + intros t Ht. assert (t * L + L <= L * M) by nia. eapply sc_ext; [|apply (sc_for N (L * M) 0 L (fun j => pt (j + t * L) 0 c) (fun j z r => if (r =? 0) && (t * L <=? z) && (z <? t * L + j) then c else 1%R)); try lia].
      * intros z r Hz Hr. cbv beta. cases.
      * intros i Hi. apply sc_at; lia.
      * intros z r Hz Hr. cases.
      * intros i z r Hi Hz Hr. unfold pt. cases.
    + intros z r Hz Hr. cases.
    + intros t z r Ht Hz Hr. replace ((t + 1) * L) with (t * L + L) by lia. assert (0 <= t * L) by nia. cases.
  - eapply sc_ext; [|apply (sc_for N (L * M) 0 M (fun t z r => if z =? t * L then c else 1%R) (fun t z r => if (z mod L =? 0) && (z <? t * L) then c else 1%R)); try lia].
    + intros z r Hz Hr. cbv beta. rewrite (Z.mul_comm M L). cases.
    + intros t Ht. assert (t * L + L <= L * M) by nia. eapply sc_ext; [|apply (sc_for N (L * M) 0 N (fun i => pt (t * L) i c) (fun i z r => if (z =? t * L) && (r <? i) then c else 1%R)); try lia].
      * intros z r Hz Hr. cbv beta. cases.
      * intros i Hi. apply sc_at; lia.
      * intros z r Hz Hr. cases.
      * intros i z r Hi Hz Hr. unfold pt. cases.
    + intros z r Hz Hr. cases.
    + intros t z r Ht Hz Hr. replace ((t + 1) * L) with (t * L + L) by lia.
      destruct (Z.eqb_spec z (t * L)) as [->|Hne].
      * rewrite Z.mod_mul by lia. cases.
      * destruct (Z.eqb_spec (z mod L) 0) as [H0|H0]; cbn [andb]; [|ring].
        assert (z = z / L * L) by (pose proof (Z.div_mod z L ltac:(lia)); lia). set (q := z / L) in *. clearbody q. subst z.
        assert (q * L < t * L + L <-> q * L < t * L).
        { destruct (Z_lt_le_dec q t); [assert (q * L < t * L) by nia; lia|]. assert (q <> t) by (intros ->; lia). assert ((t + 1) * L <= q * L) by (apply Z.mul_le_mono_nonneg_r; lia). lia. } cases.
Qed.
Lemma tet_inverse N L M : 0 < N -> 0 < L -> 0 < M -> inverse (N * L * M) (tet_synthesis FT false true N L M) (tet_analysis FT false false N L M).
Proof.
  intros HN HL HM. unfold tet_synthesis, tet_analysis. destruct ((1 <? N) && (1 <? L) && (1 <? M)); [|apply inverse_id].
  assert (rN : (IZR N <> 0)%R) by (apply IZR_neq; lia). assert (rM : (IZR M <> 0)%R) by (apply IZR_neq; lia). assert (rL : (IZR L <> 0)%R) by (apply IZR_neq; lia).
  assert (HNL : 0 < N * L) by nia.
  assert (S1 : sc N (L * M) (tw3 L 2 (1 / 8)) (fun X => do X <- tet_scale N L M 2%R X; mulfor (N * L * M) (1 / 8)%R X)).
  { eapply sc_ext; [|apply (sc_seq N (L * M)); [apply sc_tet; auto|rewrite <- Z.mul_assoc; apply sc_all; nia]]. intros. unfold tw3. ring. }
  assert (S2 : sc N (L * M) (tw3 L hlf (/ IZR (N * L * M))) (fun X => do X <- tet_scale N L M hlf X; divfor (N * L * M) (IZR (N * L * M)) X)).
  { eapply sc_ext; [|apply (sc_seq N (L * M)); [apply sc_tet; auto|rewrite <- (Z.mul_assoc N L M) at 1; apply sc_divall; nia]]. intros. unfold tw3. ring. }
  assert (KP : forall i j, 0 <= i < N * L -> 0 <= j < N * L ->
    matmul (N * L) (kron L (kind_mat (kdir true) N) (kind_mat (kdir true) L)) (kron L (kind_mat (kdir false) N) (kind_mat (kdir false) L)) i j = (2 * IZR N * (2 * IZR L) * delta i j)%R /\
    matmul (N * L) (kron L (kind_mat (kdir false) N) (kind_mat (kdir false) L)) (kron L (kind_mat (kdir true) N) (kind_mat (kdir true) L)) i j = (2 * IZR N * (2 * IZR L) * delta i j)%R).
  { intros. split; apply kron_pair; auto; intros; apply kdir_pair; auto. }
  pose proof (fun w w' => flat_inverse M (N * L) _ _ _ _ w w' (2 * IZR M)%R _ HM (kdir_pair M HM) KP) as FI.
  pose proof (fun W => FI _ _ W _ _ _ _ (sc_view N (L * M) M (N * L) _ _ HN HM ltac:(lia) S1) (sc_view N (L * M) M (N * L) _ _ HN HM ltac:(lia) S2)
    (run_tet_ev true N L M HN HL HM) (run_tet_ev false N L M HN HL HM)) as FI'.
  replace (N * L * M) with (M * (N * L)) at 1 by lia. eapply inverse_ext; [| |apply FI'].
  - cbv beta. assoc.
  - cbv beta. assoc.
  - intros z r Hz Hr. unfold tw3. rewrite !mult_IZR. cases; field; auto.
Qed.
Section Cube.
Variable N : Z.
Hypothesis HN : 1 < N.
Let HN0 : 0 < N. Proof. lia. Qed.
Let HNN : 0 <= N * N. Proof. nia. Qed.
Lemma tet_run t b X : tet_synthesis FT t b N N N X =
  if t then do X <- run_tet FT b N N N X; mulfor (N * (N * N)) (1 / 8)%R X
  else do X <- (do X <- tet_scale N N N 2%R X; mulfor (N * (N * N)) (1 / 8)%R X); run_tet FT b N N N X.
Proof. unfold tet_synthesis. replace (1 <? N) with true by lia. rewrite Z.mul_assoc. destruct t; cbn [andb]; auto. assoc. Qed.
Lemma tet_ana_run t b X : tet_analysis FT t b N N N X =
  if t then do X <- divfor (N * (N * N)) (IZR (N * N * N)) X; run_tet FT b N N N X
  else do X <- run_tet FT b N N N X; (do X <- tet_scale N N N hlf X; divfor (N * (N * N)) (IZR (N * N * N)) X).
Proof. unfold tet_analysis. replace (1 <? N) with true by lia. rewrite Z.mul_assoc. destruct t; cbn [andb]; auto. Qed.
Notation kr k := (fun l z m j => kind_mat k N m l * kron N (kind_mat k N) (kind_mat k N) j z)%R.
Lemma tet_syn_ev : evaluates N (N * N) (fun l z k j => (kr REDFT01 l z k j * tw3 N 2 (1 / 8) z l)%R) (tet_synthesis FT false true N N N).
Proof.
  eapply ev_prog; [|apply sc_ev; [|apply (run_tet_ev true N N N); lia]].
  2: { eapply sc_ext; [|apply (sc_seq N (N * N)); [apply sc_tet; lia|apply (sc_all N (N * N) HN0 HNN)]]. intros z r Hz Hr. unfold tw3. instantiate (1 := (1 / 8)%R). rewrite Rmult_1_r. reflexivity. }
  intros X. now rewrite tet_run.
Qed.
Lemma tet_synT_ev : evaluates N (N * N) (fun l z k j => (1 / 8 * kr REDFT10 l z k j)%R) (tet_synthesis FT true false N N N).
Proof. eapply ev_prog; [|apply (ev_sc N (N * N) (fun _ _ => 1 / 8)%R); [apply (run_tet_ev false N N N); lia|apply (sc_all N (N * N) HN0 HNN)]]. intros X. now rewrite tet_run. Qed.
Lemma tet_ana_ev : evaluates N (N * N) (fun l z k j => (tw3 N hlf (/ IZR (N * N * N)) j k * kr REDFT10 l z k j)%R) (tet_analysis FT false false N N N).
Proof.
  eapply ev_prog; [|apply ev_sc; [apply (run_tet_ev false N N N); lia|]].
  2: { eapply sc_ext; [|apply (sc_seq N (N * N)); [apply sc_tet; lia|apply (sc_divall N (N * N) HN0 HNN)]]. intros z r Hz Hr. unfold tw3. instantiate (1 := IZR (N * N * N)). instantiate (1 := hlf). rewrite Rmult_1_r. reflexivity. }
  intros X. now rewrite tet_ana_run.
Qed.
Lemma tet_anaT_ev : evaluates N (N * N) (fun l z k j => (kr REDFT01 l z k j * / IZR (N * N * N))%R) (tet_analysis FT true true N N N).
Proof. eapply ev_prog; [|apply (sc_ev N (N * N) (fun _ _ => / IZR (N * N * N))%R); [apply (sc_divall N (N * N) HN0 HNN)|apply (run_tet_ev true N N N); lia]]. intros X. now rewrite tet_ana_run. Qed.
Lemma tw3_eq c d z r : 0 <= z < N * N -> tw3 N c d z r = ((if r =? 0 then c else 1) * (if z mod N =? 0 then c else 1) * (if z / N =? 0 then c else 1) * d)%R.
Proof.
  intros Hz. unfold tw3. replace (z / N =? 0) with (z <? N); [ring|].
  destruct (Z.ltb_spec z N). { rewrite Z.div_small by lia. auto. } assert (1 <= z / N) by (apply Z.div_le_lower_bound; lia). lia.
Qed.
End Cube.
Lemma tet_adjoint N : 0 < N -> adjoint (N * N * N) (tet_synthesis FT false true N N N) (tet_synthesis FT true false N N N).
Proof.
  intros HN. destruct (one_by_one N HN) as [->|H1]; [exact (adjoint_id 1)|]. rewrite <- Z.mul_assoc.
  eapply (ev_adjoint N (N * N)); [lia|nia| |apply tet_syn_ev; auto|apply tet_synT_ev; auto]. intros l z k j Hl Hz Hk Hj. cbv beta. unfold kron. rewrite !t_01 by auto. rewrite tw3_eq by auto. ring.
Qed.
Lemma tet_ana_adjoint N : 0 < N -> adjoint (N * N * N) (tet_analysis FT false false N N N) (tet_analysis FT true true N N N).
Proof.
  intros HN. destruct (one_by_one N HN) as [->|H1]; [exact (adjoint_id 1)|]. rewrite <- Z.mul_assoc.
  apply adjoint_sym. eapply (ev_adjoint N (N * N)); [lia|nia| |apply tet_anaT_ev; auto|apply tet_ana_ev; auto]. intros l z k j Hl Hz Hk Hj. cbv beta. unfold kron. rewrite !t_01 by auto. rewrite tw3_eq by auto.
  cases; field; apply IZR_neq; nia.
Qed.
Lemma tet_grid N : 0 < N -> evaluates3 N N N (fun l k => cosine N l (theta N k)) (fun l k => cosine N l (theta N k)) (fun l k => cosine N l (theta N k)) (tet_synthesis FT false true N N N).
Proof.
  intros HN. destruct (one_by_one N HN) as [->|H1].
  - intros X LX. exists X. split; auto. split; auto. intros i j k Hi Hj Hk. rewrite !sumZ_1. unfold cosine. rewrite !Rmult_0_l, cos_0. replace (i + (j + k * 1) * 1) with 0 by lia. cbn [Z.add Z.mul]. ring.
  - intros X LX. destruct (tet_syn_ev N H1 X) as (X' & E & L & V); [lia|]. exists X'. split; auto. split; [lia|]. intros i j k Hi Hj Hk.
    rewrite V by (try apply in_grid; auto; nia). rewrite sumZ_block by lia. apply sumZ_ext. intros c Hc. apply sumZ_ext. intros b Hb. apply sumZ_ext. intros a Ha.
    rewrite tw3_eq by (try nia; auto). unfold kron. destruct (blk N c b Hb) as (-> & ->). replace (j + k * N) with (k * N + j) by lia. destruct (blk N k j Hj) as (-> & ->).
    pose proof (c01 N i a HN) as E1. pose proof (c01 N j b HN) as E2. pose proof (c01 N k c HN) as E3.
    replace (b + c * N) with (c * N + b) by lia. rewrite <- Rmult_assoc. rewrite <- !Rmult_assoc. f_equal.
    transitivity (1 / 8 * (kind_mat REDFT01 N i a * (if a =? 0 then 2 else 1)) * (kind_mat REDFT01 N j b * (if b =? 0 then 2 else 1)) * (kind_mat REDFT01 N k c * (if c =? 0 then 2 else 1)))%R; [ring|]. rewrite E1, E2, E3. field.
Qed.
End Tet.
