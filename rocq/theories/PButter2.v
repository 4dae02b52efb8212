(** * Proofs: products and solves with divide-and-conquer eigenvector plans *)
From Coq Require Import ZArith List Lia Bool Reals Lra ZifyBool ZifyNat.
From Verif Require Import Arith Base BaseFacts SpecSum PSum SpecLin SpecBanded PTri PTri2 MBanded MHier SpecHier PHier2 PHierThms PBandedThms MButter SpecButter PButter.
Import ListNotations.
Open Scope Z_scope.

Lemma vec_shift s o (x : list R) c : vec o x (s + c) = vec (o + s) x c.
Proof. unfold vec. f_equal. lia. Qed.
Lemma vec_keep (x y : list R) o' n' k c : (forall p, p < o' \/ o' + n' <= p -> zget y p = zget x p) -> k + c < o' \/ o' + n' <= k + c -> vec k y c = vec k x c.
Proof. intros H Hc. unfold vec, nthZ. now rewrite H by lia. Qed.

Section Block.
Variables (s m : Z) (V1 W V2 : Z -> Z -> R).
Hypothesis Hs : 0 <= s.
Hypothesis Hm : 0 <= m.
Notation BM := (block_mat s V1 W V2).
Lemma bm_top v i : 0 <= i < s -> matvec (s + m) BM v i = matvec s V1 (fun a => v a + matvec m W (fun c => v (s + c)%Z) a)%R i.
Proof.
  intros Hi. unfold matvec at 1. rewrite sumZ_app by lia.
  rewrite (sumZ_ext s _ (fun k => V1 i k * v k)%R). 2:{ intros k Hk. unfold block_mat. rewrite (proj2 (Z.ltb_lt i s)), (proj2 (Z.ltb_lt k s)) by lia. reflexivity. }
  rewrite (sumZ_ext m _ (fun c => matmul s V1 W i c * v (s + c)%Z)%R).
  2:{ intros c Hc. unfold block_mat. rewrite (proj2 (Z.ltb_lt i s)), (proj2 (Z.ltb_ge (s + c) s)) by lia. replace (s + c - s) with c by lia. reflexivity. }
  change (sumZ m (fun c => matmul s V1 W i c * v (s + c)%Z)%R) with (matvec m (matmul s V1 W) (fun c => v (s + c)) i). rewrite mv_assoc.
  unfold matvec. rewrite <- sumZ_plus. apply sumZ_ext. intros. lra.
Qed.
Lemma bm_bot v i : 0 <= i < m -> matvec (s + m) BM v (s + i) = matvec m V2 (fun c => v (s + c)%Z) i.
Proof.
  intros Hi. unfold matvec. rewrite sumZ_app by lia.
  rewrite (sumZ_ext s _ (fun _ => 0%R)). 2:{ intros k Hk. unfold block_mat. rewrite (proj2 (Z.ltb_ge (s + i) s)), (proj2 (Z.ltb_lt k s)) by lia. lra. }
  rewrite (sumZ_zero s (fun _ => 0%R)) by auto. rewrite Rplus_0_l. apply sumZ_ext. intros c Hc. unfold block_mat. rewrite (proj2 (Z.ltb_ge (s + i) s)), (proj2 (Z.ltb_ge (s + c) s)) by lia.
  replace (s + i - s) with i by lia. replace (s + c - s) with c by lia. reflexivity.
Qed.
Lemma bt_top v i : 0 <= i < s -> matvec (s + m) (transp BM) v i = matvec s (transp V1) v i.
Proof.
  intros Hi. unfold matvec. rewrite sumZ_app by lia.
  rewrite (sumZ_ext m _ (fun _ => 0%R)). 2:{ intros k Hk. unfold transp, block_mat. rewrite (proj2 (Z.ltb_ge (s + k) s)), (proj2 (Z.ltb_lt i s)) by lia. lra. }
  rewrite (sumZ_zero m (fun _ => 0%R)) by auto. rewrite Rplus_0_r. apply sumZ_ext. intros k Hk. unfold transp, block_mat. now rewrite (proj2 (Z.ltb_lt i s)), (proj2 (Z.ltb_lt k s)) by lia.
Qed.
Lemma bt_bot v i : 0 <= i < m -> matvec (s + m) (transp BM) v (s + i) = (matvec m (transp V2) (fun c => v (s + c)%Z) i + matvec s (transp W) (matvec s (transp V1) v) i)%R.
Proof.
  intros Hi. unfold matvec at 1. rewrite sumZ_app by lia. rewrite Rplus_comm. f_equal.
  - apply sumZ_ext. intros c Hc. unfold transp, block_mat. rewrite (proj2 (Z.ltb_ge (s + i) s)), (proj2 (Z.ltb_ge (s + c) s)) by lia.
    replace (s + i - s) with i by lia. replace (s + c - s) with c by lia. reflexivity.
  - rewrite <- mv_assoc. apply sumZ_ext. intros k Hk. f_equal. rewrite <- transp_mm. unfold transp, block_mat.
    rewrite (proj2 (Z.ltb_lt k s)), (proj2 (Z.ltb_ge (s + i) s)) by lia. now replace (s + i - s) with i by lia.
Qed.
Lemma bm_upper : upper_tri s V1 -> upper_tri m V2 -> upper_tri (s + m) BM.
Proof.
  intros U1 U2 i k Hi Hk Hl. unfold block_mat. destruct (Z.ltb_spec i s).
  - rewrite (proj2 (Z.ltb_lt k s)) by lia. apply U1; lia.
  - destruct (Z.ltb_spec k s); auto. apply U2; lia.
Qed.
Lemma bm_diag : nonzero_diag (s + m) BM -> nonzero_diag s V1 /\ nonzero_diag m V2.
Proof.
  intros D. split; intros i Hi.
  - specialize (D i ltac:(lia)). unfold block_mat in D. now rewrite (proj2 (Z.ltb_lt i s)) in D by lia.
  - specialize (D (s + i) ltac:(lia)). unfold block_mat in D. rewrite (proj2 (Z.ltb_ge (s + i) s)) in D by lia. now replace (s + i - s) with i in D by lia.
Qed.
Variable o : Z.
Lemma node_mul_N x x1 x2 x3 : writes o s x x1 (fun a => (vec o x a + 1 * matvec m W (vec (o + s) x) a)%R) ->
  acts o s x1 x2 (isprod s V1) -> acts (o + s) m x2 x3 (isprod m V2) -> acts o (s + m) x x3 (isprod (s + m) BM).
Proof.
  intros W1 (L2 & P2 & O2) (L3 & P3 & O3). pose proof W1 as (L1 & G1 & O1). split; [lia|]. split.
  - intros i Hi. destruct (Z_lt_dec i s).
    + rewrite bm_top by lia. rewrite (vec_keep _ _ _ _ _ _ O3) by lia. rewrite P2 by lia. apply mv_ext; auto. intros k Hk.
      rewrite (writes_vec _ _ _ _ _ _ W1) by lia. rewrite Rmult_1_l. f_equal. apply mv_ext; auto. intros c Hc. now rewrite vec_shift.
    + replace i with (s + (i - s)) by lia. rewrite bm_bot by lia. rewrite vec_shift, P3 by lia. apply mv_ext; auto. intros c Hc. rewrite vec_shift.
      rewrite (vec_keep _ _ _ _ _ _ O2) by lia. now rewrite (vec_keep _ _ _ _ _ _ O1) by lia.
  - intros p Hp. now rewrite O3, O2, O1 by lia.
Qed.
Lemma node_sol_N x x1 x2 x3 : acts o s x x1 (fun v w => isprod s V1 w v) -> acts (o + s) m x1 x2 (fun v w => isprod m V2 w v) ->
  writes o s x2 x3 (fun a => (vec o x2 a + -1 * matvec m W (vec (o + s) x2) a)%R) -> acts o (s + m) x x3 (fun v w => isprod (s + m) BM w v).
Proof.
  intros (L1 & P1 & O1) (L2 & P2 & O2) W3. pose proof W3 as (L3 & G3 & O3). split; [lia|]. split.
  - intros i Hi. destruct (Z_lt_dec i s).
    + rewrite bm_top by lia. rewrite P1 by lia. apply mv_ext; auto. intros k Hk.
      rewrite (writes_vec _ _ _ _ _ _ W3) by lia. rewrite (mv_ext m W W (fun c => vec o x3 (s + c)) (vec (o + s) x2) k); auto.
      * rewrite (vec_keep _ _ _ _ _ _ O2) by lia. lra.
      * intros c Hc. rewrite vec_shift. now rewrite (vec_keep _ _ _ _ _ _ O3) by lia.
    + replace i with (s + (i - s)) by lia. rewrite bm_bot by lia. rewrite vec_shift. rewrite <- (vec_keep _ _ _ _ _ _ O1) by lia. rewrite P2 by lia.
      apply mv_ext; auto. intros c Hc. rewrite vec_shift. now rewrite (vec_keep _ _ _ _ _ _ O3) by lia.
  - intros p Hp. now rewrite O3, O2, O1 by lia.
Qed.
Lemma node_mul_T x x1 x2 x3 : acts o s x x1 (isprod s (transp V1)) -> acts (o + s) m x1 x2 (isprod m (transp V2)) ->
  writes (o + s) m x2 x3 (fun c => (vec (o + s) x2 c + 1 * matvec s (transp W) (vec o x2) c)%R) -> acts o (s + m) x x3 (isprod (s + m) (transp BM)).
Proof.
  intros (L1 & P1 & O1) (L2 & P2 & O2) W3. pose proof W3 as (L3 & G3 & O3). split; [lia|]. split.
  - intros i Hi. destruct (Z_lt_dec i s).
    + rewrite bt_top by lia. rewrite (vec_keep _ _ _ _ _ _ O3), (vec_keep _ _ _ _ _ _ O2) by lia. now rewrite P1 by lia.
    + replace i with (s + (i - s)) by lia. rewrite bt_bot by lia. rewrite vec_shift. rewrite (writes_vec _ _ _ _ _ _ W3) by lia. rewrite Rmult_1_l. f_equal.
      * rewrite P2 by lia. apply mv_ext; auto. intros c Hc. rewrite vec_shift. now rewrite (vec_keep _ _ _ _ _ _ O1) by lia.
      * apply mv_ext; auto. intros c Hc. rewrite (vec_keep _ _ _ _ _ _ O2) by lia. now rewrite P1 by lia.
  - intros p Hp. now rewrite O3, O2, O1 by lia.
Qed.
Lemma node_sol_T x x1 x2 x3 : writes (o + s) m x x1 (fun c => (vec (o + s) x c + -1 * matvec s (transp W) (vec o x) c)%R) ->
  acts o s x1 x2 (fun v w => isprod s (transp V1) w v) -> acts (o + s) m x2 x3 (fun v w => isprod m (transp V2) w v) -> acts o (s + m) x x3 (fun v w => isprod (s + m) (transp BM) w v).
Proof.
  intros W1 (L2 & P2 & O2) (L3 & P3 & O3). pose proof W1 as (L1 & G1 & O1). split; [lia|]. split.
  - intros i Hi. destruct (Z_lt_dec i s).
    + rewrite bt_top by lia. rewrite <- (vec_keep _ _ _ _ _ _ O1) by lia. rewrite P2 by lia. apply mv_ext; auto. intros k Hk. now rewrite (vec_keep _ _ _ _ _ _ O3) by lia.
    + replace i with (s + (i - s)) by lia. rewrite bt_bot by lia. rewrite vec_shift.
      assert (E : matvec m (transp V2) (fun c => vec o x3 (s + c)) (i - s) = vec (o + s) x1 (i - s)).
      { rewrite <- (vec_keep _ _ _ _ _ _ O2) by lia. rewrite P3 by lia. apply mv_ext; auto. intros c Hc. now rewrite vec_shift. }
      rewrite E. rewrite (writes_vec _ _ _ _ _ _ W1) by lia.
      rewrite (mv_ext s (transp W) (transp W) (matvec s (transp V1) (vec o x3)) (vec o x) (i - s)); auto; [lra|].
      intros c Hc. rewrite <- (vec_keep _ _ _ _ _ _ O1) by lia. rewrite P2 by lia. apply mv_ext; auto. intros k Hk. now rewrite (vec_keep _ _ _ _ _ _ O3) by lia.
  - intros p Hp. now rewrite O3, O2, O1 by lia.
Qed.
End Block.

Lemma acts_fits' o n x x' P o' n' : acts o n x x' P -> fits o' n' x -> fits o' n' x'.
Proof. intros (L & _) [H0 H1]. split; lia. Qed.
Lemma leaf_fits n (V : list R) : 0 <= n -> n * n <= zlen V -> fits_mat 0 n n n V.
Proof. intros. split; [lia|]. split; [lia|]. intros. nia. Qed.
Lemma tb_n_nonneg {F} BS tn (E : tbeig F) : tb_wf BS tn E -> 0 <= tbeig_n E.
Proof. destruct E; cbn; lia. Qed.
Lemma ad_n_nonneg {F} BS (E : tbadi F) : ad_wf BS E -> 0 <= tbadi_n E.
Proof. destruct E; cbn; lia. Qed.

Theorem bfmv_proof BS tn E : 0 <= tn -> tb_wf BS tn E -> forall t x o, fits o (tbeig_n E) x ->
  exists x', bfmv BS tn t E x o = Some x' /\ acts o (tbeig_n E) x x' (isprod (tbeig_n E) (op t (tb_V E))).
Proof.
  intros Htn. induction E as [n V|n b F0 X Y p1 p2 Sp t1 t2 F1 IH1 F2 IH2]; intros Hw t x o Hx.
  - cbn [bfmv tbeig_n tb_V] in *. destruct Hw as [Hn HV]. rewrite (proj2 (Z.ltb_lt n BS)) by lia. apply trmv_gen_proof; auto; try lia. apply leaf_fits; lia.
  - cbn [bfmv tbeig_n tb_V] in *. destruct Hw as (Hn & HBS & Hb & HF & Hr & Hc & HX & HY & Hp1 & Hp2 & HS & Ht1 & Ht2 & N1 & N2 & w1 & w2).
    rewrite (proj2 (Z.ltb_ge n BS)) by lia. specialize (IH1 w1). specialize (IH2 w2). rewrite N1 in IH1. rewrite N2 in IH2. destruct Hx as [X1 X2].
    set (s := n / 2) in *. set (m := n - s) in *. assert (Hs : 0 <= s) by (unfold s; lia). assert (Hm : 0 <= m) by (unfold m, s; lia). assert (Hsm : s + m = n) by (unfold m; lia).
    rewrite <- Hsm. destruct t; cbn [op].
    + destruct (IH1 true x o) as (x1 & E1 & A1). { split; lia. } rewrite E1. cbn [obind].
      destruct (IH2 true x1 (o + s)) as (x2 & E2 & A2). { eapply acts_fits'; eauto. split; lia. } rewrite E2. cbn [obind].
      destruct (couple_T tn n b F0 X Y p1 p2 Sp t1 t2) with (sg := 1%R) (minus := false) (x := x2) (o := o) as (x3 & E3 & W3); auto.
      { eapply acts_fits'; eauto. eapply acts_fits'; eauto. split; lia. }
      rewrite Hsm. change (opp one) with (-(1))%R. fold s in E3. rewrite E3. eexists; split; [reflexivity|]. rewrite <- Hsm. eapply node_mul_T; eauto.
    + destruct (couple_N tn n b F0 X Y p1 p2 Sp t1 t2) with (sg := 1%R) (minus := false) (x := x) (o := o) as (x1 & E1 & W1); auto.
      { split; lia. } rewrite Hsm. change (opp one) with (-(1))%R. fold s in E1. rewrite E1. cbn [obind].
      destruct (IH1 false x1 o) as (x2 & E2 & A2). { eapply writes_fits; eauto. split; lia. } rewrite E2. cbn [obind].
      destruct (IH2 false x2 (o + s)) as (x3 & E3 & A3). { eapply acts_fits'; eauto. eapply writes_fits; eauto. split; lia. } rewrite E3.
      eexists; split; [reflexivity|]. rewrite <- Hsm. eapply node_mul_N; eauto.
Qed.
Theorem bfsv_proof BS tn E : 0 <= tn -> tb_wf BS tn E -> nonzero_diag (tbeig_n E) (tb_V E) -> forall t x o, fits o (tbeig_n E) x ->
  exists x', bfsv BS tn t E x o = Some x' /\ acts o (tbeig_n E) x x' (fun v w => isprod (tbeig_n E) (op t (tb_V E)) w v).
Proof.
  intros Htn. induction E as [n V|n b F0 X Y p1 p2 Sp t1 t2 F1 IH1 F2 IH2]; intros Hw HD t x o Hx.
  - cbn [bfsv tbeig_n tb_V] in *. destruct Hw as [Hn HV]. rewrite (proj2 (Z.ltb_lt n BS)) by lia. apply trsv_gen_proof; auto; try lia. { apply leaf_fits; lia. }
    intros i Hi. specialize (HD i Hi). unfold upper in HD. now rewrite (proj2 (Z.leb_le i i)) in HD by lia.
  - cbn [bfsv tbeig_n tb_V] in *. destruct Hw as (Hn & HBS & Hb & HF & Hr & Hc & HX & HY & Hp1 & Hp2 & HS & Ht1 & Ht2 & N1 & N2 & w1 & w2).
    rewrite (proj2 (Z.ltb_ge n BS)) by lia. specialize (IH1 w1). specialize (IH2 w2). rewrite N1 in IH1. rewrite N2 in IH2. destruct Hx as [X1 X2].
    set (s := n / 2) in *. set (m := n - s) in *. assert (Hs : 0 <= s) by (unfold s; lia). assert (Hm : 0 <= m) by (unfold m, s; lia). assert (Hsm : s + m = n) by (unfold m; lia).
    rewrite <- Hsm in HD. destruct (bm_diag s m _ _ _ Hs Hm HD) as [D1 D2]. specialize (IH1 D1). specialize (IH2 D2).
    rewrite <- Hsm. destruct t; cbn [op].
    + destruct (couple_T tn n b F0 X Y p1 p2 Sp t1 t2) with (sg := (-1)%R) (minus := true) (x := x) (o := o) as (x1 & E1 & W1); auto.
      { split; lia. } rewrite Hsm. replace (- (-1))%R with (@one R R_arith) in E1 by (cbn; lra). fold s in E1. rewrite E1. cbn [obind].
      destruct (IH1 true x1 o) as (x2 & E2 & A2). { eapply writes_fits; eauto. split; lia. } rewrite E2. cbn [obind].
      destruct (IH2 true x2 (o + s)) as (x3 & E3 & A3). { eapply acts_fits'; eauto. eapply writes_fits; eauto. split; lia. } rewrite E3.
      eexists; split; [reflexivity|]. rewrite <- Hsm. eapply node_sol_T; eauto.
    + destruct (IH1 false x o) as (x1 & E1 & A1). { split; lia. } rewrite E1. cbn [obind].
      destruct (IH2 false x1 (o + s)) as (x2 & E2 & A2). { eapply acts_fits'; eauto. split; lia. } rewrite E2. cbn [obind].
      destruct (couple_N tn n b F0 X Y p1 p2 Sp t1 t2) with (sg := (-1)%R) (minus := true) (x := x2) (o := o) as (x3 & E3 & W3); auto.
      { eapply acts_fits'; eauto. eapply acts_fits'; eauto. split; lia. }
      rewrite Hsm. replace (- (-1))%R with (@one R R_arith) in E3 by (cbn; lra). fold s in E3. rewrite E3. eexists; split; [reflexivity|]. rewrite <- Hsm. eapply node_sol_N; eauto.
Qed.
Lemma tb_V_upper BS tn E : tb_wf BS tn E -> upper_tri (tbeig_n E) (tb_V E).
Proof.
  induction E as [n V|n b F0 X Y p1 p2 Sp t1 t2 F1 IH1 F2 IH2]; intros Hw; cbn [tbeig_n tb_V] in *.
  - apply upper_upper.
  - destruct Hw as (Hn & HBS & Hb & HF & Hr & Hc & HX & HY & Hp1 & Hp2 & HS & Ht1 & Ht2 & N1 & N2 & w1 & w2).
    replace n with (n / 2 + (n - n / 2)) at 1 by lia. specialize (IH1 w1). specialize (IH2 w2). rewrite N1 in IH1. rewrite N2 in IH2. apply bm_upper; auto; lia.
Qed.
Theorem bf_inverse_proof BS tn E : 0 <= tn -> tb_wf BS tn E -> nonzero_diag (tbeig_n E) (tb_V E) -> forall t x o, fits o (tbeig_n E) x ->
  (do y <- bfmv BS tn t E x o; bfsv BS tn t E y o) = Some x /\ (do y <- bfsv BS tn t E x o; bfmv BS tn t E y o) = Some x.
Proof.
  intros Htn Hw HD t x o Hx. split.
  - destruct (bfmv_proof BS tn E Htn Hw t x o Hx) as (y & E1 & A1). rewrite E1. cbn [obind].
    destruct (bfsv_proof BS tn E Htn Hw HD t y o) as (z & E2 & A2). { eapply acts_fits; eauto. } rewrite E2. f_equal.
    eapply solve_mul_id; [exact Hx| | |exact A1|exact A2]. { apply op_tri. left. eapply tb_V_upper; eauto. } now apply op_diag.
  - destruct (bfsv_proof BS tn E Htn Hw HD t x o Hx) as (y & E1 & A1). rewrite E1. cbn [obind].
    destruct (bfmv_proof BS tn E Htn Hw t y o) as (z & E2 & A2). { eapply acts_fits; eauto. } rewrite E2. f_equal.
    eapply mul_solve_id; [exact Hx|exact A1|exact A2].
Qed.
(** ** the low-rank variant *)
Lemma writes_ext {F} o n (x x' : list F) v w : (forall i, 0 <= i < n -> v i = w i) -> writes o n x x' v -> writes o n x x' w.
Proof. intros H (L & G & O). split; auto. split; auto. intros i Hi. rewrite G by auto. now rewrite H. Qed.
Lemma lr_step t sg L x ox oy : lr_ok L -> fits ox (ocols t (lr_m L) (lr_n L)) x -> fits oy (orows t (lr_m L) (lr_n L)) x ->
  exists x', lrmv t sg L x ox one x oy = Some x' /\
    writes oy (orows t (lr_m L) (lr_n L)) x x' (fun i => (vec oy x i + sg * matvec (ocols t (lr_m L) (lr_n L)) (op t (lr_mat L)) (vec ox x) i)%R).
Proof.
  intros HL Hx Hy. destruct (lrmv_proof L HL t sg x ox 1%R x oy Hx Hy) as (x' & E & W). exists x'. split; auto. eapply writes_ext; [|exact W]. intros. cbn. lra.
Qed.
Theorem bfmv_ADI_proof BS E : ad_wf BS E -> forall t x o, fits o (tbadi_n E) x ->
  exists x', bfmv_ADI BS t E x o = Some x' /\ acts o (tbadi_n E) x x' (isprod (tbadi_n E) (op t (ad_V E))).
Proof.
  induction E as [n V|n F0 F1 IH1 F2 IH2]; intros Hw t x o Hx.
  - cbn [bfmv_ADI tbadi_n ad_V] in *. destruct Hw as [Hn HV]. rewrite (proj2 (Z.ltb_lt n BS)) by lia. apply trmv_gen_proof; auto; try lia. apply leaf_fits; lia.
  - cbn [bfmv_ADI tbadi_n ad_V] in *. destruct Hw as (Hn & HBS & HF & Hr & Hc & N1 & N2 & w1 & w2).
    rewrite (proj2 (Z.ltb_ge n BS)) by lia. specialize (IH1 w1). specialize (IH2 w2). rewrite N1 in IH1. rewrite N2 in IH2. destruct Hx as [X1 X2].
    set (s := n / 2) in *. set (m := n - s) in *. assert (Hs : 0 <= s) by (unfold s; lia). assert (Hm : 0 <= m) by (unfold m, s; lia). assert (Hsm : s + m = n) by (unfold m; lia).
    rewrite <- Hsm. destruct t; cbn [op].
    + destruct (IH1 true x o) as (x1 & E1 & A1). { split; lia. } rewrite E1. cbn [obind].
      destruct (IH2 true x1 (o + s)) as (x2 & E2 & A2). { eapply acts_fits'; eauto. split; lia. } rewrite E2. cbn [obind].
      destruct (lr_step true one F0 x2 o (o + s)) as (x3 & E3 & W3); auto. 1,2: rewrite Hr, Hc; cbn [orows ocols]; eapply acts_fits'; eauto; eapply acts_fits'; eauto; split; lia.
      rewrite E3. eexists; split; [reflexivity|]. rewrite Hr, Hc in W3. cbn [op] in W3. eapply node_mul_T; eauto.
    + destruct (lr_step false one F0 x (o + s) o) as (x1 & E1 & W1); auto. 1,2: rewrite Hr, Hc; cbn [orows ocols]; split; lia.
      rewrite E1. cbn [obind]. rewrite Hr, Hc in W1. cbn [op orows ocols] in W1.
      destruct (IH1 false x1 o) as (x2 & E2 & A2). { eapply writes_fits; eauto. split; lia. } rewrite E2. cbn [obind].
      destruct (IH2 false x2 (o + s)) as (x3 & E3 & A3). { eapply acts_fits'; eauto. eapply writes_fits; eauto. split; lia. } rewrite E3.
      eexists; split; [reflexivity|]. eapply node_mul_N; eauto.
Qed.
Theorem bfsv_ADI_proof BS E : ad_wf BS E -> nonzero_diag (tbadi_n E) (ad_V E) -> forall t x o, fits o (tbadi_n E) x ->
  exists x', bfsv_ADI BS t E x o = Some x' /\ acts o (tbadi_n E) x x' (fun v w => isprod (tbadi_n E) (op t (ad_V E)) w v).
Proof.
  induction E as [n V|n F0 F1 IH1 F2 IH2]; intros Hw HD t x o Hx.
  - cbn [bfsv_ADI tbadi_n ad_V] in *. destruct Hw as [Hn HV]. rewrite (proj2 (Z.ltb_lt n BS)) by lia. apply trsv_gen_proof; auto; try lia. { apply leaf_fits; lia. }
    intros i Hi. specialize (HD i Hi). unfold upper in HD. now rewrite (proj2 (Z.leb_le i i)) in HD by lia.
  - cbn [bfsv_ADI tbadi_n ad_V] in *. destruct Hw as (Hn & HBS & HF & Hr & Hc & N1 & N2 & w1 & w2).
    rewrite (proj2 (Z.ltb_ge n BS)) by lia. specialize (IH1 w1). specialize (IH2 w2). rewrite N1 in IH1. rewrite N2 in IH2. destruct Hx as [X1 X2].
    set (s := n / 2) in *. set (m := n - s) in *. assert (Hs : 0 <= s) by (unfold s; lia). assert (Hm : 0 <= m) by (unfold m, s; lia). assert (Hsm : s + m = n) by (unfold m; lia).
    rewrite <- Hsm in HD. destruct (bm_diag s m _ _ _ Hs Hm HD) as [D1 D2]. specialize (IH1 D1). specialize (IH2 D2).
    rewrite <- Hsm. change (opp one) with (-(1))%R. replace (-(1))%R with (-1)%R by lra. destruct t; cbn [op].
    + destruct (lr_step true (-1)%R F0 x o (o + s)) as (x1 & E1 & W1); auto. 1,2: rewrite Hr, Hc; cbn [orows ocols]; split; lia.
      rewrite E1. cbn [obind]. rewrite Hr, Hc in W1. cbn [op orows ocols] in W1.
      destruct (IH1 true x1 o) as (x2 & E2 & A2). { eapply writes_fits; eauto. split; lia. } rewrite E2. cbn [obind].
      destruct (IH2 true x2 (o + s)) as (x3 & E3 & A3). { eapply acts_fits'; eauto. eapply writes_fits; eauto. split; lia. } rewrite E3.
      eexists; split; [reflexivity|]. eapply node_sol_T; eauto.
    + destruct (IH1 false x o) as (x1 & E1 & A1). { split; lia. } rewrite E1. cbn [obind].
      destruct (IH2 false x1 (o + s)) as (x2 & E2 & A2). { eapply acts_fits'; eauto. split; lia. } rewrite E2. cbn [obind].
      destruct (lr_step false (-1)%R F0 x2 (o + s) o) as (x3 & E3 & W3); auto. 1,2: rewrite Hr, Hc; cbn [orows ocols]; eapply acts_fits'; eauto; eapply acts_fits'; eauto; split; lia.
      rewrite E3. eexists; split; [reflexivity|]. rewrite Hr, Hc in W3. cbn [op] in W3. eapply node_sol_N; eauto.
Qed.
Lemma ad_V_upper BS E : ad_wf BS E -> upper_tri (tbadi_n E) (ad_V E).
Proof.
  induction E as [n V|n F0 F1 IH1 F2 IH2]; intros Hw; cbn [tbadi_n ad_V] in *.
  - apply upper_upper.
  - destruct Hw as (Hn & HBS & HF & Hr & Hc & N1 & N2 & w1 & w2).
    replace n with (n / 2 + (n - n / 2)) at 1 by lia. specialize (IH1 w1). specialize (IH2 w2). rewrite N1 in IH1. rewrite N2 in IH2. apply bm_upper; auto; lia.
Qed.
Theorem bf_ADI_inverse_proof BS E : ad_wf BS E -> nonzero_diag (tbadi_n E) (ad_V E) -> forall t x o, fits o (tbadi_n E) x ->
  (do y <- bfmv_ADI BS t E x o; bfsv_ADI BS t E y o) = Some x /\ (do y <- bfsv_ADI BS t E x o; bfmv_ADI BS t E y o) = Some x.
Proof.
  intros Hw HD t x o Hx. split.
  - destruct (bfmv_ADI_proof BS E Hw t x o Hx) as (y & E1 & A1). rewrite E1. cbn [obind].
    destruct (bfsv_ADI_proof BS E Hw HD t y o) as (z & E2 & A2). { eapply acts_fits; eauto. } rewrite E2. f_equal.
    eapply solve_mul_id; [exact Hx| | |exact A1|exact A2]. { apply op_tri. left. eapply ad_V_upper; eauto. } now apply op_diag.
  - destruct (bfsv_ADI_proof BS E Hw HD t x o Hx) as (y & E1 & A1). rewrite E1. cbn [obind].
    destruct (bfmv_ADI_proof BS E Hw t y o) as (z & E2 & A2). { eapply acts_fits; eauto. } rewrite E2. f_equal.
    eapply mul_solve_id; [exact Hx|exact A1|exact A2].
Qed.
(** ** columns *)
Lemma columns_both (f g : list R -> Z -> option (list R)) n N LDB B U : 0 <= n -> 0 <= N -> fits_mat 0 n N LDB B ->
  upper_tri n U \/ lower_tri n U -> nonzero_diag n U ->
  (forall x o, fits o n x -> exists x', f x o = Some x' /\ acts o n x x' (isprod n U)) ->
  (forall x o, fits o n x -> exists x', g x o = Some x' /\ acts o n x x' (fun v w => isprod n U w v)) ->
  (exists B', columnwise f B LDB N = Some B' /\ acts_columns n N LDB B B' (isprod n U)) /\
  (do B' <- columnwise f B LDB N; columnwise g B' LDB N) = Some B /\ (do B' <- columnwise g B LDB N; columnwise f B' LDB N) = Some B.
Proof.
  intros Hn HN HB HT HD Hf Hg. split; [|split].
  - apply columnwise_proof; auto. intros; eapply isprod_ext; eauto.
  - apply (columnwise_inverse _ _ n N LDB B (isprod n U)); auto.
    + intros; eapply isprod_ext; eauto.
    + intros v v' w P1 P2. apply (tri_unique n U); auto. intros i Hi. now rewrite <- P1, <- P2.
  - apply (columnwise_inverse _ _ n N LDB B (fun v w => isprod n U w v)); auto.
    + intros v v' w w' Hv Hw H1. eapply isprod_ext; eauto.
    + intros v v' w P1 P2 i Hi. now rewrite P1, P2.
Qed.
