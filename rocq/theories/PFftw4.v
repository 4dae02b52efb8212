(** Synthesis and analysis on the sphere, the disk, the annulus and the rectangularised disk *)
From Coq Require Import ZArith List Lia Bool Reals Lra ZifyBool ZifyNat.
From Verif Require Import Base Arith BaseFacts SpecSum PSum SpecLin PTri MHarmonic SpecHarm PDrivers4 PHarm PHarm2 PHarm3 MFftw SpecFftw PTrig PFftw PFftw2 PFftw3.
Open Scope Z_scope.

Lemma obind_assoc {A B C} (o : option A) (f : A -> option B) (g : B -> option C) : obind (obind o f) g = obind o (fun x => obind (f x) g).
Proof. now destruct o. Qed.
Ltac assoc := intros; cbv beta; repeat (repeat rewrite obind_assoc; match goal with |- obind ?o _ = obind ?o' _ => change o' with o; destruct o; cbn [obind]; [|reflexivity] end); repeat rewrite obind_assoc; try reflexivity.

(** ** the kinds and their transposes *)
Lemma t_01 n k l : 0 < n -> kind_mat REDFT10 n l k = (kind_mat REDFT01 n k l * (if l =? 0 then 2 else 1))%R.
Proof.
  intros Hn. rewrite r10, r01 by auto. destruct (Z.eqb_spec l 0).
  - subst. rewrite Rmult_0_l, cos_0. ring.
  - ring.
Qed.
Lemma sin_last n k : 0 < n -> sin ((IZR (n - 1) + 1) * theta n k) = if Z.even k then 1%R else (-1)%R.
Proof.
  intros Hn. assert (rn : (IZR n <> 0)%R) by (apply IZR_neq; lia). rewrite minus_IZR. unfold theta.
  replace ((IZR n - 1 + 1) * (PI * (IZR k + / 2) / IZR n))%R with (IZR k * PI + PI / 2)%R by (field; auto).
  rewrite sin_plus, cos_PI2, sin_PI2, cos_mult_pi. ring.
Qed.
Lemma o01s n k l : 0 < n -> kind_mat RODFT01 n k l = (2 * sine n l (theta n k))%R.
Proof.
  intros Hn. assert (rn : (IZR n <> 0)%R) by (apply IZR_neq; lia). unfold sine. unfold kind_mat. destruct (Z.eqb_spec l (n - 1)).
  - subst. rewrite sin_last by auto. cases; field.
  - rewrite Rmult_1_l. do 2 f_equal. unfold theta. field. auto.
Qed.
Lemma t_o01 n k l : 0 < n -> kind_mat RODFT01 n k l = (kind_mat RODFT10 n l k * (if (l =? n - 1)%Z then / 2 else 1))%R.
Proof.
  intros Hn. rewrite o01s by auto. unfold sine, kind_mat.
  replace (PI * (IZR k + / 2) * (IZR l + 1) / IZR n)%R with ((IZR l + 1) * theta n k)%R by (unfold theta; field; apply IZR_neq; lia). ring.
Qed.
Lemma t_11 n k l : kind_mat REDFT11 n k l = kind_mat REDFT11 n l k.
Proof. unfold kind_mat. f_equal. f_equal. unfold Rdiv. ring. Qed.
Lemma c01 n k l : 0 < n -> (kind_mat REDFT01 n k l * (if l =? 0 then 2 else 1) = 2 * cosine n l (theta n k))%R.
Proof. intros Hn. rewrite <- t_01, r10 by auto. reflexivity. Qed.

(** ** the azimuthal factor *)
Definition az (z : Z) : R := if z =? 0 then (/ sqrt (2 * PI))%R else (/ (2 * sqrt PI))%R.
Lemma sPI : (0 < sqrt PI)%R. Proof. apply sqrt_lt_R0. apply PI_RGT_0. Qed.
Lemma s2PI : sqrt (2 * PI) = (sqrt 2 * sqrt PI)%R. Proof. apply sqrt_mult; [lra|]. left. apply PI_RGT_0. Qed.
Lemma s2 : (0 < sqrt 2)%R. Proof. apply sqrt_lt_R0. lra. Qed.
Lemma s22 : (sqrt 2 * sqrt 2 = 2)%R. Proof. apply sqrt_sqrt. lra. Qed.
Lemma azimuth_az M z j : 0 < M -> azimuth z (phi M j) = (az z * Wm M j z)%R.
Proof.
  intros HM. assert (rm : (IZR M <> 0)%R) by (apply IZR_neq; lia). pose proof sPI. unfold azimuth, az, Wm, Vm. destruct (Z.eqb_spec z 0). { ring. }
  assert (E : forall k, (IZR k * phi M j)%R = angle M j k). { intros k. unfold phi, angle. field. auto. }
  rewrite !E. destruct (Z.odd z); field; lra.
Qed.
(** ** a transform along the columns, then one along the rows; and the inverse program *)
Section Pipe.
Variables (N M : Z) (U V : Z -> Z -> Z -> R) (Q Q' : Z -> Z -> R) (lam kap : R).
Hypotheses (HN : 0 < N) (HM : 0 <= M) (Hlk : (lam * kap = 1)%R).
Hypothesis VU : forall z l l', 0 <= z < M -> 0 <= l < N -> 0 <= l' < N -> sumZ N (fun k => (V z l' k * U z k l)%R) = (lam * delta l' l)%R.
Hypothesis UV : forall z l l', 0 <= z < M -> 0 <= l < N -> 0 <= l' < N -> sumZ N (fun k => (U z l' k * V z k l)%R) = (lam * delta l' l)%R.
Hypothesis QQ : forall i j, 0 <= i < M -> 0 <= j < M -> matmul M Q Q' i j = (kap * delta i j)%R.
Hypothesis Q'Q : forall i j, 0 <= i < M -> 0 <= j < M -> matmul M Q' Q i j = (kap * delta i j)%R.
Lemma pipe_inverse p q : evaluates N M (fun l z k j => (U z k l * Q j z)%R) p -> evaluates N M (fun l z k j => (Q' j z * V j k l)%R) q -> inverse (N * M) p q.
Proof.
  intros Hp Hq. eapply (ev_inverse N M); [lia| | |exact Hp|exact Hq].
  - intros l z l' z' Hl Hz Hl' Hz'. cbv beta.
    rewrite (sumZ_ext M _ (fun j => (Q' z' j * Q j z * sumZ N (fun k => V z' l' k * U z k l))%R)).
    2: { intros j Hj. rewrite <- sumZ_scal. apply sumZ_ext. intros; ring. }
    rewrite sumZ_scal_r. fold (matmul M Q' Q z' z). rewrite Q'Q by auto. destruct (Z.eq_dec z' z) as [->|Nz].
    + rewrite VU by auto. replace (delta z z) with 1%R by (unfold delta; now rewrite Z.eqb_refl). rewrite <- (Rmult_1_l (delta l' l * 1)), <- Hlk. ring.
    + replace (delta z' z) with 0%R by (unfold delta; now replace (z' =? z) with false by lia). ring.
  - intros l z l' z' Hl Hz Hl' Hz'. cbv beta.
    rewrite (sumZ_ext M _ (fun j => (Q z' j * Q' j z * (lam * delta l' l))%R)).
    2: { intros j Hj. rewrite <- (UV j) by auto. rewrite <- sumZ_scal. apply sumZ_ext. intros; ring. }
    rewrite sumZ_scal_r. fold (matmul M Q Q' z' z). rewrite QQ by auto. rewrite <- (Rmult_1_l (delta l' l * delta z' z)), <- Hlk. ring.
Qed.
End Pipe.
Section Diag.
Variables (N M : Z) (kk : Z -> kind) (a b c d : Z -> Z -> R) (lam : R).
Hypothesis (HN : 0 < N).
Hypothesis AC : forall z k, 0 <= z < M -> 0 <= k < N -> (a z k * c z k = / (2 * IZR N) * lam)%R.
Hypothesis BD : forall z k, 0 <= z < M -> 0 <= k < N -> (b z k * d z k = 1)%R.
Let rN : (IZR N <> 0)%R. Proof. apply IZR_neq. lia. Qed.
Definition Uk (z k l : Z) : R := (a z k * (kind_mat (kk z) N k l * b z l))%R.
Definition Vk (z l k : Z) : R := (d z l * (kind_mat (kinv (kk z)) N l k * c z k))%R.
Lemma kinv_kinv k : kinv (kinv k) = k. Proof. now destruct k. Qed.
Lemma diag_VU z l l' : 0 <= z < M -> 0 <= l < N -> 0 <= l' < N -> sumZ N (fun k => (Vk z l' k * Uk z k l)%R) = (lam * delta l' l)%R.
Proof.
  intros Hz Hl Hl'. unfold Vk, Uk.
  rewrite (sumZ_ext N _ (fun k => (b z l * d z l' * (/ (2 * IZR N) * lam) * (kind_mat (kinv (kk z)) N l' k * kind_mat (kk z) N k l))%R)).
  2: { intros k Hk. rewrite <- (AC z k) by auto. ring. }
  rewrite sumZ_scal. pose proof (kind_inverse N HN (kinv (kk z)) l' l Hl' Hl) as E. rewrite kinv_kinv in E. unfold matmul in E. rewrite E.
  unfold delta. destruct (Z.eqb_spec l' l).
  - subst. rewrite (Rmult_assoc (b z l * d z l)), BD by auto. field. auto.
  - ring.
Qed.
Lemma diag_UV z l l' : 0 <= z < M -> 0 <= l < N -> 0 <= l' < N -> sumZ N (fun k => (Uk z l' k * Vk z k l)%R) = (lam * delta l' l)%R.
Proof.
  intros Hz Hl Hl'. unfold Vk, Uk.
  rewrite (sumZ_ext N _ (fun k => (a z l' * c z l * (kind_mat (kk z) N l' k * kind_mat (kinv (kk z)) N k l))%R)).
  2: { intros k Hk. transitivity (b z k * d z k * (a z l' * c z l * (kind_mat (kk z) N l' k * kind_mat (kinv (kk z)) N k l)))%R; [ring|]. rewrite BD by auto. ring. }
  rewrite sumZ_scal. pose proof (kind_inverse N HN (kk z) l' l Hl' Hl) as E. unfold matmul in E. rewrite E.
  unfold delta. destruct (Z.eqb_spec l' l).
  - subst. rewrite AC by auto. field. auto.
  - ring.
Qed.
End Diag.

Section Geo.
Variable FT : fftw R.
Hypothesis OK : fftw_ok FT.
Variables (N h : Z).
Hypotheses (HN : 0 < N) (Hh : 0 <= h).
Let M := 2 * h + 1.
Let OM : Z.odd M = true. Proof. rewrite odd_b. unfold M. lia. Qed.
Let HM : 0 < M. Proof. unfold M. lia. Qed.
Let HM0 : 0 <= M. Proof. lia. Qed.
Let HN0 : 0 <= N. Proof. lia. Qed.
Let rN : (IZR N <> 0)%R. Proof. apply IZR_neq. lia. Qed.
Let rM : (IZR M <> 0)%R. Proof. apply IZR_neq. lia. Qed.
Variables (Y : list R).
Hypothesis (LY : zlen Y = 2 * (N * (h + 1))).
Notation K := real_const.
Notation ev := (evaluates N M).

(** scalings of the whole array and of the first column, written as in the programs *)
Definition col0 (c c0 : R) (z _ : Z) : R := (c * (if z =? 0 then c0 else 1))%R.
Lemma sc_col c c0 : sc N M (col0 c c0) (fun X => do X <- mulfor (N * M) c X; mulfor N c0 X).
Proof. apply (sc_seq N M (fun _ _ => c) (fun z _ => if z =? 0 then c0 else 1%R)); [apply sc_all|apply sc_col0]; auto. Qed.
Lemma inv_form (kk : Z -> kind) a b c d p q :
  (forall z k, 0 <= z < M -> 0 <= k < N -> (a z k * c z k = / (2 * IZR N * IZR M))%R) ->
  (forall z k, 0 <= z < M -> 0 <= k < N -> (b z k * d z k = 1)%R) ->
  ev (fun l z k j => (Uk N kk a b z k l * Wm M j z)%R) p -> ev (fun l z k j => (Vm M j z * Vk N kk c d j k l)%R) q -> inverse (N * M) p q.
Proof.
  intros AC BD Hp Hq. apply (pipe_inverse N M (Uk N kk a b) (Vk N kk c d) (Wm M) (Vm M) (/ IZR M)%R (IZR M)); auto.
  - now apply Rinv_l.
  - intros. apply (diag_VU N M); auto. intros. rewrite AC by auto. field. auto.
  - intros. apply (diag_UV N M); auto. intros. rewrite AC by auto. field. auto.
  - intros. apply (mul_WV M h); auto.
  - intros. apply (mul_VW M h); auto.
Qed.
(** the four shapes *)
Lemma ev_syn w0 w1 P p0 pq p1 : pN P = N -> pM P = M -> p_back P = true -> sc N M w0 p0 -> sc N M w1 p1 ->
  (forall kk, cols N M (fun z => kind_mat (kk z) N) pq ->
  ev (fun l z k j => (Uk N kk w1 w0 z k l * Wm M j z)%R) (fun X => do X <- p0 X; do X <- pq X; do X <- p1 X; back_phi FT P N M Y X)).
Proof.
  intros EN EM EB H0 H1 kk Hq. eapply ev_prog; [|apply (cols_rows N M); [|apply (back_rows FT OK P N h Y); eauto]].
  2: { apply (cols_sc N M w1 (fun z i k => (kind_mat (kk z) N i k * w0 z k)%R)); [|exact H1]. apply (sc_cols N M w0 _ _ _ H0 Hq). }
  assoc.
Qed.
Lemma ev_ana w0 w1 P p0 pq p1 : pN P = N -> pM P = M -> p_back P = false -> sc N M w0 p0 -> sc N M w1 p1 ->
  (forall kk, cols N M (fun z => kind_mat (kinv (kk z)) N) pq ->
  ev (fun l z k j => (Vm M j z * Vk N kk w0 w1 j k l)%R) (fun X => do X <- forw_phi FT P N M Y X; do X <- p0 X; do X <- pq X; p1 X)).
Proof.
  intros EN EM EB H0 H1 kk Hq. eapply ev_prog; [|apply (rows_cols N M); [apply (forw_rows FT OK P N h Y); eauto|]].
  2: { apply (cols_sc N M w1 (fun z i k => (kind_mat (kinv (kk z)) N i k * w0 z k)%R)); [|exact H1]. apply (sc_cols N M w0 _ _ _ H0 Hq). }
  assoc.
Qed.


(** the adjoint of a synthesis program, in terms of its factors *)
Definition dd (z : Z) : R := if z =? 0 then 1%R else 2%R.
Lemma W_dd j z : Wm M j z = (dd z * Vm M z j)%R.
Proof. unfold Wm, dd. destruct (Z.eqb_spec z 0); [subst; rewrite Vm_0; ring|auto]. Qed.
Lemma adj_form (kk : Z -> kind) a b c d p q :
  (forall z k l, 0 <= z < M -> 0 <= k < N -> 0 <= l < N -> (Vk N kk c d z l k = dd z * Uk N kk a b z k l)%R) ->
  ev (fun l z k j => (Uk N kk a b z k l * Wm M j z)%R) p -> ev (fun l z k j => (Vm M j z * Vk N kk c d j k l)%R) q -> adjoint (N * M) p q.
Proof.
  intros E Hp Hq. eapply (ev_adjoint N M); [lia|lia| |exact Hp|exact Hq]. intros. cbv beta. rewrite W_dd, E by auto. ring.
Qed.
Definition br (k : kind) (l : Z) : R := match k with REDFT01 => if l =? 0 then 2%R else 1%R | _ => 1%R end.
Definition tr (k : kind) (l : Z) : R := match k with RODFT01 => if l =? N - 1 then (/ 2)%R else 1%R | _ => 1%R end.
Lemma kind_transp kk k l : kk = REDFT01 \/ kk = RODFT01 \/ kk = REDFT11 -> (tr kk l * kind_mat (kinv kk) N l k = kind_mat kk N k l * br kk l)%R.
Proof.
  intros [->|[->| ->]]; cbn [tr br kinv].
  - rewrite t_01 by auto. ring.
  - rewrite (t_o01 N k l) by auto. ring.
  - rewrite (t_11 N k l). ring.
Qed.
Lemma adj_fact kk a b c d : (forall z, kk z = REDFT01 \/ kk z = RODFT01 \/ kk z = REDFT11) ->
  forall z k l, (d = tr (kk z) l)%R -> (b = br (kk z) l)%R -> (c = dd z * a)%R -> (d * (kind_mat (kinv (kk z)) N l k * c) = dd z * (a * (kind_mat (kk z) N k l * b)))%R.
Proof.
  intros H z k l -> -> ->. replace (tr (kk z) l * (kind_mat (kinv (kk z)) N l k * (dd z * a)))%R with (tr (kk z) l * kind_mat (kinv (kk z)) N l k * (dd z * a))%R by ring.
  rewrite kind_transp by auto. ring.
Qed.
Lemma adj_fact' kk a b c d : (forall z, kk z = REDFT01 \/ kk z = RODFT01 \/ kk z = REDFT11) ->
  forall z k l, (d * br (kk z) l = 1)%R -> (b * tr (kk z) l = 1)%R -> (c = dd z * a)%R -> (d * (kind_mat (kinv (kk z)) N l k * c) = dd z * (a * (kind_mat (kk z) N k l * b)))%R.
Proof.
  intros H z k l Hd Hb ->.
  transitivity (dd z * a * b * d * (tr (kk z) l * kind_mat (kinv (kk z)) N l k))%R.
  - transitivity (b * tr (kk z) l * (d * (kind_mat (kinv (kk z)) N l k * (dd z * a))))%R; [rewrite Hb; ring|ring].
  - rewrite kind_transp by auto. transitivity (d * br (kk z) l * (dd z * (a * (kind_mat (kk z) N k l * b))))%R; [ring|rewrite Hd; ring].
Qed.
Notation c14 := (col0 (k1_4SP K) (kSQRT2 K)).
Notation c12 := (col0 (k1_2SP K) (kSQRT1_2 K)).
Notation c4 := (col0 (k4SP K / IZR (2 * N * M))%R (kSQRT1_2 K)).
Notation c2 := (col0 (k2SP K / IZR (2 * N * M))%R (kSQRT2 K)).
Lemma c14_c4 z k : (c14 z k * c4 z k = / (2 * IZR N * IZR M))%R.
Proof.
  unfold col0. cbn [k1_4SP k4SP kSQRT2 kSQRT1_2 real_const]. rewrite !mult_IZR. pose proof sPI. pose proof s2.
  destruct (z =? 0); field; repeat split; auto; lra.
Qed.
Lemma c12_c14 z k : (c12 z k = dd z * c14 z k)%R.
Proof.
  unfold col0, dd. cbn [k1_4SP k1_2SP kSQRT2 kSQRT1_2 real_const]. pose proof sPI. pose proof s2. pose proof s22.
  destruct (z =? 0); [|field; lra].
  apply (Rmult_eq_reg_r (4 * sqrt PI * sqrt 2)%R); [|apply Rmult_integral_contrapositive; split; lra].
  field_simplify; try lra. 
Qed.
Lemma c4_c2 z k : (c4 z k = dd z * c2 z k)%R.
Proof.
  unfold col0, dd. cbn [k2SP k4SP kSQRT2 kSQRT1_2 real_const]. pose proof sPI. pose proof s2. pose proof s22.
  assert (IZR (2 * N * M) <> 0)%R by (apply IZR_neq; nia).
  destruct (z =? 0); [|field; auto].
  apply (Rmult_eq_reg_r (sqrt 2)%R); [|lra]. rewrite !Rmult_1_l.
  transitivity (4 * sqrt PI / IZR (2 * N * M))%R; [field; split; lra|]. transitivity (2 * sqrt PI / IZR (2 * N * M) * (sqrt 2 * sqrt 2))%R; [rewrite s22; field; auto|field; auto].
Qed.
Lemma c14_az z k : (c14 z k * 2 = az z)%R.
Proof.
  unfold col0, az. cbn [k1_4SP kSQRT2 real_const]. pose proof sPI. pose proof s2. pose proof s22. rewrite s2PI.
  destruct (z =? 0); [|field; lra].
  apply (Rmult_eq_reg_r (sqrt 2)%R); [|lra]. transitivity (/ (4 * sqrt PI) * (sqrt 2 * sqrt 2) * 2)%R; [ring|]. rewrite s22. field. lra.
Qed.
Notation ksph := (fun z => if even_order z then REDFT01 else RODFT01).
Notation ksphv := (fun z => if even_order z then RODFT01 else REDFT01).
Notation kdisk := (fun z => if even_order z then REDFT01 else REDFT11).

Ltac by_quad := eapply cols_ext; [|apply quad_cols; auto]; intros; cbv [k_even k_odd plan_sph_synthesis plan_sph_analysis plan_sphv_synthesis plan_sphv_analysis plan_disk_synthesis plan_disk_analysis]; match goal with |- context [even_order ?z] => destruct (even_order z) end; reflexivity.
(** scalings of the first or last entries *)
Definition b2 (c : R) (z l : Z) : R := (pt 0 0 c z l * sel4w 3 0 c z l)%R.
Lemma b2_val c z l : 0 <= z -> b2 c z l = if even_order z && (l =? 0) then c else 1%R.
Proof. intros Hz. unfold b2, pt, sel4w, even_order. cases. Qed.
Lemma sc_b2 c : sc N M (b2 c) (fun X => do X <- mulat c 0 X; first4 3 N M c X).
Proof. apply (sc_seq N M (pt 0 0 c) (sel4w 3 0 c)); [apply sc_at; lia|apply sc_first4; auto; lia]. Qed.
Definition b2l (c : R) (z l : Z) : R := (pt 0 (N - 1) c z l * sel4w 3 (N - 1) c z l)%R.
Lemma b2l_val c z l : 0 <= z -> b2l c z l = if even_order z && (l =? N - 1) then c else 1%R.
Proof. intros Hz. unfold b2l, pt, sel4w, even_order. cases. Qed.
Lemma sc_b2l c : sc N M (b2l c) (fun X => do X <- mulat c (N - 1) X; last4 3 N M c X).
Proof. apply (sc_seq N M (pt 0 (N - 1) c) (sel4w 3 (N - 1) c)); [apply sc_at; lia|apply sc_last4; auto; lia]. Qed.
Lemma b1_val off c z l : 0 <= z -> sel4w 1 off c z l = if negb (even_order z) && (l =? off) then c else 1%R.
Proof. intros Hz. unfold sel4w, even_order. cases. Qed.
Lemma sc_b1 c : sc N M (sel4w 1 0 c) (first4 1 N M c). Proof. apply sc_first4; auto; lia. Qed.
Lemma sc_b1l c : sc N M (sel4w 1 (N - 1) c) (last4 1 N M c). Proof. apply sc_last4; auto; lia. Qed.
Notation one_ := (fun _ _ : Z => 1%R).
Notation hlf := (1 / 2)%R.

(** *** sphere *)
Lemma sph_syn_ev : ev (fun l z k j => (Uk N ksph c14 (b2 2) z k l * Wm M j z)%R) (sph_synthesis FT K false (plan_sph_synthesis N M) Y N M).
Proof.
  eapply ev_prog; [|apply (ev_syn (b2 2) c14 (plan_sph_synthesis N M) _ (quad_r2r FT (plan_sph_synthesis N M)) _ eq_refl eq_refl eq_refl (sc_b2 2) (sc_col _ _) ksph)].
  - unfold sph_synthesis. assoc.
  - by_quad.
Qed.
Lemma sph_ana_ev : ev (fun l z k j => (Vm M j z * Vk N ksph c4 (b2 hlf) j k l)%R) (sph_analysis FT K false (plan_sph_analysis N M) Y N M).
Proof.
  eapply ev_prog; [|apply (ev_ana c4 (b2 hlf) (plan_sph_analysis N M) _ (quad_r2r FT (plan_sph_analysis N M)) _ eq_refl eq_refl eq_refl (sc_col _ _) (sc_b2 hlf) ksph)].
  - unfold sph_analysis. assoc.
  - by_quad.
Qed.
Lemma sph_synT_ev : ev (fun l z k j => (Vm M j z * Vk N ksph c12 (sel4w 1 (N - 1) hlf) j k l)%R) (sph_synthesis FT K true (plan_sph_analysis N M) Y N M).
Proof.
  eapply ev_prog; [|apply (ev_ana c12 (sel4w 1 (N - 1) hlf) (plan_sph_analysis N M) _ (quad_r2r FT (plan_sph_analysis N M)) _ eq_refl eq_refl eq_refl (sc_col _ _) (sc_b1l hlf) ksph)].
  - unfold sph_synthesis. assoc.
  - by_quad.
Qed.
Lemma sph_anaT_ev : ev (fun l z k j => (Uk N ksph c2 (sel4w 1 (N - 1) 2) z k l * Wm M j z)%R) (sph_analysis FT K true (plan_sph_synthesis N M) Y N M).
Proof.
  eapply ev_prog; [|apply (ev_syn (sel4w 1 (N - 1) 2) c2 (plan_sph_synthesis N M) _ (quad_r2r FT (plan_sph_synthesis N M)) _ eq_refl eq_refl eq_refl (sc_b1l 2) (sc_col _ _) ksph)].
  - unfold sph_analysis. assoc.
  - by_quad.
Qed.
Lemma sph_inverse : inverse (N * M) (sph_synthesis FT K false (plan_sph_synthesis N M) Y N M) (sph_analysis FT K false (plan_sph_analysis N M) Y N M).
Proof.
  eapply inv_form; [| |exact sph_syn_ev|exact sph_ana_ev].
  - intros. apply c14_c4.
  - intros. rewrite !b2_val by lia. cases; lra.
Qed.
Lemma ksph3 z : ksph z = REDFT01 \/ ksph z = RODFT01 \/ ksph z = REDFT11. Proof. cbv beta. destruct (even_order z); auto. Qed.
Lemma ksphv3 z : ksphv z = REDFT01 \/ ksphv z = RODFT01 \/ ksphv z = REDFT11. Proof. cbv beta. destruct (even_order z); auto. Qed.
Lemma kdisk3 z : kdisk z = REDFT01 \/ kdisk z = RODFT01 \/ kdisk z = REDFT11. Proof. cbv beta. destruct (even_order z); auto. Qed.
Lemma sph_adjoint : adjoint (N * M) (sph_synthesis FT K false (plan_sph_synthesis N M) Y N M) (sph_synthesis FT K true (plan_sph_analysis N M) Y N M).
Proof.
  eapply adj_form; [|exact sph_syn_ev|exact sph_synT_ev]. intros z k l Hz Hk Hl. apply (adj_fact ksph _ _ _ _ ksph3).
  - rewrite b1_val by lia. destruct (even_order z); cbn [tr negb andb]; cases; lra.
  - rewrite b2_val by lia. destruct (even_order z); cbn [br andb]; cases.
  - apply c12_c14.
Qed.
Lemma sph_ana_adjoint : adjoint (N * M) (sph_analysis FT K false (plan_sph_analysis N M) Y N M) (sph_analysis FT K true (plan_sph_synthesis N M) Y N M).
Proof.
  apply adjoint_sym. eapply adj_form; [|exact sph_anaT_ev|exact sph_ana_ev]. intros z k l Hz Hk Hl. apply (adj_fact' ksph _ _ _ _ ksph3).
  - rewrite b2_val by lia. destruct (even_order z); cbn [br andb]; cases; lra.
  - rewrite b1_val by lia. destruct (even_order z); cbn [tr negb andb]; cases; lra.
  - apply c4_c2.
Qed.
Lemma grid_form kk b polar p : (forall z k l, 0 <= z < M -> 0 <= k < N -> 0 <= l < N -> (kind_mat (kk z) N k l * b z l = 2 * polar z l (theta N k))%R) ->
  ev (fun l z k j => (Uk N kk c14 b z k l * Wm M j z)%R) p -> ev (fun l z k j => (polar z l (theta N k) * azimuth z (phi M j))%R) p.
Proof.
  intros E H. eapply ev_ext; [|exact H]. intros l z k j Hl Hz Hk Hj. cbv beta. unfold Uk. rewrite E by auto.
  rewrite azimuth_az, <- (c14_az z k) by auto. ring.
Qed.
Lemma sph_grid : ev (fun l z k j => (sph_polar N z l (theta N k) * azimuth z (phi M j))%R) (sph_synthesis FT K false (plan_sph_synthesis N M) Y N M).
Proof.
  eapply (grid_form ksph (b2 2) (sph_polar N)); [|exact sph_syn_ev]. intros z k l Hz Hk Hl. rewrite b2_val by lia. unfold sph_polar. destruct (even_order z); cbn [andb].
  - now apply c01.
  - rewrite o01s by auto. ring.
Qed.

(** *** vector fields on the sphere *)
Lemma sphv_syn_ev : ev (fun l z k j => (Uk N ksphv c14 (sel4w 1 0 2) z k l * Wm M j z)%R) (sphv_synthesis FT K false (plan_sphv_synthesis N M) Y N M).
Proof.
  eapply ev_prog; [|apply (ev_syn (sel4w 1 0 2) c14 (plan_sphv_synthesis N M) _ (quad_r2r FT (plan_sphv_synthesis N M)) _ eq_refl eq_refl eq_refl (sc_b1 2) (sc_col _ _) ksphv)].
  - unfold sphv_synthesis. assoc.
  - by_quad.
Qed.
Lemma sphv_ana_ev : ev (fun l z k j => (Vm M j z * Vk N ksphv c4 (sel4w 1 0 hlf) j k l)%R) (sphv_analysis FT K false (plan_sphv_analysis N M) Y N M).
Proof.
  eapply ev_prog; [|apply (ev_ana c4 (sel4w 1 0 hlf) (plan_sphv_analysis N M) _ (quad_r2r FT (plan_sphv_analysis N M)) _ eq_refl eq_refl eq_refl (sc_col _ _) (sc_b1 hlf) ksphv)].
  - unfold sphv_analysis. assoc.
  - by_quad.
Qed.
Lemma sphv_synT_ev : ev (fun l z k j => (Vm M j z * Vk N ksphv c12 (b2l hlf) j k l)%R) (sphv_synthesis FT K true (plan_sphv_analysis N M) Y N M).
Proof.
  eapply ev_prog; [|apply (ev_ana c12 (b2l hlf) (plan_sphv_analysis N M) _ (quad_r2r FT (plan_sphv_analysis N M)) _ eq_refl eq_refl eq_refl (sc_col _ _) (sc_b2l hlf) ksphv)].
  - unfold sphv_synthesis. assoc.
  - by_quad.
Qed.
Lemma sphv_anaT_ev : ev (fun l z k j => (Uk N ksphv c2 (b2l 2) z k l * Wm M j z)%R) (sphv_analysis FT K true (plan_sphv_synthesis N M) Y N M).
Proof.
  eapply ev_prog; [|apply (ev_syn (b2l 2) c2 (plan_sphv_synthesis N M) _ (quad_r2r FT (plan_sphv_synthesis N M)) _ eq_refl eq_refl eq_refl (sc_b2l 2) (sc_col _ _) ksphv)].
  - unfold sphv_analysis. assoc.
  - by_quad.
Qed.
Lemma sphv_inverse : inverse (N * M) (sphv_synthesis FT K false (plan_sphv_synthesis N M) Y N M) (sphv_analysis FT K false (plan_sphv_analysis N M) Y N M).
Proof.
  eapply inv_form; [| |exact sphv_syn_ev|exact sphv_ana_ev].
  - intros. apply c14_c4.
  - intros. rewrite !b1_val by lia. cases; lra.
Qed.
Lemma sphv_adjoint : adjoint (N * M) (sphv_synthesis FT K false (plan_sphv_synthesis N M) Y N M) (sphv_synthesis FT K true (plan_sphv_analysis N M) Y N M).
Proof.
  eapply adj_form; [|exact sphv_syn_ev|exact sphv_synT_ev]. intros z k l Hz Hk Hl. apply (adj_fact ksphv _ _ _ _ ksphv3).
  - rewrite b2l_val by lia. destruct (even_order z); cbn [tr negb andb]; cases; lra.
  - rewrite b1_val by lia. destruct (even_order z); cbn [br negb andb]; cases.
  - apply c12_c14.
Qed.
Lemma sphv_ana_adjoint : adjoint (N * M) (sphv_analysis FT K false (plan_sphv_analysis N M) Y N M) (sphv_analysis FT K true (plan_sphv_synthesis N M) Y N M).
Proof.
  apply adjoint_sym. eapply adj_form; [|exact sphv_anaT_ev|exact sphv_ana_ev]. intros z k l Hz Hk Hl. apply (adj_fact' ksphv _ _ _ _ ksphv3).
  - rewrite b1_val by lia. destruct (even_order z); cbn [br negb andb]; cases; lra.
  - rewrite b2l_val by lia. destruct (even_order z); cbn [tr negb andb]; cases; lra.
  - apply c4_c2.
Qed.
Lemma sphv_grid : ev (fun l z k j => (sphv_polar N z l (theta N k) * azimuth z (phi M j))%R) (sphv_synthesis FT K false (plan_sphv_synthesis N M) Y N M).
Proof.
  eapply (grid_form ksphv (sel4w 1 0 2) (sphv_polar N)); [|exact sphv_syn_ev]. intros z k l Hz Hk Hl. rewrite b1_val by lia. unfold sphv_polar. destruct (even_order z); cbn [negb andb].
  - rewrite o01s by auto. ring.
  - now apply c01.
Qed.

(** *** disk *)
Lemma disk_syn_ev : ev (fun l z k j => (Uk N kdisk c14 (b2 2) z k l * Wm M j z)%R) (disk_synthesis FT K false (plan_disk_synthesis N M) Y N M).
Proof.
  eapply ev_prog; [|apply (ev_syn (b2 2) c14 (plan_disk_synthesis N M) _ (quad_r2r FT (plan_disk_synthesis N M)) _ eq_refl eq_refl eq_refl (sc_b2 2) (sc_col _ _) kdisk)].
  - unfold disk_synthesis. assoc.
  - by_quad.
Qed.
Lemma disk_ana_ev : ev (fun l z k j => (Vm M j z * Vk N kdisk c4 (b2 hlf) j k l)%R) (disk_analysis FT K false (plan_disk_analysis N M) Y N M).
Proof.
  eapply ev_prog; [|apply (ev_ana c4 (b2 hlf) (plan_disk_analysis N M) _ (quad_r2r FT (plan_disk_analysis N M)) _ eq_refl eq_refl eq_refl (sc_col _ _) (sc_b2 hlf) kdisk)].
  - unfold disk_analysis. assoc.
  - by_quad.
Qed.
Lemma bind_ret {A} (o : option A) : obind o (fun x => Some x) = o. Proof. now destruct o. Qed.
Lemma disk_synT_ev : ev (fun l z k j => (Vm M j z * Vk N kdisk c12 one_ j k l)%R) (disk_synthesis FT K true (plan_disk_analysis N M) Y N M).
Proof.
  eapply ev_prog; [|apply (ev_ana c12 one_ (plan_disk_analysis N M) _ (quad_r2r FT (plan_disk_analysis N M)) _ eq_refl eq_refl eq_refl (sc_col _ _) (sc_id N M) kdisk)].
  - unfold disk_synthesis. assoc. apply bind_ret.
  - by_quad.
Qed.
Lemma disk_anaT_ev : ev (fun l z k j => (Uk N kdisk c2 one_ z k l * Wm M j z)%R) (disk_analysis FT K true (plan_disk_synthesis N M) Y N M).
Proof.
  eapply ev_prog; [|apply (ev_syn one_ c2 (plan_disk_synthesis N M) _ (quad_r2r FT (plan_disk_synthesis N M)) _ eq_refl eq_refl eq_refl (sc_id N M) (sc_col _ _) kdisk)].
  - unfold disk_analysis. cbn [obind]. assoc.
  - by_quad.
Qed.
Lemma disk_inverse : inverse (N * M) (disk_synthesis FT K false (plan_disk_synthesis N M) Y N M) (disk_analysis FT K false (plan_disk_analysis N M) Y N M).
Proof.
  eapply inv_form; [| |exact disk_syn_ev|exact disk_ana_ev].
  - intros. apply c14_c4.
  - intros. rewrite !b2_val by lia. cases; lra.
Qed.
Lemma disk_adjoint : adjoint (N * M) (disk_synthesis FT K false (plan_disk_synthesis N M) Y N M) (disk_synthesis FT K true (plan_disk_analysis N M) Y N M).
Proof.
  eapply adj_form; [|exact disk_syn_ev|exact disk_synT_ev]. intros z k l Hz Hk Hl. apply (adj_fact kdisk _ _ _ _ kdisk3).
  - now destruct (even_order z).
  - rewrite b2_val by lia. destruct (even_order z); cbn [br andb]; cases.
  - apply c12_c14.
Qed.
Lemma disk_ana_adjoint : adjoint (N * M) (disk_analysis FT K false (plan_disk_analysis N M) Y N M) (disk_analysis FT K true (plan_disk_synthesis N M) Y N M).
Proof.
  apply adjoint_sym. eapply adj_form; [|exact disk_anaT_ev|exact disk_ana_ev]. intros z k l Hz Hk Hl. apply (adj_fact' kdisk _ _ _ _ kdisk3).
  - rewrite b2_val by lia. destruct (even_order z); cbn [br andb]; cases; lra.
  - destruct (even_order z); cbn [tr]; ring.
  - apply c4_c2.
Qed.
Lemma disk_grid : ev (fun l z k j => (disk_radial N z l (theta N k) * azimuth z (phi M j))%R) (disk_synthesis FT K false (plan_disk_synthesis N M) Y N M).
Proof.
  eapply (grid_form kdisk (b2 2) (disk_radial N)); [|exact disk_syn_ev]. intros z k l Hz Hk Hl. rewrite b2_val by lia. unfold disk_radial. destruct (even_order z); cbn [andb].
  - now apply c01.
  - rewrite r11 by auto. unfold half_cosine. ring.
Qed.

(** *** annulus *)
Section Ann.
Variables (w : list R).
Hypotheses (Lw : zlen w = N) (Hw : forall i, 0 <= i < N -> nthZ 0%R w i <> 0%R).
Notation W := (nthZ 0%R w).
Notation wm := (wsel (fun r => W r)).
Notation wd := (wsel (fun r => / W r)%R).
Notation kann := (fun _ : Z => REDFT01).
Definition bf (c : R) (_ r : Z) : R := if r =? 0 then c else 1%R.
Lemma sc_wm : sc N M wm (weigh mulat w N M).
Proof. apply sc_weigh; auto. intros. now apply sc_at. Qed.
Lemma sc_wd : sc N M wd (weigh divat w N M).
Proof. apply (sc_weigh N M HN divat (fun r => / W r)%R); auto. intros. now apply sc_divat. Qed.
Definition wc (w c : Z -> Z -> R) (z r : Z) : R := (w z r * c z r)%R.
Ltac by_all := eapply cols_ext; [|apply all_cols; auto]; reflexivity.
Lemma ann_syn_ev : ev (fun l z k j => (Uk N kann (wc wm c14) (bf 2) z k l * Wm M j z)%R) (annulus_synthesis FT K false (plan_annulus_synthesis N M) w Y N M).
Proof.
  eapply ev_prog; [|apply (ev_syn (bf 2) (wc wm c14) (plan_annulus_synthesis N M) _ (all_r2r FT (plan_annulus_synthesis N M)) _ eq_refl eq_refl eq_refl (sc_firstrow N M HN HM0 2) (sc_seq N M _ _ _ _ sc_wm (sc_col _ _)) kann)].
  - unfold annulus_synthesis. assoc.
  - by_all.
Qed.
Lemma ann_ana_ev : ev (fun l z k j => (Vm M j z * Vk N kann (wc c4 wd) (bf hlf) j k l)%R) (annulus_analysis FT K false (plan_annulus_analysis N M) w Y N M).
Proof.
  eapply ev_prog; [|apply (ev_ana (wc c4 wd) (bf hlf) (plan_annulus_analysis N M) _ (all_r2r FT (plan_annulus_analysis N M)) _ eq_refl eq_refl eq_refl (sc_seq N M _ _ _ _ (sc_col _ _) sc_wd) (sc_firstrow N M HN HM0 hlf) kann)].
  - unfold annulus_analysis. assoc.
  - by_all.
Qed.
Lemma ann_synT_ev : ev (fun l z k j => (Vm M j z * Vk N kann (wc c12 wm) one_ j k l)%R) (annulus_synthesis FT K true (plan_annulus_analysis N M) w Y N M).
Proof.
  eapply ev_prog; [|apply (ev_ana (wc c12 wm) one_ (plan_annulus_analysis N M) _ (all_r2r FT (plan_annulus_analysis N M)) _ eq_refl eq_refl eq_refl (sc_seq N M _ _ _ _ (sc_col _ _) sc_wm) (sc_id N M) kann)].
  - unfold annulus_synthesis. assoc. apply bind_ret.
  - by_all.
Qed.
Lemma ann_anaT_ev : ev (fun l z k j => (Uk N kann (wc wd c2) one_ z k l * Wm M j z)%R) (annulus_analysis FT K true (plan_annulus_synthesis N M) w Y N M).
Proof.
  eapply ev_prog; [|apply (ev_syn one_ (wc wd c2) (plan_annulus_synthesis N M) _ (all_r2r FT (plan_annulus_synthesis N M)) _ eq_refl eq_refl eq_refl (sc_id N M) (sc_seq N M _ _ _ _ sc_wd (sc_col _ _)) kann)].
  - unfold annulus_analysis. cbn [obind]. assoc.
  - by_all.
Qed.
Lemma ann_inverse : inverse (N * M) (annulus_synthesis FT K false (plan_annulus_synthesis N M) w Y N M) (annulus_analysis FT K false (plan_annulus_analysis N M) w Y N M).
Proof.
  eapply inv_form; [| |exact ann_syn_ev|exact ann_ana_ev].
  - intros z k Hz Hk. unfold wc. rewrite <- (c14_c4 z k). unfold wsel. destruct (even_order z); [ring|]. field. auto.
  - intros. unfold bf. cases; lra.
Qed.
Lemma kann3 z : kann z = REDFT01 \/ kann z = RODFT01 \/ kann z = REDFT11. Proof. auto. Qed.
Lemma ann_adjoint : adjoint (N * M) (annulus_synthesis FT K false (plan_annulus_synthesis N M) w Y N M) (annulus_synthesis FT K true (plan_annulus_analysis N M) w Y N M).
Proof.
  eapply adj_form; [|exact ann_syn_ev|exact ann_synT_ev]. intros z k l Hz Hk Hl. apply (adj_fact kann _ _ _ _ kann3).
  - reflexivity.
  - reflexivity.
  - unfold wc. rewrite c12_c14. ring.
Qed.
Lemma ann_ana_adjoint : adjoint (N * M) (annulus_analysis FT K false (plan_annulus_analysis N M) w Y N M) (annulus_analysis FT K true (plan_annulus_synthesis N M) w Y N M).
Proof.
  apply adjoint_sym. eapply adj_form; [|exact ann_anaT_ev|exact ann_ana_ev]. intros z k l Hz Hk Hl. apply (adj_fact' kann _ _ _ _ kann3).
  - unfold bf. cbn [br]. cases; lra.
  - cbn [tr]. ring.
  - unfold wc. rewrite c4_c2. ring.
Qed.
Lemma ann_grid : ev (fun l z k j => ((if even_order z then 1 else W k) * cosine N l (theta N k) * azimuth z (phi M j))%R) (annulus_synthesis FT K false (plan_annulus_synthesis N M) w Y N M).
Proof.
  eapply ev_ext; [|exact ann_syn_ev]. intros l z k j Hl Hz Hk Hj. cbv beta. unfold Uk. unfold bf. rewrite c01 by auto.
  rewrite azimuth_az, <- (c14_az z k) by auto. unfold wc, wsel. destruct (even_order z); ring.
Qed.
End Ann.
End Geo.
