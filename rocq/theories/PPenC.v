(** * The pencils of the connection problems *)
From Coq Require Import ZArith List Lia Bool Reals Lra ZifyBool.
From Verif Require Import Base BaseFacts Arith SpecSum PSum SpecLin SpecBanded MBanded PTri PBand SpecEig SpecClassical SpecConn MClassical MConn PClass1 PClass2 PClass3 PClass6 PClass7 PClass8 PPoly PPen PPenJ PUltra PPenU.
Import ListNotations.
Open Scope Z_scope.

(** existence of the families *)
Definition std_ult (l : R) : Z -> R -> R :=
  seqZ (fun n p q x => ((2 * (IZR n + l) * x * q x - (IZR n + 2 * l - 1) * p x) / (IZR n + 1))%R) (fun _ => 1%R) (fun x => (2 * l * x)%R).
Definition std_ult_norms (l h0 : R) : Z -> R := seqZ (fun n _ q => ((IZR n + l) * (IZR n + 2 * l) / ((IZR n + 1) * (IZR n + 1 + l)) * q)%R) h0 (l * (2 * l) / (1 + l) * h0)%R.
Definition std_cheb : Z -> R -> R := seqZ (fun n p q x => (2 * x * q x - p x)%R) (fun _ => 1%R) (fun x => x).
Definition std_cheb_norms (h0 : R) (n : Z) : R := if n =? 0 then h0 else (h0 / 2)%R.
Lemma std_ult_ok l : is_ultraspherical l (std_ult l).
Proof. split; try reflexivity. intros n x Hn k. unfold std_ult. rewrite seqZ_S by auto. apply IZR_le in Hn. fold k. fold k in Hn. field. lra. Qed.
Lemma std_ult_norms_ok l h0 : (- 1 / 2 < l)%R -> (0 < h0)%R -> ultraspherical_norms l (std_ult_norms l h0).
Proof.
  intros Hl H0. split; [exact H0|]. intros n Hn k. destruct (Z.eq_dec n 0) as [->|].
  - unfold k. change (std_ult_norms l h0 (0 + 1)) with (l * (2 * l) / (1 + l) * h0)%R. change (std_ult_norms l h0 0) with h0. field. lra.
  - unfold std_ult_norms. rewrite seqZ_S by lia. apply IZR_le in Hn. fold k. fold k in Hn. field. lra.
Qed.
Lemma std_cheb_ok : is_chebyshev std_cheb.
Proof. split; try reflexivity. intros n x Hn. unfold std_cheb. now rewrite seqZ_S by auto. Qed.
Lemma std_cheb_norms_ok h0 : (0 < h0)%R -> chebyshev_norms (std_cheb_norms h0).
Proof. intros H. split; [exact H|]. intros n Hn. unfold std_cheb_norms. replace (n =? 0) with false by lia. cbn. field. Qed.

Lemma chn_pos h : chebyshev_norms h -> forall n, 0 <= n -> (0 < h n)%R.
Proof. intros N n Hn. pose proof (chn_0 _ N). destruct (Z.eq_dec n 0) as [->|]; auto. assert (H1 := chn_S _ N n ltac:(lia)). lra. Qed.
Definition chA (n : Z) : R := if n =? 0 then 1%R else 2%R.
Lemma cheb_graded P N : is_chebyshev P -> graded N (kz 1 chA) P.
Proof.
  intros HP. apply (rec3_graded 1 chA (fun _ => 0%R) (fun _ => 1%R)); [|lra|].
  - split; [apply (che_0 _ HP)| |].
    + intros x. rewrite (che_0 _ HP), (che_1 _ HP). unfold chA. cbn. ring.
    + intros n x Hn. rewrite (che_S _ HP) by auto. unfold chA. replace (n =? 0) with false by lia. ring.
  - intros n Hn. unfold chA. destruct (n =? 0); lra.
Qed.
Lemma scaled_graded (s k : Z -> R) P N : graded N k P -> (forall n, 0 <= n -> s n <> 0%R) -> graded N (fun n => (s n * k n)%R) (fun n x => (s n * P n x)%R).
Proof.
  intros G Hs n Hn. destruct (G n Hn) as [L K]. split.
  - apply (polylt_ext _ (fun x => (s n * (P n x - k n * mono n x))%R)); [intros; ring|now apply polylt_scal].
  - apply Rmult_integral_contrapositive_currified; auto. apply Hs. lia.
Qed.
Lemma legendre_ult P : is_jacobi 0 0 P -> is_ultraspherical (1/2) P.
Proof.
  intros H. split; [apply (jac_0 _ _ _ H)| |].
  - intros. rewrite (jac_1 _ _ _ H). field.
  - intros n x Hn k. assert (E := jac_S _ _ _ H n x Hn). cbn zeta in E. fold k in E. assert (1 <= k)%R by (unfold k; apply IZR_le; lia).
    apply (Rmult_eq_reg_l (4 * k * (k + 1))); [|apply Rmult_integral_contrapositive_currified; lra].
    transitivity (2 * (k + 1) * (k + 0 + 0 + 1) * (2 * k + 0 + 0) * P (n + 1)%Z x)%R; [ring|]. rewrite E. field.
Qed.
Lemma legendre_ult_norms h : jacobi_norms 0 0 h -> ultraspherical_norms (1/2) h.
Proof.
  intros H. split; [apply (jn_0 _ _ _ H)|]. intros n Hn k. assert (0 <= k)%R by (unfold k; apply IZR_le; lia).
  destruct (Z.eq_dec n 0) as [->|].
  - assert (E := jn_1 _ _ _ H). unfold k. cbn. cbn in E. lra.
  - assert (E := jn_S _ _ _ H n ltac:(lia)). cbn zeta in E. fold k in E.
    apply (Rmult_eq_reg_l (2 * (k + 1))); [|lra]. transitivity ((2 * k + 0 + 0 + 3) * (k + 1) * (k + 0 + 0 + 1) * h (n + 1)%Z)%R; [field|]. rewrite E. field.
Qed.

Section Src.
Lemma ult_src l P : (- 1 / 2 < l)%R -> l <> 0%R -> is_ultraspherical l P -> exists P1 P2, gegen l P P1 P2.
Proof. intros. eexists. eexists. apply (ut_gegen l H H0 P (std_ult (l+1)) (std_ult (l+1+1))); auto using std_ult_ok. Qed.
Lemma cheb_src P : is_chebyshev P -> exists P1 P2, gegen 0 P P1 P2.
Proof. intros. eexists. eexists. apply (ch_gegen P (std_ult 1) (std_ult (1+1))); auto using std_ult_ok. Qed.
End Src.

Lemma ultra_pencil_proof n1 n2 n la mu P Q hP hQ : (- 1 / 2 < la)%R -> la <> 0%R -> (- 1 / 2 < mu)%R -> mu <> 0%R -> 0 <= n ->
  is_ultraspherical la P -> ultraspherical_norms la hP -> is_ultraspherical mu Q -> ultraspherical_norms mu hQ ->
  exists A B, create_A_ultraspherical_to_ultraspherical n2 n la mu = Some A /\ create_B_ultraspherical_to_ultraspherical n2 n mu = Some B /\ tb_b A = 2 /\ tb_b B = 2 /\
    forall U, connects n U (fam n1 P hP) (fam n2 Q hQ) -> diagonalizes n A B U (fun j => (IZR j * (IZR j + 2 * la))%R).
Proof.
  intros Hl Hl0 Hm Hm0 Hn HP NP HQ NQ. destruct (ult_src la P Hl Hl0 HP) as (P1 & P2 & gP).
  assert (HT := std_ult_ok (mu + 1)).
  refine (gegen_pencil n n1 n2 la mu P P1 P2 Q _ _ (fun i x => sc n2 (hT mu hQ) i * std_ult (mu+1) i x)%R hP hQ _ _ _ _ _ Hn gP
    (ut_gegen mu Hm Hm0 Q (std_ult (mu+1)) (std_ult (mu+1+1)) HQ HT (std_ult_ok _)) (ult_graded la P Hl Hl0 HP n) (ult_graded mu Q Hm Hm0 HQ n)
    (scaled_graded (sc n2 (hT mu hQ)) _ _ n (ult_graded (mu+1) _ ltac:(lra) ltac:(lra) HT n) _) (un_pos la Hl Hl0 hP NP) (un_pos mu Hm Hm0 hQ NQ) _ _ _ _).
  - intros k Hk. apply sc_nz. now apply hT_pos.
  - intros. now apply ultra_shA.
  - intros. now apply ultra_shB.
  - intros. now apply ultra_CA.
  - intros. now apply ultra_CB.
Qed.

Lemma half_pos : (- 1 / 2 < 1 / 2)%R /\ (1 / 2 <> 0)%R. Proof. split; lra. Qed.
Lemma cheb2leg_A_eq norm i : 0 <= i -> cheb2leg_A_col norm i = ultra_A_col norm 0%R (1/2)%R i.
Proof.
  intros Hi. unfold cheb2leg_A_col, ultra_A_col. destruct (Z.eqb_spec i 0); [reflexivity|]. assert (1 <= IZR i)%R by (apply IZR_le; lia).
  rewrite ?copysign_pos by (cbn; try apply sqrt_pos; lra). cbn [add sub mul div opp sqrtA ofZ one zero R_arith].
  destruct norm; destruct (Z.eqb_spec i 1); rewrite ?opp_IZR, ?plus_IZR, ?mult_IZR.
  - repeat f_equal. rewrite <- (Rmult_1_l (sqrt (2/5))). f_equal; [lra|]. f_equal. field.
  - f_equal; [f_equal|do 2 f_equal].
    + replace ((IZR i - 1) * IZR i / ((2 * IZR i - 1) * (2 * IZR i + 1)))%R with (IZR i * (IZR i - 1) / (4 * (IZR i + 1 / 2) * (IZR i + 1 / 2 - 1)))%R by (assert (2 <= IZR i)%R by (apply IZR_le; lia); field; repeat split; lra). field.
    + replace ((IZR i + 1) * (IZR i + 2) / ((2 * IZR i + 1) * (2 * IZR i + 3)))%R with ((IZR i + 2 * (1 / 2)) * (IZR i + 2 * (1 / 2) + 1) / (4 * (IZR i + 1 / 2) * (IZR i + 1 / 2 + 1)))%R by (field; repeat split; lra). field.
  - do 2 f_equal. field.
  - f_equal; [f_equal|do 2 f_equal]; field; lra.
Qed.
Lemma cheb2leg_B_eq norm i : 0 <= i -> cheb2leg_B_col norm i = ultra_B_col norm (1/2)%R i.
Proof.
  intros Hi. unfold cheb2leg_B_col, ultra_B_col. assert (0 <= IZR i)%R by (apply IZR_le; lia).
  rewrite ?copysign_pos by (cbn; try apply sqrt_pos; lra). cbn [add sub mul div opp sqrtA ofZ one zero R_arith].
  destruct (Z.eqb_spec i 0); [|destruct (Z.eqb_spec i 1)]; destruct norm; rewrite ?opp_IZR, ?plus_IZR, ?mult_IZR.
  - do 3 f_equal; field.
  - reflexivity.
  - do 3 f_equal; field.
  - do 2 f_equal; field.
  - assert (2 <= IZR i)%R by (apply IZR_le; lia). f_equal; [f_equal; do 2 f_equal|do 3 f_equal]; field; repeat split; lra.
  - f_equal; [f_equal|do 2 f_equal]; field; lra.
Qed.
Lemma cheb2leg_pencil_proof n1 n2 n P Q hP hQ : 0 <= n ->
  is_chebyshev P -> chebyshev_norms hP -> is_jacobi 0 0 Q -> jacobi_norms 0 0 hQ ->
  exists A B, create_A_chebyshev_to_legendre n2 n = Some A /\ create_B_chebyshev_to_legendre n2 n = Some B /\ tb_b A = 2 /\ tb_b B = 2 /\
    forall U, connects n U (fam n1 P hP) (fam n2 Q hQ) -> diagonalizes n A B U (fun j => (IZR j * IZR j)%R).
Proof.
  intros Hn HP NP HQ0 NQ0. destruct (cheb_src P HP) as (P1 & P2 & gP). assert (HQ := legendre_ult _ HQ0). assert (NQ := legendre_ult_norms _ NQ0).
  destruct half_pos as [Hm Hm0]. assert (HT := std_ult_ok (1/2 + 1)).
  destruct (gegen_pencil n n1 n2 0 (1/2) P P1 P2 Q (fun j x => 2 * (1/2) * ext0 (std_ult (1/2+1)) (j - 1) x)%R (fun j x => 2 * (1/2) * (2 * (1/2 + 1) * ext0 (std_ult (1/2+1+1)) (j - 2) x))%R (fun i x => sc n2 (hT (1/2) hQ) i * std_ult (1/2+1) i x)%R hP hQ (kz 1 chA) (kz 1 (uA (1/2)))
    (fun n => sc n2 (hT (1/2) hQ) n * kz 1 (uA (1/2+1)) n)%R (cheb2leg_A_col n2) (cheb2leg_B_col n2) Hn gP
    (ut_gegen (1/2) Hm Hm0 Q (std_ult (1/2+1)) (std_ult (1/2+1+1)) HQ HT (std_ult_ok _)) (cheb_graded P n HP) (ult_graded (1/2) Q Hm Hm0 HQ n)) as (A & B & EA & EB & BA & BB & C).
  - apply (scaled_graded (sc n2 (hT (1/2) hQ)) _ _ n (ult_graded (1/2+1) _ ltac:(lra) ltac:(lra) HT n)). intros k Hk. apply sc_nz. now apply hT_pos.
  - apply (chn_pos hP NP).
  - apply (un_pos (1/2) Hm Hm0 hQ NQ).
  - intros. rewrite cheb2leg_A_eq by lia. now apply ultra_shA.
  - intros. rewrite cheb2leg_B_eq by lia. now apply ultra_shB.
  - intros. rewrite cheb2leg_A_eq by lia. now apply ultra_CA.
  - intros. rewrite cheb2leg_B_eq by lia. now apply ultra_CB.
  - exists A, B. do 4 (split; [assumption|]). intros U HU. destruct (C U HU) as (c1 & c2 & c3 & c4 & c5 & c6 & c7). do 5 (split; [assumption|]).
    split; intros; [rewrite c6 by auto|rewrite c7 by auto]; ring.
Qed.

Section L2C.
Variables (n : Z) (norm : bool) (Q : Z -> R -> R) (h : Z -> R).
Hypotheses (HQ : is_chebyshev Q) (Nh : chebyshev_norms h).
Let U := std_ult 1.
Let W := std_ult (1 + 1).
Definition s2 : R := (if norm then sqrt 2 / sqrt (h 0%Z) / 2 else 1 / 2)%R.
Lemma s2_nz : s2 <> 0%R.
Proof. unfold s2. destruct norm; [|lra]. assert (P := chn_0 _ Nh). apply sqrt_lt_R0 in P. assert (0 < sqrt 2)%R by (apply sqrt_lt_R0; lra). assert (0 < sqrt 2 / sqrt (h 0%Z))%R by (apply Rdiv_lt_0_compat; auto). lra. Qed.
Lemma s2_sc j : 1 <= j -> (s2 = sc norm h j / 2)%R.
Proof.
  intros Hj. unfold s2, sc. destruct norm; [|reflexivity]. assert (P := chn_0 _ Nh). assert (E := chn_S _ Nh j Hj). replace (h j) with (h 0%Z / 2)%R by lra.
  rewrite sqrt_div by lra. apply sqrt_lt_R0 in P. assert (0 < sqrt 2)%R by (apply sqrt_lt_R0; lra). field. lra.
Qed.
Lemma l2c_CB j x : 0 <= j < n -> colsum n (leg2cheb_B_col norm j) (fun i => (s2 * U i x)%R) = (sc norm h j * Q j x)%R.
Proof.
  intros Hj. assert (HU := std_ult_ok 1). fold U in HU. unfold leg2cheb_B_col. destruct (Z.eqb_spec j 0) as [->|].
  { cbn [colsum fst snd]. replace ((0 <=? 0) && (0 <? n)) with true by lia. rewrite (ult_0 _ _ HU), (che_0 _ HQ). unfold s2, sc. assert (P := chn_0 _ Nh). apply sqrt_lt_R0 in P.
    destruct norm; cbn [ofZ sqrtA R_arith]; [|lra]. assert (E : (sqrt 2 * sqrt 2 = 2)%R) by (apply sqrt_sqrt; lra). transitivity (sqrt 2 * sqrt 2 / (2 * sqrt (h 0%Z)))%R; [field; lra|rewrite E; field; lra]. }
  rewrite (ch_raise Q U HQ HU j x) by lia. destruct (Z.eqb_spec j 1) as [->|].
  { cbn [colsum fst snd]. replace ((0 <=? 1) && (1 <? n)) with true by lia. rewrite (ext0_neg U (1-2)), ext0_pos by lia. rewrite (s2_sc 1) by lia. cbn. field. }
  cbn [colsum fst snd]. replace ((0 <=? j - 2) && (j - 2 <? n)) with true by lia. replace ((0 <=? j) && (j <? n)) with true by lia. rewrite !ext0_pos by lia. rewrite (s2_sc j) by lia. cbn. field.
Qed.
Lemma l2c_CA j x : 0 <= j < n -> colsum n (leg2cheb_A_col j) (fun i => (s2 * U i x)%R) = (sc norm h j * (IZR j * (IZR j + 2 * 0) * Q j x + 2 * (1/2 - 0) * (x * (IZR j * ext0 U (j - 1) x))))%R.
Proof.
  intros Hj. assert (HU := std_ult_ok 1). fold U in HU. unfold leg2cheb_A_col. destruct (Z.eqb_spec j 0) as [->|]. { cbn [colsum]. ring. }
  assert (M := U_rec U HU (j - 1) x ltac:(lia)). replace (j - 1 + 1) with j in M by lia. replace (j - 1 - 1) with (j - 2) in M by lia.
  rewrite (ch_raise Q U HQ HU j x) by lia.
  replace (x * (IZR j * ext0 U (j - 1) x))%R with (IZR j * (U j x + ext0 U (j - 2) x) / 2)%R by (rewrite M; field). clear M. destruct (Z.eqb_spec j 1) as [->|].
  { cbn [colsum fst snd]. replace ((0 <=? 1) && (1 <? n)) with true by lia. rewrite (ext0_neg U (1-2)), ext0_pos by lia. rewrite (s2_sc 1) by lia. cbn. field. }
  cbn [colsum fst snd]. replace ((0 <=? j - 2) && (j - 2 <? n)) with true by lia. replace ((0 <=? j) && (j <? n)) with true by lia. rewrite !ext0_pos by lia. rewrite (s2_sc j) by lia. cbn. rewrite opp_IZR. field.
Qed.
Lemma l2c_shA j : 0 <= j < n -> NoDup (map fst (leg2cheb_A_col (F:=R) j)) /\ forall i, In i (map fst (leg2cheb_A_col (F:=R) j)) -> 0 <= i < n -> 0 <= j - i <= 2.
Proof. intros Hj. unfold leg2cheb_A_col. destruct (Z.eqb_spec j 0); [cbn; split; [constructor|tauto]|]. destruct (Z.eqb_spec j 1); cbn; split; try lia; repeat constructor; cbn; lia. Qed.
Lemma l2c_shB j : 0 <= j < n -> NoDup (map fst (leg2cheb_B_col (F:=R) norm j)) /\ forall i, In i (map fst (leg2cheb_B_col (F:=R) norm j)) -> 0 <= i < n -> 0 <= j - i <= 2.
Proof. intros Hj. unfold leg2cheb_B_col. destruct (Z.eqb_spec j 0); [cbn; split; [repeat constructor; cbn; lia|lia]|]. destruct (Z.eqb_spec j 1); cbn; split; try lia; repeat constructor; cbn; lia. Qed.
End L2C.
Lemma leg2cheb_pencil_proof n1 n2 n P Q hP hQ : 0 <= n ->
  is_jacobi 0 0 P -> jacobi_norms 0 0 hP -> is_chebyshev Q -> chebyshev_norms hQ ->
  exists A B, create_A_legendre_to_chebyshev n2 n = Some A /\ create_B_legendre_to_chebyshev n2 n = Some B /\ tb_b A = 2 /\ tb_b B = 2 /\
    forall U, connects n U (fam n1 P hP) (fam n2 Q hQ) -> diagonalizes n A B U (fun j => (IZR j * (IZR j + 1))%R).
Proof.
  intros Hn HP0 NP0 HQ NQ. destruct half_pos as [Hm Hm0]. assert (HP := legendre_ult _ HP0). assert (NP := legendre_ult_norms _ NP0).
  destruct (ult_src (1/2) P Hm Hm0 HP) as (P1 & P2 & gP).
  destruct (gegen_pencil n n1 n2 (1/2) 0 P P1 P2 Q (fun j x => IZR j * ext0 (std_ult 1) (j - 1) x)%R (fun j x => IZR j * (2 * ext0 (std_ult (1+1)) (j - 2) x))%R (fun i x => s2 n2 hQ * std_ult 1 i x)%R hP hQ (kz 1 (uA (1/2))) (kz 1 chA)
    (fun n => s2 n2 hQ * kz 1 (uA 1) n)%R leg2cheb_A_col (leg2cheb_B_col n2) Hn gP
    (ch_gegen Q (std_ult 1) (std_ult (1+1)) HQ (std_ult_ok _) (std_ult_ok _)) (ult_graded (1/2) P Hm Hm0 HP n) (cheb_graded Q n HQ)) as (A & B & EA & EB & BA & BB & C).
  - apply (scaled_graded (fun _ => s2 n2 hQ) _ _ n (ult_graded 1 _ ltac:(lra) ltac:(lra) (std_ult_ok 1) n)). intros. now apply s2_nz.
  - apply (un_pos (1/2) Hm Hm0 hP NP).
  - apply (chn_pos hQ NQ).
  - intros. now apply l2c_shA.
  - intros. now apply l2c_shB.
  - intros. now apply l2c_CA.
  - intros. now apply l2c_CB.
  - exists A, B. do 4 (split; [assumption|]). intros U HU. destruct (C U HU) as (c1 & c2 & c3 & c4 & c5 & c6 & c7). do 5 (split; [assumption|]).
    split; intros; [rewrite c6 by auto|rewrite c7 by auto]; field.
Qed.
