(** * Triples of the harmonic, isometry, vector and fftw plans *)
From Coq Require Import ZArith List Lia Bool ZifyBool ZifyNat.
From Verif Require Import SpecHeap MHeap PHeap MLife MLife2 MLife3 PLife PLife2 PLife3 PLife4.
Import ListNotations.
Open Scope Z_scope.
Open Scope prog_scope.

Definition own_rotplan (P : rotplan) (x : Z) : nat := (sgl (rp_self P) x + blk (rp_s P) x + blk (rp_c P) x)%nat.
Definition own_spinrot (P : spinrot) (x : Z) : nat :=
  (sgl (sr_self P) x + blk (sr_s1 P) x + blk (sr_c1 P) x + blk (sr_s2 P) x + blk (sr_c2 P) x)%nat.
Definition own_spinharm (P : spinharm) (x : Z) : nat :=
  (sgl (sh_self P) x + own_spinrot (sh_SRP P) x + blk (sh_B P) x + blk (sh_P1 P) x + blk (sh_P2 P) x + blk (sh_P1inv P) x + blk (sh_P2inv P) x)%nat.
Definition own_steigen (F : steigen) (x : Z) : nat :=
  (sgl (se_self F) x + blk (se_A F) x + blk (se_B F) x + blk (se_C F) x + blk (se_lambda F) x)%nat.
Definition own_partial_iso (F : partial_iso) (x : Z) : nat :=
  (sgl (pi_self F) x + own_steigen (pi_F11 F) x + own_steigen (pi_F21 F) x + own_steigen (pi_F12 F) x + own_steigen (pi_F22 F) x)%nat.
Ltac unfold_own ::= unfold own_partial_iso, own_steigen, own_spinharm, own_spinrot, own_rotplan, own_dpr1eig, own_dpr1fmm, own_dpr1, own_idpr1, own_block2, own_btbeig, own_bqr, own_stqr, own_sparse, own_banded, own_tbanded, own_symtri, own_bidiag, own_dense, own_lowrank.

(** ** rotations *)
Lemma sp_destroy_rotplan : forall P, hoare (fun x => Z.of_nat (own_rotplan P x)) (destroy_rotplan P) (fun _ => True) (fun _ _ => 0).
Proof. intros. unfold destroy_rotplan. start. steps. exact I. Qed.
Lemma sp_destroy_spinrot : forall P, hoare (fun x => Z.of_nat (own_spinrot P x)) (destroy_spinrot P) (fun _ => True) (fun _ _ => 0).
Proof. intros. unfold destroy_spinrot. start. steps. exact I. Qed.
#[export] Hint Resolve sp_destroy_rotplan sp_destroy_spinrot : hspec.
Definition is_rot (c : prog rotplan) : Prop := hoare (fun _ => 0) c (fun _ => True) (fun P x => Z.of_nat (own_rotplan P x)).
Lemma sp_plan_rot_half : forall n, is_rot (plan_rot_half n).
Proof. intros. unfold is_rot, plan_rot_half. start. steps. exact I. Qed.
Lemma sp_plan_rotdisk : forall n, is_rot (plan_rotdisk n).
Proof. intros. unfold is_rot, plan_rotdisk. start. steps. exact I. Qed.
Lemma sp_annulus_step : forall P s c JP, hoare (fun x => Z.of_nat (sgl P x) + Z.of_nat (sgl s x) + Z.of_nat (sgl c x) + Z.of_nat (own_symtri JP x)) (annulus_step P s c JP)
  (fun _ => True) (fun J x => Z.of_nat (sgl P x) + Z.of_nat (sgl s x) + Z.of_nat (sgl c x) + Z.of_nat (own_symtri J x)).
Proof. intros. unfold annulus_step. start. steps. exact I. Qed.
#[export] Hint Resolve sp_annulus_step : hspec.
Lemma sp_annulus_loop : forall k P s c JP, hoare (fun x => Z.of_nat (sgl P x) + Z.of_nat (sgl s x) + Z.of_nat (sgl c x) + Z.of_nat (own_symtri JP x)) (annulus_loop k P s c JP)
  (fun _ => True) (fun J x => Z.of_nat (sgl P x) + Z.of_nat (sgl s x) + Z.of_nat (sgl c x) + Z.of_nat (own_symtri J x)).
Proof. induction k as [|k IH]; intros P s c JP; cbn [annulus_loop]; start; steps; exact I. Qed.
#[export] Hint Resolve sp_annulus_loop : hspec.
Lemma sp_plan_rotannulus : forall g0 n, is_rot (plan_rotannulus g0 n).
Proof. intros [|] n; unfold is_rot, plan_rotannulus; start; steps; exact I. Qed.
Lemma sp_plan_rotspinsphere : forall n s, hoare (fun _ => 0) (plan_rotspinsphere n s) (fun _ => True) (fun P x => Z.of_nat (own_spinrot P x)).
Proof. intros. unfold plan_rotspinsphere. start. steps. exact I. Qed.
#[export] Hint Resolve sp_plan_rotspinsphere : hspec.

(** ** harmonic plans *)
Definition own_MP (o : option (Z * list modplan)) (x : Z) : nat :=
  match o with Some (p, l) => (sgl p x + lsum own_modplan l x)%nat | None => 0%nat end.
Definition own_harmonic (P : harmonic) (x : Z) : nat :=
  (sgl (hp_self P) x + sgl (hp_RP P) x + lsum own_rotplan (hp_rots P) x + own_MP (hp_MP P) x + blk (hp_B P) x +
   sgl (hp_P P) x + lsum blk (hp_Ps P) x + sgl (hp_Pinv P) x + lsum blk (hp_Pinvs P) x)%nat.
Definition ok_harmonic (P : harmonic) : Prop :=
  0 < hp_NRP P /\ length (hp_rots P) = Z.to_nat (hp_NRP P) /\
  0 < hp_NP P /\ length (hp_Ps P) = Z.to_nat (hp_NP P) /\ length (hp_Pinvs P) = Z.to_nat (hp_NP P) /\
  match hp_MP P with
  | None => hp_NMP P = 0
  | Some (p, l) => 0 < hp_NMP P /\ length l = Z.to_nat (hp_NMP P) /\ Forall ok_modplan l
  end.
Lemma sp_free_pairs : forall k self pp pi P Q, length P = k -> length Q = k ->
  hoare (fun x => Z.of_nat (sgl self x) + Z.of_nat (sgl pp x) + Z.of_nat (sgl pi x) + Z.of_nat (lsum blk P x) + Z.of_nat (lsum blk Q x))
    (free_pairs self pp pi P Q k) (fun _ => True) (fun _ x => Z.of_nat (sgl self x) + Z.of_nat (sgl pp x) + Z.of_nat (sgl pi x)).
Proof.
  induction k as [|k IH]; intros self pp pi P Q HP HQ; destruct P as [|p P]; cbn in HP; try discriminate; destruct Q as [|q Q]; cbn in HQ; try discriminate; cbn [free_pairs lsum]; start.
  - steps. exact I.
  - do 6 step. apply hoare_tail. eapply hoare_bind; [apply IH; lia|hside|intros u1 _; cbv beta]. steps. exact I.
Qed.
Ltac upto := repeat (lazymatch goal with |- hoareG _ (bind (free_pairs _ _ _ _ _ _) _) _ _ => fail | _ => step end).
Lemma sp_destroy_harmonic : forall P, ok_harmonic P -> hoare (fun x => Z.of_nat (own_harmonic P x)) (destroy_harmonic P) (fun _ => True) (fun _ _ => 0).
Proof.
  intros [self RP rots MP B Pp Ps Pi Pinvs NRP NMP NP]. unfold ok_harmonic, destroy_harmonic, own_harmonic. cbn [hp_self hp_RP hp_rots hp_MP hp_B hp_P hp_Ps hp_Pinv hp_Pinvs hp_NRP hp_NMP hp_NP].
  intros (H1 & H2 & H3 & H4 & H5 & H6). replace (0 <? NRP) with true by lia. replace (0 <? NP) with true by lia. start. steps.
  eapply hoare_bind; [apply (sp_each _ _ (fun x => sgl self x + sgl RP x)%nat (fun _ => True) own_rotplan)| |intros u1 _; cbv beta].
  { intros a _. start. steps. exact I. }
  { assumption. }
  { apply Forall_forall. auto. }
  { hside. }
  do 4 step. destruct MP as [[p l]|].
  - destruct H6 as (H6 & H7 & H8). replace (0 <? NMP) with true by lia. cbn [field fst snd own_MP]. step. step. step.
    eapply hoare_bind; [apply (sp_each _ _ (fun x => sgl self x + sgl p x)%nat ok_modplan own_modplan)| |intros u2 _; cbv beta].
    { intros a Ha. start. steps. exact I. }
    { assumption. }
    { assumption. }
    { hside. }
    cbn [fst snd]. upto.
    eapply hoare_bind; [apply sp_free_pairs; assumption|hside|intros uu3 _; cbv beta]. steps. exact I.
  - replace (0 <? NMP) with false by lia. cbn [own_MP]. upto.
    eapply hoare_bind; [apply sp_free_pairs; assumption|hside|intros uu3 _; cbv beta]. steps. exact I.
Qed.
Lemma sp_all : forall p Ps, Forall is_array Ps ->
  hoare (fun x => Z.of_nat (sgl p x))
    ((fix all (l : list (prog Z)) := match l with [] => ret [] | f :: l => q <- f;; use p;; r <- all l;; ret (q :: r) end) Ps)
    (fun l => length l = length Ps) (fun l x => Z.of_nat (sgl p x) + Z.of_nat (lsum blk l x)).
Proof.
  intros p Ps H. induction H as [|f Ps Hf _ IH].
  - start. apply hoare_ret; [reflexivity|]. intro x. cbn. lia.
  - start. eapply hoare_bind; [apply Hf|hside|intros q Hq; cbv beta in Hq |- *]. step.
    eapply hoare_bind; [apply IH|hside|intros r Hr; cbv beta in Hr |- *].
    apply hoare_ret; [cbn; lia|]. intro x. cbn [lsum]. blk_facts. lia.
Qed.
Definition is_harmonic (c : prog harmonic) : Prop := hoare (fun _ => 0) c ok_harmonic (fun P x => Z.of_nat (own_harmonic P x)).
Lemma sp_plan_harmonic1 : forall rot szB Ps Qs, is_rot rot -> Forall is_array Ps -> Forall is_array Qs -> length Qs = length Ps -> Ps <> [] ->
  is_harmonic (plan_harmonic1 rot szB Ps Qs).
Proof.
  intros rot szB Ps Qs Hr HP HQ HL HN. unfold is_harmonic, plan_harmonic1. start. step. step.
  eapply hoare_bind; [apply Hr|hside|intros R _; cbv beta]. repeat step.
  eapply hoare_bind; [apply sp_all; assumption|hside|intros Pl HPl; cbv beta in HPl |- *]. step.
  eapply hoare_bind; [apply sp_all; assumption|hside|intros Ql HQl; cbv beta in HQl |- *]. step.
  apply hoare_ret.
  - unfold ok_harmonic. cbn [hp_rots hp_MP hp_Ps hp_Pinvs hp_NRP hp_NMP hp_NP]. assert (0 < length Ps)%nat by (destruct Ps; [congruence|cbn; lia]).
    repeat split; try lia.
  - intro x. unfold own_harmonic. cbn [hp_self hp_RP hp_rots hp_MP hp_B hp_P hp_Ps hp_Pinv hp_Pinvs lsum own_MP]. blk_facts. lia.
Qed.
Ltac arrays := repeat (constructor; [first [apply sp_plan_dense | apply sp_plan_dense_scaled | apply sp_plan_dense_scaled2]|]); constructor.
Lemma sp_plan_sph2fourier : forall n, is_harmonic (plan_sph2fourier n).
Proof. intro n. apply sp_plan_harmonic1; [apply sp_plan_rot_half|arrays|arrays|reflexivity|discriminate]. Qed.
Lemma sp_plan_tri2cheb : forall n, is_harmonic (plan_tri2cheb n).
Proof. intro n. apply sp_plan_harmonic1; [apply sp_plan_rot_half|arrays|arrays|reflexivity|discriminate]. Qed.
Lemma sp_plan_disk2cxf : forall n, is_harmonic (plan_disk2cxf n).
Proof. intro n. apply sp_plan_harmonic1; [apply sp_plan_rotdisk|arrays|arrays|reflexivity|discriminate]. Qed.
Lemma sp_plan_rectdisk2cheb : forall n, is_harmonic (plan_rectdisk2cheb n).
Proof. intro n. apply sp_plan_harmonic1; [apply sp_plan_rot_half|arrays|arrays|reflexivity|discriminate]. Qed.
Ltac arr L := eapply hoare_bind; [apply L|hside|let q := fresh "q" in let Hq := fresh "Hq" in intros q Hq; cbv beta in Hq |- *].
Lemma sp_plan_ann2cxf : forall g0 n, is_harmonic (plan_ann2cxf g0 n).
Proof.
  intros g0 n. unfold is_harmonic, plan_ann2cxf. start. step. step. arr sp_plan_rotannulus. destruct g0.
  - steps. arr sp_plan_dense_scaled. do 2 step. arr sp_plan_dense_scaled. do 2 step. apply hoare_ret.
    + unfold ok_harmonic. cbn. repeat split; try lia. repeat constructor; cbn; lia.
    + intro x. unfold own_harmonic, own_MP, own_modplan. cbn [hp_self hp_RP hp_rots hp_MP hp_B hp_P hp_Ps hp_Pinv hp_Pinvs lsum mp_self mp_K mp_R own_opt].
      unfold own_modplan. cbn [mp_self mp_K mp_R own_opt]. blk_facts. lia.
  - steps. arr sp_plan_dense_scaled. do 2 step. arr sp_plan_dense_scaled. do 2 step. apply hoare_ret.
    + unfold ok_harmonic. cbn. repeat split; try lia.
    + intro x. unfold own_harmonic, own_MP. cbn [hp_self hp_RP hp_rots hp_MP hp_B hp_P hp_Ps hp_Pinv hp_Pinvs lsum]. blk_facts. lia.
Qed.
Lemma sp_plan_tet2cheb : forall n, is_harmonic (plan_tet2cheb n).
Proof.
  intros n. unfold is_harmonic, plan_tet2cheb. start. step. step. arr sp_plan_rot_half. step. arr sp_plan_rot_half. do 4 step.
  arr sp_plan_dense. step. arr sp_plan_dense. step. arr sp_plan_dense. do 2 step.
  arr sp_plan_dense. step. arr sp_plan_dense. step. arr sp_plan_dense. do 2 step.
  apply hoare_ret.
  - unfold ok_harmonic. cbn. repeat split; try lia.
  - intro x. unfold own_harmonic, own_MP. cbn [hp_self hp_RP hp_rots hp_MP hp_B hp_P hp_Ps hp_Pinv hp_Pinvs lsum]. blk_facts. lia.
Qed.
Lemma sp_destroy_spinharm : forall P, hoare (fun x => Z.of_nat (own_spinharm P x)) (destroy_spinharm P) (fun _ => True) (fun _ _ => 0).
Proof. intros. unfold destroy_spinharm. cbv zeta. start. steps. exact I. Qed.
Lemma sp_plan_spinsph2fourier : forall n s, hoare (fun _ => 0) (plan_spinsph2fourier n s) (fun _ => True) (fun P x => Z.of_nat (own_spinharm P x)).
Proof.
  intros. unfold plan_spinsph2fourier. start. do 4 step.
  arr sp_plan_dense. arr sp_plan_dense. arr sp_plan_dense. arr sp_plan_dense. steps. exact I.
Qed.

(** ** isometries *)
Lemma sp_destroy_steigen : forall F, hoare (fun x => Z.of_nat (own_steigen F x)) (destroy_steigen F) (fun _ => True) (fun _ _ => 0).
Proof. intros. unfold destroy_steigen. start. steps. exact I. Qed.
#[export] Hint Resolve sp_destroy_steigen : hspec.
Lemma sp_destroy_partial_iso : forall F, hoare (fun x => Z.of_nat (own_partial_iso F x)) (destroy_partial_iso F) (fun _ => True) (fun _ _ => 0).
Proof. intros. unfold destroy_partial_iso. cbv zeta. start. steps. exact I. Qed.
#[export] Hint Resolve sp_destroy_partial_iso : hspec.
Lemma sp_st_symmetric_eig : forall T l, hoare (fun x => Z.of_nat (own_symtri T x) + Z.of_nat (sgl l x)) (st_symmetric_eig T l) (fun _ => True)
  (fun F x => Z.of_nat (own_symtri T x) + Z.of_nat (sgl l x) + Z.of_nat (own_steigen F x)).
Proof. intros. unfold st_symmetric_eig. start. steps. exact I. Qed.
#[export] Hint Resolve sp_st_symmetric_eig : hspec.
Lemma sp_plan_partial_iso : forall l, 2 <= l -> hoare (fun _ => 0) (plan_partial_iso l) (fun _ => True) (fun F x => Z.of_nat (own_partial_iso F x)).
Proof.
  intros l Hl. unfold plan_partial_iso. cbv zeta.
  assert (H1 : 0 <= l / 2) by (apply Z.div_pos; lia). assert (H2 : 0 <= (l + 1) / 2) by (apply Z.div_pos; lia).
  assert (H3 : 0 <= (l + 2) / 2) by (apply Z.div_pos; lia).
  start. steps. exact I.
Qed.
#[export] Hint Resolve sp_plan_partial_iso : hspec.
Definition own_iso (F : iso) (x : Z) : nat := (sgl (is_self F) x + lsum own_partial_iso (is_parts F) x)%nat.
Lemma sp_destroy_iso : forall F, (2 < is_n F -> is_F F <> NULL) -> length (is_parts F) = Z.to_nat (is_n F - 2) ->
  hoare (fun x => Z.of_nat (own_iso F x) + Z.of_nat (blk (is_F F) x)) (destroy_iso F) (fun _ => True) (fun _ x => Z.of_nat (blk (is_F F) x)).
Proof.
  intros F HN HL. unfold destroy_iso, own_iso. start. step.
  destruct (is_parts F) as [|a l] eqn:E.
  - cbn in HL. replace (each (is_n F - 2) _ []) with (ret tt) by (unfold each; rewrite <- HL; reflexivity). cbn [lsum]. steps. exact I.
  - assert (Hn : is_F F <> NULL) by (apply HN; cbn in HL; lia). rewrite <- E in *. clear E a l.
    eapply hoare_bind; [apply (sp_each _ _ (fun x => sgl (is_self F) x + blk (is_F F) x)%nat (fun _ => True) own_partial_iso)| |intros u1 _; cbv beta].
    { intros a _. start. steps. exact I. }
    { assumption. }
    { apply Forall_forall; auto. }
    { hside. }
    steps. exact I.
Qed.
Lemma sp_plan_sph_isometry : forall n, 2 <= n -> hoareG (fun _ => 0) (plan_sph_isometry n)
  (fun F l => ((2 < is_n F -> is_F F <> NULL) /\ length (is_parts F) = Z.to_nat (is_n F - 2) /\ l = [is_F F]) /\ Z.of_nat (length l) = 1)
  (fun F l x => Z.of_nat (own_iso F x) + cnt l x).
Proof.
  intros n Hn. unfold plan_sph_isometry. step. step.
  eapply hoare_bind; [apply (sp_tabulate _ _ (fun x => sgl v x + sgl v0 x)%nat (fun _ => True) own_partial_iso)| |intros l [Hl _]; cbv beta].
  { intros i Hi. start. eapply hoare_bind; [apply sp_plan_partial_iso; lia|hside|intros P _; cbv beta]. steps. exact I. }
  { hside. }
  step. apply (hoareG_ret _ _ [v0]).
  - cbn. auto.
  - intro x. unfold own_iso. cbn [is_self is_parts]. rewrite cnt_cons. change (cnt [] x) with 0. blk_facts. lia.
Qed.

(** ** vector calculus *)
Definition own_bt (p : banded * tbanded) (x : Z) : nat := (own_banded (fst p) x + own_tbanded (snd p) x)%nat.
Definition own_gradplan (P : gradplan) (x : Z) : nat := (sgl (gp_self P) x + blk (gp_B P) x + blk (gp_T P) x + lsum own_bt (gp_l P) x)%nat.
Definition ok_gradplan (P : gradplan) : Prop := length (gp_l P) = Z.to_nat (gp_n P) /\ (0 < gp_n P -> gp_B P <> NULL /\ gp_T P <> NULL).
Lemma each_none : forall A n (f : A -> prog unit) l, n <= 0 -> each n f l = ret tt.
Proof. intros A n f l H. unfold each. replace (Z.to_nat n) with O by lia. destruct l; reflexivity. Qed.
Lemma tabulate_none : forall A lo hi (f : Z -> prog A), hi <= lo -> tabulate lo hi f = ret [].
Proof. intros A lo hi f H. unfold tabulate. replace (Z.to_nat (hi - lo)) with O by lia. reflexivity. Qed.
Lemma sp_destroy_gradplan : forall P, ok_gradplan P -> hoare (fun x => Z.of_nat (own_gradplan P x)) (destroy_gradplan P) (fun _ => True) (fun _ _ => 0).
Proof.
  intros [self B T l n] [HL HN]. unfold destroy_gradplan, own_gradplan in *. cbn [gp_self gp_B gp_T gp_l gp_n] in *. cbv zeta. start. step.
  destruct (Z.ltb_spec 0 n) as [Hn|Hn].
  - destruct (HN Hn) as [NB NT].
    eapply hoare_bind; [apply (sp_each _ _ (fun x => sgl self x + blk B x + blk T x)%nat (fun _ => True) own_bt)| |intros u1 _; cbv beta].
    { intros [b t] _. unfold own_bt. cbn [fst snd]. start. steps. exact I. }
    { assumption. }
    { apply Forall_forall; auto. }
    { hside. }
    steps. exact I.
  - rewrite each_none by lia. destruct l; [|cbn in HL; lia]. cbn [lsum]. steps. exact I.
Qed.
Lemma sp_plan_sph_gradient : forall n, hoare (fun _ => 0) (plan_sph_gradient n) ok_gradplan (fun P x => Z.of_nat (own_gradplan P x)).
Proof.
  intros n. unfold plan_sph_gradient. start. destruct (Z.ltb_spec 0 n) as [Hn|Hn].
  - step. step.
    eapply hoare_bind; [apply (sp_tabulate _ _ (fun x => blk v x + blk v0 x)%nat (fun _ => True) own_bt)| |intros l [Hl _]; cbv beta].
    { intros i Hi. start. steps. apply hoare_ret; [exact I|]. intro x. unfold own_bt. cbn [fst snd]. lia. }
    { hside. }
    step. apply hoare_ret.
    + split; cbn; [rewrite Hl; lia|auto].
    + intro x. unfold own_gradplan. cbn [gp_self gp_B gp_T gp_l]. lia.
  - step. step. rewrite tabulate_none by lia. steps. apply hoare_ret.
    + split; cbn; [lia|intro; lia].
    + intro x. unfold own_gradplan. cbn [gp_self gp_B gp_T gp_l lsum]. lia.
Qed.
Definition own_tf (p : tbanded * bqr) (x : Z) : nat := (own_tbanded (fst p) x + own_bqr (snd p) x)%nat.
Definition own_hhplan (P : hhplan) (x : Z) : nat := (sgl (hh_self P) x + blk (hh_T P) x + blk (hh_F P) x + blk (hh_X P) x + lsum own_tf (hh_l P) x)%nat.
Definition ok_hhplan (P : hhplan) : Prop := length (hh_l P) = Z.to_nat (hh_n P) /\ (0 < hh_n P -> hh_T P <> NULL /\ hh_F P <> NULL).
Lemma sp_destroy_hhplan : forall P, ok_hhplan P -> hoare (fun x => Z.of_nat (own_hhplan P x)) (destroy_hhplan P) (fun _ => True) (fun _ _ => 0).
Proof.
  intros [self T F X l n] [HL HN]. unfold destroy_hhplan, own_hhplan in *. cbn [hh_self hh_T hh_F hh_X hh_l hh_n] in *. cbv zeta. start. step.
  destruct (Z.ltb_spec 0 n) as [Hn|Hn].
  - destruct (HN Hn) as [NB NT].
    eapply hoare_bind; [apply (sp_each _ _ (fun x => sgl self x + blk T x + blk F x)%nat (fun _ => True) own_tf)| |intros u1 _; cbv beta].
    { intros [b t] _. unfold own_tf. cbn [fst snd]. start. steps. exact I. }
    { assumption. }
    { apply Forall_forall; auto. }
    { hside. }
    steps. exact I.
  - rewrite each_none by lia. destruct l; [|cbn in HL; lia]. cbn [lsum]. steps. exact I.
Qed.
Lemma sp_plan_sph_helmholtzhodge : forall n, hoare (fun _ => 0) (plan_sph_helmholtzhodge n) ok_hhplan (fun P x => Z.of_nat (own_hhplan P x)).
Proof.
  intros n. unfold plan_sph_helmholtzhodge. start. destruct (Z.ltb_spec 0 n) as [Hn|Hn].
  - step. step.
    eapply hoare_bind; [apply (sp_tabulate _ _ (fun x => blk v x + blk v0 x)%nat (fun _ => True) own_tf)| |intros l [Hl _]; cbv beta].
    { intros i Hi. start. steps. apply hoare_ret; [exact I|]. intro x. unfold own_tf. cbn [fst snd]. lia. }
    { hside. }
    step. step. apply hoare_ret.
    + split; cbn; [rewrite Hl; lia|auto].
    + intro x. unfold own_hhplan. cbn [hh_self hh_T hh_F hh_X hh_l]. lia.
  - step. step. rewrite tabulate_none by lia. steps. apply hoare_ret.
    + split; cbn; [lia|intro; lia].
    + intro x. unfold own_hhplan. cbn [hh_self hh_T hh_F hh_X hh_l lsum]. lia.
Qed.

(** ** fftw plans *)
Definition own_fplan (P : fplan) (x : Z) : nat := (sgl (fp_self P) x + lsum blk (fp_ptrs P) x)%nat.
Lemma sp_destroy_fplan : forall P, hoare (fun x => Z.of_nat (own_fplan P x)) (destroy_fplan P) (fun _ => True) (fun _ _ => 0).
Proof.
  intros [self l]. unfold destroy_fplan, own_fplan. cbn [fp_self fp_ptrs]. start. induction l as [|p l IH].
  - cbn [lsum]. steps. exact I.
  - cbn [lsum]. do 4 step.
    apply (hoareG_weaken _ _ (fun x => Z.of_nat (sgl self x + lsum blk l x)) _ _ (fun _ _ => True) _ (fun _ _ _ => 0)); [exact IH|hside|].
    intros u1 g _. split; [trivial|]. hside.
Qed.
Lemma sp_fftw_plan : hoare (fun _ => 0) fftw_plan (fun _ => True) (fun p x => Z.of_nat (blk p x)).
Proof. unfold fftw_plan. start. steps. exact I. Qed.
#[export] Hint Resolve sp_fftw_plan : hspec.
Ltac fftw := start; steps; (apply hoare_ret; [exact I|]); let x := fresh in intro x; unfold own_fplan; cbn [fp_self fp_ptrs lsum]; blk_facts; lia.
Definition is_fftw (c : prog fplan) : Prop := hoare (fun _ => 0) c (fun _ => True) (fun P x => Z.of_nat (own_fplan P x)).
Lemma sp_fftw_sphere : forall N M, is_fftw (plan_fftw_sphere N M).
Proof. intros. unfold is_fftw, plan_fftw_sphere. fftw. Qed.
Lemma sp_fftw_triangle : forall N M, is_fftw (plan_fftw_triangle N M).
Proof. intros. unfold is_fftw, plan_fftw_triangle. fftw. Qed.
Lemma sp_fftw_tetrahedron : forall N L M, is_fftw (plan_fftw_tetrahedron N L M).
Proof. intros. unfold is_fftw, plan_fftw_tetrahedron. fftw. Qed.
Lemma sp_fftw_annulus : forall N M, is_fftw (plan_fftw_annulus N M).
Proof. intros. unfold is_fftw, plan_fftw_annulus. fftw. Qed.
Lemma sp_fftw_rectdisk : forall N M, is_fftw (plan_fftw_rectdisk N M).
Proof. intros. unfold is_fftw, plan_fftw_rectdisk. fftw. Qed.
Lemma sp_fftw_spinsphere : forall N M, is_fftw (plan_fftw_spinsphere N M).
Proof. intros. unfold is_fftw, plan_fftw_spinsphere. fftw. Qed.
