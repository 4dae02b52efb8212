(** * Lifecycles of the public plans and histories of create and destroy *)
From Coq Require Import ZArith List Lia Bool ZifyBool ZifyNat.
From Verif Require Import SpecHeap MHeap PHeap MLife MLife2 MLife3 MLife4 PLife PLife2 PLife3 PLife4 PLife5.
Import ListNotations.
Open Scope Z_scope.
Open Scope prog_scope.

(** ** client programs of the eigenvalue planners *)
Lemma lc_fmm : forall thr rank BS n bA bB, 2 <= BS -> 0 <= n -> lifecycle (fmm_of_pencil thr rank BS n bA bB) (destroy_tbeig BS).
Proof.
  intros thr rank BS n bA bB HB Hn. apply (lifecycle_of _ _ _ (ok_tbeig BS) own_tbeig).
  - unfold fmm_of_pencil. start. step. step.
    eapply hoare_bind; [apply sp_tb_eig_FMM; [assumption|unfold depth; lia]|hside|intros F HF; cbv beta in HF |- *]. steps. assumption.
  - intros v Hv. apply sp_destroy_tbeig; assumption.
Qed.
Lemma leak_adi_gen : forall thr BS n bA bB, 2 <= BS -> 0 <= n -> 0 <= Z.max bA bB ->
  hoareG (fun _ => 0) (adi_of_pencil thr BS n bA bB) (fun F l => ok_adieig BS F /\ adi_lost BS n l) (fun F l x => Z.of_nat (own_adieig F x) + cnt l x).
Proof.
  intros thr BS n bA bB HB Hn Hb. unfold adi_of_pencil. step. step.
  eapply hoareG_bind; [apply sp_tb_eig_ADI; [assumption|unfold depth; lia|lia]|hside|intros F l [HF Hl]; cbv beta]. steps.
  apply (hoareG_ret _ _ l).
  - destruct Hv as [E _]. rewrite E in Hl. auto.
  - intro x. rewrite cnt_Z. lia.
Qed.
Lemma leak_combine : forall A (create : prog A) destroy (phi : A -> list Z -> Prop) (own : A -> Z -> nat) (k : list Z -> Prop),
  hoareG (fun _ => 0) create (fun v l => phi v l /\ k l) (fun v l x => Z.of_nat (own v x) + cnt l x) ->
  (forall v l, phi v l -> hoare (fun x => Z.of_nat (own v x)) (destroy v) (fun _ => True) (fun _ _ => 0)) ->
  forall h, wf h -> exists P h1 h2 B, create h = Some (P, h1) /\ destroy P h1 = Some (tt, h2) /\ grows h h2 B /\ k B.
Proof.
  intros A create destroy phi own k Hc Hd h Hw.
  assert (HL : hoareG (fun _ => 0) (P <- create;; destroy P) (fun _ l => k l) (fun _ l x => cnt l x)).
  { eapply hoareG_bind; [exact Hc|intro; lia|]. intros v l [F Hl]. cbv beta.
    intros h1 W1 H1. destruct (Hd v l F h1 W1) as (u & h2 & _ & E2 & W2 & _ & C2).
    - intro x. specialize (H1 x). pose proof (cnt_nonneg l x). lia.
    - exists u, h2, l. split; [exact E2|]. split; [exact W2|]. split; [exact Hl|]. intro x. rewrite C2. lia. }
  destruct (hoare_leak _ _ _ HL h Hw) as ([] & h2 & B & E & HG & HK).
  unfold bind in E. destruct (create h) as [[P h1]|] eqn:E1; [|discriminate].
  exists P, h1, h2, B. auto.
Qed.
Lemma leak_adi : forall thr BS n bA bB, 2 <= BS <= n -> 0 <= Z.max bA bB -> leaks_at_least 2 (adi_of_pencil thr BS n bA bB) (destroy_adieig BS).
Proof.
  intros thr BS n bA bB HB Hb h Hw.
  destruct (leak_combine _ _ (destroy_adieig BS) (fun F _ => ok_adieig BS F) own_adieig (adi_lost BS n) (leak_adi_gen thr BS n bA bB ltac:(lia) ltac:(lia) Hb)
    ltac:(intros; apply sp_destroy_adieig; assumption) h Hw) as (P & h1 & h2 & B & E1 & E2 & HG & HK & _).
  exists P, h1, h2, B. split; [exact E1|]. split; [exact E2|]. split; [exact HG|]. specialize (HK ltac:(lia)). lia.
Qed.
Lemma lc_adi : forall thr BS n bA bB, 2 <= BS -> 0 <= n < BS -> 0 <= Z.max bA bB -> lifecycle (adi_of_pencil thr BS n bA bB) (destroy_adieig BS).
Proof.
  intros thr BS n bA bB HB Hn Hb. apply (lifecycle_of _ _ _ (ok_adieig BS) own_adieig).
  - apply no_loss. intros h Hw Hh. destruct (leak_adi_gen thr BS n bA bB HB ltac:(lia) Hb h Hw Hh) as (v & h1 & l & E & W & [F (_ & L & _)] & C).
    exists v, h1, l. split; [exact E|]. split; [exact W|]. split; [split; [exact F|rewrite L by lia; reflexivity]|exact C].
  - intros v Hv. apply sp_destroy_adieig; assumption.
Qed.
Section TdcClient.
Context {E : Type} (eig : dpr1 -> idpr1 -> prog E) (drop : E -> prog E) (destroy_E : E -> prog unit).
Variables (own_E : E -> Z -> nat) (ok_E : E -> Prop).
Hypothesis sp_eig : forall A B, hoare (fun x => Z.of_nat (own_dpr1 A x) + Z.of_nat (own_idpr1 B x)) (eig A B) ok_E
  (fun F x => Z.of_nat (own_dpr1 A x) + Z.of_nat (own_idpr1 B x) + Z.of_nat (own_E F x)).
Hypothesis sp_drop : forall F, ok_E F -> hoare (fun x => Z.of_nat (own_E F x)) (drop F) ok_E (fun G x => Z.of_nat (own_E F x) + Z.of_nat (own_E G x)).
Hypothesis sp_destroy : forall F, ok_E F -> hoare (fun x => Z.of_nat (own_E F x)) (destroy_E F) (fun _ => True) (fun _ _ => 0).
Lemma sp_tdc_client : forall TS (low : bool) n, 2 <= TS -> 0 <= n -> hoare (fun _ => 0)
  (T <- new_symtri n;; Sm <- new_symtri n;; F <- sdtdc_eig TS eig (depth n) T Sm;;
   G <- (if low then G <- drop_tdceig TS drop F;; destroy_tdceig TS destroy_E F;; ret G else ret F);;
   destroy_symtri T;; destroy_symtri Sm;; ret G) (ok_tdc ok_E TS) (fun F x => Z.of_nat (own_tdc own_E F x)).
Proof.
  intros TS low n HT Hn. start. step. step. cbv beta in *.
  eapply hoare_bind; [apply (sp_sdtdc_eig eig drop destroy_E own_E ok_E sp_eig sp_drop sp_destroy); [assumption|unfold depth; lia]|hside|intros F HF; cbv beta in HF |- *].
  destruct low.
  - apply hoare_assoc.
    eapply hoare_bind; [apply (sp_drop_tdc drop destroy_E own_E ok_E sp_drop sp_destroy); exact HF|hside|intros G HG; cbv beta in HG |- *].
    apply hoare_assoc.
    eapply hoare_bind; [apply (sp_destroy_tdc drop destroy_E own_E ok_E sp_drop sp_destroy); exact HF|hside|intros u1 _; cbv beta].
    steps. assumption.
  - steps. assumption.
Qed.
Lemma lc_tdc_client : forall TS (low : bool) n, 2 <= TS -> 0 <= n -> lifecycle
  (T <- new_symtri n;; Sm <- new_symtri n;; F <- sdtdc_eig TS eig (depth n) T Sm;;
   G <- (if low then G <- drop_tdceig TS drop F;; destroy_tdceig TS destroy_E F;; ret G else ret F);;
   destroy_symtri T;; destroy_symtri Sm;; ret G) (destroy_tdceig TS destroy_E).
Proof.
  intros TS low n HT Hn. apply (lifecycle_of _ _ _ (ok_tdc ok_E TS) (own_tdc own_E)); [apply sp_tdc_client; assumption|].
  apply (sp_destroy_tdc drop destroy_E own_E ok_E sp_drop sp_destroy).
Qed.
End TdcClient.
Lemma lc_tdc : forall TS low n, 2 <= TS -> 0 <= n -> lifecycle (tdc_of_pencil TS low n) (destroy_tdceig TS destroy_dpr1eig).
Proof.
  intros TS low n HT Hn. apply (lc_tdc_client definite_dpr1_eig drop_dpr1eig destroy_dpr1eig own_dpr1eig (fun _ => True)); try assumption.
  - apply sp_definite_dpr1_eig.
  - intros. apply sp_drop_dpr1eig.
  - intros. apply sp_destroy_dpr1eig.
Qed.
Lemma lc_tdcfmm : forall thr rank TS low n, 2 <= TS -> 0 <= n -> lifecycle (tdcfmm_of_pencil thr rank TS low n) (destroy_tdceig TS destroy_dpr1fmm).
Proof.
  intros thr rank TS low n HT Hn. apply (lc_tdc_client (definite_dpr1_eig_FMM thr rank) (drop_dpr1fmm thr rank) destroy_dpr1fmm own_dpr1fmm (fun F => ok_hmat (df_V F))); try assumption.
  - apply sp_definite_dpr1_eig_FMM.
  - apply sp_drop_dpr1fmm.
  - apply sp_destroy_dpr1fmm.
Qed.
Lemma lc_dpr1 : forall n, lifecycle (dpr1_of_pencil n) destroy_dpr1eig.
Proof.
  intros n. apply (lifecycle_of _ _ _ (fun _ => True) own_dpr1eig); [|intros; apply sp_destroy_dpr1eig].
  unfold dpr1_of_pencil. start. do 5 step.
  eapply hoare_bind; [apply sp_definite_dpr1_eig|hside|intros F HF; cbv beta in HF |- *]. steps. exact I.
Qed.
Lemma lc_dpr1fmm : forall thr rank n, lifecycle (dpr1fmm_of_pencil thr rank n) destroy_dpr1fmm.
Proof.
  intros thr rank n. apply (lifecycle_of _ _ _ (fun F => ok_hmat (df_V F)) own_dpr1fmm); [|intros; apply sp_destroy_dpr1fmm; assumption].
  unfold dpr1fmm_of_pencil. start. do 5 step.
  eapply hoare_bind; [apply sp_definite_dpr1_eig_FMM|hside|intros F HF; cbv beta in HF |- *]. steps. exact HF.
Qed.

(** ** leaks of public plans *)
Lemma leak_iso : forall n, 2 <= n -> leaks 1 (plan_sph_isometry n) destroy_iso.
Proof.
  intros n Hn h Hw.
  pose proof (sp_plan_sph_isometry n Hn) as Hc.
  assert (HL : hoareG (fun _ => 0) (P <- plan_sph_isometry n;; destroy_iso P) (fun _ l => Z.of_nat (length l) = 1) (fun _ l x => cnt l x)).
  { eapply hoareG_bind; [exact Hc|intro; lia|]. intros F l [(H1 & H2 & ->) Hl]. cbv beta.
    intros h1 W1 L1. destruct (sp_destroy_iso F H1 H2 h1 W1) as (u & h2 & _ & E2 & W2 & _ & C2).
    - intro x. specialize (L1 x). cbv beta in L1. rewrite cnt_cons in L1. change (cnt [] x) with 0 in L1.
      assert (blk (is_F F) x <= sgl (is_F F) x)%nat by (unfold blk; destruct (Z.eq_dec _ _); lia). lia.
    - exists u, h2, [is_F F]. split; [exact E2|]. split; [exact W2|]. split; [exact Hl|]. intro x. rewrite C2. rewrite !cnt_cons. change (cnt [] x) with 0. lia. }
  destruct (hoare_leak _ _ _ HL h Hw) as ([] & h2 & B & E & HG & HK).
  unfold bind in E. destruct (plan_sph_isometry n h) as [[P h1]|] eqn:E1; [|discriminate].
  exists P, h1, h2, B. auto.
Qed.
Lemma leak_dense_hermite : forall n, 0 <= n -> leaks 2 (plan_dense_associated Associated_Hermite n) free.
Proof.
  intros n Hn. apply (leaks_of _ _ _ (fun _ _ => True) sgl 2); [apply (sp_plan_dense_associated Associated_Hermite n Hn)|].
  intros v l _. apply sp_free_sgl.
Qed.
Lemma leak_fast_hermite : forall thr rank BS n, 2 <= BS -> 0 <= n -> leaks 2 (plan_fast_associated thr rank BS Associated_Hermite n) (destroy_btbeig BS).
Proof.
  intros thr rank BS n HB Hn. apply (leaks_of _ _ _ (fun F _ => ok_tbeig BS (be_F F)) own_btbeig 2); [apply (sp_plan_fast_associated thr rank BS Associated_Hermite n HB Hn)|].
  intros v l Hv. apply sp_destroy_btbeig; assumption.
Qed.

(** ** every public plan *)
Lemma lc_of_array : forall c, is_array c -> lifecycle c free.
Proof. intros c H. apply (lifecycle_of _ _ _ (fun p => p <> NULL) sgl); [exact H|]. intros. apply sp_free_sgl. Qed.
Lemma lc_rot : forall c, is_rot c -> lifecycle c destroy_rotplan.
Proof. intros c H. apply (lifecycle_of _ _ _ (fun _ => True) own_rotplan); [exact H|]. intros. apply sp_destroy_rotplan. Qed.
Lemma lc_harm : forall c, is_harmonic c -> lifecycle c destroy_harmonic.
Proof. intros c H. apply (lifecycle_of _ _ _ ok_harmonic own_harmonic); [exact H|]. apply sp_destroy_harmonic. Qed.
Lemma lc_fftw : forall c, is_fftw c -> lifecycle c destroy_fplan.
Proof. intros c H. apply (lifecycle_of _ _ _ (fun _ => True) own_fplan); [exact H|]. intros. apply sp_destroy_fplan. Qed.
Lemma lc_public : forall thr rank BS NMAX k, 2 <= BS -> admissible k -> lifecycle (create thr rank BS NMAX k) (destroy BS k).
Proof.
  intros thr rank BS NMAX k HB Hk. destruct k; cbn [create destroy obj admissible] in *.
  - apply lc_of_array, sp_plan_dense.
  - apply lc_of_array, sp_plan_dense_scaled2.
  - destruct Hk as [Hn Hf]. apply (lifecycle_of _ _ _ (fun _ => True) sgl); [|intros; apply sp_free_sgl]. apply no_loss.
    destruct f; [apply (sp_plan_dense_associated Associated_Jacobi n Hn)|apply (sp_plan_dense_associated Associated_Laguerre n Hn)|congruence].
  - apply (lifecycle_of _ _ _ (ok_tbeig BS) own_tbeig); [apply sp_plan_fast; assumption|intros; apply sp_destroy_tbeig; assumption].
  - apply (lifecycle_of _ _ _ (ok_tbeig BS) own_tbeig); [apply sp_plan_fast_scaled2; assumption|intros; apply sp_destroy_tbeig; assumption].
  - destruct Hk as [Hn Hf]. apply (lifecycle_of _ _ _ (fun F => ok_tbeig BS (be_F F)) own_btbeig); [|intros; apply sp_destroy_btbeig; assumption]. apply no_loss.
    destruct f; [apply (sp_plan_fast_associated thr rank BS Associated_Jacobi n HB Hn)|apply (sp_plan_fast_associated thr rank BS Associated_Laguerre n HB Hn)|congruence].
  - apply (lifecycle_of _ _ _ ok_modplan own_modplan); [apply sp_plan_modified; lia|intros; apply sp_destroy_modplan; assumption].
  - apply lc_rot, sp_plan_rot_half.
  - apply lc_rot, sp_plan_rotdisk.
  - apply lc_rot, sp_plan_rotannulus.
  - apply (lifecycle_of _ _ _ (fun _ => True) own_spinrot); [apply sp_plan_rotspinsphere|intros; apply sp_destroy_spinrot].
  - apply lc_harm, sp_plan_sph2fourier.
  - apply lc_harm, sp_plan_tri2cheb.
  - apply lc_harm, sp_plan_disk2cxf.
  - apply lc_harm, sp_plan_ann2cxf.
  - apply lc_harm, sp_plan_rectdisk2cheb.
  - apply lc_harm, sp_plan_tet2cheb.
  - apply (lifecycle_of _ _ _ (fun _ => True) own_spinharm); [apply sp_plan_spinsph2fourier|intros; apply sp_destroy_spinharm].
  - apply (lifecycle_of _ _ _ ok_gradplan own_gradplan); [apply sp_plan_sph_gradient|intros; apply sp_destroy_gradplan; assumption].
  - apply (lifecycle_of _ _ _ ok_hhplan own_hhplan); [apply sp_plan_sph_helmholtzhodge|intros; apply sp_destroy_hhplan; assumption].
  - apply lc_fftw, sp_fftw_sphere.
  - apply lc_fftw, sp_fftw_triangle.
  - apply lc_fftw, sp_fftw_tetrahedron.
  - apply lc_fftw, sp_fftw_annulus.
  - apply lc_fftw, sp_fftw_rectdisk.
  - apply lc_fftw, sp_fftw_spinsphere.
Qed.

(** ** histories *)
Section History.
Variables (kd : Type) (ob : kd -> Type).
Variables (cr : forall k, prog (ob k)) (de : forall k, ob k -> prog unit).
Definition destroyable (P : {k : kd & ob k}) (B : list Z) : Prop :=
  forall h', wf h' -> (forall p, In p B -> In p (live h')) ->
  exists h'', de (projT1 P) (projT2 P) h' = Some (tt, h'') /\ shrinks h' h'' B.
(** the open objects own the lists Bs of blocks, which are disjoint and new *)
Definition inv (h0 : heap) (open : list {k : kd & ob k}) (h : heap) : Prop :=
  wf h /\ exists Bs, Forall2 destroyable open Bs /\ NoDup (concat Bs) /\
  (forall p, In p (concat Bs) -> ~ In p (live h0)) /\
  (forall p, In p (live h) <-> In p (live h0) \/ In p (concat Bs)).
Lemma nodup_app : forall l1 l2 : list Z, NoDup (l1 ++ l2) <-> NoDup l1 /\ NoDup l2 /\ (forall p, In p l1 -> ~ In p l2).
Proof.
  induction l1 as [|a l1 IH]; intro l2; cbn.
  - split; [intro H; repeat split; [constructor|exact H|tauto]|tauto].
  - split.
    + intro H. inversion H as [|? ? H1 H2]; subst. apply IH in H2 as (N1 & N2 & D). rewrite in_app_iff in H1.
      repeat split; [constructor; tauto|exact N2|]. intros p [<-|Hp]; [tauto|auto].
    + intros (N1 & N2 & D). inversion N1 as [|? ? H1 H2]; subst. constructor.
      * rewrite in_app_iff. intros [H|H]; [tauto|]. apply (D a); [left; reflexivity|exact H].
      * apply IH. repeat split; auto.
Qed.
Lemma concat_remove : forall (Bs : list (list Z)) i B, nth_error Bs i = Some B -> NoDup (concat Bs) ->
  NoDup (concat (remove_nth i Bs)) /\ (forall p, In p (concat (remove_nth i Bs)) <-> In p (concat Bs) /\ ~ In p B).
Proof.
  induction Bs as [|C Bs IH]; intros [|i] B E N; cbn in E; try discriminate.
  - injection E as <-. cbn in *. apply nodup_app in N as (N1 & N2 & D). split; [exact N2|]. intro p. rewrite in_app_iff. specialize (D p). tauto.
  - cbn in *. apply nodup_app in N as (N1 & N2 & D). destruct (IH i B E N2) as [N3 H3].
    assert (HB : forall p, In p B -> In p (concat Bs)). { intros p Hp. apply in_concat. exists B. split; [eapply nth_error_In; exact E|exact Hp]. }
    split.
    + apply nodup_app. repeat split; [exact N1|exact N3|]. intros p Hp Hq. apply (D p Hp). apply H3. exact Hq.
    + intro p. rewrite !in_app_iff, H3. specialize (D p). specialize (HB p). tauto.
Qed.
Lemma Forall2_remove : forall A B (P : A -> B -> Prop) l1 l2 i, Forall2 P l1 l2 -> Forall2 P (remove_nth i l1) (remove_nth i l2).
Proof. intros A B P l1 l2 i H. revert i. induction H; intros [|i]; cbn; auto. Qed.
Lemma Forall2_nth : forall A B (P : A -> B -> Prop) l1 l2 i a, Forall2 P l1 l2 -> nth_error l1 i = Some a -> exists b, nth_error l2 i = Some b /\ P a b.
Proof. intros A B P l1 l2 i a H. revert i. induction H; intros [|i] E; cbn in *; try discriminate; [injection E as <-; eauto|auto]. Qed.
Lemma run_event_inv : forall h0 e open h, (forall k, e = Create k -> lifecycle (cr k) (de k)) -> inv h0 open h ->
  exists open1 h1, run_event kd ob cr de e open h = Some (open1, h1) /\ inv h0 open1 h1.
Proof.
  intros h0 [k|i] open h HL (W & Bs & HF & HN & HD & HI); cbn [run_event].
  - destruct (HL k eq_refl h W) as (P & h1 & B & E & (W1 & NB & DB & IB) & HDes). rewrite E.
    exists (open ++ [existT ob k P]), h1. split; [reflexivity|]. split; [exact W1|]. exists (Bs ++ [B]).
    rewrite concat_app. cbn [concat]. rewrite app_nil_r.
    split; [apply Forall2_app; [exact HF|]; constructor; [exact HDes|constructor]|].
    split; [|split].
    + apply nodup_app. repeat split; [exact HN|exact NB|]. intros p Hp Hq. apply (DB p Hq). apply HI. tauto.
    + intros p Hp H0. apply in_app_iff in Hp. destruct Hp as [Hp|Hp]; [apply (HD p Hp H0)|]. apply (DB p Hp). apply HI. tauto.
    + intro p. rewrite IB, HI, in_app_iff. tauto.
  - destruct (nth_error open i) as [[k P]|] eqn:En.
    + destruct (Forall2_nth _ _ _ _ _ _ _ HF En) as (B & EB & HB). destruct (concat_remove _ _ _ EB HN) as [N1 I1].
      assert (HinB : forall p, In p B -> In p (concat Bs)). { intros p Hp. apply in_concat. exists B. split; [eapply nth_error_In; exact EB|exact Hp]. }
      destruct (HB h W) as (h1 & E & (W1 & S1 & IS)). { intros p Hp. apply HI. right. auto. }
      cbn [projT1 projT2] in E. rewrite E. exists (remove_nth i open), h1. split; [reflexivity|]. split; [exact W1|].
      exists (remove_nth i Bs). split; [apply Forall2_remove; exact HF|]. split; [exact N1|]. split.
      * intros p Hp. apply HD. apply I1. exact Hp.
      * intro p. rewrite IS, HI, I1. specialize (HD p). specialize (HinB p). tauto.
    + exists open, h. split; [reflexivity|]. split; [exact W|]. exists Bs. auto.
Qed.
Lemma run_inv : forall es h0 open h, (forall k, In (Create k) es -> lifecycle (cr k) (de k)) -> inv h0 open h ->
  exists open1 h1, run kd ob cr de es open h = Some (open1, h1) /\ inv h0 open1 h1.
Proof.
  induction es as [|e es IH]; intros h0 open h HL HI; cbn [run].
  - exists open, h. auto.
  - destruct (run_event_inv h0 e open h) as (o1 & h1 & E & I1). { intros k ->. apply HL. left. reflexivity. } { exact HI. }
    rewrite E. apply IH; [|exact I1]. intros k Hk. apply HL. right. exact Hk.
Qed.
Lemma histories : forall es h, (forall k, In (Create k) es -> lifecycle (cr k) (de k)) -> wf h ->
  exists open h1, run kd ob cr de es [] h = Some (open, h1) /\ wf h1 /\ (forall p, In p (live h) -> In p (live h1)) /\
  (open = [] -> forall p, In p (live h1) <-> In p (live h)).
Proof.
  intros es h HL W. destruct (run_inv es h [] h HL) as (open & h1 & E & W1 & Bs & HF & HN & HD & HI).
  { split; [exact W|]. exists []. cbn. repeat split; try constructor; auto; tauto. }
  exists open, h1. split; [exact E|]. split; [exact W1|]. split.
  - intros p Hp. apply HI. tauto.
  - intros ->. inversion HF; subst. intro p. rewrite HI. cbn. tauto.
Qed.
End History.
Lemma histories_public : forall thr rank BS NMAX es h, 2 <= BS -> (forall k, In (Create k) es -> admissible k) -> wf h ->
  exists open h1, run kind obj (create thr rank BS NMAX) (destroy BS) es [] h = Some (open, h1) /\ wf h1 /\
  (forall p, In p (live h) -> In p (live h1)) /\ (open = [] -> forall p, In p (live h1) <-> In p (live h)).
Proof.
  intros thr rank BS NMAX es h HB HA W. apply histories; [|exact W]. intros k Hk. apply lc_public; auto.
Qed.
