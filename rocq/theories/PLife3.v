(** * Triples of the block, ADI, diagonal-plus-rank-one and divide-and-conquer plans *)
From Coq Require Import ZArith List Lia Bool ZifyBool ZifyNat.
From Verif Require Import SpecHeap MHeap PHeap MLife PLife PLife2.
Import ListNotations.
Open Scope Z_scope.
Open Scope prog_scope.

(** ** 2x2-block matrices *)
Definition own_block2 (A : block2) (x : Z) : nat :=
  (sgl (b2_self A) x + own_tbanded (b2_00 A) x + own_tbanded (b2_01 A) x + own_tbanded (b2_10 A) x + own_tbanded (b2_11 A) x)%nat.
Definition own_btbeig (F : btbeig) (x : Z) : nat :=
  (sgl (be_self F) x + own_tbeig (be_F F) x + blk (be_s F) x + blk (be_c F) x + blk (be_t F) x)%nat.
Ltac unfold_own ::= unfold own_block2, own_btbeig, own_bqr, own_stqr, own_sparse, own_banded, own_tbanded, own_symtri, own_bidiag, own_dense, own_lowrank.
Lemma sp_destroy_block2 : forall A, hoare (fun x => Z.of_nat (own_block2 A x)) (destroy_block2 A) (fun _ => True) (fun _ _ => 0).
Proof. intros. unfold destroy_block2, own_block2. start. steps. exact I. Qed.
Lemma sp_destroy_btbeig : forall BS F, ok_tbeig BS (be_F F) -> hoare (fun x => Z.of_nat (own_btbeig F x)) (destroy_btbeig BS F) (fun _ => True) (fun _ _ => 0).
Proof. intros. unfold destroy_btbeig, own_btbeig. start. steps. exact I. Qed.
#[export] Hint Resolve sp_destroy_block2 sp_destroy_btbeig : hspec.
Lemma sp_widen : forall A b, hoare (fun x => Z.of_nat (own_tbanded A x)) (if tb_b A =? b then ret A else realloc_tbanded A b)
  (fun _ => True) (fun A' x => Z.of_nat (own_tbanded A' x)).
Proof. intros. destruct (tb_b A =? b); start; steps; exact I. Qed.
Lemma sp_create_block2 : forall a b c d, tb_n b = tb_n a -> tb_n c = tb_n a -> tb_n d = tb_n a ->
  hoare (fun x => Z.of_nat (own_tbanded a x) + Z.of_nat (own_tbanded b x) + Z.of_nat (own_tbanded c x) + Z.of_nat (own_tbanded d x)) (create_block2 a b c d)
    (fun A => b2_n A = tb_n a) (fun A x => Z.of_nat (own_block2 A x)).
Proof.
  intros a b c d Hb Hc Hd. unfold create_block2. rewrite Hb, Hc, Hd, Z.eqb_refl. cbn [negb orb]. start. steps.
  eapply hoare_bind; [apply sp_widen|hside|intros a' _; cbv beta].
  eapply hoare_bind; [apply sp_widen|hside|intros b' _; cbv beta].
  eapply hoare_bind; [apply sp_widen|hside|intros c' _; cbv beta].
  eapply hoare_bind; [apply sp_widen|hside|intros d' _; cbv beta].
  steps. reflexivity.
Qed.
Lemma sp_convert_block2 : forall A, hoare (fun x => Z.of_nat (own_block2 A x)) (convert_block2 A)
  (fun T => tb_n T = 2 * b2_n A) (fun T x => Z.of_nat (own_block2 A x) + Z.of_nat (own_tbanded T x)).
Proof. intros. unfold convert_block2. start. steps. tauto. Qed.
#[export] Hint Resolve sp_convert_block2 : hspec.
Lemma sp_btb_eig_FMM : forall thr rank BS A B, 2 <= BS -> 0 <= b2_n A ->
  hoare (fun x => Z.of_nat (own_block2 A x) + Z.of_nat (own_block2 B x)) (btb_eig_FMM thr rank BS A B)
    (fun F => ok_tbeig BS (be_F F)) (fun F x => Z.of_nat (own_block2 A x) + Z.of_nat (own_block2 B x) + Z.of_nat (own_btbeig F x)).
Proof.
  intros thr rank BS A B HB Hn. unfold btb_eig_FMM. start. do 6 step.
  eapply hoare_bind; [apply sp_tb_eig_FMM; [assumption|unfold depth; lia]|hside|intros F HF; cbv beta]. steps. exact HF.
Qed.
Lemma sp_drop_btbeig : forall thr rank BS F, ok_tbeig BS (be_F F) ->
  hoare (fun x => Z.of_nat (own_btbeig F x)) (drop_btbeig thr rank BS F) (fun G => ok_tbeig BS (be_F G))
    (fun G x => Z.of_nat (own_btbeig F x) + Z.of_nat (own_btbeig G x)).
Proof. intros. unfold drop_btbeig. start. step. step. step. step. unfold own_btbeig. steps. assumption. Qed.
#[export] Hint Resolve sp_drop_btbeig : hspec.

(** ** ADI plans: two blocks per recursive call are not part of the plan *)
Fixpoint own_adieig (F : adieig) (x : Z) : nat :=
  match F with
  | ADILeaf self n b V lambda => (sgl self x + blk V x + blk lambda x)%nat
  | ADINode self n b F0 F1 F2 lambda => (sgl self x + own_lowrank F0 x + own_adieig F1 x + own_adieig F2 x + blk lambda x)%nat
  end.
Fixpoint ok_adieig (BS : Z) (F : adieig) : Prop :=
  match F with
  | ADILeaf self n b V lambda => n < BS
  | ADINode self n b F0 F1 F2 lambda => BS <= n /\ ok_adieig BS F1 /\ ok_adieig BS F2
  end.
Lemma adi_self_le : forall F x, (sgl (adi_self F) x <= own_adieig F x)%nat.
Proof. intros [self n b V lambda|self n b F0 F1 F2 lambda] x; cbn; lia. Qed.
Ltac use_adi := lazymatch goal with |- hoareG _ (bind (use (adi_self ?F)) _) _ _ =>
  apply hoare_use; [let x := fresh "x" in intro x; pose proof (adi_self_le F x); cbv beta; 
     repeat match goal with |- context [cnt ?l x] => pose proof (cnt_nonneg l x); generalize dependent (cnt l x); intros end; lia|] end.
Lemma sp_destroy_adieig : forall BS F, ok_adieig BS F -> hoare (fun x => Z.of_nat (own_adieig F x)) (destroy_adieig BS F) (fun _ => True) (fun _ _ => 0).
Proof.
  intros BS. induction F as [self n b V lambda|self n b F0 F1 IH1 F2 IH2 lambda]; cbn [ok_adieig destroy_adieig own_adieig]; intro Hok; start.
  - step. replace (n <? BS) with true by lia. steps. exact I.
  - destruct Hok as (Hn & H1 & H2). step. replace (n <? BS) with false by lia. step. step. step.
    eapply hoare_bind; [apply IH1; assumption|hside|intros u1 _; cbv beta]. step.
    eapply hoare_bind; [apply IH2; assumption|hside|intros u2 _; cbv beta]. steps. exact I.
Qed.
Lemma sp_ddfadi : forall thr m n r, hoare (fun _ => 0) (ddfadi thr m n r) (fun _ => True) (fun L x => Z.of_nat (own_lowrank L x)).
Proof. intros. unfold ddfadi. start. steps. exact I. Qed.
#[export] Hint Resolve sp_ddfadi : hspec.
Lemma cnt_Z : forall l x, cnt l x = Z.of_nat (count_occ Z.eq_dec l x).
Proof. reflexivity. Qed.
Definition adi_lost (BS n : Z) (l : list Z) : Prop :=
  (BS <= n -> (2 <= length l)%nat) /\ (n < BS -> l = []) /\ (n < 2 * BS - 1 -> (length l <= 2)%nat).
Lemma sp_tb_eig_ADI : forall thr BS fuel A B, 2 <= BS -> 0 <= tb_n A < Z.of_nat fuel -> 0 <= Z.max (tb_b A) (tb_b B) ->
  hoareG (fun x => Z.of_nat (sgl (tb_self A) x) + Z.of_nat (sgl (tb_self B) x)) (tb_eig_ADI thr BS fuel A B)
    (fun F l => ok_adieig BS F /\ adi_lost BS (tb_n A) l)
    (fun F l x => Z.of_nat (sgl (tb_self A) x) + Z.of_nat (sgl (tb_self B) x) + Z.of_nat (own_adieig F x) + Z.of_nat (count_occ Z.eq_dec l x)).
Proof.
  intros thr BS. induction fuel as [|fuel IH]; intros A B HB Hn Hb; [lia|]. cbn [tb_eig_ADI]. start. step. step. cbv zeta. step.
  destruct (Z.ltb_spec (tb_n A) BS) as [Hlt|Hge].
  - step. step. apply (hoareG_ret _ _ []).
    + split; [assumption|]. split; [intro; lia|]. split; [reflexivity|intros; cbn; lia].
    + intro x. cbn [own_adieig count_occ]. lia.
  - assert (Hs : 0 < Z.shiftr (tb_n A) 1 < tb_n A /\ 2 * Z.shiftr (tb_n A) 1 <= tb_n A <= 2 * Z.shiftr (tb_n A) 1 + 1).
    { rewrite Z.shiftr_div_pow2 by lia. change (2 ^ 1) with 2. split; [split; [apply Z.div_str_pos; lia|apply Z.div_lt; lia]|].
      pose proof (Z.div_mod (tb_n A) 2). pose proof (Z.mod_pos_bound (tb_n A) 2). lia. }
    set (s := Z.shiftr (tb_n A) 1) in *. do 4 step.
    destruct Hv as [HvA1 HvA2], Hv0 as [HvB1 HvB2], Hv1 as [HvC1 HvC2], Hv2 as [HvD1 HvD2].
    eapply hoareG_bind; [apply IH; [assumption|lia|rewrite HvA2, HvB2; assumption]|hside|intros F1 l1 [HF1 HL1]; cbv beta].
    eapply hoareG_bind; [apply IH; [assumption|lia|rewrite HvC2, HvD2; assumption]|hside|intros F2 l2 [HF2 HL2]; cbv beta].
    step. do 2 use_adi. step. step. use_adi. do 4 step. use_adi. steps.
    apply (hoareG_ret _ _ (v5 :: v6 :: l1 ++ l2)).
    + destruct HL1 as (_ & HM1 & _), HL2 as (_ & HM2 & _).
      split; [cbn; auto|]. split; [cbn; lia|]. split; [intro; lia|]. intro H2. cbn [length]. rewrite HM1, HM2 by lia. cbn. lia.
    + intro x. cbn [own_adieig].
      assert (E : Z.of_nat (count_occ Z.eq_dec (v5 :: v6 :: l1 ++ l2) x) = Z.of_nat (sgl v5 x) + Z.of_nat (sgl v6 x) + Z.of_nat (count_occ Z.eq_dec l1 x) + Z.of_nat (count_occ Z.eq_dec l2 x)).
      { rewrite <- cnt_Z, !cnt_cons, cnt_app, !cnt_Z. lia. }
      rewrite E. blk_facts. lia.
Qed.

(** ** diagonal plus rank one *)
Definition own_dpr1 (A : dpr1) (x : Z) : nat := (sgl (d1_self A) x + blk (d1_d A) x + blk (d1_z A) x)%nat.
Definition own_idpr1 (A : idpr1) (x : Z) : nat := (sgl (id_self A) x + blk (id_z A) x)%nat.
Definition own_dpr1eig (F : dpr1eig) (x : Z) : nat :=
  (sgl (de_self F) x + blk (de_v F) x + blk (de_V F) x + blk (de_lambda F) x + blk (de_lo F) x + blk (de_hi F) x + blk (de_p F) x + blk (de_q F) x)%nat.
Definition own_dpr1fmm (F : dpr1fmm) (x : Z) : nat :=
  (sgl (df_self F) x + own_dpr1 (df_A F) x + own_idpr1 (df_B F) x + blk (df_v F) x + own_hmat (df_V F) x + blk (df_lambda F) x +
   blk (df_lo F) x + blk (df_hi F) x + blk (df_p F) x + blk (df_q F) x)%nat.
Ltac unfold_own ::= unfold own_dpr1eig, own_dpr1fmm, own_dpr1, own_idpr1, own_block2, own_btbeig, own_bqr, own_stqr, own_sparse, own_banded, own_tbanded, own_symtri, own_bidiag, own_dense, own_lowrank.
Lemma sp_destroy_dpr1 : forall A, hoare (fun x => Z.of_nat (own_dpr1 A x)) (destroy_dpr1 A) (fun _ => True) (fun _ _ => 0).
Proof. intros. unfold destroy_dpr1. start. steps. exact I. Qed.
Lemma sp_destroy_idpr1 : forall A, hoare (fun x => Z.of_nat (own_idpr1 A x)) (destroy_idpr1 A) (fun _ => True) (fun _ _ => 0).
Proof. intros. unfold destroy_idpr1. start. steps. exact I. Qed.
#[export] Hint Resolve sp_destroy_dpr1 sp_destroy_idpr1 : hspec.
Lemma sp_destroy_dpr1eig : forall F, hoare (fun x => Z.of_nat (own_dpr1eig F x)) (destroy_dpr1eig F) (fun _ => True) (fun _ _ => 0).
Proof. intros. unfold destroy_dpr1eig. cbv zeta. start. steps. exact I. Qed.
Lemma sp_destroy_dpr1fmm : forall F, ok_hmat (df_V F) -> hoare (fun x => Z.of_nat (own_dpr1fmm F x)) (destroy_dpr1fmm F) (fun _ => True) (fun _ _ => 0).
Proof. intros. unfold destroy_dpr1fmm, own_dpr1fmm. cbv zeta. start. steps. exact I. Qed.
#[export] Hint Resolve sp_destroy_dpr1eig sp_destroy_dpr1fmm : hspec.
Lemma sp_definite_eigvecs_FMM : forall thr rank A m, hoare (fun x => Z.of_nat (sgl (d1_self A) x)) (definite_eigvecs_FMM thr rank A m) ok_hmat
  (fun V x => Z.of_nat (sgl (d1_self A) x) + Z.of_nat (own_hmat V x)).
Proof. intros. unfold definite_eigvecs_FMM. start. steps. assumption. Qed.
#[export] Hint Resolve sp_definite_eigvecs_FMM : hspec.
Lemma sp_definite_dpr1_eig : forall A B, hoare (fun x => Z.of_nat (own_dpr1 A x) + Z.of_nat (own_idpr1 B x)) (definite_dpr1_eig A B) (fun _ => True)
  (fun F x => Z.of_nat (own_dpr1 A x) + Z.of_nat (own_idpr1 B x) + Z.of_nat (own_dpr1eig F x)).
Proof. intros. unfold definite_dpr1_eig. start. steps. exact I. Qed.
Lemma sp_definite_dpr1_eig_FMM : forall thr rank A B, hoare (fun x => Z.of_nat (own_dpr1 A x) + Z.of_nat (own_idpr1 B x)) (definite_dpr1_eig_FMM thr rank A B)
  (fun F => ok_hmat (df_V F)) (fun F x => Z.of_nat (own_dpr1 A x) + Z.of_nat (own_idpr1 B x) + Z.of_nat (own_dpr1fmm F x)).
Proof. intros. unfold definite_dpr1_eig_FMM. start. steps. assumption. Qed.
Lemma sp_drop_dpr1eig : forall F, hoare (fun x => Z.of_nat (own_dpr1eig F x)) (drop_dpr1eig F) (fun _ => True)
  (fun G x => Z.of_nat (own_dpr1eig F x) + Z.of_nat (own_dpr1eig G x)).
Proof. intros. unfold drop_dpr1eig. start. steps. exact I. Qed.
Lemma sp_drop_dpr1fmm : forall thr rank F, ok_hmat (df_V F) -> hoare (fun x => Z.of_nat (own_dpr1fmm F x)) (drop_dpr1fmm thr rank F) (fun G => ok_hmat (df_V G))
  (fun G x => Z.of_nat (own_dpr1fmm F x) + Z.of_nat (own_dpr1fmm G x)).
Proof.
  intros. unfold drop_dpr1fmm. start. steps. assumption.
Qed.

(** ** divide and conquer *)
Section Tdc.
Context {E : Type} (eig : dpr1 -> idpr1 -> prog E) (drop : E -> prog E) (destroy_E : E -> prog unit).
Variables (own_E : E -> Z -> nat) (ok_E : E -> Prop).
Hypothesis sp_eig : forall A B, hoare (fun x => Z.of_nat (own_dpr1 A x) + Z.of_nat (own_idpr1 B x)) (eig A B) ok_E
  (fun F x => Z.of_nat (own_dpr1 A x) + Z.of_nat (own_idpr1 B x) + Z.of_nat (own_E F x)).
Hypothesis sp_drop : forall F, ok_E F -> hoare (fun x => Z.of_nat (own_E F x)) (drop F) ok_E (fun G x => Z.of_nat (own_E F x) + Z.of_nat (own_E G x)).
Hypothesis sp_destroy : forall F, ok_E F -> hoare (fun x => Z.of_nat (own_E F x)) (destroy_E F) (fun _ => True) (fun _ _ => 0).
Fixpoint own_tdc (F : tdceig) (x : Z) : nat :=
  match F with
  | TDCLeaf self n V lambda => (sgl self x + sgl V x + sgl lambda x)%nat
  | TDCNode self n F0 F1 F2 z => (sgl self x + own_E F0 x + own_tdc F1 x + own_tdc F2 x + blk z x)%nat
  end.
Fixpoint ok_tdc (TS : Z) (F : tdceig) : Prop :=
  match F with
  | TDCLeaf self n V lambda => 0 <= n < TS
  | TDCNode self n F0 F1 F2 z => TS <= n /\ ok_E F0 /\ ok_tdc TS F1 /\ ok_tdc TS F2
  end.
Lemma tdc_self_le : forall F x, (sgl (tdc_self F) x <= own_tdc F x)%nat.
Proof. intros [self n V lambda|self n F0 F1 F2 z] x; cbn; lia. Qed.
Ltac use_tdc := lazymatch goal with |- hoareG _ (bind (use (tdc_self ?F)) _) _ _ =>
  apply hoare_use; [let x := fresh "x" in intro x; pose proof (tdc_self_le F x); cbv beta; lia|] end.
Lemma sp_destroy_tdc : forall TS F, ok_tdc TS F -> hoare (fun x => Z.of_nat (own_tdc F x)) (destroy_tdceig TS destroy_E F) (fun _ => True) (fun _ _ => 0).
Proof.
  intros TS. induction F as [self n V lambda|self n F0 F1 IH1 F2 IH2 z]; cbn [ok_tdc destroy_tdceig own_tdc]; intro Hok; start.
  - step. replace (n <? TS) with true by lia. steps. exact I.
  - destruct Hok as (Hn & H0 & H1 & H2). step. replace (n <? TS) with false by lia. step.
    eapply hoare_bind; [apply sp_destroy; assumption|hside|intros u0 _; cbv beta]. step.
    eapply hoare_bind; [apply IH1; assumption|hside|intros u1 _; cbv beta]. step.
    eapply hoare_bind; [apply IH2; assumption|hside|intros u2 _; cbv beta]. steps. exact I.
Qed.
Lemma sp_sdtdc_eig : forall TS fuel T Sm, 2 <= TS -> 0 <= st_n T < Z.of_nat fuel ->
  hoare (fun x => Z.of_nat (own_symtri T x) + Z.of_nat (own_symtri Sm x)) (sdtdc_eig TS eig fuel T Sm) (ok_tdc TS)
    (fun F x => Z.of_nat (own_symtri T x) + Z.of_nat (own_symtri Sm x) + Z.of_nat (own_tdc F x)).
Proof.
  intros TS. induction fuel as [|fuel IH]; intros T Sm HT Hn; [lia|]. cbn [sdtdc_eig]. start. step. cbv zeta. step.
  destruct (Z.ltb_spec (st_n T) TS) as [Hlt|Hge].
  - step. step. step. apply hoare_ret; [cbn; lia|]. intro x. cbn [own_tdc]. blk_facts. lia.
  - assert (Hs : 0 < Z.shiftr (st_n T) 1 < st_n T).
    { rewrite Z.shiftr_div_pow2 by lia. change (2 ^ 1) with 2. split; [apply Z.div_str_pos; lia|apply Z.div_lt; lia]. }
    set (s := Z.shiftr (st_n T) 1) in *. do 7 step.
    eapply hoare_bind; [apply IH; [assumption|lia]|hside|intros F1 HF1; cbv beta].
    eapply hoare_bind; [apply IH; [assumption|lia]|hside|intros F2 HF2; cbv beta].
    step. do 2 use_tdc. step. do 2 use_tdc. steps.
    cbn [ok_tdc]; auto.
Qed.
Lemma sp_drop_tdc : forall TS F, ok_tdc TS F ->
  hoare (fun x => Z.of_nat (own_tdc F x)) (drop_tdceig TS drop F) (ok_tdc TS) (fun G x => Z.of_nat (own_tdc F x) + Z.of_nat (own_tdc G x)).
Proof.
  intros TS. induction F as [self n V lambda|self n F0 F1 IH1 F2 IH2 z]; cbn [ok_tdc drop_tdceig own_tdc]; intro Hok; start.
  - step. step. replace (n <? TS) with true by lia. do 4 step. apply hoare_ret; [cbn; lia|]. intro x. cbn [own_tdc]. blk_facts. lia.
  - destruct Hok as (Hn & H0 & H1 & H2). step. step. replace (n <? TS) with false by lia.
    eapply hoare_bind; [apply sp_drop; assumption|hside|intros G0 HG0; cbv beta]. step.
    eapply hoare_bind; [apply IH1; assumption|hside|intros G1 HG1; cbv beta]. step.
    eapply hoare_bind; [apply IH2; assumption|hside|intros G2 HG2; cbv beta]. step.
    apply hoare_ret; [cbn [ok_tdc]; auto|]. intro x. cbn [own_tdc]. lia.
Qed.
End Tdc.
