(** * Triples of hierarchical matrices and of the eigenvector plans *)
From Coq Require Import ZArith List Lia Bool ZifyBool ZifyNat.
From Verif Require Import SpecHeap MHeap PHeap MLife PLife.
Import ListNotations.
Open Scope Z_scope.
Open Scope prog_scope.

Definition cell : Type := (Z * option hmat * option dense * option lowrank)%type.
Definition own_opt {A : Type} (own : A -> Z -> nat) (o : option A) (x : Z) : nat := match o with Some a => own a x | None => 0%nat end.
Fixpoint own_hmat (H : hmat) (x : Z) : nat :=
  match H with
  | HMat self hier dens lowr hash M N cells =>
    (sgl self x + sgl hier x + sgl dens x + sgl lowr x + sgl hash x +
     (fix loop (cells : list cell) : nat :=
        match cells with
        | [] => 0
        | (_, h, d, l) :: cells =>
          (match h with Some h => own_hmat h x | None => 0 end) + own_opt own_dense d x + own_opt own_lowrank l x + loop cells
        end) cells)%nat
  end.
Definition own_cell (c : cell) (x : Z) : nat :=
  let '(_, h, d, l) := c in (own_opt own_hmat h x + own_opt own_dense d x + own_opt own_lowrank l x)%nat.
Lemma own_hmat4 : forall self hier dens lowr hash M N a b c d x,
  own_hmat (HMat self hier dens lowr hash M N [a; b; c; d]) x =
  (sgl self x + sgl hier x + sgl dens x + sgl lowr x + sgl hash x + own_cell a x + own_cell b x + own_cell c x + own_cell d x)%nat.
Proof.
  intros self hier dens lowr hash M N [[[ta ha] da] la] [[[tb hb] db] lb] [[[tc hc] dc] lc] [[[td hd] dd] ld] x.
  cbn [own_hmat own_cell]. destruct ha, hb, hc, hd; cbn [own_opt]; lia.
Qed.
Inductive ok_cell : cell -> Prop :=
| ok_dense : forall d, ok_cell (2, None, Some d, None)
| ok_low : forall l, ok_cell (3, None, None, Some l)
| ok_split : forall self hier dens lowr hash a b c d, ok_cell a -> ok_cell b -> ok_cell c -> ok_cell d ->
    ok_cell (1, Some (HMat self hier dens lowr hash 2 2 [a; b; c; d]), None, None).
Definition ok_hmat (H : hmat) : Prop :=
  exists self hier dens lowr hash a b c d, H = HMat self hier dens lowr hash 2 2 [a; b; c; d] /\
  ok_cell a /\ ok_cell b /\ ok_cell c /\ ok_cell d.

Definition destroy_cell (hier dens lowr : Z) (c : cell) : prog unit :=
  let '(tag, h, d, l) := c in
  if tag =? 1 then use hier;; match h with Some h => destroy_hmat h | None => ub end
  else if tag =? 2 then use dens;; match d with Some d => destroy_dense d | None => ub end
  else if tag =? 3 then use lowr;; match l with Some l => destroy_lowrank l | None => ub end
  else ret tt.
Lemma destroy_hmat4 : forall self hier dens lowr hash a b c d,
  destroy_hmat (HMat self hier dens lowr hash 2 2 [a; b; c; d]) =
  (use self;;
   (use self;; use hash;; destroy_cell hier dens lowr a;;
    use self;; use hash;; destroy_cell hier dens lowr b;;
    use self;; use hash;; destroy_cell hier dens lowr c;;
    use self;; use hash;; destroy_cell hier dens lowr d;; ret tt);;
   freef self hier;; freef self dens;; freef self lowr;; freef self hash;; free self).
Proof.
  intros self hier dens lowr hash [[[ta ha] da] la] [[[tb hb] db] lb] [[[tc hc] dc] lc] [[[td hd] dd] ld]. reflexivity.
Qed.
Definition cell_good (c : cell) : Prop := forall hier dens lowr,
  hoare (fun x => Z.of_nat (sgl hier x) + Z.of_nat (sgl dens x) + Z.of_nat (sgl lowr x) + Z.of_nat (own_cell c x))
    (destroy_cell hier dens lowr c) (fun _ => True)
    (fun _ x => Z.of_nat (sgl hier x) + Z.of_nat (sgl dens x) + Z.of_nat (sgl lowr x)).
Lemma destroy4 : forall self hier dens lowr hash a b c d,
  cell_good a -> cell_good b -> cell_good c -> cell_good d ->
  hoare (fun x => Z.of_nat (own_hmat (HMat self hier dens lowr hash 2 2 [a; b; c; d]) x))
    (destroy_hmat (HMat self hier dens lowr hash 2 2 [a; b; c; d])) (fun _ => True) (fun _ _ => 0).
Proof.
  intros self hier dens lowr hash a b c d Ha Hb Hc Hd. rewrite destroy_hmat4.
  apply (hoare_weaken _ (fun x => Z.of_nat (sgl self x + sgl hier x + sgl dens x + sgl lowr x + sgl hash x + own_cell a x + own_cell b x + own_cell c x + own_cell d x))
     _ _ (fun _ => True) (fun _ => True) (fun _ _ => 0)); [|intro x; rewrite own_hmat4; lia|intros v _; split; [trivial|intro x; rewrite own_hmat4; lia]].
  unfold cell_good in *. start. steps. exact I.
Qed.
Lemma ok_cell_good : forall c, ok_cell c -> cell_good c.
Proof.
  induction 1 as [d|l|self hier dens lowr hash a b c d _ IHa _ IHb _ IHc _ IHd]; intros hi de lo; unfold destroy_cell, own_cell; cbn [own_opt];
    cbn [Z.eqb Pos.eqb]; start.
  - steps. exact I.
  - steps. exact I.
  - step. apply hoare_tail. eapply hoare_bind; [apply destroy4; assumption|hside|intros u1 _; cbv beta]. steps. exact I.
Qed.
Lemma sp_destroy_hmat : forall H, ok_hmat H -> hoare (fun x => Z.of_nat (own_hmat H x)) (destroy_hmat H) (fun _ => True) (fun _ _ => 0).
Proof.
  intros H (self & hier & dens & lowr & hash & a & b & c & d & -> & Ha & Hb & Hc & Hd).
  apply destroy4; apply ok_cell_good; assumption.
Qed.
#[export] Hint Resolve sp_destroy_hmat : hspec.

Lemma sp_alloc_dense : forall m n, hoare (fun _ => 0) (alloc_dense m n) (fun _ => True) (fun A x => Z.of_nat (own_dense A x)).
Proof. intros. unfold alloc_dense. start. steps. exact I. Qed.
Lemma sp_alloc_lowrank : forall thr m n r sz, hoare (fun _ => 0) (alloc_lowrank thr m n r sz) (fun _ => True) (fun A x => Z.of_nat (own_lowrank A x)).
Proof. intros. unfold alloc_lowrank. start. steps. exact I. Qed.
#[export] Hint Resolve sp_alloc_dense sp_alloc_lowrank : hspec.
Lemma sp_sample_dense : hoare (fun _ => 0) sample_dense (fun _ => True) (fun A x => Z.of_nat (own_dense A x)).
Proof. unfold sample_dense. start. steps. exact I. Qed.
Lemma sp_sample_lowrank : forall thr rank, hoare (fun _ => 0) (sample_lowrank thr rank) (fun _ => True) (fun A x => Z.of_nat (own_lowrank A x)).
Proof. intros. unfold sample_lowrank. start. steps. exact I. Qed.
#[export] Hint Resolve sp_sample_dense sp_sample_lowrank : hspec.
Definition cell_made (c : prog cell) : Prop := hoare (fun _ => 0) c ok_cell (fun c x => Z.of_nat (own_cell c x)).
Lemma sp_sample_blocks : forall a b c d, cell_made a -> cell_made b -> cell_made c -> cell_made d ->
  hoare (fun _ => 0) (sample_blocks a b c d) ok_hmat (fun H x => Z.of_nat (own_hmat H x)).
Proof.
  intros a b c d Ha Hb Hc Hd. unfold sample_blocks, malloc_hmat. start. steps. cbv beta iota.
  apply hoare_ret.
  - exists v, v0, v1, v2, v3, v4, v5, v6, v7. auto.
  - intro x. rewrite own_hmat4. blk_facts. lia.
Qed.
Lemma sp_sample_cell : forall thr rank t, cell_made (sample_cell thr rank t).
Proof.
  intros thr rank. induction t as [| |a IHa b IHb c IHc d IHd]; unfold cell_made; cbn [sample_cell]; start.
  - step. apply hoare_ret; [constructor|]. intro x. unfold own_cell. cbn [own_opt]. lia.
  - step. apply hoare_ret; [constructor|]. intro x. unfold own_cell. cbn [own_opt]. lia.
  - eapply hoare_bind; [apply sp_sample_blocks; assumption|hside|intros H HH; cbv beta].
    destruct HH as (self & hier & dens & lowr & hash & ca & cb & cc & cd & -> & Ha & Hb & Hc & Hd).
    apply hoare_ret; [constructor; assumption|]. intro x. unfold own_cell at 1. cbn [own_opt]. lia.
Qed.
Lemma sp_sample_hierarchical : forall thr rank, hoare (fun _ => 0) (sample_hierarchical thr rank) ok_hmat (fun H x => Z.of_nat (own_hmat H x)).
Proof.
  intros. unfold sample_hierarchical. start. steps.
  eapply hoare_bind; [apply sp_sample_blocks; apply sp_sample_cell|hside|intros H HH; cbv beta]. apply hoare_ret; [exact HH|hside].
Qed.
#[export] Hint Resolve sp_sample_hierarchical : hspec.

(** ** eigenvector plans of triangular banded pencils *)
Fixpoint own_tbeig (F : tbeig) (x : Z) : nat :=
  match F with
  | TBLeaf self n b V lambda => (sgl self x + sgl V x + sgl lambda x)%nat
  | TBNode self n b F0 F1 F2 Sp X Y t1 t2 lambda p1 p2 =>
    (sgl self x + own_hmat F0 x + own_tbeig F1 x + own_tbeig F2 x + own_sparse Sp x + blk X x + blk Y x + blk t1 x + blk t2 x +
     sgl lambda x + sgl p1 x + sgl p2 x)%nat
  end.
Fixpoint ok_tbeig (BS : Z) (F : tbeig) : Prop :=
  match F with
  | TBLeaf self n b V lambda => 0 <= n < BS
  | TBNode self n b F0 F1 F2 Sp X Y t1 t2 lambda p1 p2 => 0 <= n /\ BS <= n /\ ok_hmat F0 /\ ok_tbeig BS F1 /\ ok_tbeig BS F2
  end.
Lemma tbe_self_le : forall F x, (sgl (tbe_self F) x <= own_tbeig F x)%nat.
Proof. intros [self n b V lambda|self n b F0 F1 F2 Sp X Y t1 t2 lambda p1 p2] x; cbn; lia. Qed.
Lemma sp_use_tbe : forall F, hoare (fun x => Z.of_nat (own_tbeig F x)) (use (tbe_self F)) (fun _ => True) (fun _ x => Z.of_nat (own_tbeig F x)).
Proof.
  intro F. start. step. apply hoare_use; [intro x; pose proof (tbe_self_le F x); lia|]. apply hoare_ret; [exact I|intro; lia].
Qed.
Ltac use_tbe := lazymatch goal with |- hoareG _ (bind (use (tbe_self ?F)) _) _ _ =>
  apply hoare_use; [let x := fresh "x" in intro x; pose proof (tbe_self_le F x); cbv beta; lia|] end.
Lemma sp_destroy_tbeig : forall BS F, ok_tbeig BS F -> hoare (fun x => Z.of_nat (own_tbeig F x)) (destroy_tbeig BS F) (fun _ => True) (fun _ _ => 0).
Proof.
  intros BS. induction F as [self n b V lambda|self n b F0 F1 IH1 F2 IH2 Sp X Y t1 t2 lambda p1 p2]; cbn [ok_tbeig destroy_tbeig own_tbeig]; intro Hok; start.
  - step. replace (n <? BS) with true by lia. steps. exact I.
  - destruct Hok as (Hn0 & Hn & H0 & H1 & H2). step. replace (n <? BS) with false by lia. step. step. step.
    eapply hoare_bind; [apply IH1; assumption|hside|intros u1 _; cbv beta]. step.
    eapply hoare_bind; [apply IH2; assumption|hside|intros u2 _; cbv beta]. steps. exact I.
Qed.
#[export] Hint Resolve sp_destroy_tbeig : hspec.
Lemma sp_get_sparse : forall F1 A B n s idx,
  hoare (fun x => Z.of_nat (own_tbeig F1 x) + Z.of_nat (sgl (tb_self A) x) + Z.of_nat (sgl (tb_self B) x)) (get_sparse F1 A B n s idx)
  (fun _ => True) (fun Sp x => Z.of_nat (own_tbeig F1 x) + Z.of_nat (sgl (tb_self A) x) + Z.of_nat (sgl (tb_self B) x) + Z.of_nat (own_sparse Sp x)).
Proof. intros. unfold get_sparse. start. do 4 step. use_tbe. steps. exact I. Qed.
#[export] Hint Resolve sp_get_sparse : hspec.
Lemma sp_tb_eig_FMM : forall thr rank BS fuel A B, 2 <= BS -> 0 <= tb_n A < Z.of_nat fuel ->
  hoare (fun x => Z.of_nat (sgl (tb_self A) x) + Z.of_nat (sgl (tb_self B) x)) (tb_eig_FMM thr rank BS fuel A B) (ok_tbeig BS)
    (fun F x => Z.of_nat (sgl (tb_self A) x) + Z.of_nat (sgl (tb_self B) x) + Z.of_nat (own_tbeig F x)).
Proof.
  intros thr rank BS. induction fuel as [|fuel IH]; intros A B HB Hn; [lia|]. cbn [tb_eig_FMM]. start. step. step. cbv zeta. step.
  destruct (Z.ltb_spec (tb_n A) BS) as [Hlt|Hge].
  - step. step. apply hoare_ret; [cbn; lia|]. intro x. cbn [own_tbeig]. blk_facts. lia.
  - assert (Hs : 0 < Z.shiftr (tb_n A) 1 < tb_n A).
    { rewrite Z.shiftr_div_pow2 by lia. change (2 ^ 1) with 2. split; [apply Z.div_str_pos; lia|apply Z.div_lt; lia]. }
    set (s := Z.shiftr (tb_n A) 1) in *. do 4 step.
    eapply hoare_bind; [apply IH; [assumption|lia]|hside|intros F1 HF1; cbv beta].
    eapply hoare_bind; [apply IH; [assumption|lia]|hside|intros F2 HF2; cbv beta].
    step. do 2 use_tbe. step. step. use_tbe. do 4 step. use_tbe. do 2 step. do 4 step. steps. apply hoare_ret.
    + cbn [ok_tbeig]. split; [lia|]. split; [assumption|]. split; [|split; assumption]. assumption.
    + intro x. cbn [own_tbeig]. blk_facts. lia.
Qed.
Lemma sp_drop_sparse : forall A, hoare (fun x => Z.of_nat (own_sparse A x)) (drop_sparse A) (fun _ => True)
  (fun B x => Z.of_nat (own_sparse A x) + Z.of_nat (own_sparse B x)).
Proof. intros. unfold drop_sparse. start. steps. exact I. Qed.
#[export] Hint Resolve sp_drop_sparse : hspec.
Lemma sp_drop_tbeig : forall thr rank BS F, ok_tbeig BS F ->
  hoare (fun x => Z.of_nat (own_tbeig F x)) (drop_tbeig thr rank BS F) (ok_tbeig BS) (fun G x => Z.of_nat (own_tbeig F x) + Z.of_nat (own_tbeig G x)).
Proof.
  intros thr rank BS. induction F as [self n b V lambda|self n b F0 F1 IH1 F2 IH2 Sp X Y t1 t2 lambda p1 p2]; cbn [ok_tbeig drop_tbeig own_tbeig]; intro Hok; start.
  - step. step. replace (n <? BS) with true by lia. do 4 step. apply hoare_ret; [cbn; lia|]. intro x. cbn [own_tbeig]. blk_facts. lia.
  - destruct Hok as (Hn0 & Hn & H0 & H1 & H2). step. step. replace (n <? BS) with false by lia.
    assert (Hs : 0 <= Z.shiftr n 1 <= n).
    { rewrite Z.shiftr_div_pow2 by lia. change (2 ^ 1) with 2. split; [apply Z.div_pos; lia|apply Z.div_le_upper_bound; lia]. }
    cbv zeta. do 3 step. step. step. step. step. step.
    eapply hoare_bind; [apply IH1; assumption|hside|intros G1 HG1; cbv beta]. step.
    eapply hoare_bind; [apply IH2; assumption|hside|intros G2 HG2; cbv beta]. do 8 step.
    apply hoare_ret; [cbn [ok_tbeig]; auto|]. intro x. cbn [own_tbeig]. blk_facts. lia.
Qed.
#[export] Hint Resolve sp_drop_tbeig : hspec.
