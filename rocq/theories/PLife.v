(** * Triples of the constructors and destructors of banded, tridiagonal and hierarchical matrices *)
From Coq Require Import ZArith List Lia Bool ZifyBool ZifyNat.
From Verif Require Import SpecHeap MHeap PHeap MLife.
Import ListNotations.
Open Scope Z_scope.
Open Scope prog_scope.

Arguments sgl : simpl never.
Arguments blk : simpl never.

Lemma hoare_assoc : forall A B C G P (m : prog A) (g : A -> prog B) (f : B -> prog C) (phi : C -> G -> Prop) Q,
  hoareG P (bind m (fun a => bind (g a) f)) phi Q -> hoareG P (bind (bind m g) f) phi Q.
Proof.
  intros A B C G P m g f phi Q H h Hw Hh. destruct (H h Hw Hh) as (v & h' & gh & E & R).
  exists v, h', gh. split; [|exact R]. rewrite <- E. unfold bind. destruct (m h) as [[a h1]|]; reflexivity.
Qed.
Lemma hoare_bind_ret : forall A B G P (a : A) (f : A -> prog B) (phi : B -> G -> Prop) Q,
  hoareG P (f a) phi Q -> hoareG P (bind (ret a) f) phi Q.
Proof. intros A B G P a f phi Q H. exact H. Qed.
Lemma hoare_tail : forall A G P (c : prog A) (phi : A -> G -> Prop) Q,
  hoareG P (bind c ret) phi Q -> hoareG P c phi Q.
Proof.
  intros A G P c phi Q H h Hw Hh. destruct (H h Hw Hh) as (v & h' & gh & E & R).
  exists v, h', gh. split; [|exact R]. rewrite <- E. unfold bind, ret. destruct (c h) as [[a h1]|]; reflexivity.
Qed.

Lemma sp_malloc_nn2 : forall k, 0 <= k -> hoare (fun _ => 0) (malloc k) (fun p => p <> NULL) (fun p x => Z.of_nat (blk p x)).
Proof.
  intros k Hk. eapply hoare_weaken; [apply (sp_malloc_nn k Hk)|intro; lia|]. intros v Hv. split; [exact Hv|]. intro x. rewrite (blk_nn _ Hv). lia.
Qed.

Create HintDb hspec.

(** ** what an object owns *)
Definition own_sparse (A : sparse) (x : Z) : nat := (sgl (sp_self A) x + blk (sp_p A) x + blk (sp_q A) x + blk (sp_v A) x)%nat.
Definition own_banded (A : banded) (x : Z) : nat := (sgl (bd_self A) x + blk (bd_data A) x)%nat.
Definition own_tbanded (A : tbanded) (x : Z) : nat := (sgl (tb_self A) x + blk (tb_data A) x)%nat.
Definition own_bqr (F : bqr) (x : Z) : nat := (sgl (qr_self F) x + own_banded (qr_factors F) x + blk (qr_tau F) x)%nat.
Definition own_symtri (A : symtri) (x : Z) : nat := (sgl (st_self A) x + blk (st_a A) x + blk (st_b A) x)%nat.
Definition own_bidiag (A : bidiag) (x : Z) : nat := (sgl (bi_self A) x + blk (bi_c A) x + blk (bi_d A) x)%nat.
Definition own_stqr (F : stqr) (x : Z) : nat := (sgl (sq_self F) x + blk (sq_s F) x + blk (sq_c F) x + own_tbanded (sq_R F) x)%nat.
Definition own_dense (A : dense) (x : Z) : nat := (sgl (dn_self A) x + blk (dn_A A) x)%nat.
Definition own_lowrank (L : lowrank) (x : Z) : nat :=
  (sgl (lr_self L) x + blk (lr_U L) x + blk (lr_S L) x + blk (lr_V L) x + blk (lr_t1 L) x + blk (lr_t2 L) x)%nat.

Ltac unfold_own := unfold own_bqr, own_stqr, own_sparse, own_banded, own_tbanded, own_symtri, own_bidiag, own_dense, own_lowrank.
Ltac blk_facts := repeat match goal with H : ?p <> NULL |- _ => rewrite ?(blk_nn p H) in *; clear H end.
Ltac hside := let x := fresh "x" in intro x; cbv beta; first [lia | unfold_own; cbn; first [lia | blk_facts; lia]].
Ltac hspec := solve [eauto 3 with hspec nocore].
Ltac nonneg := first [lia | nia].
Ltac step1 :=
  lazymatch goal with
  | |- hoareG _ (let _ := _ in _) _ _ => cbv zeta
  | |- hoareG _ (bind (bind _ _) _) _ _ => apply hoare_assoc
  | |- hoareG _ (bind (freef _ _) _) _ _ => unfold freef; apply hoare_assoc
  | |- hoareG _ (bind (ret _) _) _ _ => apply hoare_bind_ret
  | |- hoareG _ (bind (use _) _) _ _ => apply hoare_use; [hside|]
  | |- hoareG _ (bind (free _) _) _ _ =>
      let v := fresh "u" in
      first [eapply hoare_bind; [apply sp_free_sgl|hside|intros v _; cbv beta]
            |eapply hoare_bind; [apply sp_free|hside|intros v _; cbv beta]]
  | |- hoareG _ (bind new _) _ _ => let v := fresh "v" in eapply hoare_bind; [apply sp_new|hside|let H := fresh "N" in intros v H; cbv beta in H |- *]
  | |- hoareG _ (bind (malloc _) _) _ _ =>
      let v := fresh "v" in
      first [eapply hoare_bind; [apply sp_malloc_nn2; nonneg|hside|let H := fresh "N" in intros v H; cbv beta in H |- *]
            |eapply hoare_bind; [apply sp_malloc|hside|intros v _; cbv beta]]
  | |- hoareG _ (bind pick _) _ _ => let v := fresh "k" in eapply hoare_bind; [apply sp_pick|hside|intros v _; cbv beta]
  | |- hoareG _ (bind pick_shape _) _ _ => let v := fresh "t" in eapply hoare_bind; [apply sp_pick_shape|hside|intros v _; cbv beta]
  | |- hoareG _ (bind (if _ then _ else _) _) _ _ => fail "if"
  | |- hoareG _ (bind (match _ with _ => _ end) _) _ _ => fail "match"
  | |- hoareG _ (bind _ _) _ _ =>
      let v := fresh "v" in let H := fresh "Hv" in
      eapply hoare_bind; [hspec|hside|intros v H; cbv beta in H |- *]
  | |- hoareG _ (ret _) (fun _ (_ : unit) => _) _ => apply hoare_ret; [cbv beta|hside]
  | |- hoareG _ (ret _) _ _ => fail "ret"
  | |- hoareG _ (if _ then _ else _) _ _ => fail "if"
  | |- hoareG _ (match _ with _ => _ end) _ _ => fail "match"
  | |- hoareG _ _ _ _ => apply hoare_tail
  end.
Ltac step := cbv beta; step1.
Ltac start := unfold hoare.
Ltac steps := repeat step.

(** ** destructors *)
Lemma sp_destroy_sparse : forall A, hoare (fun x => Z.of_nat (own_sparse A x)) (destroy_sparse A) (fun _ => True) (fun _ _ => 0).
Proof. intros. unfold destroy_sparse. start. steps. exact I. Qed.
Lemma sp_destroy_banded : forall A, hoare (fun x => Z.of_nat (own_banded A x)) (destroy_banded A) (fun _ => True) (fun _ _ => 0).
Proof. intros. unfold destroy_banded. start. steps. exact I. Qed.
Lemma sp_destroy_tbanded : forall A, hoare (fun x => Z.of_nat (own_tbanded A x)) (destroy_tbanded A) (fun _ => True) (fun _ _ => 0).
Proof. intros. unfold destroy_tbanded. start. steps. exact I. Qed.
#[export] Hint Resolve sp_destroy_sparse sp_destroy_banded sp_destroy_tbanded : hspec.
Lemma sp_destroy_bqr : forall A, hoare (fun x => Z.of_nat (own_bqr A x)) (destroy_bqr A) (fun _ => True) (fun _ _ => 0).
Proof. intros. unfold destroy_bqr. start. steps. exact I. Qed.
Lemma sp_destroy_symtri : forall A, hoare (fun x => Z.of_nat (own_symtri A x)) (destroy_symtri A) (fun _ => True) (fun _ _ => 0).
Proof. intros. unfold destroy_symtri. start. steps. exact I. Qed.
Lemma sp_destroy_bidiag : forall A, hoare (fun x => Z.of_nat (own_bidiag A x)) (destroy_bidiag A) (fun _ => True) (fun _ _ => 0).
Proof. intros. unfold destroy_bidiag. start. steps. exact I. Qed.
Lemma sp_destroy_stqr : forall A, hoare (fun x => Z.of_nat (own_stqr A x)) (destroy_stqr A) (fun _ => True) (fun _ _ => 0).
Proof. intros. unfold destroy_stqr. start. steps. exact I. Qed.
Lemma sp_destroy_dense : forall A, hoare (fun x => Z.of_nat (own_dense A x)) (destroy_dense A) (fun _ => True) (fun _ _ => 0).
Proof. intros. unfold destroy_dense. start. steps. exact I. Qed.
Lemma sp_destroy_lowrank : forall A, hoare (fun x => Z.of_nat (own_lowrank A x)) (destroy_lowrank A) (fun _ => True) (fun _ _ => 0).
Proof. intros. unfold destroy_lowrank. start. steps. exact I. Qed.
#[export] Hint Resolve sp_destroy_bqr sp_destroy_symtri sp_destroy_bidiag sp_destroy_stqr sp_destroy_dense sp_destroy_lowrank : hspec.

(** ** constructors *)
Lemma sp_malloc_sparse : forall m n nnz, hoare (fun _ => 0) (malloc_sparse m n nnz) (fun _ => True) (fun A x => Z.of_nat (own_sparse A x)).
Proof. intros. unfold malloc_sparse. start. steps. exact I. Qed.
Lemma sp_alloc_banded : forall m n l u, hoare (fun _ => 0) (alloc_banded m n l u)
  (fun A => bd_m A = m /\ bd_n A = n /\ bd_l A = l /\ bd_u A = u) (fun A x => Z.of_nat (own_banded A x)).
Proof. intros. unfold alloc_banded. start. steps. auto. Qed.
Lemma sp_alloc_tbanded : forall n b, hoare (fun _ => 0) (alloc_tbanded n b)
  (fun A => tb_n A = n /\ tb_b A = b) (fun A x => Z.of_nat (own_tbanded A x)).
Proof. intros. unfold alloc_tbanded. start. steps. auto. Qed.
Lemma sp_realloc_tbanded : forall A b, hoare (fun x => Z.of_nat (own_tbanded A x)) (realloc_tbanded A b)
  (fun A' => tb_n A' = tb_n A /\ tb_b A' = b) (fun A' x => Z.of_nat (own_tbanded A' x)).
Proof. intros. unfold realloc_tbanded. start. steps. auto. Qed.
Lemma sp_view_tbanded : forall A a b, hoare (fun x => Z.of_nat (sgl (tb_self A) x)) (view_tbanded A a b)
  (fun V => tb_n V = b - a /\ tb_b V = tb_b A) (fun V x => Z.of_nat (sgl (tb_self A) x) + Z.of_nat (sgl (tb_self V) x)).
Proof. intros. unfold view_tbanded. start. steps. auto. Qed.
#[export] Hint Resolve sp_malloc_sparse sp_alloc_banded sp_alloc_tbanded sp_realloc_tbanded sp_view_tbanded : hspec.
Lemma sp_convert_banded : forall A, hoare (fun x => Z.of_nat (own_banded A x)) (convert_banded A)
  (fun T => tb_n T = bd_n A /\ tb_b T = bd_u A) (fun T x => Z.of_nat (own_tbanded T x)).
Proof. intros. unfold convert_banded. start. steps. destruct (bd_l A =? 0); steps; auto. Qed.
Lemma sp_create_I_tbanded : forall n b, hoare (fun _ => 0) (create_I_tbanded n b)
  (fun A => tb_n A = n /\ tb_b A = b) (fun A x => Z.of_nat (own_tbanded A x)).
Proof. intros. apply sp_alloc_tbanded. Qed.
#[export] Hint Resolve sp_convert_banded sp_create_I_tbanded : hspec.
Lemma rotate_own : forall k A B C x,
  let '(A1, B1, C1) := rotate_pointers k A B C in
  (own_banded A1 x + own_banded B1 x + own_banded C1 x = own_banded A x + own_banded B x + own_banded C x)%nat.
Proof.
  induction k as [|k IH]; intros A B C x; cbn [rotate_pointers]; [reflexivity|].
  specialize (IH C A B x). destruct (rotate_pointers k C A B) as [[A1 B1] C1]. lia.
Qed.
Lemma sp_op_clenshaw : forall n X, hoare (fun x => Z.of_nat (own_banded X x)) (op_clenshaw n X)
  (fun _ => True) (fun A x => Z.of_nat (own_banded X x) + Z.of_nat (own_banded A x)).
Proof.
  intros. unfold op_clenshaw. start. steps.
  pose proof (rotate_own (Z.to_nat n) v v0 v1) as HR. destruct (rotate_pointers (Z.to_nat n) v v0 v1) as [[A B] C].
  cbv beta iota. eapply hoare_bind; [hspec|intro x; specialize (HR x); lia|intros u _; cbv beta].
  eapply hoare_bind; [hspec|intro x; specialize (HR x); lia|intros u2 _; cbv beta].
  apply hoare_ret; [exact I|]. intro x; specialize (HR x); lia.
Qed.
Lemma sp_banded_fact : forall ql A, hoare (fun x => Z.of_nat (own_banded A x)) (banded_fact ql A)
  (fun _ => True) (fun F x => Z.of_nat (own_banded A x) + Z.of_nat (own_bqr F x)).
Proof. intros [|] A; unfold banded_fact; start; steps; exact I. Qed.
Lemma sp_partial_bqmm : forall F A, hoare (fun x => Z.of_nat (own_bqr F x) + Z.of_nat (own_banded A x)) (partial_bqmm F A)
  (fun _ => True) (fun _ x => Z.of_nat (own_bqr F x) + Z.of_nat (own_banded A x)).
Proof. intros. unfold partial_bqmm. start. steps. exact I. Qed.
#[export] Hint Resolve sp_op_clenshaw sp_banded_fact sp_partial_bqmm : hspec.

(** ** tridiagonal matrices *)
Lemma sp_new_symtri : forall n, hoare (fun _ => 0) (new_symtri n) (fun T => st_n T = n) (fun T x => Z.of_nat (own_symtri T x)).
Proof. intros. unfold new_symtri. start. steps. reflexivity. Qed.
Lemma sp_st_cholesky : forall A, hoare (fun x => Z.of_nat (own_symtri A x)) (st_cholesky A) (fun _ => True)
  (fun B x => Z.of_nat (own_symtri A x) + Z.of_nat (own_bidiag B x)).
Proof. intros. unfold st_cholesky. start. steps. exact I. Qed.
Lemma sp_st_eig : forall A, hoare (fun x => Z.of_nat (own_symtri A x)) (st_eig A) (fun _ => True) (fun _ x => Z.of_nat (own_symtri A x)).
Proof. intros. unfold st_eig. start. steps. exact I. Qed.
#[export] Hint Resolve sp_new_symtri sp_st_cholesky sp_st_eig : hspec.
Lemma sp_st_congruence : forall A B, hoare (fun x => Z.of_nat (own_symtri A x) + Z.of_nat (own_symtri B x)) (st_congruence A B) (fun T => st_n T = st_n A)
  (fun T x => Z.of_nat (own_symtri A x) + Z.of_nat (own_symtri B x) + Z.of_nat (own_symtri T x)).
Proof. intros. unfold st_congruence. start. steps. reflexivity. Qed.
#[export] Hint Resolve sp_st_congruence : hspec.
Lemma sp_st_definite_eig : forall A B, hoare (fun x => Z.of_nat (own_symtri A x) + Z.of_nat (own_symtri B x)) (st_definite_eig A B) (fun _ => True)
  (fun _ x => Z.of_nat (own_symtri A x) + Z.of_nat (own_symtri B x)).
Proof. intros. unfold st_definite_eig. start. steps. exact I. Qed.
Lemma sp_convert_banded_symtri : forall A, hoare (fun x => Z.of_nat (own_banded A x)) (convert_banded_symtri A)
  (fun T => st_n T = bd_n A) (fun T x => Z.of_nat (own_symtri T x)).
Proof. intros. unfold convert_banded_symtri. start. steps. reflexivity. Qed.
Lemma sp_st_qrfact : forall A, hoare (fun x => Z.of_nat (own_symtri A x)) (st_qrfact A) (fun _ => True)
  (fun F x => Z.of_nat (own_symtri A x) + Z.of_nat (own_stqr F x)).
Proof. intros. unfold st_qrfact. start. steps. exact I. Qed.
Lemma sp_jacobi_similarity : forall n, hoare (fun _ => 0) (jacobi_similarity n) (fun _ => True) (fun T x => Z.of_nat (own_symtri T x)).
Proof. intros. unfold jacobi_similarity. start. steps. exact I. Qed.
#[export] Hint Resolve sp_st_definite_eig sp_convert_banded_symtri sp_st_qrfact sp_jacobi_similarity : hspec.
