(** * Parallel regions: the kernels as programs *)
From Coq Require Import ZArith List Lia Bool ZifyBool ZifyNat.
From Verif Require Import Base BaseFacts Arith MPermute MRotations MDrivers MBanded MSched PSched.
Import ListNotations.
Open Scope Z_scope.

Section G.
Context {F : Type}.
Notation mem := (list F).
(** [p] computes [x] from memory without changing it *)
Lemma run_lift {T} (o : option T) (f : T -> prog F unit) A :
  run (pbind (plift o) f) A = do x <- o; run (f x) A.
Proof. destruct o; reflexivity. Qed.
Lemma run_load a (f : F -> prog F unit) (A : list F) : run (pbind (pload a) f) A = do v <- zget A a; run (f v) A.
Proof. unfold run. cbn. now destruct (zget A a). Qed.
Lemma run_store a (v : F) A : run (pstore a v) A = zset A a v.
Proof. unfold run. cbn. now destruct (zset A a v). Qed.
Lemma run_pure {T} (p : prog F T) (o : mem -> option T) (f : T -> prog F unit) A :
  (forall A, exec p A = do x <- o A; Some (x, A)) ->
  run (pbind p f) A = do x <- o A; run (f x) A.
Proof. intros H. unfold run. rewrite exec_bind, H. now destruct (o A). Qed.
Lemma run_iter n (f : nat -> prog F unit) (g : nat -> mem -> option mem) A :
  (forall k A, (k < n)%nat -> run (f k) A = g k A) -> run (piter n (fun k _ => f k) tt) A = itero n g A.
Proof.
  intros H. induction n; [reflexivity|]. cbn [piter itero].
  rewrite run_bind, IHn by (intros; apply H; lia).
  destruct (itero n g A); cbn; auto.
Qed.
Lemma run_up lo hi (f : Z -> prog F unit) g A :
  (forall i A, lo <= i < hi -> run (f i) A = g i A) -> run (pfor_up lo hi (fun i _ => f i) tt) A = for_up lo hi g A.
Proof. intros H. apply (run_iter _ (fun k => f (lo + Z.of_nat k)) (fun k => g (lo + Z.of_nat k))). intros. apply H. lia. Qed.
Lemma run_dn hi lo (f : Z -> prog F unit) g A :
  (forall i A, lo <= i <= hi -> run (f i) A = g i A) -> run (pfor_dn hi lo (fun i _ => f i) tt) A = for_dn hi lo g A.
Proof. intros H. apply (run_iter _ (fun k => f (hi - Z.of_nat k)) (fun k => g (hi - Z.of_nat k))). intros. apply H. lia. Qed.
Lemma run_upst lo hi st (f : Z -> prog F unit) g A :
  (forall i A, run (f i) A = g i A) -> run (pfor_upst lo hi st (fun i _ => f i) tt) A = for_upst lo hi st g A.
Proof. intros H. apply (run_iter _ (fun k => f (lo + Z.of_nat k * st)) (fun k => g (lo + Z.of_nat k * st))). intros. apply H. Qed.
Lemma run_dnst hi lo st (f : Z -> prog F unit) g A :
  (forall i A, run (f i) A = g i A) -> run (pfor_dnst hi lo st (fun i _ => f i) tt) A = for_dnst hi lo st g A.
Proof. intros H. apply (run_iter _ (fun k => f (hi - Z.of_nat k * st)) (fun k => g (hi - Z.of_nat k * st))). intros. apply H. Qed.

Lemma run_seq (p q : prog F unit) (e : mem -> option mem) k A :
  (forall A, run p A = e A) -> (forall A, run q A = k A) ->
  run (pbind p (fun _ => q)) A = do A <- e A; k A.
Proof. intros H1 H2. rewrite run_bind, H1. destruct (e A); cbn; auto. Qed.

(** the same footprint for reads and writes *)
Definition inside {T} (X : Z -> Prop) (p : prog F T) : Prop := within X X p.
Lemma inside_load {X : Z -> Prop} a : X a -> inside X (pload a).
Proof. cbn. auto. Qed.
Lemma inside_store {X : Z -> Prop} a (v : F) : X a -> inside X (pstore a v).
Proof. cbn. auto. Qed.
End G.

Ltac runs := repeat first
  [ rewrite run_bind | rewrite run_lift | rewrite run_load | rewrite run_store
  | progress cbn [obind] | reflexivity ].
(** strip one layer of the monad on both sides *)
Ltac obs := match goal with
  | |- (do _ <- ?e; _) = (do _ <- ?e; _) => destruct e eqn:?; cbn [obind]; [|reflexivity]
  end.

Section K.
Context {F : Type} `{Arith F}.
Variable rot : F -> F -> F -> F -> F * F.

Lemma run_apply_rot s c ix iy A : run (p_apply_rot rot s c ix iy) A = apply_rot rot s c A ix iy.
Proof.
  unfold p_apply_rot, apply_rot. rewrite run_load. obs. rewrite run_load. obs.
  rewrite run_bind, run_store. obs. apply run_store.
Qed.
Lemma exec_vload V p (A : list F) : exec (p_vload V p) A = do x <- vload V A p; Some (x, A).
Proof.
  revert p. induction V; intros p; [reflexivity|]. cbn. destruct (zget A p); cbn; auto.
  rewrite exec_bind, IHV. destruct (vload V A (p + 1)); reflexivity.
Qed.
Lemma run_vstore p vs (A : list F) : run (p_vstore p vs) A = vstore A p vs.
Proof.
  revert p A. induction vs; intros p A; [reflexivity|]. cbn [p_vstore vstore].
  rewrite run_bind, run_store. obs. apply IHvs.
Qed.
Lemma run_vapply_rot VS s c ix iy A : run (p_vapply_rot rot VS s c ix iy) A = vapply_rot rot VS s c A ix iy.
Proof.
  unfold p_vapply_rot, vapply_rot.
  rewrite (run_pure _ (fun A => vload VS A ix)) by (intros; apply exec_vload). obs.
  rewrite (run_pure _ (fun A => vload VS A iy)) by (intros; apply exec_vload). obs.
  rewrite run_bind, run_vstore. obs. apply run_vstore.
Qed.
Lemma exec_iter_pure {S} n (f : nat -> S -> prog F S) (g : nat -> S -> option S) s (A : list F) :
  (forall k s, exec (f k s) A = do x <- g k s; Some (x, A)) ->
  exec (piter n f s) A = do x <- itero n g s; Some (x, A).
Proof.
  intros Hk. induction n; [reflexivity|]. cbn [piter itero]. rewrite exec_bind, IHn.
  destruct (itero n g s); cbn; auto.
Qed.
Lemma exec_load_block VS K oA S b (A : list F) :
  exec (p_load_block VS K oA S b) A = do x <- load_block VS K A oA S b; Some (x, A).
Proof.
  unfold p_load_block, load_block, pfor_up, for_up. apply exec_iter_pure. intros k X.
  rewrite exec_bind, exec_vload. destruct (vload VS A _); cbn; auto. now destruct (zset X _ _).
Qed.
Lemma run_load_block VS K oA S b (f : list (list F) -> prog F unit) A :
  run (pbind (p_load_block VS K oA S b) f) A = do X <- load_block VS K A oA S b; run (f X) A.
Proof. apply (run_pure _ (fun A => load_block VS K A oA S b)). intros. apply exec_load_block. Qed.
Lemma run_store_block K X oA S b (A : list F) :
  run (p_store_block K X oA S b) A = store_block K X A oA S b.
Proof.
  unfold p_store_block, store_block. apply run_up. intros. rewrite run_lift. obs. apply run_vstore.
Qed.

Ltac kern := repeat first
  [ apply run_apply_rot | apply run_vapply_rot | apply run_store_block | apply run_store
  | apply run_up; intros | apply run_dn; intros | apply run_upst; intros | apply run_dnst; intros
  | rewrite run_lift; obs | rewrite run_load; obs | rewrite run_load_block; obs
  | progress cbv beta zeta ].
Ltac seq e := apply (run_seq _ _ e); intros.

Lemma run_sph_hi2lo RP m1 m2 oA S A : run (p_sph_hi2lo rot RP m1 m2 oA S) A = kernel_sph_hi2lo rot RP m1 m2 A oA S.
Proof. unfold p_sph_hi2lo, kernel_sph_hi2lo. kern. Qed.
Lemma run_sph_lo2hi RP m1 m2 oA S A : run (p_sph_lo2hi rot RP m1 m2 oA S) A = kernel_sph_lo2hi rot RP m1 m2 A oA S.
Proof. unfold p_sph_lo2hi, kernel_sph_lo2hi. kern. Qed.
Lemma run_tri_hi2lo RP m1 m2 oA S A : run (p_tri_hi2lo rot RP m1 m2 oA S) A = kernel_tri_hi2lo rot RP m1 m2 A oA S.
Proof. unfold p_tri_hi2lo, kernel_tri_hi2lo. kern. Qed.
Lemma run_tri_lo2hi RP m1 m2 oA S A : run (p_tri_lo2hi rot RP m1 m2 oA S) A = kernel_tri_lo2hi rot RP m1 m2 A oA S.
Proof. unfold p_tri_lo2hi, kernel_tri_lo2hi. kern. Qed.
Lemma run_disk_hi2lo RP m1 m2 oA S A : run (p_disk_hi2lo rot RP m1 m2 oA S) A = kernel_disk_hi2lo rot RP m1 m2 A oA S.
Proof. unfold p_disk_hi2lo, kernel_disk_hi2lo. kern. Qed.
Lemma run_disk_lo2hi RP m1 m2 oA S A : run (p_disk_lo2hi rot RP m1 m2 oA S) A = kernel_disk_lo2hi rot RP m1 m2 A oA S.
Proof. unfold p_disk_lo2hi, kernel_disk_lo2hi. kern. Qed.
Lemma run_tet_hi2lo RP L m oA A : run (p_tet_hi2lo rot RP L m oA) A = kernel_tet_hi2lo rot RP L m A oA.
Proof. unfold p_tet_hi2lo, kernel_tet_hi2lo. kern. Qed.
Lemma run_tet_lo2hi RP L m oA A : run (p_tet_lo2hi rot RP L m oA) A = kernel_tet_lo2hi rot RP L m A oA.
Proof. unfold p_tet_lo2hi, kernel_tet_lo2hi. kern. Qed.

(** sequences in the vector kernels *)
Ltac kern2 := repeat first
  [ apply run_apply_rot | apply run_vapply_rot | apply run_store_block | apply run_store
  | apply run_sph_hi2lo | apply run_sph_lo2hi | apply run_tri_hi2lo | apply run_tri_lo2hi
  | apply run_disk_hi2lo | apply run_disk_lo2hi
  | rewrite run_lift; obs | rewrite run_load; obs | rewrite run_load_block; obs
  | apply run_up; intros | apply run_dn; intros | apply run_upst; intros | apply run_dnst; intros
  | match goal with |- run (pbind ?p ?f) ?A = obind ?e _ =>
      let g := eval pattern A in e in
      match g with ?g _ => apply (run_seq p (f tt) g); intros end end
  | progress cbv beta zeta ].
Lemma run_SPH_HI2LO VS L RP m1 m2 oA S A :
  run (P_SPH_HI2LO rot VS L RP m1 m2 oA S) A = KERNEL_SPH_HI2LO rot VS L RP m1 m2 A oA S.
Proof. unfold P_SPH_HI2LO, KERNEL_SPH_HI2LO. kern2. Qed.
Lemma run_SPH_LO2HI VS L RP m1 m2 oA S A :
  run (P_SPH_LO2HI rot VS L RP m1 m2 oA S) A = KERNEL_SPH_LO2HI rot VS L RP m1 m2 A oA S.
Proof. unfold P_SPH_LO2HI, KERNEL_SPH_LO2HI. kern2. Qed.
Lemma run_TRI_HI2LO VS L RP m1 m2 oA S A :
  run (P_TRI_HI2LO rot VS L RP m1 m2 oA S) A = KERNEL_TRI_HI2LO rot VS L RP m1 m2 A oA S.
Proof. unfold P_TRI_HI2LO, KERNEL_TRI_HI2LO. kern2. Qed.
Lemma run_TRI_LO2HI VS L RP m1 m2 oA S A :
  run (P_TRI_LO2HI rot VS L RP m1 m2 oA S) A = KERNEL_TRI_LO2HI rot VS L RP m1 m2 A oA S.
Proof. unfold P_TRI_LO2HI, KERNEL_TRI_LO2HI. kern2. Qed.
Lemma run_DISK_HI2LO VS L RP m1 m2 oA S A :
  run (P_DISK_HI2LO rot VS L RP m1 m2 oA S) A = KERNEL_DISK_HI2LO rot VS L RP m1 m2 A oA S.
Proof. unfold P_DISK_HI2LO, KERNEL_DISK_HI2LO. kern2. Qed.
Lemma run_DISK_LO2HI VS L RP m1 m2 oA S A :
  run (P_DISK_LO2HI rot VS L RP m1 m2 oA S) A = KERNEL_DISK_LO2HI rot VS L RP m1 m2 A oA S.
Proof. unfold P_DISK_LO2HI, KERNEL_DISK_LO2HI. kern2. Qed.

Lemma run_trmv tr n T oT LDT o A : run (p_trmv tr n T oT LDT o) A = trmv tr n T oT LDT A o.
Proof. unfold p_trmv, trmv, trmv_gen. destruct tr; kern2. Qed.
Lemma run_trsv tr n T oT LDT o A : run (p_trsv tr n T oT LDT o) A = trsv tr n T oT LDT A o.
Proof. unfold p_trsv, trsv, trsv_gen. destruct tr; kern2. Qed.

(** driver bodies *)
Definition implements (k : Z -> Z -> Z -> Z -> prog F unit) (f : kern F) : Prop :=
  forall m1 m2 oA S A, run (k m1 m2 oA S) A = f m1 m2 A oA S.
Lemma run_sph_body k f N m A : implements k f -> run (p_sph_body k N m) A = sph_body f N m A.
Proof. intros Hk. unfold p_sph_body, sph_body. rewrite run_bind, Hk. obs. apply Hk. Qed.
Lemma run_sphv_body k f N m A : implements k f -> run (p_sphv_body k N m) A =
  do A <- f (m mod 2) m A (N * (2 * m + 1)) 1; f (m mod 2) m A (N * (2 * m + 2)) 1.
Proof. intros Hk. unfold p_sphv_body. rewrite run_bind, Hk. obs. apply Hk. Qed.
Lemma run_tri_body k f N m A : implements k f -> run (p_tri_body k N m) A = tri_body f N m A.
Proof. intros Hk. apply Hk. Qed.
Lemma run_rectdisk_body k f N m A : implements k f -> run (p_rectdisk_body k N m) A = rectdisk_body f N m A.
Proof. intros Hk. apply Hk. Qed.
Lemma run_sph_simd_body k f N S m A : implements k f -> run (p_sph_simd_body k N S m) A = sph_simd_body f N S m A.
Proof. intros Hk. unfold p_sph_simd_body, sph_simd_body. rewrite run_bind, Hk. obs. apply Hk. Qed.
Lemma run_tet_hi2lo_body k kt f ft N L m A : implements k f -> (forall L m o A, run (kt L m o) A = ft L m A o) ->
  run (p_tet_hi2lo_body k kt N L m) A = tet_hi2lo_body f ft N L m A.
Proof.
  intros Hk Ht. unfold p_tet_hi2lo_body, tet_hi2lo_body. rewrite run_bind.
  rewrite (run_up 0 (L - m) _ (fun l A => f 0 (l + m) A (N * (l + L * m)) 1)) by (intros; apply Hk). obs. apply Ht.
Qed.
Lemma run_tet_lo2hi_body k kt f ft N L m A : implements k f -> (forall L m o A, run (kt L m o) A = ft L m A o) ->
  run (p_tet_lo2hi_body k kt N L m) A = tet_lo2hi_body f ft N L m A.
Proof.
  intros Hk Ht. unfold p_tet_lo2hi_body, tet_lo2hi_body. rewrite run_bind, Ht. obs.
  apply (run_up 0 (L - m)). intros. apply Hk.
Qed.
End K.
Section Spin.
Context {F : Type} `{Arith F}.
Variables (rot rot_t : F -> F -> F -> F -> F * F).
Lemma run_apply_rotc (r : F -> F -> F -> F -> F * F) s c ix iy A : run (p_apply_rotc r s c ix iy) A = apply_rotc r s c A ix iy.
Proof. unfold p_apply_rotc, apply_rotc. rewrite run_bind, run_apply_rot. obs. apply run_apply_rot. Qed.
Ltac kern3 := repeat first
  [ apply run_apply_rotc
  | rewrite run_lift; obs
  | apply run_up; intros | apply run_dn; intros | apply run_upst; intros | apply run_dnst; intros
  | match goal with |- run (pbind ?p ?f) ?A = obind ?e _ =>
      let g := eval pattern A in e in
      match g with ?g _ => apply (run_seq p (f tt) g); intros end end
  | progress cbv beta zeta ].
Lemma run_spinsph_hi2lo SRP m oA S (A : list F) :
  run (p_spinsph_hi2lo rot rot_t SRP m oA S) A = kernel_spinsph_hi2lo rot rot_t apply_rotc SRP m A oA S.
Proof. unfold p_spinsph_hi2lo, kernel_spinsph_hi2lo. kern3. Qed.
Lemma run_spinsph_lo2hi SRP m oA S (A : list F) :
  run (p_spinsph_lo2hi rot rot_t SRP m oA S) A = kernel_spinsph_lo2hi rot rot_t apply_rotc SRP m A oA S.
Proof. unfold p_spinsph_lo2hi, kernel_spinsph_lo2hi. kern3. Qed.
Lemma run_spin_body k (f : Z -> list F -> Z -> Z -> option (list F)) N m A :
  (forall m oA S A, run (k m oA S) A = f m A oA S) -> run (p_spin_body k N m) A = spin_body f N m A.
Proof. intros Hk. unfold p_spin_body, spin_body. rewrite run_bind, Hk. obs. apply Hk. Qed.
End Spin.
