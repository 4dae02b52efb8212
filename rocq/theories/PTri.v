(** * Proofs: triangular multiply and solve loops *)
From Coq Require Import ZArith List Lia Bool ZifyBool ZifyNat Reals Lra.
From Verif Require Import Arith Base BaseFacts SpecSum PSum SpecLin MBanded SpecBanded.
Import ListNotations.
Open Scope Z_scope.

Lemma vec_zget o x i v : zget x (o + i) = Some v -> vec o x i = v.
Proof. apply nthZ_zget. Qed.
Lemma zget_vec o x i n : fits o n x -> 0 <= i < n -> zget x (o + i) = Some (vec o x i).
Proof. intros [H0 H1] Hi. apply zget_nthZ. lia. Qed.

Lemma sumZ_window n lo hi f : 0 <= lo -> hi <= n -> (forall k, 0 <= k < n -> ~ (lo <= k < hi) -> f k = 0%R) ->
  sumZ n f = sumZ (hi - lo) (fun q => f (lo + q)).
Proof.
  intros H0 H1 Hz. destruct (Z_lt_dec lo hi).
  - rewrite (sumZ_split n lo) by lia. rewrite (sumZ_zero lo) by (intros; apply Hz; lia).
    rewrite (sumZ_split (n - lo) (hi - lo)) by lia. rewrite (sumZ_zero (n - lo - (hi - lo))) by (intros; apply Hz; lia). lra.
  - rewrite (sumZ_0 (hi - lo)) by lia. apply sumZ_zero. intros. apply Hz; lia.
Qed.
Lemma sumZ_pick n i f : 0 <= i < n -> sumZ n f = (f i + sumZ n (fun k => if k =? i then 0 else f k))%R.
Proof.
  intros Hi. rewrite (sumZ_ext n f (fun k => ((if k =? i then f i else 0) + (if k =? i then 0 else f k))%R)).
  - rewrite sumZ_plus. f_equal. rewrite (sumZ_single n i); auto.
    + now rewrite Z.eqb_refl.
    + intros k Hk Hne. replace (k =? i) with false by lia. reflexivity.
  - intros k Hk. destruct (Z.eqb_spec k i); subst; lra.
Qed.

Lemma rowdot_val get g x o lo hi :
  (forall k, lo <= k < hi -> get k = Some (g k)) -> (forall k, lo <= k < hi -> 0 <= o + k < zlen x) ->
  rowdot get x o lo hi = Some (sumZ (hi - lo) (fun q => (g (lo + q)%Z * vec o x (lo + q))%R)).
Proof.
  intros Hg Hx. unfold rowdot. destruct (Z_le_dec hi lo).
  { rewrite for_up_nil, sumZ_0 by lia. reflexivity. }
  match goal with |- for_up lo hi ?b ?s = _ =>
    destruct (for_up_inv (fun k t => t = sumZ (k - lo) (fun q => (g (lo + q)%Z * vec o x (lo + q))%R)) lo hi b s) as [t [E H]] end.
  - lia.
  - now rewrite sumZ_0 by lia.
  - intros k t Hk ->. rewrite Hg by lia. cbn [obind]. rewrite (zget_nthZ 0%R) by (apply Hx; lia). cbn [obind].
    eexists; split; [reflexivity|]. replace (k + 1 - lo) with (k - lo + 1) by lia. rewrite sumZ_S by lia.
    replace (lo + (k - lo)) with k by lia. reflexivity.
  - rewrite E, H. reflexivity.
Qed.

Lemma vec_ext x x' o i : zget x' (o + i) = zget x (o + i) -> vec o x' i = vec o x i.
Proof. unfold vec, nthZ. now intros ->. Qed.

Section Rows.
Variables (n : Z) (U : Z -> Z -> R) (get : Z -> Z -> option R) (lo hi : Z -> Z) (o : Z).
Hypothesis Hn : 0 <= n.
Hypothesis Hlo : forall i, 0 <= i < n -> 0 <= lo i.
Hypothesis Hhi : forall i, 0 <= i < n -> hi i <= n.
Hypothesis Hget : forall i k, 0 <= i < n -> lo i <= k < hi i -> get i k = Some (U i k).

Section Mul.
Hypothesis Hz : forall i k, 0 <= i < n -> 0 <= k < n -> ~ (lo i <= k < hi i) -> U i k = 0%R.

Lemma row_mul_val i x x0 : 0 <= i < n -> fits o n x -> (forall k, lo i <= k < hi i -> vec o x k = vec o x0 k) ->
  row_mul get lo hi o i x = Some (zupd x (o + i) (matvec n U (vec o x0) i)).
Proof.
  intros Hi [F0 F1] He. unfold row_mul. pose proof (Hlo i Hi). pose proof (Hhi i Hi).
  rewrite (rowdot_val _ (U i)).
  - cbn [obind]. rewrite zset_some by lia. do 2 f_equal. unfold matvec.
    rewrite (sumZ_window n (lo i) (hi i)); auto.
    + apply sumZ_ext. intros. rewrite He by lia. reflexivity.
    + intros. rewrite Hz by auto. lra.
  - intros. apply Hget; auto.
  - intros. lia.
Qed.

Lemma row_mul_up x : fits o n x -> (forall i, 0 <= i < n -> i <= lo i) ->
  exists x', for_up 0 n (row_mul get lo hi o) x = Some x' /\ acts o n x x' (isprod n U).
Proof.
  intros [F0 F1] Hup.
  destruct (for_up_inv (fun i x' => zlen x' = zlen x /\ (forall q, 0 <= q < i -> vec o x' q = matvec n U (vec o x) q) /\
      (forall p, p < o \/ o + i <= p -> zget x' p = zget x p)) 0 n (row_mul get lo hi o) x) as [x' [E (L1 & G & O)]]; auto.
  - repeat split; auto. intros; lia.
  - intros i x1 Hi (L1 & G & O). rewrite (row_mul_val i x1 x); auto.
    + eexists; split; [reflexivity|]. split; [now rewrite zlen_zupd|split].
      * intros q Hq. unfold vec at 1. rewrite nthZ_zupd by lia. destruct (Z.eqb_spec (o + i) (o + q)).
        -- now replace q with i by lia.
        -- apply G. lia.
      * intros p Hp. rewrite zget_zupd_other by lia. apply O. lia.
    + split; lia.
    + intros k Hk. apply vec_ext. apply O. pose proof (Hup i Hi). lia.
  - exists x'. split; auto. split; [|split]; auto.
Qed.

Lemma row_mul_dn x : fits o n x -> (forall i, 0 <= i < n -> hi i <= i + 1) ->
  exists x', for_dn (n - 1) 0 (row_mul get lo hi o) x = Some x' /\ acts o n x x' (isprod n U).
Proof.
  intros [F0 F1] Hdn.
  destruct (for_dn_inv (fun i x' => zlen x' = zlen x /\ (forall q, i < q < n -> vec o x' q = matvec n U (vec o x) q) /\
      (forall p, p <= o + i \/ o + n <= p -> zget x' p = zget x p)) (n - 1) 0 (row_mul get lo hi o) x) as [x' [E (L1 & G & O)]].
  - lia.
  - repeat split; auto. intros; lia.
  - intros i x1 Hi (L1 & G & O). rewrite (row_mul_val i x1 x); [| lia | split; lia |].
    + eexists; split; [reflexivity|]. split; [now rewrite zlen_zupd|split].
      * intros q Hq. unfold vec at 1. rewrite nthZ_zupd by lia. destruct (Z.eqb_spec (o + i) (o + q)).
        -- now replace q with i by lia.
        -- apply G. lia.
      * intros p Hp. rewrite zget_zupd_other by lia. apply O. lia.
    + intros k Hk. apply vec_ext. apply O. pose proof (Hdn i). lia.
  - exists x'. split; auto. split; [|split]; auto.
    + intros q Hq. apply G. lia.
    + intros p Hp. apply O. lia.
Qed.
End Mul.

Section Sol.
Hypothesis Hz : forall i k, 0 <= i < n -> 0 <= k < n -> k <> i -> ~ (lo i <= k < hi i) -> U i k = 0%R.
Hypothesis Hd : forall i, 0 <= i < n -> get i i = Some (U i i) /\ U i i <> 0%R.

Lemma row_sol_val i x : 0 <= i < n -> fits o n x -> ~ (lo i <= i < hi i) ->
  exists v, row_sol get lo hi o i x = Some (zupd x (o + i) v) /\
    forall w, (forall k, 0 <= k < n -> lo i <= k < hi i -> w k = vec o x k) -> w i = v -> matvec n U w i = vec o x i.
Proof.
  intros Hi [F0 F1] Hni. unfold row_sol. pose proof (Hlo i Hi). pose proof (Hhi i Hi). destruct (Hd i Hi) as [D1 D2].
  rewrite (rowdot_val _ (U i)); [| intros; apply Hget; auto | intros; lia].
  cbn [obind]. rewrite (zget_vec o x i n) by (auto; split; lia). cbn [obind]. rewrite D1. cbn [obind].
  rewrite zset_some by lia. eexists; split; [reflexivity|]. intros w Hw Hwi.
  assert (E : sumZ n (fun k => if k =? i then 0%R else (U i k * w k)%R) = sumZ (hi i - lo i) (fun q => (U i (lo i + q)%Z * vec o x (lo i + q))%R)).
  { rewrite (sumZ_window n (lo i) (hi i)); auto.
    - apply sumZ_ext. intros q Hq. replace (lo i + q =? i) with false by lia. rewrite Hw by lia. reflexivity.
    - intros k Hk Hk2. destruct (Z.eqb_spec k i); auto. rewrite Hz by auto. lra. }
  unfold matvec. rewrite (sumZ_pick n i) by auto. rewrite Hwi, E.
  cbn [sub div R_arith]. field. exact D2.
Qed.

Lemma row_sol_dn x : fits o n x -> (forall i, 0 <= i < n -> i < lo i) ->
  exists x', for_dn (n - 1) 0 (row_sol get lo hi o) x = Some x' /\ acts o n x x' (fun v w => isprod n U w v).
Proof.
  intros [F0 F1] Hup.
  destruct (for_dn_inv (fun i x' => zlen x' = zlen x /\ (forall q, i < q < n -> matvec n U (vec o x') q = vec o x q) /\
      (forall p, p <= o + i \/ o + n <= p -> zget x' p = zget x p)) (n - 1) 0 (row_sol get lo hi o) x) as [x' [E (L1 & G & O)]].
  - lia.
  - repeat split; auto. intros; lia.
  - intros i x1 Hi (L1 & G & O). pose proof (Hup i ltac:(lia)).
    destruct (row_sol_val i x1) as [v [E Hv]]; [lia|split; lia|lia|].
    rewrite E. eexists; split; [reflexivity|]. split; [now rewrite zlen_zupd|split].
    + intros q Hq. destruct (Z.eq_dec q i) as [->|].
      * rewrite (Hv (vec o (zupd x1 (o + i) v))).
        -- apply vec_ext. apply O. lia.
        -- intros k Hk Hk2. unfold vec. apply nthZ_zupd_other. lia.
        -- unfold vec. apply nthZ_zupd_same. lia.
      * rewrite <- (G q) by lia. unfold matvec. apply sumZ_ext. intros k Hk. unfold vec at 1. rewrite nthZ_zupd by lia.
        destruct (Z.eqb_spec (o + i) (o + k)); [|reflexivity]. rewrite Hz by (pose proof (Hup q); lia). lra.
    + intros p Hp. rewrite zget_zupd_other by lia. apply O. lia.
  - exists x'. split; auto. split; [|split]; auto.
    + intros q Hq. symmetry. apply G. lia.
    + intros p Hp. apply O. lia.
Qed.

Lemma row_sol_up x : fits o n x -> (forall i, 0 <= i < n -> hi i <= i) ->
  exists x', for_up 0 n (row_sol get lo hi o) x = Some x' /\ acts o n x x' (fun v w => isprod n U w v).
Proof.
  intros [F0 F1] Hdn.
  destruct (for_up_inv (fun i x' => zlen x' = zlen x /\ (forall q, 0 <= q < i -> matvec n U (vec o x') q = vec o x q) /\
      (forall p, p < o \/ o + i <= p -> zget x' p = zget x p)) 0 n (row_sol get lo hi o) x) as [x' [E (L1 & G & O)]]; auto.
  - repeat split; auto. intros; lia.
  - intros i x1 Hi (L1 & G & O). pose proof (Hdn i ltac:(lia)).
    destruct (row_sol_val i x1) as [v [E Hv]]; [lia|split; lia|lia|].
    rewrite E. eexists; split; [reflexivity|]. split; [now rewrite zlen_zupd|split].
    + intros q Hq. destruct (Z.eq_dec q i) as [->|].
      * rewrite (Hv (vec o (zupd x1 (o + i) v))).
        -- apply vec_ext. apply O. lia.
        -- intros k Hk Hk2. unfold vec. apply nthZ_zupd_other. lia.
        -- unfold vec. apply nthZ_zupd_same. lia.
      * rewrite <- (G q) by lia. unfold matvec. apply sumZ_ext. intros k Hk. unfold vec at 1. rewrite nthZ_zupd by lia.
        destruct (Z.eqb_spec (o + i) (o + k)); [|reflexivity]. rewrite Hz by (pose proof (Hdn q); lia). lra.
    + intros p Hp. rewrite zget_zupd_other by lia. apply O. lia.
  - exists x'. split; auto. split; [|split]; auto.
    intros q Hq. symmetry. apply G. lia.
Qed.
End Sol.
End Rows.

(** ** Triangular systems have one solution *)
Lemma tri_unique_gen n U (r : Z -> nat) v w :
  (forall i k, 0 <= i < n -> 0 <= k < n -> k <> i -> ~ (r k < r i)%nat -> U i k = 0%R) ->
  (forall i, 0 <= i < n -> U i i <> 0%R) ->
  (forall i, 0 <= i < n -> matvec n U v i = matvec n U w i) ->
  forall i, 0 <= i < n -> v i = w i.
Proof.
  intros Hz Hd He. assert (H : forall m i, 0 <= i < n -> (r i < m)%nat -> v i = w i); [|intros; eapply H; eauto].
  induction m; intros i Hi Hm; [lia|].
  specialize (He i Hi). unfold matvec in He. rewrite (sumZ_pick n i), (sumZ_pick n i (fun k => (U i k * w k)%R)) in He by auto.
  rewrite (sumZ_ext n (fun k => if k =? i then 0%R else (U i k * v k)%R) (fun k => if k =? i then 0%R else (U i k * w k)%R)) in He.
  - assert (Hq : (U i i * (v i - w i) = 0)%R) by lra. apply Rmult_integral in Hq. destruct Hq as [Hq|Hq]; [now apply Hd in Hq|lra].
  - intros k Hk. destruct (Z.eqb_spec k i); auto. destruct (lt_dec (r k) (r i)).
    + rewrite (IHm k); auto. lia.
    + rewrite Hz by auto. lra.
Qed.
Definition upper_tri (n : Z) (U : Z -> Z -> R) := forall i k, 0 <= i < n -> 0 <= k < n -> k < i -> U i k = 0%R.
Definition lower_tri (n : Z) (U : Z -> Z -> R) := forall i k, 0 <= i < n -> 0 <= k < n -> i < k -> U i k = 0%R.
Lemma tri_unique n U v w : upper_tri n U \/ lower_tri n U -> nonzero_diag n U ->
  (forall i, 0 <= i < n -> matvec n U v i = matvec n U w i) -> forall i, 0 <= i < n -> v i = w i.
Proof.
  intros [H|H] Hd He.
  - apply (tri_unique_gen n U (fun k => Z.to_nat (n - 1 - k))); auto. intros. apply H; lia.
  - apply (tri_unique_gen n U (fun k => Z.to_nat k)); auto. intros. apply H; lia.
Qed.
Lemma upper_transp n U : upper_tri n U -> lower_tri n (transp U).
Proof. intros H i k Hi Hk Hl. apply H; auto. Qed.
Lemma lower_transp n U : lower_tri n U -> upper_tri n (transp U).
Proof. intros H i k Hi Hk Hl. apply H; auto. Qed.
Lemma op_tri n t U : upper_tri n U \/ lower_tri n U -> upper_tri n (op t U) \/ lower_tri n (op t U).
Proof. destruct t; cbn; auto. intros [H|H]; [right; now apply upper_transp|left; now apply lower_transp]. Qed.
Lemma op_diag n t U : nonzero_diag n U -> nonzero_diag n (op t U).
Proof. destruct t; auto. Qed.

Lemma acts_id o n x x' : fits o n x -> acts o n x x' (fun v w => forall i, 0 <= i < n -> w i = v i) -> x' = x.
Proof.
  intros [F0 F1] (L & P & O). apply (nthZ_ext 0%R); auto. intros p Hp.
  destruct (Z_lt_dec p o); [unfold nthZ; now rewrite O by lia|].
  destruct (Z_lt_dec p (o + n)).
  - specialize (P (p - o)). unfold vec in P. replace (o + (p - o)) with p in P by lia. apply P. lia.
  - unfold nthZ; now rewrite O by lia.
Qed.
Lemma acts_compose o n x1 x2 x3 P Q : acts o n x1 x2 P -> acts o n x2 x3 Q ->
  acts o n x1 x3 (fun v w => exists z, P v z /\ Q z w).
Proof.
  intros (L1 & P1 & O1) (L2 & P2 & O2). split; [lia|split; [eauto|]]. intros p Hp. now rewrite O2, O1.
Qed.
Lemma acts_weaken o n x x' (P Q : (Z -> R) -> (Z -> R) -> Prop) : (forall v w, P v w -> Q v w) -> acts o n x x' P -> acts o n x x' Q.
Proof. intros H (L & A & O). split; [|split]; auto. Qed.
Lemma acts_fits o n x x' P : acts o n x x' P -> fits o n x -> fits o n x'.
Proof. intros (L & _) [H0 H1]. split; lia. Qed.

Lemma solve_mul_id n U o x x1 x2 : fits o n x -> (upper_tri n U \/ lower_tri n U) -> nonzero_diag n U ->
  acts o n x x1 (isprod n U) -> acts o n x1 x2 (fun v w => isprod n U w v) -> x2 = x.
Proof.
  intros F T D A1 A2. apply (acts_id o n); auto.
  eapply acts_weaken; [|eapply acts_compose; [exact A1|exact A2]].
  intros v w (z & P1 & P2). apply (tri_unique n U); auto. intros i Hi. now rewrite <- P1, <- P2.
Qed.
Lemma mul_solve_id n U o x x1 x2 : fits o n x ->
  acts o n x x1 (fun v w => isprod n U w v) -> acts o n x1 x2 (isprod n U) -> x2 = x.
Proof.
  intros F A1 A2. apply (acts_id o n); auto.
  eapply acts_weaken; [|eapply acts_compose; [exact A1|exact A2]].
  intros v w (z & P1 & P2) i Hi. now rewrite P1, P2.
Qed.

(** ** Banded routines *)
Lemma tb_pos A i k : tb_ok A -> 0 <= i -> i <= k <= i + tb_b A -> k < tb_n A ->
  zget (tb_data A) (i + (k + 1) * tb_b A) = Some (tb_mat A i k).
Proof.
  intros (H1 & H2 & H3) Hi Hk Hkn. unfold tb_mat. replace ((0 <=? k - i) && (k - i <=? tb_b A)) with true by lia.
  unfold mat. replace (0 + (tb_b A + i - k + k * (tb_b A + 1))) with (i + (k + 1) * tb_b A) by lia.
  apply zget_nthZ. pose proof (idx2 (tb_b A + i - k) k (tb_b A + 1) (tb_n A)). lia.
Qed.
Lemma tb_upper A n : upper_tri n (tb_mat A).
Proof. intros i k Hi Hk Hl. unfold tb_mat. replace (0 <=? k - i) with false by lia. reflexivity. Qed.

Lemma tbmv_proof A t x o : tb_ok A -> fits o (tb_n A) x ->
  exists x', tbmv t A x o = Some x' /\ acts o (tb_n A) x x' (isprod (tb_n A) (op t (tb_mat A))).
Proof.
  intros HA Hx. pose proof HA as (H1 & H2 & H3). unfold tbmv. destruct t; cbn [op].
  - apply row_mul_dn; auto; intros; try lia.
    + apply tb_pos; auto; lia.
    + unfold transp, tb_mat. replace ((0 <=? i - k) && (i - k <=? tb_b A)) with false by lia. reflexivity.
  - apply row_mul_up; auto; intros; try lia.
    + apply tb_pos; auto; lia.
    + unfold tb_mat. replace ((0 <=? k - i) && (k - i <=? tb_b A)) with false by lia. reflexivity.
Qed.
Lemma tbsv_proof A t x o : tb_ok A -> nonzero_diag (tb_n A) (tb_mat A) -> fits o (tb_n A) x ->
  exists x', tbsv t A x o = Some x' /\ acts o (tb_n A) x x' (fun v w => isprod (tb_n A) (op t (tb_mat A)) w v).
Proof.
  intros HA HD Hx. pose proof HA as (H1 & H2 & H3). unfold tbsv. destruct t; cbn [op].
  - apply row_sol_up; auto; intros; try lia.
    + apply tb_pos; auto; lia.
    + unfold transp, tb_mat. replace ((0 <=? i - k) && (i - k <=? tb_b A)) with false by lia. reflexivity.
    + split; [apply tb_pos; auto; lia|apply HD; auto].
  - apply row_sol_dn; auto; intros; try lia.
    + apply tb_pos; auto; lia.
    + unfold tb_mat. replace ((0 <=? k - i) && (k - i <=? tb_b A)) with false by lia. reflexivity.
    + split; [apply tb_pos; auto; lia|apply HD; auto].
Qed.
Lemma tb_inverse_proof A t x o : tb_ok A -> nonzero_diag (tb_n A) (tb_mat A) -> fits o (tb_n A) x ->
  (do y <- tbmv t A x o; tbsv t A y o) = Some x /\ (do y <- tbsv t A x o; tbmv t A y o) = Some x.
Proof.
  intros HA HD Hx. split.
  - destruct (tbmv_proof A t x o) as [y [E A1]]; auto. rewrite E. cbn [obind].
    destruct (tbsv_proof A t y o) as [z [E2 A2]]; auto; [eapply acts_fits; eauto|]. rewrite E2. f_equal.
    eapply solve_mul_id; [exact Hx| | |exact A1|exact A2]. + apply op_tri. left. apply tb_upper. + now apply op_diag.
  - destruct (tbsv_proof A t x o) as [y [E A1]]; auto. rewrite E. cbn [obind].
    destruct (tbmv_proof A t y o) as [z [E2 A2]]; auto; [eapply acts_fits; eauto|]. rewrite E2. f_equal.
    eapply mul_solve_id; eauto.
Qed.

Lemma tb_get_val A i j : tb_ok A -> tb_get A i j = Some (if (0 <=? i) && (j <? tb_n A) then tb_mat A i j else 0%R).
Proof.
  intros HA. unfold tb_get, tb_in. destruct (Z_le_dec 0 i), (Z_lt_dec j (tb_n A)).
  1: replace ((0 <=? i) && (j <? tb_n A)) with true by lia.
  2-4: replace ((0 <=? i) && (j <? tb_n A)) with false by lia.
  2-4: match goal with |- context[if ?b then _ else _] => replace b with false by lia end; reflexivity.
  match goal with |- context[if ?b then _ else _] => destruct b eqn:E end.
  - apply tb_pos; auto; lia.
  - unfold tb_mat. replace ((0 <=? j - i) && (j - i <=? tb_b A)) with false by lia. reflexivity.
Qed.
Lemma tssv_get_val A B gamma i k : tb_ok A -> tb_ok B -> tb_n B = tb_n A -> 0 <= i -> k < tb_n A ->
  tssv_get A B gamma i k = Some (tb_mat A i k - gamma * tb_mat B i k)%R.
Proof.
  intros HA HB Hn Hi Hk. unfold tssv_get. rewrite !tb_get_val by auto. cbn [obind]. rewrite Hn.
  replace ((0 <=? i) && (k <? tb_n A)) with true by lia. reflexivity.
Qed.
Lemma tssv_proof A B gamma t x o : tb_ok A -> tb_ok B -> tb_n B = tb_n A ->
  let U := fun i j => (tb_mat A i j - gamma * tb_mat B i j)%R in
  nonzero_diag (tb_n A) U -> fits o (tb_n A) x ->
  exists x', tssv t A B gamma x o = Some x' /\ acts o (tb_n A) x x' (fun v w => isprod (tb_n A) (op t U) w v).
Proof.
  intros HA HB Hn U HD Hx. pose proof HA as (H1 & H2 & H3). pose proof HB as (H4 & H5 & H6). unfold tssv.
  assert (HU : forall i k, k < i \/ i + Z.max (tb_b A) (tb_b B) < k -> U i k = 0%R).
  { intros. unfold U, tb_mat. replace ((0 <=? k - i) && (k - i <=? tb_b A)) with false by lia.
    replace ((0 <=? k - i) && (k - i <=? tb_b B)) with false by lia. lra. }
  destruct t; cbn [op].
  - apply row_sol_up; auto; intros; try lia.
    + apply tssv_get_val; auto; lia.
    + apply HU. lia.
    + split; [apply tssv_get_val; auto; lia|apply HD; auto].
  - apply row_sol_dn; auto; intros; try lia.
    + apply tssv_get_val; auto; lia.
    + apply HU. lia.
    + split; [apply tssv_get_val; auto; lia|apply HD; auto].
Qed.

Lemma bd_pos A i k : bd_ok A -> - bd_l A <= k - i <= bd_u A -> 0 <= k < bd_n A ->
  zget (bd_data A) (bd_u A + i + k * (bd_l A + bd_u A)) = Some (bd_mat A i k).
Proof.
  intros (H1 & H2 & H3) Hi Hkn. unfold bd_mat. replace ((- bd_l A <=? k - i) && (k - i <=? bd_u A)) with true by lia.
  unfold mat. replace (0 + (bd_u A + i - k + k * (bd_l A + bd_u A + 1))) with (bd_u A + i + k * (bd_l A + bd_u A)) by lia.
  apply zget_nthZ. pose proof (idx2 (bd_u A + i - k) k (bd_l A + bd_u A + 1) (bd_n A)). lia.
Qed.

Lemma upper_upper n U : upper_tri n (upper U).
Proof. intros i k Hi Hk Hl. unfold upper. replace (i <=? k) with false by lia. reflexivity. Qed.
Lemma lower_lower n U : lower_tri n (lower U).
Proof. intros i k Hi Hk Hl. unfold lower. replace (k <=? i) with false by lia. reflexivity. Qed.

Lemma brmv_proof R t x o : bd_ok R -> 0 <= bd_l R -> 0 <= bd_u R -> fits o (bd_n R) x ->
  exists x', brmv t R x o = Some x' /\ acts o (bd_n R) x x' (isprod (bd_n R) (op t (upper (bd_mat R)))).
Proof.
  intros HA Hl Hu Hx. pose proof HA as (H1 & H2 & H3). unfold brmv.
  assert (HU : forall i k, k < i \/ i + bd_u R < k -> upper (bd_mat R) i k = 0%R).
  { intros. unfold upper, bd_mat. destruct (i <=? k) eqn:E; auto. replace ((- bd_l R <=? k - i) && (k - i <=? bd_u R)) with false by lia. reflexivity. }
  assert (HG : forall i k, 0 <= k < bd_n R -> i <= k <= i + bd_u R -> zget (bd_data R) (bd_u R + i + k * (bd_l R + bd_u R)) = Some (upper (bd_mat R) i k)).
  { intros. unfold upper. replace (i <=? k) with true by lia. apply bd_pos; auto; lia. }
  destruct t; cbn [op].
  - apply row_mul_dn; auto; intros; try lia. + apply HG; lia. + apply HU; lia.
  - apply row_mul_up; auto; intros; try lia. + apply HG; lia. + apply HU; lia.
Qed.
Lemma brsv_proof R t x o : bd_ok R -> 0 <= bd_l R -> 0 <= bd_u R -> nonzero_diag (bd_n R) (bd_mat R) -> fits o (bd_n R) x ->
  exists x', brsv t R x o = Some x' /\ acts o (bd_n R) x x' (fun v w => isprod (bd_n R) (op t (upper (bd_mat R))) w v).
Proof.
  intros HA Hl Hu HD Hx. pose proof HA as (H1 & H2 & H3). unfold brsv.
  assert (HU : forall i k, k < i \/ i + bd_u R < k -> upper (bd_mat R) i k = 0%R).
  { intros. unfold upper, bd_mat. destruct (i <=? k) eqn:E; auto. replace ((- bd_l R <=? k - i) && (k - i <=? bd_u R)) with false by lia. reflexivity. }
  assert (HG : forall i k, 0 <= k < bd_n R -> i <= k <= i + bd_u R -> zget (bd_data R) (bd_u R + i + k * (bd_l R + bd_u R)) = Some (upper (bd_mat R) i k)).
  { intros. unfold upper. replace (i <=? k) with true by lia. apply bd_pos; auto; lia. }
  assert (HD' : nonzero_diag (bd_n R) (upper (bd_mat R))) by (intros i Hi; unfold upper; replace (i <=? i) with true by lia; auto).
  destruct t; cbn [op].
  - apply row_sol_up; auto; intros; try lia. + apply HG; lia. + apply HU; lia. + split; [apply HG; lia|apply HD'; auto].
  - apply row_sol_dn; auto; intros; try lia. + apply HG; lia. + apply HU; lia. + split; [apply HG; lia|apply HD'; auto].
Qed.
Lemma blmv_proof L t x o : bd_ok L -> 0 <= bd_l L -> 0 <= bd_u L -> fits o (bd_n L) x ->
  exists x', blmv t L x o = Some x' /\ acts o (bd_n L) x x' (isprod (bd_n L) (op t (lower (bd_mat L)))).
Proof.
  intros HA Hl Hu Hx. pose proof HA as (H1 & H2 & H3). unfold blmv.
  assert (HU : forall i k, i < k \/ k + bd_l L < i -> lower (bd_mat L) i k = 0%R).
  { intros. unfold lower, bd_mat. destruct (k <=? i) eqn:E; auto. replace ((- bd_l L <=? k - i) && (k - i <=? bd_u L)) with false by lia. reflexivity. }
  assert (HG : forall i k, 0 <= k < bd_n L -> k <= i <= k + bd_l L -> zget (bd_data L) (bd_u L + i + k * (bd_l L + bd_u L)) = Some (lower (bd_mat L) i k)).
  { intros. unfold lower. replace (k <=? i) with true by lia. apply bd_pos; auto; lia. }
  destruct t; cbn [op].
  - apply row_mul_up; auto; intros; try lia. + apply HG; lia. + apply HU; lia.
  - apply row_mul_dn; auto; intros; try lia. + apply HG; lia. + apply HU; lia.
Qed.
Lemma blsv_proof L t x o : bd_ok L -> 0 <= bd_l L -> 0 <= bd_u L -> nonzero_diag (bd_n L) (bd_mat L) -> fits o (bd_n L) x ->
  exists x', blsv t L x o = Some x' /\ acts o (bd_n L) x x' (fun v w => isprod (bd_n L) (op t (lower (bd_mat L))) w v).
Proof.
  intros HA Hl Hu HD Hx. pose proof HA as (H1 & H2 & H3). unfold blsv.
  assert (HU : forall i k, i < k \/ k + bd_l L < i -> lower (bd_mat L) i k = 0%R).
  { intros. unfold lower, bd_mat. destruct (k <=? i) eqn:E; auto. replace ((- bd_l L <=? k - i) && (k - i <=? bd_u L)) with false by lia. reflexivity. }
  assert (HG : forall i k, 0 <= k < bd_n L -> k <= i <= k + bd_l L -> zget (bd_data L) (bd_u L + i + k * (bd_l L + bd_u L)) = Some (lower (bd_mat L) i k)).
  { intros. unfold lower. replace (k <=? i) with true by lia. apply bd_pos; auto; lia. }
  assert (HD' : nonzero_diag (bd_n L) (lower (bd_mat L))) by (intros i Hi; unfold lower; replace (i <=? i) with true by lia; auto).
  destruct t; cbn [op].
  - apply row_sol_dn; auto; intros; try lia. + apply HG; lia. + apply HU; lia. + split; [apply HG; lia|apply HD'; auto].
  - apply row_sol_up; auto; intros; try lia. + apply HG; lia. + apply HU; lia. + split; [apply HG; lia|apply HD'; auto].
Qed.

Lemma br_inverse_proof R t x o : bd_ok R -> 0 <= bd_l R -> 0 <= bd_u R -> nonzero_diag (bd_n R) (bd_mat R) -> fits o (bd_n R) x ->
  (do y <- brmv t R x o; brsv t R y o) = Some x /\ (do y <- brsv t R x o; brmv t R y o) = Some x.
Proof.
  intros HA Hl Hu HD Hx. split.
  - destruct (brmv_proof R t x o) as [y [E A1]]; auto. rewrite E. cbn [obind].
    destruct (brsv_proof R t y o) as [z [E2 A2]]; auto; [eapply acts_fits; eauto|]. rewrite E2. f_equal.
    eapply solve_mul_id; [exact Hx| | |exact A1|exact A2]. + apply op_tri. left. apply upper_upper.
    + apply op_diag. intros i Hi; unfold upper; replace (i <=? i) with true by lia; auto.
  - destruct (brsv_proof R t x o) as [y [E A1]]; auto. rewrite E. cbn [obind].
    destruct (brmv_proof R t y o) as [z [E2 A2]]; auto; [eapply acts_fits; eauto|]. rewrite E2. f_equal.
    eapply mul_solve_id; eauto.
Qed.
Lemma bl_inverse_proof L t x o : bd_ok L -> 0 <= bd_l L -> 0 <= bd_u L -> nonzero_diag (bd_n L) (bd_mat L) -> fits o (bd_n L) x ->
  (do y <- blmv t L x o; blsv t L y o) = Some x /\ (do y <- blsv t L x o; blmv t L y o) = Some x.
Proof.
  intros HA Hl Hu HD Hx. split.
  - destruct (blmv_proof L t x o) as [y [E A1]]; auto. rewrite E. cbn [obind].
    destruct (blsv_proof L t y o) as [z [E2 A2]]; auto; [eapply acts_fits; eauto|]. rewrite E2. f_equal.
    eapply solve_mul_id; [exact Hx| | |exact A1|exact A2]. + apply op_tri. right. apply lower_lower.
    + apply op_diag. intros i Hi; unfold lower; replace (i <=? i) with true by lia; auto.
  - destruct (blsv_proof L t x o) as [y [E A1]]; auto. rewrite E. cbn [obind].
    destruct (blmv_proof L t y o) as [z [E2 A2]]; auto; [eapply acts_fits; eauto|]. rewrite E2. f_equal.
    eapply mul_solve_id; eauto.
Qed.
