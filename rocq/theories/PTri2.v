(** * Proofs: dense triangular routines, columns, rational modifications *)
From Coq Require Import ZArith List Lia Bool ZifyBool ZifyNat Reals Lra.
From Verif Require Import Arith Base BaseFacts SpecSum PSum SpecLin MBanded SpecBanded PTri.
Import ListNotations.
Open Scope Z_scope.

Lemma mat_zget o ld m n A i j : fits_mat o m n ld A -> 0 <= i < m -> 0 <= j < n ->
  zget A (o + (i + j * ld)) = Some (mat o ld A i j).
Proof.
  intros (H0 & H1 & H2) Hi Hj. apply zget_nthZ. specialize (H2 ltac:(lia)).
  pose proof (Z.mul_le_mono_nonneg_r j (n - 1) ld). pose proof (Z.mul_nonneg_nonneg j ld). lia.
Qed.

Section Dense.
Variables (n : Z) (A : list R) (oA LDA : Z).
Hypothesis Hn : 0 <= n.
Hypothesis HA : fits_mat oA n n LDA A.
Let U := upper (mat oA LDA A).

Lemma U_get i j : 0 <= i <= j -> j < n -> zget A (oA + (i + j * LDA)) = Some (U i j).
Proof. intros. unfold U, upper. replace (i <=? j) with true by lia. apply (mat_zget oA LDA n n); auto; lia. Qed.
Lemma U_zero i j : j < i -> U i j = 0%R.
Proof. intros. unfold U, upper. now replace (i <=? j) with false by lia. Qed.

Lemma vec_zupd_same o x i v : 0 <= o + i < zlen x -> vec o (zupd x (o + i) v) i = v.
Proof. intros. unfold vec. now apply nthZ_zupd_same. Qed.
Lemma vec_zupd_other o x i v k : i <> k -> vec o (zupd x (o + i) v) k = vec o x k.
Proof. intros. unfold vec. apply nthZ_zupd_other. lia. Qed.

Lemma trmv_N_proof x o ma : (forall a y z, ma a y z = (z + a * y)%R) -> fits o n x ->
  exists x', trmv_gen ma false n A oA LDA x o = Some x' /\ acts o n x x' (isprod n U).
Proof.
  intros Hma Fx. pose proof Fx as [F0 F1]. unfold trmv_gen.
  match goal with |- exists x', for_up 0 n ?b x = _ /\ _ =>
    destruct (for_up_inv (fun j x1 => zlen x1 = zlen x /\
       (forall q, 0 <= q < j -> vec o x1 q = sumZ j (fun k => (U q k * vec o x k)%R)) /\
       (forall p, p < o \/ o + j <= p -> zget x1 p = zget x p)) 0 n b x) as [x' [E (L1 & G & O)]] end; auto.
  - repeat split; auto. intros; lia.
  - intros j x1 Hj (L1 & G & O).
    match goal with |- exists s, (do _ <- for_up 0 j ?b x1; _) = _ /\ _ =>
    destruct (for_up_inv (fun i x2 => zlen x2 = zlen x /\
       (forall q, 0 <= q < i -> vec o x2 q = sumZ (j + 1) (fun k => (U q k * vec o x k)%R)) /\
       (forall p, p < o \/ o + i <= p -> zget x2 p = zget x1 p)) 0 j b x1) as [x2 [E2 (L2 & G2 & O2)]] end; auto.
    + lia.
    + repeat split; auto. intros; lia.
    + intros i x2 Hi (L2 & G2 & O2).
      rewrite (zget_vec o x2 i n) by (auto; split; lia). cbn [obind]. rewrite U_get by lia. cbn [obind].
      rewrite (zget_vec o x2 j n) by (auto; try split; lia). cbn [obind]. rewrite zset_some by lia.
      eexists; split; [reflexivity|]. split; [now rewrite zlen_zupd|split].
      * intros q Hq. destruct (Z.eq_dec q i) as [->|].
        -- rewrite vec_zupd_same by lia. rewrite Hma. rewrite (vec_ext x1 x2) by (apply O2; lia). rewrite G by lia.
           rewrite (vec_ext x1 x2) by (apply O2; lia). rewrite (vec_ext x x1 o j) by (apply O; lia).
           rewrite sumZ_S by lia. reflexivity.
        -- rewrite vec_zupd_other by lia. apply G2. lia.
      * intros p Hp. rewrite zget_zupd_other by lia. apply O2. lia.
    + rewrite E2. cbn [obind]. rewrite (zget_vec o x2 j n) by (auto; split; lia). cbn [obind]. rewrite U_get by lia. cbn [obind].
      rewrite zset_some by lia. eexists; split; [reflexivity|]. split; [now rewrite zlen_zupd|split].
      * intros q Hq. destruct (Z.eq_dec q j) as [->|].
        -- rewrite vec_zupd_same by lia. rewrite (vec_ext x1 x2) by (apply O2; lia). rewrite (vec_ext x x1 o j) by (apply O; lia).
           rewrite sumZ_S by lia. rewrite sumZ_zero. { cbn [mul R_arith]. lra. }
           intros k Hk. rewrite U_zero by lia. lra.
        -- rewrite vec_zupd_other by lia. apply G2. lia.
      * intros p Hp. rewrite zget_zupd_other by lia. rewrite O2 by lia. apply O. lia.
  - exists x'. split; auto. split; [|split]; auto.
Qed.

Lemma trmv_T_proof x o ma : (forall a y z, ma a y z = (z + a * y)%R) -> fits o n x ->
  exists x', trmv_gen ma true n A oA LDA x o = Some x' /\ acts o n x x' (isprod n (transp U)).
Proof.
  intros Hma Fx. pose proof Fx as [F0 F1]. unfold trmv_gen.
  match goal with |- exists x', for_dn _ 0 ?b x = _ /\ _ =>
    destruct (for_dn_inv (fun i x1 => zlen x1 = zlen x /\
       (forall q, i < q < n -> vec o x1 q = matvec n (transp U) (vec o x) q) /\
       (forall p, p <= o + i \/ o + n <= p -> zget x1 p = zget x p)) (n - 1) 0 b x) as [x' [E (L1 & G & O)]] end; auto.
  - lia.
  - repeat split; auto. intros; lia.
  - intros i x1 Hi (L1 & G & O). rewrite U_get by lia. cbn [obind]. rewrite (zget_vec o x1 i n) by (try split; lia). cbn [obind].
    rewrite zset_some by lia. cbn [obind]. set (x1' := zupd x1 _ _).
    match goal with |- exists s, for_dn (i - 1) 0 ?b x1' = _ /\ _ =>
    destruct (for_dn_inv (fun j x2 => zlen x2 = zlen x /\
       (vec o x2 i = sumZ (i - j) (fun q => (U (j + 1 + q) i * vec o x (j + 1 + q))%R)) /\
       (forall p, p <> o + i -> zget x2 p = zget x1 p)) (i - 1) 0 b x1') as [x2 [E2 (L2 & G2 & O2)]] end.
    + lia.
    + unfold x1'. split; [now rewrite zlen_zupd|split].
      * rewrite vec_zupd_same by lia. replace (i - (i - 1)) with (0 + 1) by lia. rewrite sumZ_S, sumZ_0 by lia.
        replace (i - 1 + 1 + 0) with i by lia. rewrite (vec_ext x x1) by (apply O; lia). cbn [mul R_arith]. lra.
      * intros p Hp. now rewrite zget_zupd_other by lia.
    + intros j x2 Hj (L2 & G2 & O2). rewrite (zget_vec o x2 i n) by (try split; lia). cbn [obind]. rewrite U_get by lia. cbn [obind].
      rewrite (zget_vec o x2 j n) by (try split; lia). cbn [obind]. rewrite zset_some by lia.
      eexists; split; [reflexivity|]. split; [now rewrite zlen_zupd|split].
      * rewrite vec_zupd_same by lia. rewrite Hma, G2. rewrite (vec_ext x1 x2) by (apply O2; lia). rewrite (vec_ext x x1 o j) by (apply O; lia).
        replace (i - (j - 1)) with (i - j + 1) by lia. rewrite (sumZ_first (i - j + 1)) by lia.
        replace (j - 1 + 1 + 0) with j by lia. rewrite Rplus_comm. f_equal.
        replace (i - j + 1 - 1) with (i - j) by lia. apply sumZ_ext. intros q Hq.
        replace (j - 1 + 1 + (1 + q)) with (j + 1 + q) by lia. reflexivity.
      * intros p Hp. rewrite zget_zupd_other by lia. apply O2. lia.
    + rewrite E2. eexists; split; [reflexivity|]. split; [auto|split].
      * intros q Hq. destruct (Z.eq_dec q i) as [->|].
        -- rewrite G2. unfold matvec. rewrite (sumZ_window n 0 (i + 1)); try lia.
           ++ replace (i - (0 - 1)) with (i + 1) by lia. replace (i + 1 - 0) with (i + 1) by lia. apply sumZ_ext. intros k Hk.
              unfold transp. reflexivity.
           ++ intros k Hk Hk2. unfold transp. rewrite U_zero by lia. lra.
        -- rewrite (vec_ext x1 x2) by (apply O2; lia). apply G. lia.
      * intros p Hp. rewrite O2 by lia. apply O. lia.
  - exists x'. split; auto. split; [|split]; auto.
    + intros q Hq. apply G. lia.
    + intros p Hp. apply O. lia.
Qed.

Hypothesis HD : nonzero_diag n (mat oA LDA A).
Lemma U_diag i : 0 <= i < n -> U i i <> 0%R.
Proof. intros Hi. unfold U, upper. replace (i <=? i) with true by lia. now apply HD. Qed.

Lemma trsv_T_proof x o ms : (forall a y z, ms a y z = (z - a * y)%R) -> fits o n x ->
  exists x', trsv_gen ms true n A oA LDA x o = Some x' /\ acts o n x x' (fun v w => isprod n (transp U) w v).
Proof.
  intros Hms Fx. pose proof Fx as [F0 F1]. unfold trsv_gen.
  match goal with |- exists x', for_up 0 n ?b x = _ /\ _ =>
    destruct (for_up_inv (fun i x1 => zlen x1 = zlen x /\
       (forall q, 0 <= q < i -> matvec n (transp U) (vec o x1) q = vec o x q) /\
       (forall p, p < o \/ o + i <= p -> zget x1 p = zget x p)) 0 n b x) as [x' [E (L1 & G & O)]] end; auto.
  - repeat split; auto. intros; lia.
  - intros i x1 Hi (L1 & G & O).
    match goal with |- exists s, (do _ <- for_up 0 i ?b x1; _) = _ /\ _ =>
    destruct (for_up_inv (fun j x2 => zlen x2 = zlen x /\
       (vec o x2 i = vec o x i - sumZ j (fun k => (U k i * vec o x1 k)%R))%R /\
       (forall p, p <> o + i -> zget x2 p = zget x1 p)) 0 i b x1) as [x2 [E2 (L2 & G2 & O2)]] end.
    + lia.
    + split; [auto|split; auto]. rewrite sumZ_0 by lia. rewrite (vec_ext x x1) by (apply O; lia). lra.
    + intros j x2 Hj (L2 & G2 & O2). rewrite (zget_vec o x2 i n) by (try split; lia). cbn [obind]. rewrite U_get by lia. cbn [obind].
      rewrite (zget_vec o x2 j n) by (try split; lia). cbn [obind]. rewrite zset_some by lia.
      eexists; split; [reflexivity|]. split; [now rewrite zlen_zupd|split].
      * rewrite vec_zupd_same by lia. rewrite Hms, G2, sumZ_S by lia. rewrite (vec_ext x1 x2) by (apply O2; lia). lra.
      * intros p Hp. rewrite zget_zupd_other by lia. apply O2. lia.
    + rewrite E2. cbn [obind]. rewrite (zget_vec o x2 i n) by (try split; lia). cbn [obind]. rewrite U_get by lia. cbn [obind].
      rewrite zset_some by lia. eexists; split; [reflexivity|]. split; [now rewrite zlen_zupd|split].
      * intros q Hq. destruct (Z.eq_dec q i) as [->|].
        -- unfold matvec. rewrite (sumZ_window n 0 (i + 1)); try lia.
           ++ replace (i + 1 - 0) with (i + 1) by lia. rewrite sumZ_S by lia. unfold transp. rewrite Z.add_0_l.
              rewrite vec_zupd_same by lia. rewrite G2.
              rewrite (sumZ_ext i _ (fun k => (U k i * vec o x1 k)%R)).
              ** cbn [div R_arith]. field. apply U_diag. lia.
              ** intros k Hk. rewrite Z.add_0_l, vec_zupd_other by lia. now rewrite (vec_ext x1 x2) by (apply O2; lia).
           ++ intros k Hk Hk2. unfold transp. rewrite U_zero by lia. lra.
        -- rewrite <- (G q) by lia. unfold matvec. apply sumZ_ext. intros k Hk. destruct (Z.eq_dec k i) as [->|].
           ++ unfold transp. rewrite U_zero by lia. lra.
           ++ rewrite vec_zupd_other by lia. now rewrite (vec_ext x1 x2) by (apply O2; lia).
      * intros p Hp. rewrite zget_zupd_other by lia. rewrite O2 by lia. apply O. lia.
  - exists x'. split; auto. split; [|split]; auto. intros q Hq. symmetry. now apply G.
Qed.

Lemma trsv_N_proof x o ms : (forall a y z, ms a y z = (z - a * y)%R) -> fits o n x ->
  exists x', trsv_gen ms false n A oA LDA x o = Some x' /\ acts o n x x' (fun v w => isprod n U w v).
Proof.
  intros Hms Fx. pose proof Fx as [F0 F1]. unfold trsv_gen.
  match goal with |- exists x', for_dn _ 0 ?b x = _ /\ _ =>
    destruct (for_dn_inv (fun j x1 => zlen x1 = zlen x /\
       (forall q, j < q < n -> matvec n U (vec o x1) q = vec o x q) /\
       (forall i, 0 <= i <= j -> vec o x1 i = (vec o x i - sumZ n (fun k => if j <? k then U i k * vec o x1 k else 0))%R) /\
       (forall p, p < o \/ o + n <= p -> zget x1 p = zget x p)) (n - 1) 0 b x) as [x' [E (L1 & G & G' & O)]] end; auto.
  - lia.
  - split; [auto|split; [intros; lia|split; auto]]. intros i Hi. rewrite sumZ_zero; [lra|].
    intros k Hk. now replace (n - 1 <? k) with false by lia.
  - intros j x1 Hj (L1 & G & G' & O). rewrite (zget_vec o x1 j n) by (try split; lia). cbn [obind]. rewrite U_get by lia. cbn [obind].
    rewrite zset_some by lia. cbn [obind]. set (d := div _ _). set (x1' := zupd x1 _ _).
    match goal with |- exists s, for_up 0 j ?b x1' = _ /\ _ =>
    destruct (for_up_inv (fun i x2 => zlen x2 = zlen x /\
       (forall q, 0 <= q < i -> vec o x2 q = (vec o x1 q - U q j * d)%R) /\
       (forall p, p < o \/ o + i <= p -> zget x2 p = zget x1' p)) 0 j b x1') as [x2 [E2 (L2 & G2 & O2)]] end.
    + lia.
    + unfold x1'. split; [now rewrite zlen_zupd|split; auto]. intros; lia.
    + intros i x2 Hi (L2 & G2 & O2). rewrite (zget_vec o x2 i n) by (try split; lia). cbn [obind]. rewrite U_get by lia. cbn [obind].
      rewrite (zget_vec o x2 j n) by (try split; lia). cbn [obind]. rewrite zset_some by lia.
      eexists; split; [reflexivity|]. split; [now rewrite zlen_zupd|split].
      * intros q Hq. destruct (Z.eq_dec q i) as [->|].
        -- rewrite vec_zupd_same by lia. rewrite Hms. rewrite (vec_ext x1' x2) by (apply O2; lia). rewrite (vec_ext x1' x2 o j) by (apply O2; lia).
           unfold x1'. rewrite vec_zupd_other, vec_zupd_same by lia. lra.
        -- rewrite vec_zupd_other by lia. apply G2. lia.
      * intros p Hp. rewrite zget_zupd_other by lia. apply O2. lia.
    + rewrite E2. eexists; split; [reflexivity|].
      assert (Hj2 : vec o x2 j = d).
      { rewrite (vec_ext x1' x2) by (apply O2; lia). unfold x1'. now rewrite vec_zupd_same by lia. }
      assert (Hk2 : forall k, j < k -> vec o x2 k = vec o x1 k).
      { intros k Hk. rewrite (vec_ext x1' x2) by (apply O2; lia). unfold x1'. now rewrite vec_zupd_other by lia. }
      split; [auto|split; [|split]].
      * intros q Hq. destruct (Z.eq_dec q j) as [->|].
        -- unfold matvec. rewrite (sumZ_pick n j) by lia. rewrite Hj2.
           rewrite (sumZ_ext n _ (fun k => if j <? k then (U j k * vec o x1 k)%R else 0%R)).
           ++ pose proof (G' j ltac:(lia)) as G1. unfold d. cbn [div R_arith].
              rewrite G1. field. apply U_diag. lia.
           ++ intros k Hk. destruct (Z.eqb_spec k j) as [->|]; [now rewrite Z.ltb_irrefl|].
              destruct (j <? k) eqn:Ek; [now rewrite Hk2 by lia|]. rewrite U_zero by lia. lra.
        -- rewrite <- (G q) by lia. unfold matvec. apply sumZ_ext. intros k Hk. destruct (Z_lt_dec j k).
           ++ now rewrite Hk2 by lia.
           ++ rewrite U_zero by lia. lra.
      * intros i Hi. rewrite G2, G' by lia.
        rewrite (sumZ_pick n j (fun k => if j - 1 <? k then _ else _)) by lia.
        replace (j - 1 <? j) with true by lia. rewrite Hj2.
        rewrite (sumZ_ext n (fun k => if j <? k then _ else _) (fun k => if k =? j then 0%R else if j - 1 <? k then (U i k * vec o x2 k)%R else 0%R)); [lra|].
        intros k Hk. destruct (Z.eqb_spec k j) as [->|]; [now rewrite Z.ltb_irrefl|].
        destruct (j <? k) eqn:Ek; [replace (j - 1 <? k) with true by lia; now rewrite Hk2 by lia|].
        now replace (j - 1 <? k) with false by lia.
      * intros p Hp. rewrite O2 by lia. unfold x1'. rewrite zget_zupd_other by lia. now apply O.
  - exists x'. split; auto. split; [|split]; auto. intros q Hq. symmetry. apply G. lia.
Qed.
End Dense.

Lemma trmv_gen_proof ma t n A oA LDA x o : (forall a y z, ma a y z = (z + a * y)%R) -> 0 <= n -> fits_mat oA n n LDA A -> fits o n x ->
  exists x', trmv_gen ma t n A oA LDA x o = Some x' /\ acts o n x x' (isprod n (op t (upper (mat oA LDA A)))).
Proof. intros. destruct t; [now apply trmv_T_proof|now apply trmv_N_proof]. Qed.
Lemma trsv_gen_proof ms t n A oA LDA x o : (forall a y z, ms a y z = (z - a * y)%R) -> 0 <= n -> fits_mat oA n n LDA A ->
  nonzero_diag n (mat oA LDA A) -> fits o n x ->
  exists x', trsv_gen ms t n A oA LDA x o = Some x' /\ acts o n x x' (fun v w => isprod n (op t (upper (mat oA LDA A))) w v).
Proof. intros. destruct t; [now apply trsv_T_proof|now apply trsv_N_proof]. Qed.

(** ** Columns *)
Lemma columnwise_proof (f : list R -> Z -> option (list R)) n N LDB (B : list R) (P : (Z -> R) -> (Z -> R) -> Prop) :
  0 <= n -> fits_mat 0 n N LDB B ->
  (forall v v' w w', (forall i, 0 <= i < n -> v i = v' i) -> (forall i, 0 <= i < n -> w i = w' i) -> P v w -> P v' w') ->
  (forall x o, fits o n x -> zlen x = zlen B -> exists x', f x o = Some x' /\ acts o n x x' P) ->
  0 <= N ->
  exists B', columnwise f B LDB N = Some B' /\ acts_columns n N LDB B B' P.
Proof.
  intros Hn HB HP Hf HN. pose proof HB as (_ & H1 & H2). unfold columnwise.
  destruct (for_up_inv (fun j B1 => zlen B1 = zlen B /\ (forall q, 0 <= q < j -> P (vec (q * LDB) B) (vec (q * LDB) B1)) /\
     (forall p, (forall q i, 0 <= q < j -> 0 <= i < n -> p <> q * LDB + i) -> zget B1 p = zget B p)) 0 N (fun j B => f B (j * LDB)) B)
     as [B' [E (L & G & O)]]; auto.
  - split; [auto|split; auto]. intros; lia.
  - intros j B1 Hj (L & G & O).
    assert (FB : fits (j * LDB) n B1).
    { specialize (H2 ltac:(lia)). pose proof (Z.mul_le_mono_nonneg_r j (N - 1) LDB). pose proof (Z.mul_nonneg_nonneg j LDB).
      split; lia. }
    destruct (Hf B1 (j * LDB)) as [B2 [E (L2 & G2 & O2)]]; auto.
    rewrite E. eexists; split; [reflexivity|]. split; [lia|split].
    + intros q Hq. destruct (Z.eq_dec q j) as [->|].
      * eapply HP; [| |exact G2]; [|auto]. intros i Hi. unfold vec, nthZ. rewrite O; auto.
        intros q i' Hq' Hi'. pose proof (Z.mul_le_mono_nonneg_r (q + 1) j LDB). lia.
      * eapply HP; [| |apply (G q); lia]; [auto|]. intros i Hi. unfold vec, nthZ. rewrite O2; auto.
        pose proof (Z.mul_le_mono_nonneg_r (q + 1) j LDB). lia.
    + intros p Hp. rewrite O2.
      * apply O. intros. apply Hp; lia.
      * destruct (Z_lt_dec p (j * LDB)); [lia|]. destruct (Z_lt_dec p (j * LDB + n)); [|lia].
        exfalso. apply (Hp j (p - j * LDB)); lia.
  - exists B'. split; auto. split; [|split]; auto.
Qed.
Lemma isprod_ext n U v v' w w' : (forall i, 0 <= i < n -> v i = v' i) -> (forall i, 0 <= i < n -> w i = w' i) ->
  isprod n U v w -> isprod n U v' w'.
Proof.
  intros Hv Hw H i Hi. rewrite <- Hw, H by auto. unfold matvec. apply sumZ_ext. intros. now rewrite Hv.
Qed.

Lemma trmm_proof t n A LDA B LDB N : 0 <= n -> 0 <= N -> fits_mat 0 n n LDA A -> fits_mat 0 n N LDB B ->
  exists B', trmm t n A LDA B LDB N = Some B' /\ acts_columns n N LDB B B' (isprod n (op t (upper (mat 0 LDA A)))).
Proof.
  intros. unfold trmm. apply columnwise_proof; auto.
  - intros; eapply isprod_ext; eauto.
  - intros. apply trmv_gen_proof; auto.
Qed.
Lemma trsm_proof t n A LDA B LDB N : 0 <= n -> 0 <= N -> fits_mat 0 n n LDA A -> nonzero_diag n (mat 0 LDA A) -> fits_mat 0 n N LDB B ->
  exists B', trsm t n A LDA B LDB N = Some B' /\ acts_columns n N LDB B B' (fun v w => isprod n (op t (upper (mat 0 LDA A))) w v).
Proof.
  intros. unfold trsm. apply columnwise_proof; auto.
  - intros v v' w w' Hv Hw Hp; eapply isprod_ext; eauto.
  - intros. apply trsv_gen_proof; auto.
Qed.
Lemma acts_columns_id n N LD B B' : 0 <= N -> fits_mat 0 n N LD B ->
  acts_columns n N LD B B' (fun v w => forall i, 0 <= i < n -> w i = v i) -> B' = B.
Proof.
  intros HN (_ & H1 & H2) (L & G & O). apply (nthZ_ext 0%R); auto. intros p Hp.
  destruct (Z.eq_dec LD 0) as [->|]. { unfold nthZ. rewrite O; auto. intros; lia. }
  destruct (Z_lt_dec (p mod LD) n) as [Hm|Hm]; [destruct (Z_lt_dec (p / LD) N) as [Hd|Hd]|].
  - specialize (G (p / LD)). pose proof (Z.div_mod p LD). pose proof (Z.mod_pos_bound p LD).
    assert (0 <= p / LD) by (apply Z.div_pos; lia). specialize (G ltac:(lia) (p mod LD) ltac:(lia)). unfold vec in G.
    replace (p / LD * LD + p mod LD) with p in G by lia. exact G.
  - unfold nthZ. rewrite O; auto. intros j i Hj Hi E. apply Hd. rewrite E. rewrite Z.div_add_l, Z.div_small; lia.
  - unfold nthZ. rewrite O; auto. intros j i Hj Hi E. apply Hm. rewrite E. rewrite Z.add_comm, Z.mod_add, Z.mod_small; lia.
Qed.
Lemma tri_columns_id n N LD U B B1 B2 : 0 <= N -> fits_mat 0 n N LD B -> (upper_tri n U \/ lower_tri n U) -> nonzero_diag n U ->
  acts_columns n N LD B B1 (isprod n U) -> acts_columns n N LD B1 B2 (fun v w => isprod n U w v) -> B2 = B.
Proof.
  intros HN HB T D (L1 & G1 & O1) (L2 & G2 & O2). apply (acts_columns_id n N LD); auto. split; [lia|split].
  - intros j Hj. apply (tri_unique n U); auto. intros i Hi.
    rewrite <- (G1 j Hj i Hi). symmetry. apply (G2 j Hj i Hi).
  - intros p Hp. now rewrite O2, O1.
Qed.
Lemma upper_diag n U : nonzero_diag n U -> nonzero_diag n (upper U).
Proof. intros H i Hi. unfold upper. replace (i <=? i) with true by lia. auto. Qed.
Lemma tri_columns_id2 n N LD U B B1 B2 : 0 <= N -> fits_mat 0 n N LD B ->
  acts_columns n N LD B B1 (fun v w => isprod n U w v) -> acts_columns n N LD B1 B2 (isprod n U) -> B2 = B.
Proof.
  intros HN HB (L1 & G1 & O1) (L2 & G2 & O2). apply (acts_columns_id n N LD); auto. split; [lia|split].
  - intros j Hj i Hi. rewrite (G2 j Hj i Hi). symmetry. apply (G1 j Hj i Hi).
  - intros p Hp. now rewrite O2, O1.
Qed.
Lemma acts_columns_fits n N LD B B' P : acts_columns n N LD B B' P -> fits_mat 0 n N LD B -> fits_mat 0 n N LD B'.
Proof. intros (L & _) (H0 & H1 & H2). split; [|split]; auto. intros. rewrite L. auto. Qed.
Lemma trsm_trmm_proof t n A LDA B LDB N : 0 <= n -> 0 <= N -> fits_mat 0 n n LDA A -> nonzero_diag n (mat 0 LDA A) -> fits_mat 0 n N LDB B ->
  (do C <- trmm t n A LDA B LDB N; trsm t n A LDA C LDB N) = Some B /\
  (do C <- trsm t n A LDA B LDB N; trmm t n A LDA C LDB N) = Some B.
Proof.
  intros Hn HN HA HD HB. split.
  - destruct (trmm_proof t n A LDA B LDB N) as [C [E1 A1]]; auto. rewrite E1. cbn [obind].
    destruct (trsm_proof t n A LDA C LDB N) as [D [E2 A2]]; auto. { eapply acts_columns_fits; eauto. }
    rewrite E2. f_equal. eapply tri_columns_id; [exact HN|exact HB| | |exact A1|exact A2].
    + apply op_tri. left. apply upper_upper.
    + apply op_diag. now apply upper_diag.
  - destruct (trsm_proof t n A LDA B LDB N) as [C [E1 A1]]; auto. rewrite E1. cbn [obind].
    destruct (trmm_proof t n A LDA C LDB N) as [D [E2 A2]]; auto. { eapply acts_columns_fits; eauto. }
    rewrite E2. f_equal. eapply tri_columns_id2; [exact HN|exact HB|exact A1|exact A2].
Qed.
Lemma trsv_trmv_proof ma ms t n A oA LDA x o : (forall a y z, ma a y z = (z + a * y)%R) -> (forall a y z, ms a y z = (z - a * y)%R) ->
  0 <= n -> fits_mat oA n n LDA A -> nonzero_diag n (mat oA LDA A) -> fits o n x ->
  (do y <- trmv_gen ma t n A oA LDA x o; trsv_gen ms t n A oA LDA y o) = Some x /\
  (do y <- trsv_gen ms t n A oA LDA x o; trmv_gen ma t n A oA LDA y o) = Some x.
Proof.
  intros Hma Hms Hn HA HD Hx. split.
  - destruct (trmv_gen_proof ma t n A oA LDA x o) as [y [E1 A1]]; auto. rewrite E1. cbn [obind].
    destruct (trsv_gen_proof ms t n A oA LDA y o) as [z [E2 A2]]; auto. { eapply acts_fits; eauto. }
    rewrite E2. f_equal. eapply solve_mul_id; [exact Hx| | |exact A1|exact A2].
    + apply op_tri. left. apply upper_upper.
    + apply op_diag. now apply upper_diag.
  - destruct (trsv_gen_proof ms t n A oA LDA x o) as [y [E1 A1]]; auto. rewrite E1. cbn [obind].
    destruct (trmv_gen_proof ma t n A oA LDA y o) as [z [E2 A2]]; auto. { eapply acts_fits; eauto. }
    rewrite E2. f_equal. eapply mul_solve_id; [exact Hx|exact A1|exact A2].
Qed.

(** ** Rational modifications *)
Lemma mpmv_proof t nv K Rm x o : mp_ok nv K Rm -> fits o (tb_n Rm) x ->
  exists x', mpmv t nv K Rm x o = Some x' /\ acts o (tb_n Rm) x x' (mp_rel (tb_n Rm) (tb_mat K) (tb_mat Rm) nv t).
Proof.
  intros (HR & HD & HK) Hx. unfold mpmv, mp_rel. destruct (nv <? 1) eqn:En; [now apply tbsv_proof|].
  destruct HK as (HK & HKD & Hn); [lia|]. destruct t.
  - destruct (tbmv_proof Rm true x o) as [y [E1 A1]]; auto. rewrite E1. cbn [obind].
    destruct (tbsv_proof K true y o) as [z [E2 A2]]; auto. { rewrite Hn. eapply acts_fits; eauto. }
    rewrite Hn in A2. exists z. split; auto. exact (acts_compose _ _ _ _ _ _ _ A1 A2).
  - destruct (tbsv_proof K false x o) as [y [E1 A1]]; auto. { now rewrite Hn. } rewrite E1. cbn [obind].
    rewrite Hn in A1. destruct (tbmv_proof Rm false y o) as [z [E2 A2]]; auto. { eapply acts_fits; eauto. }
    exists z. split; auto. exact (acts_compose _ _ _ _ _ _ _ A1 A2).
Qed.
Lemma mpsv_mpmv_proof t nv K Rm x o : mp_ok nv K Rm -> fits o (tb_n Rm) x ->
  (do y <- mpmv t nv K Rm x o; mpsv t nv K Rm y o) = Some x /\ (do y <- mpsv t nv K Rm x o; mpmv t nv K Rm y o) = Some x.
Proof.
  intros (HR & HD & HK) Hx. unfold mpmv, mpsv. destruct (nv <? 1) eqn:En.
  { destruct (tb_inverse_proof Rm t x o); auto. }
  destruct HK as (HK & HKD & Hn); [lia|].
  assert (C : forall A B t x, tb_ok A -> tb_ok B -> nonzero_diag (tb_n A) (tb_mat A) -> nonzero_diag (tb_n B) (tb_mat B) ->
     tb_n A = tb_n Rm -> tb_n B = tb_n Rm -> fits o (tb_n Rm) x ->
     (do y <- (do y <- tbmv t A x o; tbsv t B y o); do z <- tbmv t B y o; tbsv t A z o) = Some x).
  { clear. intros A B t x HA HB DA DB NA NB Hx.
    destruct (tbmv_proof A t x o) as [y [E1 A1]]; auto; [now rewrite NA|]. rewrite E1. cbn [obind].
    assert (Fy : fits o (tb_n B) y) by (rewrite NB, <- NA; eapply acts_fits; [exact A1|now rewrite NA]).
    destruct (tb_inverse_proof B t y o) as [_ I2]; auto.
    destruct (tbsv_proof B t y o) as [z [E2 A2]]; auto. rewrite E2. rewrite E2 in I2. cbn [obind] in I2 |- *. rewrite I2. cbn [obind].
    destruct (tb_inverse_proof A t x o) as [I1 _]; auto; [now rewrite NA|]. rewrite E1 in I1. exact I1. }
  assert (C' : forall A B t x, tb_ok A -> tb_ok B -> nonzero_diag (tb_n A) (tb_mat A) -> nonzero_diag (tb_n B) (tb_mat B) ->
     tb_n A = tb_n Rm -> tb_n B = tb_n Rm -> fits o (tb_n Rm) x ->
     (do y <- (do y <- tbsv t A x o; tbmv t B y o); do z <- tbsv t B y o; tbmv t A z o) = Some x).
  { clear. intros A B t x HA HB DA DB NA NB Hx.
    destruct (tbsv_proof A t x o) as [y [E1 A1]]; auto; [now rewrite NA|]. rewrite E1. cbn [obind].
    assert (Fy : fits o (tb_n B) y) by (rewrite NB, <- NA; eapply acts_fits; [exact A1|now rewrite NA]).
    destruct (tb_inverse_proof B t y o) as [I2 _]; auto.
    destruct (tbmv_proof B t y o) as [z [E2 A2]]; auto. rewrite E2. rewrite E2 in I2. cbn [obind] in I2 |- *. rewrite I2. cbn [obind].
    destruct (tb_inverse_proof A t x o) as [_ I1]; auto; [now rewrite NA|]. rewrite E1 in I1. exact I1. }
  destruct t; split.
  - apply (C Rm K); auto.
  - apply (C K Rm); auto.
  - apply (C' K Rm); auto.
  - apply (C' Rm K); auto.
Qed.
