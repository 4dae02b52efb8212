(** * Proofs: tridiagonal and bidiagonal kernels *)
From Coq Require Import ZArith List Lia Bool ZifyBool ZifyNat Reals Lra.
From Verif Require Import Arith Base BaseFacts SpecSum PSum SpecLin MBanded SpecBanded PTri PBand PFactor PClen MTridiag SpecTri.
Import ListNotations.
Open Scope Z_scope.

Lemma mv3 n M (x : Z -> R) i : 0 <= i < n -> (forall k, 0 <= k < n -> k < i - 1 \/ i + 1 < k -> M i k = 0%R) ->
  matvec n M x i = ((if 0 <? i then M i (i - 1)%Z * x (i - 1)%Z else 0) + M i i * x i + (if (i + 1 <? n)%Z then M i (i + 1)%Z * x (i + 1)%Z else 0))%R.
Proof.
  intros Hi Hz. 
  transitivity (matmul n (fun i k => if (0 <=? k) && (k <? n) then M i k else 0%R) (fun k _ => x k) i 0).
  - unfold matvec, matmul. apply sumZ_ext. intros k Hk. now replace ((0 <=? k) && (k <? n)) with true by lia.
  - rewrite matmul_tri; auto.
    + replace ((0 <=? i) && (i <? n)) with true by lia. replace ((0 <=? i - 1) && (i - 1 <? n)) with (0 <? i) by lia.
      replace ((0 <=? i + 1) && (i + 1 <? n)) with (i + 1 <? n) by lia. destruct (0 <? i), (i + 1 <? n); lra.
    + intros k Hk Hk2. rewrite Hz by auto. now destruct ((0 <=? k) && (k <? n)).
    + intros k Hk. now replace ((0 <=? k) && (k <? n)) with false by lia.
Qed.
Lemma st_far A i k : k < i - 1 \/ i + 1 < k -> st_mat A i k = 0%R.
Proof. intros H. unfold st_mat. replace (i =? k) with false by lia. replace (k =? i + 1) with false by lia. now replace (i =? k + 1) with false by lia. Qed.
Lemma st_d A i : st_mat A i i = g (st_a A) i.
Proof. unfold st_mat. now rewrite Z.eqb_refl. Qed.
Lemma st_u A i : st_mat A i (i + 1) = g (st_b A) i.
Proof. unfold st_mat. replace (i =? i + 1) with false by lia. now rewrite Z.eqb_refl. Qed.
Lemma st_l A i : st_mat A i (i - 1) = g (st_b A) (i - 1).
Proof. unfold st_mat. replace (i =? i - 1) with false by lia. replace (i - 1 =? i + 1) with false by lia. now replace (i =? i - 1 + 1) with true by lia. Qed.
Lemma st_sym A i j : st_mat A i j = st_mat A j i.
Proof.
  unfold st_mat. rewrite (Z.eqb_sym j i). destruct (Z.eqb_spec i j); [now subst|].
  destruct (Z.eqb_spec j (i + 1)), (Z.eqb_spec i (j + 1)); auto; lia.
Qed.
Lemma kt_far A i k : k < i - 1 \/ i + 1 < k -> kt_mat A i k = 0%R.
Proof. intros H. unfold kt_mat. replace (k =? i + 1) with false by lia. now replace (i =? k + 1) with false by lia. Qed.
Lemma kt_d A i : kt_mat A i i = 0%R.
Proof. unfold kt_mat. now replace (i =? i + 1) with false by lia. Qed.
Lemma kt_u A i : kt_mat A i (i + 1) = g (kt_b A) i.
Proof. unfold kt_mat. now rewrite Z.eqb_refl. Qed.
Lemma kt_l A i : kt_mat A i (i - 1) = (- g (kt_b A) (i - 1))%R.
Proof. unfold kt_mat. replace (i - 1 =? i + 1) with false by lia. now replace (i =? i - 1 + 1) with true by lia. Qed.
Lemma kt_t A i j : transp (kt_mat A) i j = (- kt_mat A i j)%R.
Proof. unfold transp, kt_mat. destruct (Z.eqb_spec i (j + 1)), (Z.eqb_spec j (i + 1)); try lra; lia. Qed.

Lemma scale_y_val n beta (y : list R) : 0 <= n <= zlen y -> exists y', scale_y n beta y = Some y' /\ zlen y' = zlen y /\
  forall p, g y' p = if (0 <=? p) && (p <? n) then (beta * g y p)%R else g y p.
Proof.
  intros Hn. unfold scale_y.
  destruct (for_up_inv (fun i y' => zlen y' = zlen y /\ forall p, g y' p = if (0 <=? p) && (p <? i) then (beta * g y p)%R else g y p) 0 n
    (fun i y => do yi <- zget y i; zset y i (mul beta yi)) y) as (y' & E & L & V).
  - lia.
  - split; auto. intros p. now replace ((0 <=? p) && (p <? 0)) with false by lia.
  - intros i y1 Hi (L1 & V1). rewrite gget by lia. cbn [obind]. rewrite zset_some by lia. eexists; split; [reflexivity|]. split; [now rewrite zlen_zupd|].
    intros p. rewrite nthZ_zupd by lia. rewrite !V1. destruct (Z.eqb_spec i p).
    + subst. replace ((0 <=? p) && (p <? p)) with false by lia. now replace ((0 <=? p) && (p <? p + 1)) with true by lia.
    + now replace (p <? i + 1) with (p <? i) by lia.
  - eauto.
Qed.

(** a loop that rewrites y[lo..hi-1], entry i to [val i (old y[i])] *)
Lemma rows_loop lo hi (body : Z -> list R -> option (list R)) (val : Z -> R -> R) (y : list R) : lo <= hi -> 0 <= lo -> hi <= zlen y ->
  (forall i y', lo <= i < hi -> zlen y' = zlen y -> body i y' = Some (zupd y' i (val i (g y' i)))) ->
  exists y', for_up lo hi body y = Some y' /\ zlen y' = zlen y /\
    forall p, g y' p = if (lo <=? p) && (p <? hi) then val p (g y p) else g y p.
Proof.
  intros Hlo H0 Hhi Hb.
  destruct (for_up_inv (fun i y' => zlen y' = zlen y /\ forall p, g y' p = if (lo <=? p) && (p <? i) then val p (g y p) else g y p) lo hi body y) as (y' & E & L & V); auto.
  - split; auto. intros p. now replace ((lo <=? p) && (p <? lo)) with false by lia.
  - intros i y1 Hi (L1 & V1). rewrite Hb by auto. eexists; split; [reflexivity|]. split; [now rewrite zlen_zupd|].
    intros p. rewrite nthZ_zupd by lia. rewrite !V1. destruct (Z.eqb_spec i p).
    + subst. replace ((lo <=? p) && (p <? p)) with false by lia. now replace ((lo <=? p) && (p <? p + 1)) with true by lia.
    + now replace (p <? i + 1) with (p <? i) by lia.
  - eauto.
Qed.

Lemma writes_g n (y y' : list R) val : 0 <= n <= zlen y -> zlen y' = zlen y -> (forall p, g y' p = if (0 <=? p) && (p <? n) then val p else g y p) -> writes 0 n y y' val.
Proof.
  intros Hn L V. split; [auto|split].
  - intros i Hi. cbn. rewrite gget by lia. rewrite V. now replace ((0 <=? i) && (i <? n)) with true by lia.
  - intros p Hp. destruct (Z_lt_dec p 0); [now rewrite !zget_none by lia|]. destruct (Z_lt_dec p (zlen y)); [|now rewrite !zget_none by lia].
    rewrite !gget by lia. rewrite V. now replace ((0 <=? p) && (p <? n)) with false by lia.
Qed.

Lemma stmv_proof alpha A (x : list R) beta (y : list R) : st_ok A -> 2 <= st_n A -> st_n A <= zlen x -> st_n A <= zlen y ->
  exists y', stmv alpha A x beta y = Some y' /\
    writes 0 (st_n A) y y' (fun i => (alpha * matvec (st_n A) (st_mat A) (vec 0 x) i + beta * vec 0 y i)%R).
Proof.
  intros (H1 & H2 & H3) Hn Hx Hy. unfold stmv. set (n := st_n A) in *.
  destruct (scale_y_val n beta y) as (y1 & E1 & L1 & V1); [lia|]. rewrite E1. cbn [obind].
  rewrite !gget by lia. cbn [obind]. rewrite zset_some by lia. cbn [obind].
  set (y2 := zupd y1 0 _). assert (L2 : zlen y2 = zlen y) by (unfold y2; rewrite zlen_zupd; lia).
  destruct (rows_loop 1 (n - 1) (fun i y =>
            do yi <- zget y i; do bm <- zget (st_b A) (i - 1); do xm <- zget x (i - 1);
            do ai <- zget (st_a A) i; do xi <- zget x i; do bi <- zget (st_b A) i; do xp <- zget x (i + 1);
            zset y i (add yi (mul alpha (add (add (mul bm xm) (mul ai xi)) (mul bi xp)))))
            (fun i yi => (yi + alpha * (g (st_b A) (i - 1) * g x (i - 1) + g (st_a A) i * g x i + g (st_b A) i * g x (i + 1)))%R) y2) as (y3 & E3 & L3 & V3); try lia.
  { intros i y' Hi L'. rewrite !gget by lia. cbn [obind]. rewrite zset_some by lia. reflexivity. }
  rewrite E3. cbn [obind]. rewrite !gget by lia. cbn [obind]. rewrite zset_some by lia. eexists; split; [reflexivity|].
  apply writes_g; try (rewrite ?zlen_zupd; lia). intros p. rewrite nthZ_zupd by lia. rewrite !V3. unfold y2. rewrite !nthZ_zupd by lia. rewrite !V1.
  destruct ((0 <=? p) && (p <? n)) eqn:Ep.
  - rewrite mv3 by (try lia; intros; apply st_far; lia). rewrite st_d, st_u, st_l. unfold vec. rewrite !Z.add_0_l.
    destruct (Z.eqb_spec (n - 1) p).
    + subst p. replace (0 =? n - 1) with false by lia. replace ((1 <=? n - 1) && (n - 1 <? n - 1)) with false by lia.
      replace ((0 <=? n - 1) && (n - 1 <? n)) with true by lia. replace (0 <? n - 1) with true by lia. replace (n - 1 + 1 <? n) with false by lia.
      replace (n - 1 - 1) with (n - 2) by lia. cbn [add mul R_arith]. ring.
    + destruct (Z.eqb_spec 0 p).
      * subst p. replace ((1 <=? 0) && (0 <? n - 1)) with false by lia. replace ((0 <=? 0) && (0 <? n)) with true by lia.
        replace (0 + 1 <? n) with true by lia. cbn. ring.
      * replace ((1 <=? p) && (p <? n - 1)) with true by lia. replace ((0 <=? p) && (p <? n)) with true by lia.
        replace (0 <? p) with true by lia. replace (p + 1 <? n) with true by lia. ring.
  - replace (n - 1 =? p) with false by lia. replace ((1 <=? p) && (p <? n - 1)) with false by lia. now replace (0 =? p) with false by lia.
Qed.

Lemma ktmv_proof t alpha A (x : list R) beta (y : list R) : kt_ok A -> 2 <= kt_n A -> kt_n A <= zlen x -> kt_n A <= zlen y ->
  exists y', ktmv t alpha A x beta y = Some y' /\
    writes 0 (kt_n A) y y' (fun i => (alpha * matvec (kt_n A) (op t (kt_mat A)) (vec 0 x) i + beta * vec 0 y i)%R).
Proof.
  intros (H1 & H3) Hn Hx Hy. unfold ktmv. set (n := kt_n A) in *.
  destruct (scale_y_val n beta y) as (y1 & E1 & L1 & V1); [lia|]. rewrite E1. cbn [obind].
  assert (Ht : forall i, 0 <= i < n -> matvec n (transp (kt_mat A)) (vec 0 x) i = (- matvec n (kt_mat A) (vec 0 x) i)%R).
  { intros i Hi. unfold matvec. transitivity (sumZ n (fun k => (-1 * (kt_mat A i k * vec 0 x k))%R)).
    - apply sumZ_ext. intros k Hk. rewrite kt_t. ring.
    - rewrite sumZ_scal. ring. }
  destruct t; rewrite !gget by lia; cbn [obind]; rewrite zset_some by lia; cbn [obind];
    set (y2 := zupd y1 0 _); assert (L2 : zlen y2 = zlen y) by (unfold y2; rewrite zlen_zupd; lia).
  - destruct (rows_loop 1 (n - 1) (fun i y =>
              do yi <- zget y i; do bm <- zget (kt_b A) (i - 1); do xm <- zget x (i - 1); do bi <- zget (kt_b A) i; do xp <- zget x (i + 1);
              zset y i (add yi (mul alpha (sub (mul bm xm) (mul bi xp)))))
              (fun i yi => (yi + alpha * (g (kt_b A) (i - 1) * g x (i - 1) - g (kt_b A) i * g x (i + 1)))%R) y2) as (y3 & E3 & L3 & V3); try lia.
    { intros i y' Hi L'. rewrite !gget by lia. cbn [obind]. rewrite zset_some by lia. reflexivity. }
    rewrite E3. cbn [obind]. rewrite !gget by lia. cbn [obind]. rewrite zset_some by lia. eexists; split; [reflexivity|].
    apply writes_g; try (rewrite ?zlen_zupd; lia). intros p. rewrite nthZ_zupd by lia. rewrite !V3. unfold y2. rewrite !nthZ_zupd by lia. rewrite !V1.
    destruct ((0 <=? p) && (p <? n)) eqn:Ep.
    + cbn [op]. rewrite Ht by lia. rewrite mv3 by (try lia; intros; apply kt_far; lia). rewrite kt_d, kt_u, kt_l. unfold vec. rewrite !Z.add_0_l.
      destruct (Z.eqb_spec (n - 1) p).
      * subst p. replace (0 =? n - 1) with false by lia. replace ((1 <=? n - 1) && (n - 1 <? n - 1)) with false by lia.
        replace ((0 <=? n - 1) && (n - 1 <? n)) with true by lia. replace (0 <? n - 1) with true by lia. replace (n - 1 + 1 <? n) with false by lia.
        replace (n - 1 - 1) with (n - 2) by lia. cbn [add sub mul R_arith]. ring.
      * destruct (Z.eqb_spec 0 p).
        -- subst p. replace ((1 <=? 0) && (0 <? n - 1)) with false by lia. replace ((0 <=? 0) && (0 <? n)) with true by lia.
           replace (0 + 1 <? n) with true by lia. cbn. ring.
        -- replace ((1 <=? p) && (p <? n - 1)) with true by lia. replace ((0 <=? p) && (p <? n)) with true by lia.
           replace (0 <? p) with true by lia. replace (p + 1 <? n) with true by lia. ring.
    + replace (n - 1 =? p) with false by lia. replace ((1 <=? p) && (p <? n - 1)) with false by lia. now replace (0 =? p) with false by lia.
  - destruct (rows_loop 1 (n - 1) (fun i y =>
              do yi <- zget y i; do bm <- zget (kt_b A) (i - 1); do xm <- zget x (i - 1); do bi <- zget (kt_b A) i; do xp <- zget x (i + 1);
              zset y i (sub yi (mul alpha (sub (mul bm xm) (mul bi xp)))))
              (fun i yi => (yi - alpha * (g (kt_b A) (i - 1) * g x (i - 1) - g (kt_b A) i * g x (i + 1)))%R) y2) as (y3 & E3 & L3 & V3); try lia.
    { intros i y' Hi L'. rewrite !gget by lia. cbn [obind]. rewrite zset_some by lia. reflexivity. }
    rewrite E3. cbn [obind]. rewrite !gget by lia. cbn [obind]. rewrite zset_some by lia. eexists; split; [reflexivity|].
    apply writes_g; try (rewrite ?zlen_zupd; lia). intros p. rewrite nthZ_zupd by lia. rewrite !V3. unfold y2. rewrite !nthZ_zupd by lia. rewrite !V1.
    destruct ((0 <=? p) && (p <? n)) eqn:Ep.
    + cbn [op]. rewrite mv3 by (try lia; intros; apply kt_far; lia). rewrite kt_d, kt_u, kt_l. unfold vec. rewrite !Z.add_0_l.
      destruct (Z.eqb_spec (n - 1) p).
      * subst p. replace (0 =? n - 1) with false by lia. replace ((1 <=? n - 1) && (n - 1 <? n - 1)) with false by lia.
        replace ((0 <=? n - 1) && (n - 1 <? n)) with true by lia. replace (0 <? n - 1) with true by lia. replace (n - 1 + 1 <? n) with false by lia.
        replace (n - 1 - 1) with (n - 2) by lia. cbn [add sub mul R_arith]. ring.
      * destruct (Z.eqb_spec 0 p).
        -- subst p. replace ((1 <=? 0) && (0 <? n - 1)) with false by lia. replace ((0 <=? 0) && (0 <? n)) with true by lia.
           replace (0 + 1 <? n) with true by lia. cbn. ring.
        -- replace ((1 <=? p) && (p <? n - 1)) with true by lia. replace ((0 <=? p) && (p <? n)) with true by lia.
           replace (0 <? p) with true by lia. replace (p + 1 <? n) with true by lia. ring.
    + replace (n - 1 =? p) with false by lia. replace ((1 <=? p) && (p <? n - 1)) with false by lia. now replace (0 =? p) with false by lia.
Qed.

(** ** Bidiagonal *)
Lemma bi_upper B n : upper_tri n (bi_mat B).
Proof. intros i k Hi Hk H. unfold bi_mat. replace (i =? k) with false by lia. now replace (k =? i + 1) with false by lia. Qed.
Lemma bi_d0 B i : bi_mat B i i = g (bi_c B) i.
Proof. unfold bi_mat. now rewrite Z.eqb_refl. Qed.
Lemma bi_u B i : bi_mat B i (i + 1) = g (bi_d B) i.
Proof. unfold bi_mat. replace (i =? i + 1) with false by lia. now rewrite Z.eqb_refl. Qed.
Lemma bi_u' B i : bi_mat B (i - 1) i = g (bi_d B) (i - 1).
Proof. replace i with (i - 1 + 1) at 2 by lia. apply bi_u. Qed.
Lemma bi_l B i : bi_mat B i (i - 1) = 0%R.
Proof. unfold bi_mat. replace (i =? i - 1) with false by lia. now replace (i - 1 =? i + 1) with false by lia. Qed.
Lemma bi_l' B i : bi_mat B (i + 1) i = 0%R.
Proof. replace i with (i + 1 - 1) at 2 by lia. apply bi_l. Qed.
Lemma bi_far B i k : k < i - 1 \/ i + 1 < k -> bi_mat B i k = 0%R.
Proof. intros H. unfold bi_mat. replace (i =? k) with false by lia. now replace (k =? i + 1) with false by lia. Qed.
Lemma bi_mv B x i : 0 <= i < bi_n B -> matvec (bi_n B) (bi_mat B) x i =
  (g (bi_c B) i * x i + (if (i + 1 <? bi_n B)%Z then g (bi_d B) i * x (i + 1)%Z else 0))%R.
Proof.
  intros Hi. rewrite mv3 by (auto; intros; apply bi_far; lia). rewrite bi_d0, bi_u, bi_l. destruct (0 <? i); lra.
Qed.
Lemma bi_mvT B x i : 0 <= i < bi_n B -> matvec (bi_n B) (transp (bi_mat B)) x i =
  (g (bi_c B) i * x i + (if (0 <? i)%Z then g (bi_d B) (i - 1)%Z * x (i - 1)%Z else 0))%R.
Proof.
  intros Hi. rewrite mv3 by (auto; intros; unfold transp; apply bi_far; lia). unfold transp. rewrite bi_d0, bi_u', bi_l'.
  destruct (0 <? i), (i + 1 <? bi_n B); lra.
Qed.

Lemma acts_g n (x x' : list R) (P : (Z->R)->(Z->R)->Prop) : 0 <= n <= zlen x -> zlen x' = zlen x -> (forall p, p < 0 \/ n <= p -> g x' p = g x p) -> P (vec 0 x) (vec 0 x') -> acts 0 n x x' P.
Proof.
  intros Hn L V HP. split; [auto|split; [auto|]]. intros p Hp. destruct (Z_lt_dec p 0); [now rewrite !zget_none by lia|].
  destruct (Z_lt_dec p (zlen x)); [|now rewrite !zget_none by lia]. rewrite !gget by lia. now rewrite V by lia.
Qed.

Lemma bdmv_proof t B (x : list R) : bi_ok B -> bi_n B <= zlen x ->
  exists x', bdmv t B x = Some x' /\ acts 0 (bi_n B) x x' (isprod (bi_n B) (op t (bi_mat B))).
Proof.
  intros (H1 & H2 & H3) Hx. unfold bdmv. set (n := bi_n B) in *. destruct t.
  - destruct (for_dn_inv (fun i x' => zlen x' = zlen x /\ forall p, g x' p = if (i <? p) && (p <? n) then (g (bi_d B) (p - 1) * g x (p - 1) + g (bi_c B) p * g x p)%R else g x p) (n - 1) 1
      (fun i x => do dm <- zget (bi_d B) (i - 1); do xm <- zget x (i - 1); do ci <- zget (bi_c B) i; do xi <- zget x i;
              zset x i (add (mul dm xm) (mul ci xi))) x) as (x' & E & L & V).
    + lia.
    + split; auto. intros p. now replace ((n - 1 <? p) && (p <? n)) with false by lia.
    + intros i x1 Hi (L1 & V1). rewrite !gget by lia. cbn [obind]. rewrite zset_some by lia. eexists; split; [reflexivity|]. split; [now rewrite zlen_zupd|].
      intros p. rewrite nthZ_zupd by lia. rewrite !V1. destruct (Z.eqb_spec i p).
      * subst. replace ((p <? p - 1) && (p - 1 <? n)) with false by lia. replace ((p <? p) && (p <? n)) with false by lia.
        now replace ((p - 1 <? p) && (p <? n)) with true by lia.
      * now replace (i - 1 <? p) with (i <? p) by lia.
    + rewrite E. cbn [obind]. rewrite !gget by lia. cbn [obind]. rewrite zset_some by lia. eexists; split; [reflexivity|].
      apply acts_g; try (rewrite ?zlen_zupd; lia).
      * intros p Hp. rewrite nthZ_zupd_other by lia. rewrite V. now replace ((1 - 1 <? p) && (p <? n)) with false by lia.
      * intros i Hi. cbn [op]. unfold n. rewrite bi_mvT by auto. unfold vec. rewrite !Z.add_0_l. rewrite nthZ_zupd by lia. rewrite !V.
        destruct (Z.eqb_spec 0 i).
        -- subst i. cbn. ring.
        -- replace ((1 - 1 <? i) && (i <? n)) with true by lia. replace (0 <? i) with true by lia. ring.
  - destruct (for_up_inv (fun i x' => zlen x' = zlen x /\ forall p, g x' p = if (0 <=? p) && (p <? i) then (g (bi_c B) p * g x p + g (bi_d B) p * g x (p + 1))%R else g x p) 0 (n - 1)
      (fun i x => do ci <- zget (bi_c B) i; do xi <- zget x i; do di <- zget (bi_d B) i; do xp <- zget x (i + 1);
              zset x i (add (mul ci xi) (mul di xp))) x) as (x' & E & L & V).
    + lia.
    + split; auto. intros p. now replace ((0 <=? p) && (p <? 0)) with false by lia.
    + intros i x1 Hi (L1 & V1). rewrite !gget by lia. cbn [obind]. rewrite zset_some by lia. eexists; split; [reflexivity|]. split; [now rewrite zlen_zupd|].
      intros p. rewrite nthZ_zupd by lia. rewrite !V1. destruct (Z.eqb_spec i p).
      * subst. replace ((0 <=? p + 1) && (p + 1 <? p)) with false by lia. replace ((0 <=? p) && (p <? p)) with false by lia.
        now replace ((0 <=? p) && (p <? p + 1)) with true by lia.
      * now replace (p <? i + 1) with (p <? i) by lia.
    + rewrite E. cbn [obind]. rewrite !gget by lia. cbn [obind]. rewrite zset_some by lia. eexists; split; [reflexivity|].
      apply acts_g; try (rewrite ?zlen_zupd; lia).
      * intros p Hp. rewrite nthZ_zupd_other by lia. rewrite V. now replace ((0 <=? p) && (p <? n - 1)) with false by lia.
      * intros i Hi. cbn [op]. unfold n. rewrite bi_mv by auto. fold n. unfold vec. rewrite !Z.add_0_l. rewrite nthZ_zupd by lia. rewrite !V.
        destruct (Z.eqb_spec (n - 1) i).
        -- subst i. replace ((0 <=? n - 1) && (n - 1 <? n - 1)) with false by lia. replace (n - 1 + 1 <? n) with false by lia. cbn [mul R_arith]. ring.
        -- replace ((0 <=? i) && (i <? n - 1)) with true by lia. replace (i + 1 <? n) with true by lia. ring.
Qed.

Lemma bdsv_proof t B (x : list R) : bi_ok B -> bi_n B <= zlen x -> nonzero_diag (bi_n B) (bi_mat B) ->
  exists x', bdsv t B x = Some x' /\ acts 0 (bi_n B) x x' (fun v w => isprod (bi_n B) (op t (bi_mat B)) w v).
Proof.
  intros (H1 & H2 & H3) Hx Hd. unfold bdsv. set (n := bi_n B) in *.
  assert (Hc : forall i, 0 <= i < n -> g (bi_c B) i <> 0%R) by (intros i Hi; rewrite <- bi_d0; auto).
  destruct t; rewrite !gget by lia; cbn [obind]; rewrite zset_some by lia; cbn [obind]; set (x0 := zupd x _ _);
    assert (L0 : zlen x0 = zlen x) by apply zlen_zupd.
  - destruct (for_up_inv (fun i x' => zlen x' = zlen x /\ (forall p, p < 0 \/ i <= p -> g x' p = g x p) /\
      (forall p, 0 <= p < i -> (g (bi_c B) p * g x' p + (if (0 <? p)%Z then g (bi_d B) (p - 1)%Z * g x' (p - 1)%Z else 0) = g x p)%R)) 1 n
      (fun i x => do xi <- zget x i; do dm <- zget (bi_d B) (i - 1); do xm <- zget x (i - 1); do ci <- zget (bi_c B) i;
        zset x i (div (sub xi (mul dm xm)) ci)) x0) as (x' & E & L & O & V).
    + lia.
    + split; [auto|split].
      * intros p Hp. unfold x0. apply nthZ_zupd_other. lia.
      * intros p Hp. replace p with 0 by lia. replace (0 <? 0) with false by lia. unfold x0. rewrite nthZ_zupd_same by lia.
        cbn [div R_arith]. specialize (Hc 0 ltac:(lia)). field. auto.
    + intros i x1 Hi (L1 & O1 & V1). rewrite !gget by lia. cbn [obind]. rewrite zset_some by lia. eexists; split; [reflexivity|]. split; [now rewrite zlen_zupd|split].
      * intros p Hp. rewrite nthZ_zupd_other by lia. apply O1. lia.
      * intros p Hp. rewrite !nthZ_zupd by lia. replace (i =? p - 1) with false by lia. destruct (Z.eqb_spec i p).
        -- subst. replace (0 <? p) with true by lia. cbn [div sub mul R_arith]. rewrite (O1 p) by lia. specialize (Hc p ltac:(lia)). field. auto.
        -- apply V1. lia.
    + rewrite E. eexists; split; [reflexivity|]. apply acts_g; try lia.
      * intros p Hp. apply O; lia.
      * intros i Hi. cbn [op]. unfold n. rewrite bi_mvT by auto. unfold vec. rewrite !Z.add_0_l. symmetry. apply V. auto.
  - destruct (for_dn_inv (fun i x' => zlen x' = zlen x /\ (forall p, p <= i \/ n <= p -> g x' p = g x p) /\
      (forall p, i < p < n -> (g (bi_c B) p * g x' p + (if (p + 1 <? n)%Z then g (bi_d B) p * g x' (p + 1)%Z else 0) = g x p)%R)) (n - 2) 0
      (fun i x => do xi <- zget x i; do di <- zget (bi_d B) i; do xp <- zget x (i + 1); do ci <- zget (bi_c B) i;
        zset x i (div (sub xi (mul di xp)) ci)) x0) as (x' & E & L & O & V).
    + lia.
    + split; [auto|split].
      * intros p Hp. unfold x0. apply nthZ_zupd_other. lia.
      * intros p Hp. replace p with (n - 1) by lia. replace (n - 1 + 1 <? n) with false by lia. unfold x0. rewrite nthZ_zupd_same by lia.
        cbn [div R_arith]. specialize (Hc (n - 1) ltac:(lia)). field. auto.
    + intros i x1 Hi (L1 & O1 & V1). rewrite !gget by lia. cbn [obind]. rewrite zset_some by lia. eexists; split; [reflexivity|]. split; [now rewrite zlen_zupd|split].
      * intros p Hp. rewrite nthZ_zupd_other by lia. apply O1. lia.
      * intros p Hp. rewrite !nthZ_zupd by lia. replace (i =? p + 1) with false by lia. destruct (Z.eqb_spec i p).
        -- subst. replace (p + 1 <? n) with true by lia. cbn [div sub mul R_arith]. rewrite (O1 p) by lia. specialize (Hc p ltac:(lia)). field. auto.
        -- apply V1. lia.
    + rewrite E. eexists; split; [reflexivity|]. apply acts_g; try lia.
      * intros p Hp. apply O; lia.
      * intros i Hi. cbn [op]. unfold n. rewrite bi_mv by auto. unfold vec. rewrite !Z.add_0_l. symmetry. apply V. lia.
Qed.
Lemma bd_inverse_proof t B (x : list R) : bi_ok B -> bi_n B <= zlen x -> nonzero_diag (bi_n B) (bi_mat B) ->
  (exists y, bdmv t B x = Some y /\ bdsv t B y = Some x) /\ (exists y, bdsv t B x = Some y /\ bdmv t B y = Some x).
Proof.
  intros HB Hx Hd.
  assert (Fx : fits 0 (bi_n B) x) by (destruct HB; split; lia).
  assert (T : upper_tri (bi_n B) (op t (bi_mat B)) \/ lower_tri (bi_n B) (op t (bi_mat B))) by (apply op_tri; left; apply bi_upper).
  split.
  - destruct (bdmv_proof t B x HB Hx) as (y & E & A). exists y. split; auto.
    destruct (bdsv_proof t B y) as (z & E2 & A2); auto. { destruct A as (L & _). lia. }
    rewrite E2. f_equal. eapply solve_mul_id; eauto. now apply op_diag.
  - destruct (bdsv_proof t B x HB Hx Hd) as (y & E & A). exists y. split; auto.
    destruct (bdmv_proof t B y) as (z & E2 & A2); auto. { destruct A as (L & _). lia. }
    rewrite E2. f_equal. eapply mul_solve_id; eauto.
Qed.

(** ** Cholesky *)
Section Chol.
Variable A : symtri R.
Hypothesis HA : st_ok A.
Let n := st_n A.
Let a i := g (st_a A) i.
Let b i := g (st_b A) i.

Lemma tchol_all : exists B, symtri_cholesky A = Some B /\ bi_ok B /\ bi_n B = n /\ zlen (bi_c B) = n /\ zlen (bi_d B) = n - 1 /\
  g (bi_c B) 0 = sqrt (a 0) /\
  (forall i, 0 <= i < n - 1 -> g (bi_d B) i = (b i / g (bi_c B) i)%R) /\
  (forall i, 0 <= i < n - 1 -> g (bi_c B) (i + 1) = sqrt (a (i + 1) - g (bi_d B) i * g (bi_d B) i)%R).
Proof.
  destruct HA as (H1 & H2 & H3). fold n in H1, H2, H3. unfold symtri_cholesky. fold n.
  assert (Lc : zlen (zmake n (zero : R)) = n) by (apply zlen_zmake; lia).
  assert (Ld : zlen (zmake (n - 1) (zero : R)) = n - 1) by (apply zlen_zmake; lia).
  rewrite gget by lia. cbn [obind]. rewrite zset_some by lia. cbn [obind].
  match goal with |- context [for_up 0 (n - 1) ?bd ?s] =>
  destruct (for_up_inv (fun k cd => let '(c, d) := cd in zlen c = n /\ zlen d = n - 1 /\ g c 0 = sqrt (a 0) /\
    (forall i, 0 <= i < k -> g d i = (b i / g c i)%R) /\
    (forall i, 0 <= i < k -> g c (i + 1) = sqrt (a (i + 1) - g d i * g d i)%R)) 0 (n - 1) bd s) as ((c & d) & E & L1 & L2 & V0 & V1 & V2) end.
  - lia.
  - split; [rewrite zlen_zupd; lia|]. split; [lia|]. split; [rewrite nthZ_zupd_same by lia; reflexivity|]. split; intros; lia.
  - intros i (c & d) Hi (L1 & L2 & V0 & V1 & V2). rewrite (gget (st_b A) i), (gget c i) by lia. cbn [obind]. rewrite zset_some by lia. cbn [obind].
    rewrite gget by lia. rewrite gget by (rewrite zlen_zupd; lia). cbn [obind]. rewrite zset_some by lia. cbn [obind]. eexists; split; [reflexivity|].
    cbv beta iota; rewrite !zlen_zupd. split; [auto|]. split; [auto|]. split; [rewrite nthZ_zupd_other by lia; auto|].
    assert (Gd : forall p, g (zupd d i (div (g (st_b A) i) (g c i))) p = if i =? p then (b i / g c i)%R else g d p) by (intros; rewrite nthZ_zupd by lia; reflexivity).
    assert (Gc : forall p, p <> i + 1 -> g (zupd c (i + 1) (sqrtA (sub (g (st_a A) (i + 1)) (mul (g (zupd d i (div (g (st_b A) i) (g c i))) i) (g (zupd d i (div (g (st_b A) i) (g c i))) i))))) p = g c p) by (intros; apply nthZ_zupd_other; lia).
    split.
    + intros k Hk. rewrite Gc by lia. rewrite Gd. destruct (Z.eqb_spec i k); [now subst|]. apply V1; lia.
    + intros k Hk. destruct (Z.eq_dec k i) as [->|Nk].
      * rewrite nthZ_zupd_same by lia. reflexivity.
      * rewrite Gc by lia. rewrite Gd. replace (i =? k) with false by lia. apply V2; lia.
  - rewrite E. cbn [obind]. eexists; split; [reflexivity|]. cbn [bi_n bi_c bi_d]. split; [split; cbn [bi_n bi_c bi_d]; lia|]. repeat split; auto.
Qed.

(** test vector killing the leading rows *)
Fixpoint tvec (c d : Z -> R) (k : Z) (t : nat) : R :=
  match t with O => 1%R | S t' => (- d (k - 1 - Z.of_nat t')%Z / c (k - 1 - Z.of_nat t')%Z * tvec c d k t')%R end.

Lemma tchol_proof : exists B, symtri_cholesky A = Some B /\ bi_ok B /\ bi_n B = n /\
  ((forall i, 0 <= i < n -> (0 < bi_mat B i i)%R) -> same_matrix n n (matmul n (transp (bi_mat B)) (bi_mat B)) (st_mat A)) /\
  (positive_definite n (st_mat A) -> forall i, 0 <= i < n -> (0 < bi_mat B i i)%R).
Proof.
  destruct tchol_all as (B & E & HB & HBn & Lc & Ld & V0 & V1 & V2). exists B. split; [auto|]. split; [auto|]. split; [auto|].
  assert (H1 : 1 <= n) by (destruct HA; auto).
  set (c := fun i => g (bi_c B) i) in *. set (d := fun i => g (bi_d B) i) in *.
  assert (Bb : forall i, 0 <= i < n - 1 -> (0 < c i)%R -> (c i * d i = b i)%R).
  { intros i Hi Hc. unfold d. rewrite V1 by auto. fold (c i). field. lra. }
  assert (Ba : forall i, 0 <= i < n - 1 -> (0 < c (i + 1)%Z)%R -> (c (i + 1)%Z * c (i + 1)%Z + d i * d i = a (i + 1)%Z)%R).
  { intros i Hi Hc. unfold c in *. rewrite V2 in * by auto. fold (d i) in *.
    destruct (Rlt_dec 0 (a (i + 1)%Z - d i * d i)); [|rewrite sqrt_neg_0 in Hc by lra; lra]. rewrite sqrt_sqrt by lra. lra. }
  assert (Ba0 : (0 < c 0%Z)%R -> (c 0%Z * c 0%Z = a 0%Z)%R).
  { intros Hc. unfold c in *. rewrite V0 in *. destruct (Rlt_dec 0 (a 0%Z)); [|rewrite sqrt_neg_0 in Hc by lra; lra]. rewrite sqrt_sqrt by lra. lra. }
  split.
  - intros Hp r s Hr Hs. setoid_rewrite bi_d0 in Hp. fold c in Hp.
    assert (Em : matmul n (transp (bi_mat B)) (bi_mat B) r s = matvec n (transp (bi_mat B)) (fun k => bi_mat B k s) r) by reflexivity.
    rewrite Em. rewrite <- HBn. rewrite bi_mvT by lia. fold (c r) (d (r - 1)).
    unfold st_mat. destruct (Z.eqb_spec r s).
    + subst s. rewrite bi_d0, bi_u'. fold (c r) (d (r - 1)). fold (a r). destruct (Z.ltb_spec 0 r).
      * rewrite <- (Z.sub_add 1 r) at 5. rewrite <- Ba by (try lia; apply Hp; lia). replace (r - 1 + 1) with r by lia. ring.
      * replace r with 0 by lia. rewrite Rplus_0_r. apply Ba0. apply Hp. lia.
    + destruct (Z.eqb_spec s (r + 1)).
      * subst s. rewrite bi_u. fold (d r) (b r). rewrite <- Bb by (try lia; apply Hp; lia).
        rewrite (bi_far B (r - 1)) by lia. destruct (0 <? r); ring.
      * destruct (Z.eqb_spec r (s + 1)).
        -- subst r. rewrite bi_l'. replace (s + 1 - 1) with s by lia. rewrite bi_d0. replace (0 <? s + 1) with true by lia. fold (c s) (d s) (b s).
           rewrite <- Bb by (try lia; apply Hp; lia). ring.
        -- rewrite (bi_far B r s) by lia.
           assert (Q : bi_mat B (r - 1) s = 0%R) by (unfold bi_mat; replace (r - 1 =? s) with false by lia; now replace (s =? r - 1 + 1) with false by lia).
           rewrite Q. destruct (0 <? r); ring.
  - intros HP. setoid_rewrite bi_d0. fold c.
    assert (Hk : forall m : nat, forall k, 0 <= k < Z.of_nat m -> k < n -> (0 < c k)%R); [|intros i Hi; apply (Hk (Z.to_nat (i + 1))); lia].
    induction m; intros k Hk Hkn; [lia|]. destruct (Z.eq_dec k (Z.of_nat m)) as [Ek|]; [|apply IHm; lia].
    assert (IH : forall i, 0 <= i < k -> (0 < c i)%R) by (intros; apply IHm; lia). assert (K0 : 0 <= k) by lia. clear IHm Hk Ek m.
    (* the pivot is x^T A x for the test vector x *)
    set (s := if 0 <? k then (a k - d (k - 1)%Z * d (k - 1)%Z)%R else a k).
    assert (Ec : c k = sqrt s).
    { unfold s. destruct (Z.ltb_spec 0 k).
      - unfold c. replace k with (k - 1 + 1) at 1 by lia. rewrite V2 by lia. replace (k - 1 + 1) with k by lia. reflexivity.
      - replace k with 0 by lia. exact V0. }
    rewrite Ec. apply sqrt_lt_R0.
    set (x := fun i => if (0 <=? i) && (i <=? k) then tvec c d k (Z.to_nat (k - i)) else 0%R).
    assert (Xk : x k = 1%R). { unfold x. replace ((0 <=? k) && (k <=? k)) with true by lia. now rewrite Z.sub_diag. }
    assert (Xs : forall i, 0 <= i < k -> (c i * x i + d i * x (i + 1)%Z = 0)%R).
    { intros i Hi. unfold x. replace ((0 <=? i) && (i <=? k)) with true by lia. replace ((0 <=? i + 1) && (i + 1 <=? k)) with true by lia.
      replace (Z.to_nat (k - i)) with (S (Z.to_nat (k - (i + 1)))) by lia. cbn [tvec].
      replace (k - 1 - Z.of_nat (Z.to_nat (k - (i + 1)))) with i by lia. field. specialize (IH i Hi). lra. }
    assert (Xo : forall i, k < i -> x i = 0%R). { intros i Hi. unfold x. now replace ((0 <=? i) && (i <=? k)) with false by lia. }
    assert (Hq : forall i, 0 <= i < n -> (x i * matvec n (st_mat A) x i = if (i =? k)%Z then s else 0)%R).
    { intros i Hi. rewrite mv3 by (auto; intros; apply st_far; lia). rewrite st_d, st_u, st_l. fold (a i) (b i) (b (i - 1)%Z).
      destruct (Z.compare_spec i k) as [->|Hik|Hik].
      - rewrite Z.eqb_refl, Xk, (Xo (k + 1)) by lia. unfold s. destruct (Z.ltb_spec 0 k).
        + specialize (Xs (k - 1) ltac:(lia)). replace (k - 1 + 1) with k in Xs by lia. rewrite Xk in Xs.
          rewrite <- (Bb (k - 1)) by (try lia; apply IH; lia).
          assert (Q : (c (k - 1)%Z * d (k - 1)%Z * x (k - 1)%Z = - (d (k - 1)%Z * d (k - 1)%Z))%R).
          { replace (c (k - 1)%Z * d (k - 1)%Z * x (k - 1)%Z)%R with (d (k - 1)%Z * (c (k - 1)%Z * x (k - 1)%Z))%R by ring.
            replace (c (k - 1)%Z * x (k - 1)%Z)%R with (- d (k - 1)%Z)%R by lra. ring. }
          rewrite Q. destruct (k + 1 <? n); ring.
        + destruct (k + 1 <? n); ring.
      - replace (i =? k) with false by lia. replace (i + 1 <? n) with true by lia.
        rewrite <- (Bb i) by (try lia; apply IH; lia). pose proof (Xs i ltac:(lia)) as Xi.
        destruct (Z.ltb_spec 0 i).
        + specialize (Xs (i - 1) ltac:(lia)). replace (i - 1 + 1) with i in Xs by lia.
          rewrite <- (Bb (i - 1)) by (try lia; apply IH; lia).
          pose proof (Ba (i - 1) ltac:(lia)) as Q. replace (i - 1 + 1) with i in Q by lia. specialize (Q (IH i ltac:(lia))). rewrite <- Q.
          replace (c (i - 1)%Z * d (i - 1)%Z * x (i - 1)%Z)%R with (d (i - 1)%Z * (c (i - 1)%Z * x (i - 1)%Z))%R by ring.
          replace (c (i - 1)%Z * x (i - 1)%Z)%R with (- (d (i - 1)%Z * x i))%R by lra.
          replace (x i * (d (i - 1)%Z * - (d (i - 1)%Z * x i) + (c i * c i + d (i - 1)%Z * d (i - 1)%Z) * x i + c i * d i * x (i + 1)%Z))%R
            with (x i * c i * (c i * x i + d i * x (i + 1)%Z))%R by ring. rewrite Xi. ring.
        + replace i with 0 in * by lia. rewrite <- Ba0 by (apply IH; lia).
          replace (x 0%Z * (0 + c 0%Z * c 0%Z * x 0%Z + c 0%Z * d 0%Z * x (0 + 1)%Z))%R with (x 0%Z * c 0%Z * (c 0%Z * x 0%Z + d 0%Z * x (0 + 1)%Z))%R by ring.
          rewrite Xi. ring.
      - replace (i =? k) with false by lia. rewrite (Xo i) by lia. ring. }
    specialize (HP x). rewrite (sumZ_ext n _ (fun i => if i =? k then s else 0%R)) in HP by (intros; now apply Hq).
    rewrite (sumZ_single n k) in HP by (try lia; intros i Hi Ni; now replace (i =? k) with false by lia). rewrite Z.eqb_refl in HP.
    apply HP. exists k. split; [lia|]. rewrite Xk. lra.
Qed.
End Chol.

(** ** skew_to_symmetric_tridiagonal *)
Lemma set_loop k (body : Z -> list R -> option (list R)) (val : Z -> R) (y : list R) : 0 <= k <= zlen y ->
  (forall i y', 0 <= i < k -> zlen y' = zlen y -> body i y' = Some (zupd y' i (val i))) ->
  exists y', for_up 0 k body y = Some y' /\ zlen y' = zlen y /\
    forall p, g y' p = if (0 <=? p) && (p <? k) then val p else g y p.
Proof. intros Hk Hb. apply (rows_loop 0 k body (fun i _ => val i) y); try lia. intros. now apply Hb. Qed.

Lemma kt_sq A i j : 0 <= i -> i < kt_n A -> 0 <= j < kt_n A -> matmul (kt_n A) (transp (kt_mat A)) (kt_mat A) i j =
  ((if 0 <? i then g (kt_b A) (i - 1) * kt_mat A (i - 1)%Z j else 0) - (if (i + 1 <? kt_n A)%Z then g (kt_b A) i * kt_mat A (i + 1)%Z j else 0))%R.
Proof.
  intros H0 H1 Hj. change (matmul (kt_n A) (transp (kt_mat A)) (kt_mat A) i j) with (matvec (kt_n A) (transp (kt_mat A)) (fun k => kt_mat A k j) i).
  rewrite mv3; [|lia|intros; rewrite kt_t, kt_far by lia; lra]. rewrite !kt_t, kt_d, kt_u, kt_l. destruct (0 <? i), (i + 1 <? kt_n A); ring.
Qed.
Lemma skew_proof A (Ba Bb Ca Cb : list R) : kt_ok A -> 2 <= kt_n A ->
  let n := kt_n A in
  (n + 1) / 2 <= zlen Ba -> (n + 1) / 2 - 1 <= zlen Bb -> n / 2 <= zlen Ca -> n / 2 - 1 <= zlen Cb ->
  exists Ba' Bb' Ca' Cb', skew_to_symmetric A Ba Bb Ca Cb = Some (Ba', Bb', Ca', Cb') /\
    forall i j, 0 <= i < n -> 0 <= j < n -> matmul n (transp (kt_mat A)) (kt_mat A) i j =
      if (i mod 2 =? 0) && (j mod 2 =? 0) then st_mat (SymTri Ba' Bb' ((n + 1) / 2)) (i / 2) (j / 2)
      else if (i mod 2 =? 1) && (j mod 2 =? 1) then st_mat (SymTri Ca' Cb' (n / 2)) (i / 2) (j / 2)
      else 0%R.
Proof.
  intros (H1 & H2) Hn n LBa LBb LCa LCb. unfold skew_to_symmetric. fold n in Hn, H2 |- *. set (b := kt_b A) in *.
  replace (0 <? n) with true by lia. rewrite gget by lia. cbn [obind]. rewrite zset_some by lia. cbn [obind].
  set (Ba0 := zupd Ba 0 _). assert (L0 : zlen Ba0 = zlen Ba) by apply zlen_zupd.
  destruct (rows_loop 1 (n / 2) (fun i Ba => do p <- zget b (2 * i - 1); do q <- zget b (2 * i); zset Ba i (add (mul p p) (mul q q)))
    (fun i _ => (g b (2 * i - 1) * g b (2 * i - 1) + g b (2 * i) * g b (2 * i))%R) Ba0) as (Ba1 & E1 & L1 & V1); try lia.
  { intros i y' Hi Ly. rewrite !gget by lia. cbn [obind]. rewrite zset_some by lia. reflexivity. }
  rewrite E1. cbn [obind].
  assert (exists Ba2, (if n mod 2 =? 1 then do p <- zget b (n - 2); zset Ba1 (n / 2) (mul p p) else Some Ba1) = Some Ba2 /\
     forall p, g Ba2 p = if (n mod 2 =? 1) && (p =? n / 2) then (g b (n - 2) * g b (n - 2))%R else g Ba1 p) as (Ba2 & E2 & V2).
  { destruct (Z.eqb_spec (n mod 2) 1).
    - rewrite !gget by lia. cbn [obind]. rewrite zset_some by lia. eexists; split; [reflexivity|]. intros p. rewrite nthZ_zupd by lia. cbn [andb]. rewrite (Z.eqb_sym p). reflexivity.
    - eexists; split; [reflexivity|]. auto. }
  rewrite E2. cbn [obind].
  destruct (set_loop ((n - 1) / 2) (fun i Bb => do p <- zget b (2 * i); do q <- zget b (2 * i + 1); zset Bb i (mul (opp p) q))
    (fun i => (- g b (2 * i) * g b (2 * i + 1))%R) Bb) as (Bb' & E3 & L3 & V3); try lia.
  { intros i y' Hi Ly. rewrite !gget by lia. cbn [obind]. rewrite zset_some by lia. reflexivity. }
  rewrite E3. cbn [obind].
  destruct (set_loop ((n - 1) / 2) (fun i Ca => do p <- zget b (2 * i); do q <- zget b (2 * i + 1); zset Ca i (add (mul p p) (mul q q)))
    (fun i => (g b (2 * i) * g b (2 * i) + g b (2 * i + 1) * g b (2 * i + 1))%R) Ca) as (Ca1 & E4 & L4 & V4); try lia.
  { intros i y' Hi Ly. rewrite !gget by lia. cbn [obind]. rewrite zset_some by lia. reflexivity. }
  rewrite E4. cbn [obind].
  assert (exists Ca2, (if n mod 2 =? 0 then do p <- zget b (n - 2); zset Ca1 (n / 2 - 1) (mul p p) else Some Ca1) = Some Ca2 /\
     forall p, g Ca2 p = if (n mod 2 =? 0) && (p =? n / 2 - 1) then (g b (n - 2) * g b (n - 2))%R else g Ca1 p) as (Ca2 & E5 & V5).
  { destruct (Z.eqb_spec (n mod 2) 0).
    - rewrite !gget by lia. cbn [obind]. rewrite zset_some by lia. eexists; split; [reflexivity|]. intros p. rewrite nthZ_zupd by lia. cbn [andb]. rewrite (Z.eqb_sym p). reflexivity.
    - eexists; split; [reflexivity|]. auto. }
  rewrite E5. cbn [obind].
  destruct (set_loop (n / 2 - 1) (fun i Cb => do p <- zget b (2 * i + 1); do q <- zget b (2 * i + 2); zset Cb i (mul (opp p) q))
    (fun i => (- g b (2 * i + 1) * g b (2 * i + 2))%R) Cb) as (Cb' & E6 & L6 & V6); try lia.
  { intros i y' Hi Ly. rewrite !gget by lia. cbn [obind]. rewrite zset_some by lia. reflexivity. }
  rewrite E6. cbn [obind]. do 4 eexists. split; [reflexivity|].
  intros i j Hi Hj. unfold n at 1. rewrite kt_sq by (fold n; lia). fold n b. unfold kt_mat. fold b.
  destruct (Z.eq_dec i j) as [->|Nij]; [|destruct (Z.eq_dec j (i + 2)) as [->|Nij2]; [|destruct (Z.eq_dec i (j + 2)) as [->|Nij3]]].
  - (* diagonal *)
    replace (j =? j - 1 + 1) with true by lia. replace (j =? j + 1 + 1) with false by lia. replace (j + 1 =? j + 1) with true by lia.
    assert (Hm : j mod 2 = 0 \/ j mod 2 = 1) by lia. destruct Hm as [Hm|Hm]; rewrite Hm; cbn [Z.eqb Pos.eqb andb]; unfold st_mat; rewrite Z.eqb_refl; cbn [st_a].
    + rewrite V2. destruct ((n mod 2 =? 1) && (j / 2 =? n / 2)) eqn:Q.
      * replace (0 <? j) with true by lia. replace (j + 1 <? n) with false by lia. replace (j - 1) with (n - 2) by lia. ring.
      * rewrite V1. unfold Ba0. rewrite nthZ_zupd by lia. replace (j + 1 <? n) with true by lia. replace (2 * (j / 2)) with j by lia.
        destruct (Z.ltb_spec 0 j).
        -- replace ((1 <=? j / 2) && (j / 2 <? n / 2)) with true by lia. ring.
        -- replace j with 0 by lia. cbn. ring.
    + rewrite V5. replace (0 <? j) with true by lia. destruct ((n mod 2 =? 0) && (j / 2 =? n / 2 - 1)) eqn:Q.
      * replace (j + 1 <? n) with false by lia. replace (j - 1) with (n - 2) by lia. ring.
      * rewrite V4. replace (j + 1 <? n) with true by lia. replace ((0 <=? j / 2) && (j / 2 <? (n - 1) / 2)) with true by lia.
        replace (2 * (j / 2) + 1) with j by lia. replace (2 * (j / 2)) with (j - 1) by lia. ring.
  - (* j = i+2 *)
    replace (i + 2 =? i - 1 + 1) with false by lia. replace (i - 1 =? i + 2 + 1) with false by lia. replace (i + 2 =? i + 1 + 1) with true by lia.
    replace (i + 1 <? n) with true by lia. replace (if 0 <? i then (g b (i - 1) * 0)%R else 0%R) with 0%R by (destruct (0 <? i); lra).
    replace ((i + 2) mod 2) with (i mod 2) by lia. replace ((i + 2) / 2) with (i / 2 + 1) by lia.
    assert (Hm : i mod 2 = 0 \/ i mod 2 = 1) by lia. destruct Hm as [Hm|Hm]; rewrite Hm; cbn [Z.eqb Pos.eqb andb]; unfold st_mat;
      replace (i / 2 =? i / 2 + 1) with false by lia; rewrite Z.eqb_refl; cbn [st_b].
    + rewrite V3. replace ((0 <=? i / 2) && (i / 2 <? (n - 1) / 2)) with true by lia. replace (2 * (i / 2)) with i by lia. ring.
    + rewrite V6. replace ((0 <=? i / 2) && (i / 2 <? n / 2 - 1)) with true by lia. replace (2 * (i / 2) + 1) with i by lia. replace (2 * (i / 2) + 2) with (i + 1) by lia. ring.
  - (* i = j+2 *)
    replace (0 <? j + 2) with true by lia. replace (j =? j + 2 - 1 + 1) with false by lia. replace (j + 2 - 1 =? j + 1) with true by lia.
    replace (j =? j + 2 + 1 + 1) with false by lia. replace (j + 2 + 1 =? j + 1) with false by lia.
    replace (if (j + 2 + 1 <? n)%Z then (g b (j + 2) * 0)%R else 0%R) with 0%R by (destruct (j + 2 + 1 <? n); lra).
    replace ((j + 2) mod 2) with (j mod 2) by lia. replace ((j + 2) / 2) with (j / 2 + 1) by lia. replace (j + 2 - 1) with (j + 1) by lia.
    assert (Hm : j mod 2 = 0 \/ j mod 2 = 1) by lia. destruct Hm as [Hm|Hm]; rewrite Hm; cbn [Z.eqb Pos.eqb andb]; unfold st_mat;
      replace (j / 2 + 1 =? j / 2) with false by lia; replace (j / 2 =? j / 2 + 1 + 1) with false by lia; rewrite Z.eqb_refl; cbn [st_b].
    + rewrite V3. replace ((0 <=? j / 2) && (j / 2 <? (n - 1) / 2)) with true by lia. replace (2 * (j / 2)) with j by lia. ring.
    + rewrite V6. replace ((0 <=? j / 2) && (j / 2 <? n / 2 - 1)) with true by lia. replace (2 * (j / 2) + 1) with j by lia. replace (2 * (j / 2) + 2) with (j + 1) by lia. ring.
  - (* otherwise zero *)
    replace (j =? i - 1 + 1) with false by lia. replace (i - 1 =? j + 1) with false by lia. replace (j =? i + 1 + 1) with false by lia. replace (i + 1 =? j + 1) with false by lia.
    transitivity 0%R; [destruct (0 <? i), (i + 1 <? n); lra|].
    destruct ((i mod 2 =? 0) && (j mod 2 =? 0)) eqn:Q1; [|destruct ((i mod 2 =? 1) && (j mod 2 =? 1)) eqn:Q2; auto]; unfold st_mat;
      replace (i / 2 =? j / 2) with false by lia; replace (j / 2 =? i / 2 + 1) with false by lia; now replace (i / 2 =? j / 2 + 1) with false by lia.
Qed.
