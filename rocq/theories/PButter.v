(** * Proofs about the divide-and-conquer eigenvector plans *)
From Coq Require Import ZArith List Lia Bool Reals Lra ZifyBool ZifyNat.
From Verif Require Import Arith Base BaseFacts SpecSum PSum SpecLin SpecBanded PTri PTri2 MBanded MHier SpecHier PHier2 PHierThms MButter SpecButter.
Import ListNotations.
Open Scope Z_scope.

Lemma eqR_refl i : eqR i i = 1%R.
Proof. unfold eqR. now rewrite Z.eqb_refl. Qed.
Lemma eqR_neq i j : i <> j -> eqR i j = 0%R.
Proof. intros. unfold eqR. now destruct (Z.eqb_spec i j). Qed.

Lemma gather_spec m p Z_ oz x ox t ot : 0 <= m -> m <= zlen p -> (forall i, 0 <= i < m -> 0 <= nthZ 0 p i + oz < zlen Z_ /\ 0 <= nthZ 0 p i + ox < zlen x) ->
  fits ot m t -> exists t', gather_mul m p Z_ oz x ox t ot = Some t' /\
    writes ot m t t' (fun i => (nthZ 0 Z_ (nthZ 0 p i + oz)%Z * nthZ 0 x (nthZ 0 p i + ox)%Z)%R).
Proof.
  intros Hm Hp Hr [Ht0 Ht1]. unfold gather_mul.
  set (val := fun i => (nthZ 0 Z_ (nthZ 0 p i + oz)%Z * nthZ 0 x (nthZ 0 p i + ox)%Z)%R).
  destruct (for_up_inv (fun j t1 => zlen t1 = zlen t /\ (forall i, 0 <= i < j -> zget t1 (ot + i) = Some (val i)) /\ (forall q, q < ot \/ ot + j <= q -> zget t1 q = zget t q)) 0 m
    (fun i t => do a <- zget p i; do c <- zget Z_ (a + oz); do v <- zget x (a + ox); zset t (ot + i) (mul c v)) t) as [t' [E (L & G & O)]]; auto.
  - split; auto. split; auto. intros; lia.
  - intros i t1 Hi (L & G & O). rewrite (zget_nthZ 0 p) by lia. cbn [obind]. destruct (Hr i Hi) as [H1 H2].
    rewrite (zget_nthZ 0%R Z_), (zget_nthZ 0%R x) by lia. cbn [obind]. rewrite zset_some by lia. eexists; split; [reflexivity|].
    rewrite zlen_zupd. split; auto. split.
    + intros q Hq. destruct (Z.eq_dec q i) as [->|]; [rewrite zget_zupd_same by lia; reflexivity|]. rewrite zget_zupd_other by lia. apply G; lia.
    + intros q Hq. rewrite zget_zupd_other by lia. apply O. lia.
  - exists t'. split; auto. split; auto.
Qed.

Lemma scatter_spec m M p Z_ oz t ot x ox : 0 <= m -> m <= zlen p -> (forall i, 0 <= i < m -> 0 <= nthZ 0 p i < M) -> 0 <= oz -> M + oz <= zlen Z_ ->
  fits ox M x -> fits ot m t -> exists x', scatter_mul m p Z_ oz t ot x ox = Some x' /\
    writes ox M x x' (fun a => (vec ox x a + sumZ m (fun i => eqR (nthZ 0%Z p i) a * vec ot t i * nthZ 0 Z_ (a + oz)%Z))%R).
Proof.
  intros Hm Hp Hr Hoz HZ [Hx0 Hx1] [Ht0 Ht1]. unfold scatter_mul.
  destruct (for_up_inv (fun j x1 => zlen x1 = zlen x /\ (forall a, 0 <= a < M -> zget x1 (ox + a) = Some (vec ox x a + sumZ j (fun i => eqR (nthZ 0%Z p i) a * vec ot t i * nthZ 0 Z_ (a + oz)%Z))%R) /\ (forall q, q < ox \/ ox + M <= q -> zget x1 q = zget x q)) 0 m
    (fun i x => do a <- zget p i; do u <- zget t (ot + i); do c <- zget Z_ (a + oz); do v <- zget x (a + ox);
    zset x (a + ox) (add v (mul u c))) x) as [x' [E (L & G & O)]]; auto.
  - split; auto. split; auto. intros a Ha. rewrite sumZ_0 by lia. rewrite Rplus_0_r. unfold vec. apply zget_nthZ. lia.
  - intros i x1 Hi (L & G & O). rewrite (zget_nthZ 0 p) by lia. cbn [obind]. specialize (Hr i Hi). set (a := nthZ 0 p i) in *.
    rewrite (zget_nthZ 0%R t), (zget_nthZ 0%R Z_) by lia. cbn [obind]. replace (a + ox) with (ox + a) by lia. rewrite (G a) by lia. cbn [obind]. rewrite zset_some by lia.
    eexists; split; [reflexivity|]. rewrite zlen_zupd. split; auto. split.
    + intros a' Ha'. rewrite sumZ_S by lia. destruct (Z.eq_dec a' a) as [->|].
      * rewrite zget_zupd_same by lia. f_equal. fold a. rewrite eqR_refl. cbn. unfold vec. lra.
      * rewrite zget_zupd_other by lia. rewrite (G a') by lia. f_equal. fold a. rewrite eqR_neq by lia. lra.
    + intros q Hq. rewrite zget_zupd_other by lia. apply O. lia.
  - exists x'. split; auto. split; auto.
Qed.

Lemma sparse_spec minus nnz pd ps v x od os M N : 0 <= nnz -> nnz <= zlen pd -> nnz <= zlen ps -> nnz <= zlen v ->
  (forall l, 0 <= l < nnz -> 0 <= nthZ 0 pd l < M /\ 0 <= nthZ 0 ps l < N) -> fits od M x -> fits os N x -> od + M <= os \/ os + N <= od ->
  exists x', sparse_mul minus nnz pd ps v x od os = Some x' /\
    writes od M x x' (fun a => (vec od x a + (if minus then -1 else 1) * sumZ nnz (fun l => eqR (nthZ 0%Z pd l) a * nthZ 0 v l * vec os x (nthZ 0%Z ps l)))%R).
Proof.
  intros Hn Hpd Hps Hv Hr [Hx0 Hx1] [Hs0 Hs1] Hdis. unfold sparse_mul.
  match goal with |- context [for_up 0 nnz ?b x] => destruct (for_up_inv (fun j x1 => zlen x1 = zlen x /\ (forall a, 0 <= a < M -> zget x1 (od + a) = Some (vec od x a + (if minus then -1 else 1) * sumZ j (fun l => eqR (nthZ 0%Z pd l) a * nthZ 0 v l * vec os x (nthZ 0%Z ps l)))%R) /\ (forall q, q < od \/ od + M <= q -> zget x1 q = zget x q)) 0 nnz b x) as [x' [E (L & G & O)]] end; auto.
  - split; auto. split; auto. intros a Ha. rewrite sumZ_0 by lia. rewrite Rmult_0_r, Rplus_0_r. unfold vec. apply zget_nthZ. lia.
  - intros l x1 Hl (L & G & O). rewrite (zget_nthZ 0 pd), (zget_nthZ 0 ps) by lia. cbn [obind]. destruct (Hr l Hl) as [H1 H2].
    set (d := nthZ 0 pd l) in *. set (s := nthZ 0 ps l) in *. rewrite (zget_nthZ 0%R v) by lia. cbn [obind].
    rewrite (O (s + os)) by lia. rewrite (zget_nthZ 0%R x) by lia. cbn [obind]. replace (d + od) with (od + d) by lia. rewrite (G d) by lia. cbn [obind]. rewrite zset_some by lia.
    eexists; split; [reflexivity|]. rewrite zlen_zupd. split; auto. split.
    + intros a' Ha'. rewrite sumZ_S by lia. fold d s. destruct (Z.eq_dec a' d) as [->|].
      * rewrite zget_zupd_same by lia. f_equal. rewrite eqR_refl. unfold vec. replace (os + s) with (s + os) by lia. destruct minus; cbn; lra.
      * rewrite zget_zupd_other by lia. rewrite (G a') by lia. f_equal. rewrite eqR_neq by lia. lra.
    + intros q Hq. rewrite zget_zupd_other by lia. apply O. lia.
  - exists x'. split; auto. split; auto.
Qed.

Lemma writes_fits {F} o n (x x' : list F) val o' n' : writes o n x x' val -> fits o' n' x -> fits o' n' x'.
Proof. intros (L & _) [H1 H2]. split; lia. Qed.
Lemma writes_vec o n (x x' : list R) val i : writes o n x x' val -> 0 <= i < n -> vec o x' i = val i.
Proof. intros (_ & G & _) Hi. unfold vec. now apply nthZ_zget, G. Qed.
Lemma writes_other o n (x x' : list R) val o' i : writes o n x x' val -> o' + i < o \/ o + n <= o' + i -> vec o' x' i = vec o' x i.
Proof. intros (_ & _ & O) Hi. unfold vec, nthZ. now rewrite O. Qed.

Lemma pick_sum m c f : 0 <= c < m -> sumZ m (fun k => eqR c k * f k)%R = f c.
Proof.
  intros Hc. rewrite (sumZ_single m c); auto.
  - rewrite eqR_refl. lra.
  - intros i Hi Hn. rewrite eqR_neq by lia. lra.
Qed.

(** one term of the coupling, in either direction *)
Definition rix (md ms : Z) (pd ps : list Z) (C : Z -> Z -> R) (a c : Z) : R :=
  sumZ md (fun i => sumZ ms (fun i' => eqR (nthZ 0%Z pd i) a * eqR (nthZ 0%Z ps i') c * C i i'))%R.
Lemma rix_apply md ms pd ps C a (g : Z -> R) : (forall i, 0 <= i < ms -> 0 <= nthZ 0 ps i < ms) ->
  sumZ ms (fun c => rix md ms pd ps C a c * g c)%R = sumZ md (fun i => eqR (nthZ 0%Z pd i) a * sumZ ms (fun i' => C i i' * g (nthZ 0%Z ps i')))%R.
Proof.
  intros Hp. rewrite (sumZ_ext ms _ (fun c => sumZ md (fun i => sumZ ms (fun i' => eqR (nthZ 0%Z pd i) a * C i i' * (eqR (nthZ 0%Z ps i') c * g c)))%R)).
  2:{ intros c Hc. unfold rix. rewrite <- sumZ_scal_r. apply sumZ_ext. intros i Hi. rewrite <- sumZ_scal_r. apply sumZ_ext. intros. lra. }
  rewrite sumZ_swap. apply sumZ_ext. intros i Hi. rewrite sumZ_swap, <- sumZ_scal. apply sumZ_ext. intros i' Hi'.
  rewrite sumZ_scal, pick_sum by auto. lra.
Qed.

Section Step.
Variables (t : bool) (alpha : R) (F0 : hmat R) (md ms : Z) (pd ps : list Z) (Zd Zs : list R) (ots otd os od k b : Z).
Hypothesis HF : h_ok F0.
Hypothesis Hd : orows t (hrows F0) (hcols F0) = md.
Hypothesis Hs : ocols t (hrows F0) (hcols F0) = ms.
Hypothesis Hmd : 0 <= md.
Hypothesis Hms : 0 <= ms.
Hypothesis Hpd : indices md pd.
Hypothesis Hps : indices ms ps.
Hypothesis HZd : md * b <= zlen Zd.
Hypothesis HZs : ms * b <= zlen Zs.
Hypothesis Hk : 0 <= k < b.
Hypothesis Hdis : od + md <= os \/ os + ms <= od.
Lemma step_spec x ts td : fits os ms x -> fits od md x -> fits ots ms ts -> fits otd md td ->
  exists ts' td' x', gather_mul ms ps Zs (k * ms) x os ts ots = Some ts' /\ ghmv t alpha F0 ts' ots zero td otd = Some td' /\
    scatter_mul md pd Zd (k * md) td' otd x od = Some x' /\ zlen ts' = zlen ts /\ zlen td' = zlen td /\
    writes od md x x' (fun a => (vec od x a + alpha * sumZ ms (fun c => rix md ms pd ps (op t (h_mat F0)) a c * (mat 0 md Zd a k * mat 0 ms Zs c k) * vec os x c))%R).
Proof.
  intros Hxs Hxd Hts Htd. destruct Hpd as [Lpd Rpd], Hps as [Lps Rps].
  assert (K1 : 0 <= k * ms) by (clear - Hk Hms; nia). assert (K2 : k * ms + ms <= ms * b) by (clear - Hk Hms; nia).
  assert (K3 : 0 <= k * md) by (clear - Hk Hmd; nia). assert (K4 : k * md + md <= md * b) by (clear - Hk Hmd; nia).
  destruct Hxs as [X1 X2].
  destruct (gather_spec ms ps Zs (k * ms) x os ts ots) as (ts' & E1 & W1); auto.
  { intros i Hi. specialize (Rps i Hi). split; lia. }
  destruct (ghmv_proof t alpha F0 ts' ots 0%R td otd) as (td' & E2 & W2); auto.
  { rewrite Hs. eapply writes_fits; eauto. } { now rewrite Hd. }
  rewrite Hs, Hd in W2.
  destruct (scatter_spec md md pd Zd (k * md) td' otd x od) as (x' & E3 & W3); auto; try lia.
  { eapply writes_fits; eauto. }
  exists ts', td', x'. split; auto. split; auto. split; auto. split; [apply W1|]. split; [apply W2|].
  destruct W3 as (L3 & G3 & O3). split; auto. split; auto. intros a Ha. rewrite G3 by auto. f_equal. f_equal.
  rewrite <- sumZ_scal. symmetry.
  rewrite (sumZ_ext ms _ (fun c => rix md ms pd ps (op t (h_mat F0)) a c * (alpha * mat 0 md Zd a k * (mat 0 ms Zs c k * vec os x c)))%R) by (intros; lra).
  rewrite (rix_apply md ms pd ps _ a (fun c => alpha * mat 0 md Zd a k * (mat 0 ms Zs c k * vec os x c))%R) by auto.
  apply sumZ_ext. intros i Hi. rewrite (writes_vec _ _ _ _ _ _ W2) by auto. rewrite Rmult_0_l, Rplus_0_r. unfold matvec.
  replace (nthZ 0%R Zd (a + k * md)) with (mat 0 md Zd a k) by (unfold mat; f_equal; lia).
  rewrite (sumZ_ext ms (fun i' => op t (h_mat F0) i i' * (alpha * mat 0 md Zd a k * (mat 0 ms Zs (nthZ 0%Z ps i') k * vec os x (nthZ 0%Z ps i'))))%R
     (fun i' => (alpha * mat 0 md Zd a k) * (op t (h_mat F0) i i' * vec ots ts' i'))%R).
  - rewrite sumZ_scal. lra.
  - intros i' Hi'. rewrite (writes_vec _ _ _ _ _ _ W1) by auto. unfold mat, vec.
    replace (0 + (nthZ 0 ps i' + k * ms)) with (nthZ 0 ps i' + k * ms) by lia. replace (os + nthZ 0 ps i') with (nthZ 0 ps i' + os) by lia. lra.
Qed.
End Step.

Lemma rix_transp md ms pd ps C a c : rix md ms pd ps (transp C) a c = reindexed ms md ps pd C c a.
Proof.
  unfold rix, reindexed, transp. rewrite sumZ_swap. apply sumZ_ext. intros i Hi. apply sumZ_ext. intros. lra.
Qed.

Section Couple.
Variables (tn n b : Z) (F0 : hmat R) (X Y : list R) (p1 p2 : list Z) (Sp : sparse R) (t1 t2 : list R).
Let s := n / 2.
Let m := n - n / 2.
Hypothesis Hn : 0 <= n.
Hypothesis Htn : 0 <= tn.
Hypothesis Hb : 0 <= b.
Hypothesis HF : h_ok F0.
Hypothesis Hr : hrows F0 = s.
Hypothesis Hc : hcols F0 = m.
Hypothesis HX : s * b <= zlen X.
Hypothesis HY : m * b <= zlen Y.
Hypothesis Hp1 : indices s p1.
Hypothesis Hp2 : indices m p2.
Hypothesis HS : sp_ok s m Sp.
Hypothesis Ht1 : s * (tn + 1) <= zlen t1.
Hypothesis Ht2 : m * (tn + 1) <= zlen t2.
Let W := coupling s m b F0 X Y p1 p2 Sp.
Lemma s_range : 0 <= s /\ 0 <= m /\ s + m = n.
Proof. unfold s, m. lia. Qed.

Lemma couple_N sg (minus : bool) x o : sg = (if minus then -1 else 1)%R -> fits o n x ->
  exists x', couple tn false (- sg)%R minus n s b F0 X Y p1 p2 Sp t1 t2 x o = Some x' /\
    writes o s x x' (fun a => (vec o x a + sg * matvec m W (vec (o + s) x) a)%R).
Proof.
  intros Hsg [Ho1 Ho2]. destruct s_range as (Hs0 & Hm0 & Hsm). unfold couple. change (n - s) with m.
  assert (T1 : 0 <= s * tn) by (apply Z.mul_nonneg_nonneg; auto). assert (T2 : 0 <= m * tn) by (apply Z.mul_nonneg_nonneg; auto).
  set (val := fun j a : Z => (vec o x a + - sg * sumZ j (fun k => sumZ m (fun c => rix s m p1 p2 (h_mat F0) a c * (mat 0 s X a k * mat 0 m Y c k) * vec (o + s) x c)))%R).
  match goal with |- context [for_up 0 b ?f ?st] => destruct (for_up_inv (fun j (pq : list R * list R * list R) => let '(x1, u1, u2) := pq in zlen u1 = zlen t1 /\ zlen u2 = zlen t2 /\ writes o s x x1 (val j)) 0 b f st) as [[[x1 u1] u2] [E (L1 & L2 & W1)]] end; auto.
  - split; auto. split; auto. split; auto. split; auto. intros a Ha. unfold val. rewrite sumZ_0 by lia. rewrite Rmult_0_r, Rplus_0_r. unfold vec. apply zget_nthZ. lia.
  - intros k [[x1 u1] u2] Hk (L1 & L2 & W1).
    destruct (step_spec false (- sg)%R F0 s m p1 p2 X Y (m * tn) (s * tn) (o + s) o k b) with (x := x1) (ts := u2) (td := u1) as (u2' & u1' & x2 & E1 & E2 & E3 & L3 & L4 & W2); auto; try lia.
    { apply (writes_fits _ _ _ _ _ _ _ W1). split; lia. } { apply (writes_fits _ _ _ _ _ _ _ W1). split; lia. }
    { split; lia. } { split; lia. }
    rewrite E1. cbn [obind]. rewrite E2. cbn [obind]. rewrite E3. cbn [obind]. eexists; split; [reflexivity|]. split; [lia|]. split; [lia|].
    destruct W1 as (A1 & A2 & A3), W2 as (B1 & B2 & B3). split; [lia|]. split.
    + intros a Ha. rewrite B2 by auto. f_equal. unfold val. rewrite sumZ_S by lia. replace (vec o x1 a) with (val k a) by (unfold vec; symmetry; now apply nthZ_zget, A2).
      unfold val. cbn [op]. rewrite Rmult_plus_distr_l, <- Rplus_assoc. f_equal. f_equal. apply sumZ_ext. intros c Hc'. f_equal. unfold vec, nthZ. now rewrite A3 by lia.
    + intros q Hq. rewrite B3 by lia. now apply A3.
  - rewrite E. cbn [obind fst]. destruct HS as (S1 & S2 & S3 & S4 & S5).
    destruct (sparse_spec minus (sp_nnz Sp) (sp_p Sp) (sp_q Sp) (sp_v Sp) x1 o (o + s) s m) as (x2 & E2 & W2); auto; try lia.
    { apply (writes_fits _ _ _ _ _ _ _ W1). split; lia. } { apply (writes_fits _ _ _ _ _ _ _ W1). split; lia. }
    rewrite E2. eexists; split; [reflexivity|]. destruct W1 as (A1 & A2 & A3), W2 as (B1 & B2 & B3). split; [lia|]. split.
    + intros a Ha. rewrite B2 by auto. f_equal. replace (vec o x1 a) with (val b a) by (unfold vec; symmetry; now apply nthZ_zget, A2).
      unfold val. rewrite <- Hsg, Rplus_assoc. f_equal. unfold matvec.
      rewrite (sumZ_ext m (fun k => W a k * vec (o + s) x k)%R (fun c => - (sumZ b (fun k => rix s m p1 p2 (h_mat F0) a c * (mat 0 s X a k * mat 0 m Y c k) * vec (o + s) x c)) + sp_mat Sp a c * vec (o + s) x c)%R).
      2:{ intros c Hc'. unfold W, coupling. rewrite sumZ_scal_r, sumZ_scal. change (rix s m p1 p2 (h_mat F0) a c) with (reindexed s m p1 p2 (h_mat F0) a c). lra. }
      rewrite sumZ_plus. rewrite (sumZ_ext m (fun c => - sumZ b _)%R (fun c => (-1) * sumZ b (fun k => rix s m p1 p2 (h_mat F0) a c * (mat 0 s X a k * mat 0 m Y c k) * vec (o + s) x c))%R) by (intros; lra).
      rewrite sumZ_scal, sumZ_swap.
      replace (sumZ m (fun i => sp_mat Sp a i * vec (o + s) x i))%R with (sumZ (sp_nnz Sp) (fun l => eqR (nthZ 0%Z (sp_p Sp) l) a * nthZ 0 (sp_v Sp) l * vec (o + s) x1 (nthZ 0%Z (sp_q Sp) l)))%R; [lra|].
      unfold sp_mat. rewrite (sumZ_ext m _ (fun c => sumZ (sp_nnz Sp) (fun l => eqR (nthZ 0%Z (sp_p Sp) l) a * nthZ 0 (sp_v Sp) l * (eqR (nthZ 0%Z (sp_q Sp) l) c * vec (o + s) x c)))%R).
      2:{ intros c Hc'. rewrite <- sumZ_scal_r. apply sumZ_ext. intros. lra. }
      rewrite sumZ_swap. apply sumZ_ext. intros l Hl. rewrite sumZ_scal, pick_sum by (apply S5; auto). f_equal. unfold vec, nthZ at 1. rewrite A3 by (specialize (S5 l Hl); lia). reflexivity.
    + intros q Hq. rewrite B3 by lia. now apply A3.
Qed.

Lemma couple_T sg (minus : bool) x o : sg = (if minus then -1 else 1)%R -> fits o n x ->
  exists x', couple tn true (- sg)%R minus n s b F0 X Y p1 p2 Sp t1 t2 x o = Some x' /\
    writes (o + s) m x x' (fun c => (vec (o + s) x c + sg * matvec s (transp W) (vec o x) c)%R).
Proof.
  intros Hsg [Ho1 Ho2]. destruct s_range as (Hs0 & Hm0 & Hsm). unfold couple. change (n - s) with m.
  assert (T1 : 0 <= s * tn) by (apply Z.mul_nonneg_nonneg; auto). assert (T2 : 0 <= m * tn) by (apply Z.mul_nonneg_nonneg; auto).
  set (val := fun j c : Z => (vec (o + s) x c + - sg * sumZ j (fun k => sumZ s (fun a => rix m s p2 p1 (transp (h_mat F0)) c a * (mat 0 m Y c k * mat 0 s X a k) * vec o x a)))%R).
  match goal with |- context [for_up 0 b ?f ?st] => destruct (for_up_inv (fun j (pq : list R * list R * list R) => let '(x1, u1, u2) := pq in zlen u1 = zlen t1 /\ zlen u2 = zlen t2 /\ writes (o + s) m x x1 (val j)) 0 b f st) as [[[x1 u1] u2] [E (L1 & L2 & W1)]] end; auto.
  - split; auto. split; auto. split; auto. split; auto. intros a Ha. unfold val. rewrite sumZ_0 by lia. rewrite Rmult_0_r, Rplus_0_r. unfold vec. apply zget_nthZ. lia.
  - intros k [[x1 u1] u2] Hk (L1 & L2 & W1).
    destruct (step_spec true (- sg)%R F0 m s p2 p1 Y X (s * tn) (m * tn) o (o + s) k b) with (x := x1) (ts := u1) (td := u2) as (u1' & u2' & x2 & E1 & E2 & E3 & L3 & L4 & W2); auto; try lia.
    { apply (writes_fits _ _ _ _ _ _ _ W1). split; lia. } { apply (writes_fits _ _ _ _ _ _ _ W1). split; lia. }
    { split; lia. } { split; lia. }
    rewrite E1. cbn [obind]. rewrite E2. cbn [obind]. rewrite E3. cbn [obind]. eexists; split; [reflexivity|]. split; [lia|]. split; [lia|].
    destruct W1 as (A1 & A2 & A3), W2 as (B1 & B2 & B3). split; [lia|]. split.
    + intros a Ha. rewrite B2 by auto. f_equal. unfold val. rewrite sumZ_S by lia. replace (vec (o + s) x1 a) with (val k a) by (unfold vec; symmetry; now apply nthZ_zget, A2).
      unfold val. cbn [op]. rewrite Rmult_plus_distr_l, <- Rplus_assoc. f_equal. f_equal. apply sumZ_ext. intros c Hc'. f_equal. unfold vec, nthZ. now rewrite A3 by lia.
    + intros q Hq. rewrite B3 by lia. now apply A3.
  - rewrite E. cbn [obind fst]. destruct HS as (S1 & S2 & S3 & S4 & S5).
    destruct (sparse_spec minus (sp_nnz Sp) (sp_q Sp) (sp_p Sp) (sp_v Sp) x1 (o + s) o m s) as (x2 & E2 & W2); auto; try lia.
    { intros l Hl. specialize (S5 l Hl). lia. }
    { apply (writes_fits _ _ _ _ _ _ _ W1). split; lia. } { apply (writes_fits _ _ _ _ _ _ _ W1). split; lia. }
    rewrite E2. eexists; split; [reflexivity|]. destruct W1 as (A1 & A2 & A3), W2 as (B1 & B2 & B3). split; [lia|]. split.
    + intros c Hcc. rewrite B2 by auto. f_equal. replace (vec (o + s) x1 c) with (val b c) by (unfold vec; symmetry; now apply nthZ_zget, A2).
      unfold val. rewrite <- Hsg, Rplus_assoc. f_equal. unfold matvec.
      rewrite (sumZ_ext s (fun k => transp W c k * vec o x k)%R (fun a => - (sumZ b (fun k => rix m s p2 p1 (transp (h_mat F0)) c a * (mat 0 m Y c k * mat 0 s X a k) * vec o x a)) + sp_mat Sp a c * vec o x a)%R).
      2:{ intros a Ha. unfold W, transp, coupling. rewrite sumZ_scal_r, sumZ_scal. fold (transp (h_mat F0)). rewrite (rix_transp m s p2 p1 (h_mat F0) c a).
          rewrite (sumZ_ext b (fun i => mat 0 m Y c i * mat 0 s X a i)%R (fun k => mat 0 s X a k * mat 0 m Y c k)%R) by (intros; lra). lra. }
      rewrite sumZ_plus. rewrite (sumZ_ext s (fun c => - sumZ b _)%R (fun a => (-1) * sumZ b (fun k => rix m s p2 p1 (transp (h_mat F0)) c a * (mat 0 m Y c k * mat 0 s X a k) * vec o x a))%R) by (intros; lra).
      rewrite sumZ_scal, sumZ_swap.
      replace (sumZ s (fun i => sp_mat Sp i c * vec o x i))%R with (sumZ (sp_nnz Sp) (fun l => eqR (nthZ 0%Z (sp_q Sp) l) c * nthZ 0 (sp_v Sp) l * vec o x1 (nthZ 0%Z (sp_p Sp) l)))%R; [lra|].
      unfold sp_mat. rewrite (sumZ_ext s _ (fun a => sumZ (sp_nnz Sp) (fun l => eqR (nthZ 0%Z (sp_q Sp) l) c * nthZ 0 (sp_v Sp) l * (eqR (nthZ 0%Z (sp_p Sp) l) a * vec o x a)))%R).
      2:{ intros a Ha. rewrite <- sumZ_scal_r. apply sumZ_ext. intros. lra. }
      rewrite sumZ_swap. apply sumZ_ext. intros l Hl. rewrite sumZ_scal, pick_sum by (apply S5; auto). f_equal. unfold vec, nthZ at 1. rewrite A3 by (specialize (S5 l Hl); lia). reflexivity.
    + intros q Hq. rewrite B3 by lia. now apply A3.
Qed.
End Couple.
