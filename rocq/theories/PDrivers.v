(** * Drivers: every column of the result is a list of operations applied to the column *)
From Coq Require Import ZArith List Lia Bool ZifyBool ZifyNat Reals.
From Verif Require Import Base BaseFacts Arith MPermute PPermute PPermute2 MRotations SpecRot PRot PRotBlock PRotKernels
  PRotFam PRotInv PRotMore PRotThms MDrivers.
Import ListNotations.
Open Scope Z_scope.

Lemma mul_lt_le a b N : 0 <= N -> a < b -> a * N + N <= b * N. Proof. nia. Qed.

Section D.
Context {F : Type} `{Arith F}.
Variables (N M : Z).
Hypothesis HN : 0 <= N.

(** layout [D]: entry [r] of column [c] is at position [D r c] *)
Record good_layout (D : Z -> Z -> Z) : Prop := {
  gl_range : forall r c, 0 <= r < N -> 0 <= c < M -> 0 <= D r c < N * M;
  gl_inj : forall r c r' c', 0 <= r < N -> 0 <= c < M -> 0 <= r' < N -> 0 <= c' < M -> D r c = D r' c' -> r = r' /\ c = c';
  gl_onto : forall p, 0 <= p < N * M -> exists r c, 0 <= r < N /\ 0 <= c < M /\ p = D r c }.

Definition dview (D : Z -> Z -> Z) (A : list F) (c r : Z) : F :=
  if (0 <=? r) && (r <? N) then nthZ zero A (D r c) else zero.

Definition dwise (D : Z -> Z -> Z) (ops : Z -> list (op F)) (A A' : list F) : Prop :=
  zlen A' = zlen A /\ forall c r, 0 <= c < M -> dview D A' c r = run (ops c) (dview D A c) r.

Lemma dwise_refl D A : dwise D (fun _ => []) A A.
Proof. split; auto. Qed.
Lemma dwise_trans D o1 o2 A A1 A2 : dwise D o1 A A1 -> dwise D o2 A1 A2 -> dwise D (fun c => o1 c ++ o2 c) A A2.
Proof.
  intros (L1 & V1) (L2 & V2). split; [congruence|]. intros c r Hc. rewrite V2, run_app by auto.
  apply run_ext. intros; auto.
Qed.
Lemma dwise_ext D o1 o2 A A1 : (forall c, 0 <= c < M -> o1 c = o2 c) -> dwise D o1 A A1 -> dwise D o2 A A1.
Proof. intros E (L1 & V1). split; auto. intros c r Hc. rewrite V1 by auto. now rewrite E. Qed.
Lemma dwise_det D o A A1 A2 : good_layout D -> zlen A = N * M -> dwise D o A A1 -> dwise D o A A2 -> A1 = A2.
Proof.
  intros G LA (L1 & V1) (L2 & V2). apply (nthZ_ext zero); [congruence|]. intros p Hp.
  destruct (gl_onto D G p) as (r & c & Hr & Hc & ->); [lia|].
  pose proof (V1 c r Hc) as X1. rewrite <- V2 in X1 by auto. unfold dview in X1.
  now replace ((0 <=? r) && (r <? N)) with true in X1 by lia.
Qed.

Lemma lane_step D A p ops c0 W oA S : good_layout D -> zlen A = N * M -> 0 <= W <= S -> 0 <= c0 -> c0 + W <= M ->
  (forall r i, 0 <= r < N -> 0 <= i < W -> D r (c0 + i) = oA + r * S + i) ->
  real (minv oA S N W A) (mview oA S N) W p ops ->
  exists A', p A = Some A' /\ dwise D (fun c => if (c0 <=? c) && (c <? c0 + W) then ops (c - c0) else []) A A'.
Proof.
  intros G LA HW Hc0 HcM HD HR.
  assert (Ft : columns_fit A oA S N W).
  { intros r i Hr Hi. rewrite <- HD by auto. rewrite LA. apply (gl_range D G); lia. }
  destruct (HR A (minv_refl oA S N W A Ft)) as (A' & E & (L & _ & O) & V).
  exists A'. split; [exact E|]. split; [auto|]. intros c r Hc.
  destruct ((c0 <=? c) && (c <? c0 + W)) eqn:Ec.
  - assert (Hi : 0 <= c - c0 < W) by lia. specialize (V (c - c0) r Hi).
    assert (X : forall B q, mview oA S N B (c - c0) q = dview D B c q).
    { intros B q. unfold mview, dview. destruct ((0 <=? q) && (q <? N)) eqn:Eq; auto.
      unfold addr. rewrite <- HD by lia. do 2 f_equal. lia. }
    rewrite <- X, V. apply run_ext. auto.
  - cbn. unfold dview. destruct ((0 <=? r) && (r <? N)) eqn:Er; auto. unfold nthZ. rewrite O; auto.
    intros (r' & i & Hr' & Hi & E1). unfold addr in E1. rewrite <- HD in E1 by auto.
    apply (gl_inj D G) in E1; lia.
Qed.

(** column-major layout *)
Definition cm (r c : Z) := r + c * N.
Lemma cm_good : 0 <= M -> good_layout cm.
Proof.
  intros HM. unfold cm. constructor.
  - intros r c Hr Hc. nia.
  - intros r c r' c' Hr Hc Hr' Hc' E. apply (idx2_inj r c r' c' N); lia.
  - intros p Hp. apply pos_split; auto.
Qed.

(** interleaved layout behind [R] plain columns *)
Lemma ragged_good L R q : 0 < L -> 0 <= R -> 0 <= q -> M = R + q * L -> good_layout (ragged N L R cm).
Proof.
  intros HL HR Hq EM.
  assert (DB : forall r c, 0 <= r < N -> R <= c < M -> exists g i, c - R = g * L + i /\ 0 <= i < L /\ 0 <= g < q /\
     dst N L r (c - R) = g * (L * N) + (r * L + i) /\ 0 <= r * L + i < L * N).
  { intros r c Hr Hc. exists ((c - R) / L), ((c - R) mod L).
    pose proof (Z.div_mod (c - R) L ltac:(lia)). pose proof (Z.mod_pos_bound (c - R) L HL).
    assert (0 <= (c - R) / L) by (apply Z.div_pos; lia).
    assert ((c - R) / L < q) by (apply Z.div_lt_upper_bound; lia).
    unfold dst. repeat split; try lia; try nia. }
  constructor.
  - intros r c Hr Hc. unfold ragged, cm. destruct (c <? R) eqn:E; [nia|].
    destruct (DB r c Hr ltac:(lia)) as (g & i & E1 & Hi & Hg & -> & B).
    assert (g * (L * N) + L * N <= q * (L * N)) by (apply mul_lt_le; lia). nia.
  - intros r c r' c' Hr Hc Hr' Hc'. unfold ragged, cm. destruct (c <? R) eqn:E, (c' <? R) eqn:E'.
    + intros X. apply (idx2_inj r c r' c' N); lia.
    + intros X. exfalso. destruct (DB r' c' Hr' ltac:(lia)) as (g & i & E1 & Hi & Hg & E2 & B).
      rewrite E2 in X. assert (c * N + N <= R * N) by (apply mul_lt_le; lia). nia.
    + intros X. exfalso. destruct (DB r c Hr ltac:(lia)) as (g & i & E1 & Hi & Hg & E2 & B).
      rewrite E2 in X. assert (c' * N + N <= R * N) by (apply mul_lt_le; lia). nia.
    + intros X. destruct (DB r c Hr ltac:(lia)) as (g & i & E1 & Hi & Hg & E2 & B).
      destruct (DB r' c' Hr' ltac:(lia)) as (g' & i' & E1' & Hi' & Hg' & E2' & B').
      rewrite E2, E2' in X.
      destruct (idx2_inj (r * L + i) g (r' * L + i') g' (L * N)) as [Y Z]; try lia.
      destruct (idx2_inj i r i' r' L) as [Y' Z']; try lia.
  - intros p Hp. destruct (Z_lt_dec p (R * N)).
    + destruct (pos_split N R p) as (r & c & Hr & Hc & ->); try lia.
      exists r, c. split; [auto|]. split; [nia|]. unfold ragged, cm. now replace (c <? R) with true by lia.
    + destruct (pos_split (L * N) q (p - R * N)) as (x & g & Hx & Hg & E); try nia.
      assert (Hr : exists r i, 0 <= r < N /\ 0 <= i < L /\ x = i + r * L).
      { exists (x / L), (x mod L). pose proof (Z.div_mod x L ltac:(lia)). pose proof (Z.mod_pos_bound x L HL).
        split; [split; [apply Z.div_pos; lia|apply Z.div_lt_upper_bound; lia]|]. split; lia. }
      destruct Hr as (r & i & Hr & Hi & ->). exists r, (R + (g * L + i)).
      split; [auto|]. split; [nia|]. unfold ragged. replace (R + (g * L + i) <? R) with false by nia.
      replace (R + (g * L + i) - R) with (g * L + i) by lia. rewrite dst_group by lia. lia.
Qed.
Lemma ragged_lo L R r c : c < R -> ragged N L R cm r c = c * N + r * 1 + 0.
Proof. intros. unfold ragged, cm. replace (c <? R) with true by lia. lia. Qed.
Lemma ragged_hi L R r g i : 0 < L -> 0 <= g -> 0 <= i < L -> ragged N L R cm r (R + g * L + i) = (R + g * L) * N + r * L + i.
Proof.
  intros. unfold ragged. replace (R + g * L + i <? R) with false by nia.
  replace (R + g * L + i - R) with (g * L + i) by lia. rewrite dst_group by lia. lia.
Qed.
End D.

(** ** Default drivers *)
Section Def.
Context {F : Type} `{Arith F}.
Variables (N M : Z).
Hypothesis HN : 0 <= N.

(** a kernel acting on one column of stride 1 by the operations [opf m1 m2] *)
Definition acts_on_column (k : kern F) (opf : Z -> Z -> list (op F)) : Prop :=
  forall A0 oA m1 m2, 0 <= m1 <= m2 ->
    real (minv oA 1 N 1 A0) (mview oA 1 N) 1 (fun A => k m1 m2 A oA 1) (fun _ => opf m1 m2).

Definition pair_ops (opf : Z -> Z -> list (op F)) (lo hi : Z) (c : Z) : list (op F) :=
  let m := (c + 1) / 2 in if (lo <=? m) && (m <? hi) then opf (m mod 2) m else [].

Lemma sph_loop D k opf A lo hi : good_layout N M D -> zlen A = N * M -> acts_on_column k opf ->
  1 <= lo <= hi -> 2 * hi - 1 <= M -> (forall r c, 0 <= r < N -> 2 * lo - 1 <= c < 2 * hi - 1 -> D r c = c * N + r * 1 + 0) ->
  exists A', for_up lo hi (sph_body k N) A = Some A' /\ dwise N M D (pair_ops opf lo hi) A A'.
Proof.
  intros G LA HK Hlo Hhi HD.
  apply (for_up_inv (fun m X => dwise N M D (pair_ops opf lo m) A X)); [lia| |].
  - eapply dwise_ext; [|apply dwise_refl]. intros c Hc. unfold pair_ops.
    now replace ((lo <=? (c + 1) / 2) && ((c + 1) / 2 <? lo)) with false by lia.
  - intros m X Hm DX. pose proof (proj1 DX) as LX.
    assert (P1 : exists X1, k (m mod 2) m X (N * (2 * m - 1)) 1 = Some X1 /\
       dwise N M D (fun c => if (2 * m - 1 <=? c) && (c <? 2 * m - 1 + 1) then opf (m mod 2) m else []) X X1).
    { apply (lane_step N M D X (fun X => k (m mod 2) m X (N * (2 * m - 1)) 1) (fun _ => opf (m mod 2) m) (2 * m - 1) 1
        (N * (2 * m - 1)) 1); auto; try lia.
      - intros r i Hr Hi. assert (i = 0) by lia. subst i. rewrite Z.add_0_r, HD by lia. lia.
      - apply HK; lia. }
    destruct P1 as (X1 & E1 & D1). pose proof (proj1 D1) as LX1.
    assert (P2 : exists X2, k (m mod 2) m X1 (N * (2 * m)) 1 = Some X2 /\
       dwise N M D (fun c => if (2 * m <=? c) && (c <? 2 * m + 1) then opf (m mod 2) m else []) X1 X2).
    { apply (lane_step N M D X1 (fun X => k (m mod 2) m X (N * (2 * m)) 1) (fun _ => opf (m mod 2) m) (2 * m) 1
        (N * (2 * m)) 1); auto; try lia.
      - intros r i Hr Hi. assert (i = 0) by lia. subst i. rewrite Z.add_0_r, HD by lia. lia.
      - apply HK; lia. }
    destruct P2 as (X2 & E2 & D2). exists X2. unfold sph_body. rewrite E1. cbn [obind]. split; [exact E2|].
    eapply dwise_ext; [|apply (dwise_trans N M D _ _ A X X2 DX (dwise_trans N M D _ _ X X1 X2 D1 D2))].
    intros c Hc. cbv beta. unfold pair_ops.
    destruct ((2 * m - 1 <=? c) && (c <? 2 * m - 1 + 1)) eqn:C1.
    + assert (Ec : (c + 1) / 2 = m) by lia. rewrite Ec.
      replace ((lo <=? m) && (m <? m)) with false by lia. replace ((lo <=? m) && (m <? m + 1)) with true by lia.
      replace ((2 * m <=? c) && (c <? 2 * m + 1)) with false by lia. cbn. now rewrite app_nil_r.
    + destruct ((2 * m <=? c) && (c <? 2 * m + 1)) eqn:C2.
      * assert (Ec : (c + 1) / 2 = m) by lia. rewrite Ec.
        replace ((lo <=? m) && (m <? m)) with false by lia. now replace ((lo <=? m) && (m <? m + 1)) with true by lia.
      * cbn. rewrite app_nil_r.
        replace ((lo <=? (c + 1) / 2) && ((c + 1) / 2 <? m + 1)) with ((lo <=? (c + 1) / 2) && ((c + 1) / 2 <? m)) by lia. auto.
Qed.

Lemma sph_default k opf A : zlen A = N * M -> acts_on_column k opf -> 0 <= M -> M mod 2 = 1 ->
  exists A', execute_sph_default k N M A = Some A' /\ dwise N M (cm N) (pair_ops opf 2 (M / 2 + 1)) A A'.
Proof.
  intros LA HK HM Ho. destruct (Z.eq_dec M 1) as [->|].
  - change (1 / 2 + 1) with 1. exists A. split; [reflexivity|].
    eapply dwise_ext; [|apply dwise_refl]. intros c Hc. unfold pair_ops.
    now replace ((2 <=? (c + 1) / 2) && ((c + 1) / 2 <? 1)) with false by lia.
  - apply sph_loop; auto; try lia. { now apply cm_good. } intros. unfold cm. lia.
Qed.

Definition col_ops (opf : Z -> list (op F)) (lo hi : Z) (c : Z) : list (op F) :=
  if (lo <=? c) && (c <? hi) then opf c else [].
Lemma col_loop D (body : Z -> list F -> option (list F)) (opf : Z -> list (op F)) A lo hi : good_layout N M D -> zlen A = N * M ->
  (forall m A0, lo <= m < hi -> real (minv (N * m) 1 N 1 A0) (mview (N * m) 1 N) 1 (body m) (fun _ => opf m)) ->
  0 <= lo <= hi -> hi <= M -> (forall r c, 0 <= r < N -> lo <= c < hi -> D r c = c * N + r * 1 + 0) ->
  exists A', for_up lo hi body A = Some A' /\ dwise N M D (col_ops opf lo hi) A A'.
Proof.
  intros G LA HK Hlo Hhi HD.
  apply (for_up_inv (fun m X => dwise N M D (col_ops opf lo m) A X)); [lia| |].
  - eapply dwise_ext; [|apply dwise_refl]. intros c Hc. unfold col_ops.
    now replace ((lo <=? c) && (c <? lo)) with false by lia.
  - intros m X Hm DX. pose proof (proj1 DX) as LX.
    assert (P1 : exists X1, body m X = Some X1 /\
       dwise N M D (fun c => if (m <=? c) && (c <? m + 1) then opf m else []) X X1).
    { apply (lane_step N M D X (body m) (fun _ => opf m) m 1 (N * m) 1); auto; try lia.
      intros r i Hr Hi. assert (i = 0) by lia. subst i. rewrite Z.add_0_r, HD by lia. lia. }
    destruct P1 as (X1 & E1 & D1). exists X1. split; [exact E1|].
    eapply dwise_ext; [|apply (dwise_trans N M D _ _ A X X1 DX D1)].
    intros c Hc. cbv beta. unfold col_ops.
    destruct ((m <=? c) && (c <? m + 1)) eqn:C1.
    + assert (c = m) by lia. subst c. replace ((lo <=? m) && (m <? m)) with false by lia.
      now replace ((lo <=? m) && (m <? m + 1)) with true by lia.
    + rewrite app_nil_r. now replace ((lo <=? c) && (c <? m + 1)) with ((lo <=? c) && (c <? m)) by lia.
Qed.
Lemma tri_default k opf A : zlen A = N * M -> acts_on_column k opf -> 0 <= M ->
  exists A', execute_tri_default k N M A = Some A' /\ dwise N M (cm N) (col_ops (opf 0) 1 M) A A'.
Proof.
  intros LA HK HM. destruct (Z_le_dec M 1) as [|].
  - unfold execute_tri_default, for_up. replace (Z.to_nat (M - 1)) with O by lia. exists A. split; [reflexivity|].
    eapply dwise_ext; [|apply dwise_refl]. intros c Hc. unfold col_ops.
    now replace ((1 <=? c) && (c <? M)) with false by lia.
  - apply col_loop; auto; try lia. { now apply cm_good. }
    + intros. unfold tri_body. apply HK. lia. + intros. unfold cm. lia.
Qed.
Lemma rectdisk_default k opf A : zlen A = N * M -> acts_on_column k opf -> 0 <= M ->
  exists A', execute_rectdisk_default k N M A = Some A' /\ dwise N M (cm N) (col_ops (fun m => opf (m mod 2) m) 2 M) A A'.
Proof.
  intros LA HK HM. destruct (Z_le_dec M 2) as [|].
  - unfold execute_rectdisk_default, for_up. replace (Z.to_nat (M - 2)) with O by lia. exists A. split; [reflexivity|].
    eapply dwise_ext; [|apply dwise_refl]. intros c Hc. unfold col_ops.
    now replace ((2 <=? c) && (c <? M)) with false by lia.
  - apply (col_loop (cm N) (rectdisk_body k N) (fun m => opf (m mod 2) m)); auto; try lia. { now apply cm_good. }
    + intros. unfold rectdisk_body. apply HK. lia. + intros. unfold cm. lia.
Qed.
End Def.
