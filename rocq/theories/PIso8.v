(** * The exchange of the y and z axes: the plan, the involution, the norms; rotations are undone by the opposite angles *)
From Coq Require Import ZArith List Lia Bool Reals Lra ZifyBool ZifyNat.
From Verif Require Import Base BaseFacts Arith SpecSum PSum MRecur PRecur PRecur2 MIso SpecIso PIso PIso2 PIso3 PIso4 PIso5 PKraw PKraw2 PDual PIso6 PIso7.
Import ListNotations.
Open Scope Z_scope.

Lemma even_mod x (c : bool) : x mod 2 = (if c then 0 else 1) -> Z.even x = c.
Proof. intros H. rewrite Zmod_even in H. destruct (Z.even x), c; auto; discriminate. Qed.
Ltac fit := unfold fits; split; [lia|split; [lia|split; [apply even_mod; lia|lia]]].
Lemma fits11 l : 2 <= l -> fits l (1 + l mod 2) (1 + l mod 2) (l / 2) false. Proof. intros. fit. Qed.
Lemma fits22 l : 2 <= l -> fits l (l mod 2) (l mod 2) ((l + 2) / 2) true. Proof. intros. fit. Qed.
Lemma fits12 l : 2 <= l -> fits l (2 - l mod 2) (1 - l mod 2) ((l + 1) / 2) true. Proof. intros. fit. Qed.
Lemma fits21 l : 2 <= l -> fits l (1 - l mod 2) (2 - l mod 2) ((l + 1) / 2) false. Proof. intros. fit. Qed.

(** the signs of the four eigenvector plans of degree l *)
Definition sg1 (l : Z) : Z := if (l mod 4) / 2 =? 1 then 1 else -1.
Definition sg2 (l : Z) : Z := if ((l + 1) mod 4) / 2 =? 1 then -1 else 1.
Definition sg4 (l : Z) : Z := if (l mod 4) / 2 =? 1 then -1 else 1.
Definition planned (l : Z) (P : partial_iso R) : Prop :=
  let e := l mod 2 in
  isblock (f11 P) l (1 + e) (1 + e) (l / 2) false (sg1 l) /\ isblock (f22 P) l e e ((l + 2) / 2) true (sg4 l) /\
  isblock (f12 P) l (2 - e) (1 - e) ((l + 1) / 2) true (sg2 l) /\ isblock (f21 P) l (1 - e) (2 - e) ((l + 1) / 2) false (sg2 l).
Lemma mkblock E (a b lam : list R) l nu0 m0 n c sg : wf E -> se_n E = n -> se_sign E = sg ->
    (forall k, 1 <= k < n -> nthZ 0%R (se_A E) k = (1 / nthZ 0%R b (k - 1))%R /\ nthZ 0%R (se_B E) k = (- nthZ 0%R a k)%R) ->
    (forall k, 1 <= k < n - 1 -> nthZ 0%R (se_C E) k = (- nthZ 0%R b k)%R) ->
    (forall k, 0 <= k < n -> nthZ 0%R (se_lam E) k = nthZ 0%R lam k) ->
    (forall k, 0 <= k < n -> nthZ 0%R a k = ya c l (m0 + 2 * k)) -> (forall k, 0 <= k < n - 1 -> nthZ 0%R b k = yb l (m0 + 2 * k)) -> (forall k, 0 <= k < n -> nthZ 0%R lam k = zv l (nu0 + 2 * k)) ->
  isblock E l nu0 m0 n c sg.
Proof.
  intros W EN ES HAB HC HL Ha Hb Hl. split; auto. split; auto. split; auto. split; [|split].
  - intros k Hk. destruct (HAB k Hk) as (X & Y). rewrite X, Y, Ha, Hb by lia. auto.
  - intros k Hk. rewrite HC, Hb by lia. reflexivity.
  - intros k Hk. rewrite HL, Hl by lia. reflexivity.
Qed.
Ltac fv := match goal with |- context [do _ <- fill ?n ?p ?f; _] =>
  let a := fresh "a" in let E := fresh "E" in let L := fresh "L" in let V := fresh "V" in
  destruct (fill_val n p f) as (a & E & L & V); [intros; lia|intros; lia|]; rewrite E; cbn [obind]; clear E end.
Ltac sv := match goal with |- context [do _ <- symmetric_eig ?n ?a ?b ?l ?s; _] =>
  let X := fresh "X" in let E := fresh "E" in
  destruct (symmetric_eig_val n a b l s) as (X & E & ? & ? & ? & ? & ? & ?); [lia|lia|lia|lia|]; rewrite E; cbn [obind]; clear E end.
Lemma at_rev n (a : list R) f k : (forall i, 0 <= i < n -> nthZ 0%R a (n - 1 - i) = f i) -> 0 <= k < n -> nthZ 0%R a k = f (n - 1 - k).
Proof. intros H Hk. rewrite <- H by lia. f_equal. lia. Qed.
Lemma at_rev2 n (a : list R) f k : (forall i, 0 <= i < n - 1 -> nthZ 0%R a (n - 2 - i) = f i) -> 0 <= k < n - 1 -> nthZ 0%R a k = f (n - 2 - k).
Proof. intros H Hk. rewrite <- H by lia. f_equal. lia. Qed.
Lemma pm (b : bool) : (if b then 1 else -1) = 1 \/ (if b then 1 else -1) = -1.
Proof. destruct b; auto. Qed.
Lemma mp (b : bool) : (if b then -1 else 1) = 1 \/ (if b then -1 else 1) = -1.
Proof. destruct b; auto. Qed.
Lemma plan_partial_val l : 2 <= l -> exists P, plan_partial l = Some P /\ planned l P.
Proof.
  intros Hl. unfold plan_partial. fv. fv. fv. sv. fv. fv. fv. sv. fv. fv. fv. sv. fv. fv. fv. sv.
  eexists. split; [reflexivity|]. unfold planned. cbv zeta. cbn [f11 f12 f21 f22].
  split; [|split; [|split]].
  - eapply mkblock; eauto.
    + intros k Hk. rewrite (at_rev (l / 2) a _ k V Hk). rewrite <- (y_diag_sin l (1 + l mod 2 + 2 * k)) by lia. f_equal. lia.
    + intros k Hk. rewrite (at_rev2 (l / 2) a0 _ k V0 Hk). rewrite <- (y_off_sin l (1 + l mod 2 + 2 * k)) by lia. f_equal. lia.
    + intros k Hk. rewrite (at_rev (l / 2) a1 _ k V1 Hk). rewrite <- (z_diag_sin l (1 + l mod 2 + 2 * k)). f_equal. lia.
  - eapply mkblock; eauto.
    + intros k Hk. rewrite V8 by lia. rewrite <- (y_diag_cos l (l mod 2 + 2 * k)) by lia. f_equal. lia.
    + intros k Hk. rewrite V9 by lia. rewrite <- (y_off_cos l (l mod 2 + 2 * k)) by lia. f_equal. lia.
    + intros k Hk. rewrite V10 by lia. rewrite <- (z_diag_cos l (l mod 2 + 2 * k)). f_equal. lia.
  - eapply mkblock; eauto.
    + intros k Hk. rewrite V5 by lia. rewrite <- (y_diag_cos l (1 - l mod 2 + 2 * k)) by lia. f_equal. lia.
    + intros k Hk. rewrite V6 by lia. rewrite <- (y_off_cos l (1 - l mod 2 + 2 * k)) by lia. f_equal. lia.
    + intros k Hk. rewrite (at_rev ((l + 1) / 2) a7 _ k V7 Hk). rewrite <- (z_diag_sin l (2 - l mod 2 + 2 * k)). f_equal. lia.
  - eapply mkblock; eauto.
    + intros k Hk. rewrite (at_rev ((l + 1) / 2) a2 _ k V2 Hk). rewrite <- (y_diag_sin l (2 - l mod 2 + 2 * k)) by lia. f_equal. lia.
    + intros k Hk. rewrite (at_rev2 ((l + 1) / 2) a3 _ k V3 Hk). rewrite <- (y_off_sin l (2 - l mod 2 + 2 * k)) by lia. f_equal. lia.
    + intros k Hk. rewrite V4 by lia. rewrite <- (z_diag_cos l (1 - l mod 2 + 2 * k)). f_equal. lia.
Qed.

(** ** one degree *)
Definition psv N l (A : list R) b k := nthZ 0%R A (ps N l (b + 2 * k)).
Definition pcv N l (A : list R) b k := nthZ 0%R A (pc N l (b + 2 * k)).
Definition deg_lin (s1 s2 s4 : Z) (N l : Z) (A A' : list R) : Prop :=
  let e := l mod 2 in
    (forall i, 0 <= i < l / 2 -> psv N l A' (1 + e) i = (kapB l (1 + e) (1 + e) (l / 2) s1 * dot (l / 2) (MB l (1 + e) (1 + e) i) (psv N l A (1 + e)))%R) /\
    (forall i, 0 <= i < (l + 2) / 2 -> pcv N l A' e i = (kapB l e e ((l + 2) / 2) s4 * dot ((l + 2) / 2) (MB l e e i) (pcv N l A e))%R) /\
    (forall i, 0 <= i < (l + 1) / 2 -> psv N l A' (2 - e) i = (kapB l (2 - e) (1 - e) ((l + 1) / 2) s2 * dot ((l + 1) / 2) (MB l (2 - e) (1 - e) i) (pcv N l A (1 - e)))%R) /\
    (forall i, 0 <= i < (l + 1) / 2 -> pcv N l A' (1 - e) i = (kapB l (1 - e) (2 - e) ((l + 1) / 2) s2 * dot ((l + 1) / 2) (MB l (1 - e) (2 - e) i) (psv N l A (2 - e)))%R).
Lemma sg_pm l : (sg1 l = 1 \/ sg1 l = -1) /\ (sg2 l = 1 \/ sg2 l = -1) /\ (sg4 l = 1 \/ sg4 l = -1).
Proof. exact (conj (pm _) (conj (mp _) (mp _))). Qed.
Lemma planned_lin_sg l P : 2 <= l -> planned l P -> forall huge N A A', deg_out huge P N l A A' -> deg_lin (sg1 l) (sg2 l) (sg4 l) N l A A'.
Proof.
  intros Hl (B11 & B22 & B12 & B21). destruct (sg_pm l) as (H1 & H2 & H4). revert B11 B22 B12 B21 H1 H2 H4. generalize (sg1 l) as s1, (sg2 l) as s2, (sg4 l) as s4. intros s1 s2 s4 B11 B22 B12 B21 H1 H2 H4 huge N A A' (D1 & D2 & D3 & D4).
  assert (TB : forall n f (x : Z -> R), dot n x (nthZ 0%R (ztab n f)) = dot n x f) by (intros; apply dot_ext; auto; intros; now rewrite nthZ_ztab).
  split; [|split; [|split]]; intros i Hi; match goal with |- ?x = _ => let y := eval unfold psv, pcv in x in change x with y end.
  - change 0%R with (zero : R). rewrite D1 by auto. rewrite (block_value huge _ _ _ _ _ _ false s1 _ _ B11) by (auto using fits11; apply zlen_ztab; lia). rewrite TB. reflexivity.
  - change 0%R with (zero : R). rewrite D2 by auto. rewrite (block_value huge _ _ _ _ _ _ true s4 _ _ B22) by (auto using fits22; apply zlen_ztab; lia). rewrite TB. reflexivity.
  - change 0%R with (zero : R). rewrite D3 by auto. rewrite (block_value huge _ _ _ _ _ _ false s2 _ _ B12) by (auto using fits12, fits21; apply zlen_ztab; lia). rewrite TB. reflexivity.
  - change 0%R with (zero : R). rewrite D4 by auto. rewrite (block_value huge _ _ _ _ _ _ true s2 _ _ B21) by (auto using fits12, fits21; apply zlen_ztab; lia). rewrite TB. reflexivity.
Qed.
Lemma planned_lin l P : 2 <= l -> planned l P -> exists s1 s2 s4, (s1 = 1 \/ s1 = -1) /\ (s2 = 1 \/ s2 = -1) /\ (s4 = 1 \/ s4 = -1) /\
  forall huge N A A', deg_out huge P N l A A' -> deg_lin s1 s2 s4 N l A A'.
Proof. intros Hl HP. exists (sg1 l), (sg2 l), (sg4 l). destruct (sg_pm l) as (H1 & H2 & H4). repeat (split; [assumption|]). now apply planned_lin_sg. Qed.

(** every order of a degree lies in one of the four classes *)
Lemma by_class N M l (A B : list R) : 0 <= l -> (let e := l mod 2 in
    (forall i, 0 <= i < l / 2 -> psv N l A (1 + e) i = psv N l B (1 + e) i) /\ (forall i, 0 <= i < (l + 2) / 2 -> pcv N l A e i = pcv N l B e i) /\
    (forall i, 0 <= i < (l + 1) / 2 -> psv N l A (2 - e) i = psv N l B (2 - e) i) /\ (forall i, 0 <= i < (l + 1) / 2 -> pcv N l A (1 - e) i = pcv N l B (1 - e) i)) ->
  same_degree N M l A B.
Proof.
  intros Hl (H1 & H2 & H3 & H4). unfold psv, pcv in *. apply same_from; intros m Hm.
  - destruct (Z.eq_dec ((m + l) mod 2) 1).
    + assert (X := H1 ((m - 1 - l mod 2) / 2) ltac:(lia)). replace (1 + l mod 2 + 2 * ((m - 1 - l mod 2) / 2)) with m in * by lia. exact X.
    + assert (X := H3 ((m - 2 + l mod 2) / 2) ltac:(lia)). replace (2 - l mod 2 + 2 * ((m - 2 + l mod 2) / 2)) with m in * by lia. exact X.
  - destruct (Z.eq_dec ((m + l) mod 2) 1).
    + assert (X := H4 ((m - 1 + l mod 2) / 2) ltac:(lia)). replace (1 - l mod 2 + 2 * ((m - 1 + l mod 2) / 2)) with m in * by lia. exact X.
    + assert (X := H2 ((m - l mod 2) / 2) ltac:(lia)). replace (l mod 2 + 2 * ((m - l mod 2) / 2)) with m in * by lia. exact X.
Qed.
Lemma deg_twice s1 s2 s4 N M l A A1 A2 : 2 <= l -> (s1 = 1 \/ s1 = -1) -> (s2 = 1 \/ s2 = -1) -> (s4 = 1 \/ s4 = -1) ->
  deg_lin s1 s2 s4 N l A A1 -> deg_lin s1 s2 s4 N l A1 A2 -> same_degree N M l A A2.
Proof.
  intros Hl Z1 Z2 Z4 (H1 & H2 & H3 & H4) (K1 & K2 & K3 & K4). apply by_class; [lia|]. cbv zeta. split; [|split; [|split]]; intros i Hi; symmetry.
  - exact (block_twice _ _ _ _ _ _ _ _ _ _ (fits11 l Hl) (fits11 l Hl) Z1 H1 K1 i Hi).
  - exact (block_twice _ _ _ _ _ _ _ _ _ _ (fits22 l Hl) (fits22 l Hl) Z4 H2 K2 i Hi).
  - exact (block_twice _ _ _ _ _ _ _ _ _ _ (fits21 l Hl) (fits12 l Hl) Z2 H4 K3 i Hi).
  - exact (block_twice _ _ _ _ _ _ _ _ _ _ (fits12 l Hl) (fits21 l Hl) Z2 H3 K4 i Hi).
Qed.

(** ** the norm of one degree *)
Definition dnorm (N l : Z) (A : list R) : R := sumZ (2 * l + 1) (fun q => (nthZ 0 A (l - (q + 1) / 2 + N * q)%Z * nthZ 0 A (l - (q + 1) / 2 + N * q)%Z)%R).
Lemma sum_parity n f : 0 <= n -> sumZ n f = (sumZ ((n + 1) / 2) (fun k => f (2 * k)%Z) + sumZ (n / 2) (fun k => f (2 * k + 1)%Z))%R.
Proof.
  intros Hn. pattern n. apply natlike_ind; [| |exact Hn]; cbv beta.
  - cbn. ring.
  - intros k Hk IH. replace (Z.succ k) with (k + 1) by lia. rewrite sumZ_S, IH by lia. destruct (Z.eq_dec (k mod 2) 0).
    + replace ((k + 1 + 1) / 2) with (k / 2 + 1) by lia. replace ((k + 1) / 2) with (k / 2) by lia. rewrite sumZ_S by lia. replace (2 * (k / 2)) with k by lia. ring.
    + replace ((k + 1 + 1) / 2) with ((k + 1) / 2) by lia. replace ((k + 1) / 2) with (k / 2 + 1) at 3 by lia. rewrite (sumZ_S (k / 2)) by lia. replace (2 * (k / 2) + 1) with k by lia. ring.
Qed.
Lemma dnorm_classes N l A : 0 <= l -> dnorm N l A = (let e := (l mod 2)%Z in
    dot (l / 2) (psv N l A (1 + e)) (psv N l A (1 + e)) + dot ((l + 2) / 2) (pcv N l A e) (pcv N l A e) +
    dot ((l + 1) / 2) (psv N l A (2 - e)) (psv N l A (2 - e)) + dot ((l + 1) / 2) (pcv N l A (1 - e)) (pcv N l A (1 - e)))%R.
Proof.
  intros Hl. unfold dnorm. cbv zeta. set (g := fun p => (nthZ 0 A p * nthZ 0 A p)%R). rewrite sum_parity by lia.
  rewrite (sumZ_ext ((2 * l + 1 + 1) / 2) _ (fun m => g (pc N l m))).
  2:{ intros m Hm. unfold g, pc, pos. replace ((2 * m + 1) / 2) with m by lia. reflexivity. }
  rewrite (sumZ_ext ((2 * l + 1) / 2) _ (fun k => g (ps N l (k + 1)))).
  2:{ intros k Hk. unfold g, ps, pos. replace ((2 * k + 1 + 1) / 2) with (k + 1) by lia. replace (2 * (k + 1) - 1) with (2 * k + 1) by lia. reflexivity. }
  replace ((2 * l + 1 + 1) / 2) with (l + 1) by lia. replace ((2 * l + 1) / 2) with l by lia. rewrite (sum_parity (l + 1)), (sum_parity l) by lia.
  unfold dot, psv, pcv. fold (g). destruct (Z.eq_dec (l mod 2) 0) as [E|E].
  - rewrite E. replace (l + 1 + 1) with (l + 2) by lia.
    rewrite (sumZ_ext ((l + 2) / 2) (fun p => (nthZ 0 A (pc N l (0 + 2 * p)) * nthZ 0 A (pc N l (0 + 2 * p)))%R) (fun k => g (pc N l (2 * k)))) by (intros; reflexivity).
    rewrite (sumZ_ext ((l + 1) / 2) (fun p => (nthZ 0 A (pc N l (1 - 0 + 2 * p)) * nthZ 0 A (pc N l (1 - 0 + 2 * p)))%R) (fun k => g (pc N l (2 * k + 1)))) by (intros; unfold g; replace (1 - 0 + 2 * i) with (2 * i + 1) by lia; reflexivity).
    rewrite (sumZ_ext (l / 2) (fun p => (nthZ 0 A (ps N l (1 + 0 + 2 * p)) * nthZ 0 A (ps N l (1 + 0 + 2 * p)))%R) (fun k => g (ps N l (2 * k + 1)))) by (intros; unfold g; replace (1 + 0 + 2 * i) with (2 * i + 1) by lia; reflexivity).
    rewrite (sumZ_ext ((l + 1) / 2) (fun p => (nthZ 0 A (ps N l (2 - 0 + 2 * p)) * nthZ 0 A (ps N l (2 - 0 + 2 * p)))%R) (fun k => g (ps N l (2 * k + 1 + 1)))) by (intros; unfold g; replace (2 - 0 + 2 * i) with (2 * i + 1 + 1) by lia; reflexivity).
    replace ((l + 1) / 2) with (l / 2) by lia. ring.
  - replace (l mod 2) with 1 by lia. replace (l + 1 + 1) with (l + 2) by lia.
    rewrite (sumZ_ext ((l + 2) / 2) (fun p => (nthZ 0 A (pc N l (1 + 2 * p)) * nthZ 0 A (pc N l (1 + 2 * p)))%R) (fun k => g (pc N l (2 * k + 1)))) by (intros; unfold g; replace (1 + 2 * i) with (2 * i + 1) by lia; reflexivity).
    rewrite (sumZ_ext ((l + 1) / 2) (fun p => (nthZ 0 A (pc N l (1 - 1 + 2 * p)) * nthZ 0 A (pc N l (1 - 1 + 2 * p)))%R) (fun k => g (pc N l (2 * k)))) by (intros; reflexivity).
    rewrite (sumZ_ext (l / 2) (fun p => (nthZ 0 A (ps N l (1 + 1 + 2 * p)) * nthZ 0 A (ps N l (1 + 1 + 2 * p)))%R) (fun k => g (ps N l (2 * k + 1 + 1)))) by (intros; unfold g; replace (1 + 1 + 2 * i) with (2 * i + 1 + 1) by lia; reflexivity).
    rewrite (sumZ_ext ((l + 1) / 2) (fun p => (nthZ 0 A (ps N l (2 - 1 + 2 * p)) * nthZ 0 A (ps N l (2 - 1 + 2 * p)))%R) (fun k => g (ps N l (2 * k + 1)))) by (intros; unfold g; replace (2 - 1 + 2 * i) with (2 * i + 1) by lia; reflexivity).
    replace ((l + 2) / 2) with ((l + 1) / 2) by lia. ring.
Qed.
Lemma deg_norm s1 s2 s4 N l A A1 : 2 <= l -> (s1 = 1 \/ s1 = -1) -> (s2 = 1 \/ s2 = -1) -> (s4 = 1 \/ s4 = -1) ->
  deg_lin s1 s2 s4 N l A A1 -> dnorm N l A1 = dnorm N l A.
Proof.
  intros Hl Z1 Z2 Z4 (H1 & H2 & H3 & H4). rewrite !dnorm_classes by lia. cbv zeta.
  rewrite (block_norm _ _ _ _ _ _ _ _ _ (fits11 l Hl) (fits11 l Hl) Z1 H1), (block_norm _ _ _ _ _ _ _ _ _ (fits22 l Hl) (fits22 l Hl) Z4 H2),
    (block_norm _ _ _ _ _ _ _ _ _ (fits12 l Hl) (fits21 l Hl) Z2 H3), (block_norm _ _ _ _ _ _ _ _ _ (fits21 l Hl) (fits12 l Hl) Z2 H4). ring.
Qed.
