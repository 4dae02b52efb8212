(** * Isometries of the sphere keep the degrees apart, for any arithmetic *)
From Coq Require Import ZArith List Lia Bool ZifyBool ZifyNat.
From Verif Require Import Base BaseFacts Arith MRecur MIso SpecIso PIso2 PIso3 PIso4.
Import ListNotations.
Open Scope Z_scope.

Lemma for_up_rel {S T} (I : Z -> S -> T -> Prop) lo hi f g s t : lo <= hi -> I lo s t ->
  (forall i s t, lo <= i < hi -> I i s t -> exists s' t', f i s = Some s' /\ g i t = Some t' /\ I (i + 1) s' t') ->
  exists s' t', for_up lo hi f s = Some s' /\ for_up lo hi g t = Some t' /\ I hi s' t'.
Proof.
  intros Hl H0 Hs. unfold for_up.
  assert (G : forall n, (n <= Z.to_nat (hi - lo))%nat -> exists s' t', itero n (fun k => f (lo + Z.of_nat k)) s = Some s' /\ itero n (fun k => g (lo + Z.of_nat k)) t = Some t' /\ I (lo + Z.of_nat n) s' t').
  { induction n as [|n IH]; intros Hn.
    - exists s, t. cbn. repeat split; auto. now rewrite Z.add_0_r.
    - destruct IH as (s' & t' & E1 & E2 & HI); [lia|]. destruct (Hs (lo + Z.of_nat n) s' t' ltac:(lia) HI) as (s2 & t2 & F1 & F2 & HI2). exists s2, t2. cbn [itero]. rewrite E1, E2. cbn [obind]. repeat split; auto. replace (lo + Z.of_nat (Datatypes.S n)) with (lo + Z.of_nat n + 1) by lia. exact HI2. }
  destruct (G (Z.to_nat (hi - lo)) ltac:(lia)) as (s' & t' & E1 & E2 & HI). exists s', t'. repeat split; auto. now replace (lo + Z.of_nat (Z.to_nat (hi - lo))) with hi in HI by lia.
Qed.

Section Deg.
Context {F : Type} {AF : Arith F}.
Implicit Types A B : list F.

(** ** polar rotations *)
Lemma rotation_degree N h l s c A B : 0 <= N -> 0 <= h -> zlen A = N * (2 * h + 1) -> zlen B = N * (2 * h + 1) -> same_degree N (2 * h + 1) l A B ->
  exists A' B', polar_rotation N (2 * h + 1) s c A = Some A' /\ polar_rotation N (2 * h + 1) s c B = Some B' /\
    zlen A' = N * (2 * h + 1) /\ zlen B' = N * (2 * h + 1) /\ same_degree N (2 * h + 1) l A' B'.
Proof.
  intros HN Hh LA LB S. unfold polar_rotation. replace ((2 * h + 1) / 2) with h by lia.
  pose (I := fun (_ : Z) (x y : list F * F * F * F * F) => let '(A, s, c, so, co) := x in let '(B, s', c', so', co') := y in
    zlen A = N * (2 * h + 1) /\ zlen B = N * (2 * h + 1) /\ same_degree N (2 * h + 1) l A B /\ s = s' /\ c = c' /\ so = so' /\ co = co').
  match goal with |- context [for_up 1 (h + 1) ?f ?s] => destruct (for_up_rel I 1 (h + 1) f f s (B, snd (fst (fst (fst s))), snd (fst (fst s)), snd (fst s), snd s)) as ([[[[A' s1] c1] so1] co1] & [[[[B' s2] c2] so2] co2] & E1 & E2 & LA' & LB' & S' & _) end.
  - lia.
  - cbn. auto 10.
  - intros m [[[[X s1] c1] so1] co1] [[[[Y s2] c2] so2] co2] Hm (LX & LY & SD & <- & <- & <- & <-).
    destruct (Z_le_dec (N - m) 0).
    { rewrite !for_up_nil by lia. cbn [obind]. do 2 eexists. repeat split; eauto. }
    destruct (for_up_rel (fun _ X Y => zlen X = N * (2 * h + 1) /\ zlen Y = N * (2 * h + 1) /\ same_degree N (2 * h + 1) l X Y) 0 (N - m) (fun i A =>
      do t1 <- zget A (i + N * (2 * m - 1));
      do t2 <- zget A (i + N * (2 * m));
      do A <- zset A (i + N * (2 * m - 1)) (add (mul c1 t1) (mul s1 t2));
      zset A (i + N * (2 * m)) (sub (mul c1 t2) (mul s1 t1))) (fun i A =>
      do t1 <- zget A (i + N * (2 * m - 1));
      do t2 <- zget A (i + N * (2 * m));
      do A <- zset A (i + N * (2 * m - 1)) (add (mul c1 t1) (mul s1 t2));
      zset A (i + N * (2 * m)) (sub (mul c1 t2) (mul s1 t1))) X Y) as (X' & Y' & E1 & E2 & LX' & LY' & SD').
    + lia.
    + auto.
    + clear X Y LX LY SD. intros i X Y Hi (LX & LY & SD). change (i + N * (2 * m - 1)) with (pos N i (2 * m - 1)). change (i + N * (2 * m)) with (pos N i (2 * m)).
      pose proof (pos_range N (2 * h + 1) i (2 * m - 1) ltac:(lia) ltac:(lia)) as P1. pose proof (pos_range N (2 * h + 1) i (2 * m) ltac:(lia) ltac:(lia)) as P2.
      rewrite !(zget_nthZ zero) by (rewrite ?LX, ?LY; assumption). cbn [obind]. rewrite !zset_some by (rewrite ?LX, ?LY; assumption). cbn [obind]. rewrite !zset_some by (rewrite ?zlen_zupd, ?LX, ?LY; assumption).
      do 2 eexists. split; [reflexivity|]. split; [reflexivity|]. rewrite !zlen_zupd. split; auto. split; auto.
      intros r q Hr Hq D. change (r + N * q) with (pos N r q).
      rewrite !nthZ_zupd by (rewrite ?zlen_zupd, ?LX, ?LY; assumption).
      destruct (pos N i (2 * m) =? pos N r q) eqn:E1; [apply Z.eqb_eq, pos_inj in E1; try lia; destruct E1 as [<- <-]|
        destruct (pos N i (2 * m - 1) =? pos N r q) eqn:E2; [apply Z.eqb_eq, pos_inj in E2; try lia; destruct E2 as [<- <-]|]].
      * f_equal; f_equal; apply SD; lia.
      * f_equal; f_equal; apply SD; lia.
      * apply SD; lia.
    + rewrite E1, E2. cbn [obind]. do 2 eexists. repeat split; eauto.
  - rewrite E1. cbn [fst snd] in E2. rewrite E2. cbn [obind fst]. eauto 10.
Qed.
Lemma reflection_degree N h l A B : 0 <= N -> 0 <= h -> zlen A = N * (2 * h + 1) -> zlen B = N * (2 * h + 1) -> same_degree N (2 * h + 1) l A B ->
  exists A' B', polar_reflection N (2 * h + 1) A = Some A' /\ polar_reflection N (2 * h + 1) B = Some B' /\
    zlen A' = N * (2 * h + 1) /\ zlen B' = N * (2 * h + 1) /\ same_degree N (2 * h + 1) l A' B'.
Proof.
  intros HN Hh LA LB S. destruct (polar_reflection_spec N h A HN Hh LA) as (A' & E1 & L1 & V1). destruct (polar_reflection_spec N h B HN Hh LB) as (B' & E2 & L2 & V2).
  exists A', B'. repeat split; auto. intros i q Hi Hq D. change (i + N * q) with (pos N i q). rewrite (V1 i q), (V2 i q) by lia. unfold refv. assert (X := S i q Hi Hq D). unfold pos. rewrite X. reflexivity.
Qed.

(** ** the plan *)
Lemma fill_len n p f : 0 <= n -> (forall i, 0 <= i < n -> 0 <= p i < n) -> exists a : list F, fill n p f = Some a /\ zlen a = n.
Proof.
  intros Hn Hp. unfold fill. destruct (for_up_inv (fun _ (a : list F) => zlen a = n) 0 n (fun i a => zset a (p i) (f i)) (zmake n zero)) as (a & E & L).
  - lia.
  - apply zlen_zmake. lia.
  - intros i a Hi L. rewrite zset_some by (rewrite L; apply Hp; lia). eexists. split; eauto. now rewrite zlen_zupd.
  - eauto.
Qed.
Lemma fill_neg n p f : n <= 0 -> exists a : list F, fill n p f = Some a.
Proof. intros. unfold fill. rewrite for_up_nil by lia. eauto. Qed.
Lemma symmetric_eig_wf n a b lam sg : 0 <= n -> zlen a = n -> n - 1 <= zlen b -> zlen lam = n ->
  exists E : seig F, symmetric_eig n a b lam sg = Some E /\ wf E /\ se_n E = n.
Proof.
  intros Hn La Lb Ll. unfold symmetric_eig.
  assert (Z0 : zlen (zmake n (zero : F)) = n) by (apply zlen_zmake; lia).
  assert (G : exists A B : list F, (if 1 <? n then
      do x <- zget b (n - 2); do y <- zget a (n - 1);
      do A <- zset (zmake n zero) (n - 1) (div one x); do B <- zset (zmake n zero) (n - 1) (opp y);
      Some (A, B)
    else Some (zmake n zero, zmake n zero)) = Some (A, B) /\ zlen A = n /\ zlen B = n).
  { destruct (1 <? n) eqn:En.
    - rewrite (zget_nthZ zero b), (zget_nthZ zero a) by lia. cbn [obind]. rewrite !zset_some by lia. cbn [obind]. do 2 eexists. split; [reflexivity|]. rewrite !zlen_zupd. auto.
    - do 2 eexists. split; [reflexivity|]. auto. }
  destruct G as (A & B & -> & LA & LB). cbn [obind].
  match goal with |- context [for_dn ?x ?y ?f ?s] => assert (G : exists A B C : list F, for_dn x y f s = Some (A, B, C) /\ zlen A = n /\ zlen B = n /\ zlen C = n) end.
  { destruct (Z_le_dec n 2).
    - destruct (Z.eq_dec n 2) as [E2|E2]; [|].
      + exists A, B, (zmake n zero). unfold for_dn. replace (Z.to_nat (n - 2 - 1 + 1)) with 0%nat by lia. cbn. auto.
      + exists A, B, (zmake n zero). unfold for_dn. replace (Z.to_nat (n - 2 - 1 + 1)) with 0%nat by lia. cbn. auto.
    - match goal with |- context [for_dn ?x ?y ?f ?s] => destruct (for_dn_inv (fun _ (w : list F * list F * list F) => let '(A, B, C) := w in zlen A = n /\ zlen B = n /\ zlen C = n) x y f s) as ([[A1 B1] C1] & E & H) end.
      + lia.
      + auto.
      + intros i [[A1 B1] C1] Hi (L1 & L2 & L3). rewrite (zget_nthZ zero b), (zget_nthZ zero a), (zget_nthZ zero b) by lia. cbn [obind]. rewrite !zset_some by lia. cbn [obind]. eexists. split; [reflexivity|]. cbv beta iota. rewrite !zlen_zupd. auto.
      + exists A1, B1, C1. tauto. }
  destruct G as (A1 & B1 & C1 & -> & L1 & L2 & L3). cbn [obind].
  destruct (for_up_inv (fun _ (L : list F) => zlen L = n) 0 n (fun i L => do x <- zget lam i; zset L i x) (zmake n zero)) as (Lm & -> & LL); auto.
  { intros i L Hi HL. rewrite (zget_nthZ zero) by lia. cbn [obind]. rewrite zset_some by lia. eexists. split; eauto. now rewrite zlen_zupd. }
  cbn [obind]. eexists. split; [reflexivity|]. cbn. unfold wf. cbn. auto 10.
Qed.

Definition good_partial (l : Z) (P : partial_iso F) : Prop :=
  wf (f11 P) /\ wf (f21 P) /\ wf (f12 P) /\ wf (f22 P) /\
  se_n (f11 P) = l / 2 /\ se_n (f21 P) = (l + 1) / 2 /\ se_n (f12 P) = (l + 1) / 2 /\ se_n (f22 P) = (l + 2) / 2.
Lemma plan_partial_good l : 1 <= l -> exists P, plan_partial l = Some P /\ good_partial l P.
Proof.
  intros Hl. unfold plan_partial.
  Ltac f_in := match goal with |- context [do _ <- fill ?n ?p ?f; _] =>
    let a := fresh "a" in let E := fresh "E" in let L := fresh "L" in
    first [ destruct (fill_len n p f) as (a & E & L); [lia|intros; lia|] | destruct (fill_neg n p f) as (a & E); [lia|] ]; rewrite E; cbn [obind]; clear E end.
  Ltac s_in := match goal with |- context [do _ <- symmetric_eig ?n ?a ?b ?l ?s; _] =>
    let a' := fresh "X" in let E := fresh "E" in let W := fresh "W" in let L := fresh "N" in
    destruct (symmetric_eig_wf n a b l s) as (a' & E & W & L); [lia|assumption|lia|assumption|]; rewrite E; cbn [obind]; clear E end.
  Ltac f_off := match goal with |- context [do _ <- fill (?n - 1) ?p ?f; _] =>
    let b := fresh "b" in let E := fresh "E" in let L := fresh "L" in
    assert (exists b : list F, fill (n - 1) p f = Some b /\ n - 1 <= zlen b) as (b & E & L);
      [destruct (Z_le_dec (n - 1) 0); [let b' := fresh in destruct (fill_neg (n - 1) p f) as (b' & ?); [lia|exists b'; split; [assumption|pose proof (zlen_nonneg b'); lia]]
        | destruct (fill_len (n - 1) p f) as (b & ? & ?); [lia|intros; lia|exists b; split; [assumption|lia]]]|];
    rewrite E; cbn [obind]; clear E end.
  f_in. f_off. f_in. s_in. f_in. f_off. f_in. s_in. f_in. f_off. f_in. s_in. f_in. f_off. f_in. s_in.
  eexists. split; [reflexivity|]. unfold good_partial. cbn. auto 12.
Qed.
Lemma plan_isometry_good n : exists J, plan_isometry n = Some J /\ zlen J = Z.max 0 (n - 2) /\
  forall l, 2 <= l < n -> exists P, zget J (l - 2) = Some P /\ plan_partial l = Some P /\ good_partial l P.
Proof.
  unfold plan_isometry.
  assert (G : forall k, exists J : list (partial_iso F), itero k (fun k J => do P <- plan_partial (Z.of_nat k + 2); Some (J ++ [P])) [] = Some J /\ zlen J = Z.of_nat k /\
    forall l, 2 <= l < Z.of_nat k + 2 -> exists P, zget J (l - 2) = Some P /\ plan_partial l = Some P /\ good_partial l P).
  { induction k as [|k (J & E & L & H)].
    - exists []. cbn. repeat split; auto. intros; lia.
    - cbn [itero]. rewrite E. cbn [obind]. destruct (plan_partial_good (Z.of_nat k + 2)) as (P & EP & GP); [lia|]. rewrite EP. cbn [obind]. eexists. split; [reflexivity|].
      split. { rewrite zlen_app, L. cbn. lia. }
      intros l Hl. destruct (Z.eq_dec l (Z.of_nat k + 2)) as [->|Ne].
      + exists P. split; auto. unfold zget, zlen in *. replace (Z.of_nat k + 2 - 2 <? 0) with false by lia. rewrite nth_error_app2 by lia. replace (Z.to_nat (Z.of_nat k + 2 - 2) - length J)%nat with 0%nat by lia. reflexivity.
      + destruct (H l ltac:(lia)) as (P' & E' & H'). exists P'. split; auto. unfold zget, zlen in *. destruct (l - 2 <? 0) eqn:B; [discriminate|]. rewrite nth_error_app1 by lia. exact E'. }
  destruct (G (Z.to_nat (n - 2))) as (J & E & L & H). exists J. split; auto. split; [lia|]. intros l Hl. apply H. lia.
Qed.

(** ** what the exchange does to each degree *)
Definition deg_out huge (P : partial_iso F) (N l : Z) (A A' : list F) : Prop :=
  let e := l mod 2 in
    (forall i, 0 <= i < l / 2 -> nthZ zero A' (ps N l (1 + e + 2 * i)) = ev huge (f11 P) (ztab (l / 2) (fun k => nthZ zero A (ps N l (1 + e + 2 * k)))) i) /\
    (forall i, 0 <= i < (l + 2) / 2 -> nthZ zero A' (pc N l (e + 2 * i)) = ev huge (f22 P) (ztab ((l + 2) / 2) (fun k => nthZ zero A (pc N l (e + 2 * k)))) i) /\
    (forall i, 0 <= i < (l + 1) / 2 -> nthZ zero A' (ps N l (2 - e + 2 * i)) = ev huge (f12 P) (ztab ((l + 1) / 2) (fun k => nthZ zero A (pc N l (1 - e + 2 * k)))) i) /\
    (forall i, 0 <= i < (l + 1) / 2 -> nthZ zero A' (pc N l (1 - e + 2 * i)) = ev huge (f21 P) (ztab ((l + 1) / 2) (fun k => nthZ zero A (ps N l (2 - e + 2 * k)))) i).
Lemma same_ps N M l A B m : 1 <= m <= l -> l < N -> 2 * l < M -> same_degree N M l A B -> nthZ zero A (ps N l m) = nthZ zero B (ps N l m).
Proof. intros Hm Hl HM S. apply S; lia. Qed.
Lemma same_pc N M l A B m : 0 <= m <= l -> l < N -> 2 * l < M -> same_degree N M l A B -> nthZ zero A (pc N l m) = nthZ zero B (pc N l m).
Proof. intros Hm Hl HM S. apply S; lia. Qed.
Lemma same_from N M l A B : (forall m, 1 <= m <= l -> nthZ zero A (ps N l m) = nthZ zero B (ps N l m)) -> (forall m, 0 <= m <= l -> nthZ zero A (pc N l m) = nthZ zero B (pc N l m)) -> same_degree N M l A B.
Proof.
  intros Hs Hc i q Hi Hq D. destruct (Z.eq_dec (q mod 2) 1) as [E|E].
  - assert (X := Hs ((q + 1) / 2) ltac:(lia)). unfold ps, pos in X. replace (l - (q + 1) / 2) with i in X by lia. replace (2 * ((q + 1) / 2) - 1) with q in X by lia. exact X.
  - assert (X := Hc (q / 2) ltac:(lia)). unfold pc, pos in X. replace (l - q / 2) with i in X by lia. replace (2 * (q / 2)) with q in X by lia. exact X.
Qed.
Ltac tabs := f_equal; apply map_ext_in; intros k Hk; apply in_seq in Hk; (eapply same_ps || eapply same_pc); eauto; lia.
Lemma deg_out_in huge P N M l A B A' : 1 <= l < N -> 2 * l < M -> same_degree N M l A B -> deg_out huge P N l A A' -> deg_out huge P N l B A'.
Proof.
  intros Hl HM S (H1 & H2 & H3 & H4). split; [|split; [|split]]; intros i Hi.
  - rewrite H1 by lia. tabs.
  - rewrite H2 by lia. tabs.
  - rewrite H3 by lia. tabs.
  - rewrite H4 by lia. tabs.
Qed.
Lemma deg_out_fun huge P N M l A A1 A2 : 1 <= l < N -> deg_out huge P N l A A1 -> deg_out huge P N l A A2 -> same_degree N M l A1 A2.
Proof.
  intros Hl (H1 & H2 & H3 & H4) (K1 & K2 & K3 & K4). apply same_from; intros m Hm.
  - destruct (Z.eq_dec ((m + l) mod 2) 1).
    + assert (X := H1 ((m - 1 - l mod 2) / 2) ltac:(lia)). assert (Y := K1 ((m - 1 - l mod 2) / 2) ltac:(lia)). replace (1 + l mod 2 + 2 * ((m - 1 - l mod 2) / 2)) with m in * by lia. congruence.
    + assert (X := H3 ((m - 2 + l mod 2) / 2) ltac:(lia)). assert (Y := K3 ((m - 2 + l mod 2) / 2) ltac:(lia)). replace (2 - l mod 2 + 2 * ((m - 2 + l mod 2) / 2)) with m in * by lia. congruence.
  - destruct (Z.eq_dec ((m + l) mod 2) 1).
    + assert (X := H4 ((m - 1 + l mod 2) / 2) ltac:(lia)). assert (Y := K4 ((m - 1 + l mod 2) / 2) ltac:(lia)). replace (1 - l mod 2 + 2 * ((m - 1 + l mod 2) / 2)) with m in * by lia. congruence.
    + assert (X := H2 ((m - l mod 2) / 2) ltac:(lia)). assert (Y := K2 ((m - l mod 2) / 2) ltac:(lia)). replace (l mod 2 + 2 * ((m - l mod 2) / 2)) with m in * by lia. congruence.
Qed.
Lemma deg_out_out huge P N M l A A1 A2 : 1 <= l < N -> 2 * l < M -> same_degree N M l A1 A2 -> deg_out huge P N l A A1 -> deg_out huge P N l A A2.
Proof.
  intros Hl HM S (H1 & H2 & H3 & H4). split; [|split; [|split]]; intros i Hi.
  - rewrite <- H1 by lia. symmetry. eapply same_ps; eauto; lia.
  - rewrite <- H2 by lia. symmetry. eapply same_pc; eauto; lia.
  - rewrite <- H3 by lia. symmetry. eapply same_ps; eauto; lia.
  - rewrite <- H4 by lia. symmetry. eapply same_pc; eauto; lia.
Qed.

Definition exchanged huge (J : list (partial_iso F)) (n N h : Z) (A A' : list F) : Prop :=
  zlen A' = N * (2 * h + 1) /\
  (nthZ zero A' 1 = opp (nthZ zero A N) /\ nthZ zero A' N = opp (nthZ zero A 1) /\ nthZ zero A' (N * 2) = nthZ zero A (N * 2)) /\
  (forall l, 2 <= l < n -> exists P, zget J (l - 2) = Some P /\ plan_partial l = Some P /\ deg_out huge P N l A A') /\
  (forall l, l = 0 \/ n <= l < N -> same_degree N (2 * h + 1) l A A') /\
  (forall l, N <= l -> forall i q, 0 <= i < N -> 0 <= q < 2 * h + 1 -> i + (q + 1) / 2 = l -> nthZ zero A' (i + N * q) = nthZ zero A (i + N * q) \/ nthZ zero A' (i + N * q) = zero).

Lemma yz_exchange_spec huge n N h A : 2 <= n <= N -> n - 1 <= h -> zlen A = N * (2 * h + 1) ->
  exists J A', plan_isometry n = Some J /\ yz_exchange huge n J N (2 * h + 1) A = Some A' /\ exchanged huge J n N h A A'.
Proof.
  intros Hn Hh LA. destruct (plan_isometry_good n) as (J & EJ & LJ & HJ). exists J. unfold yz_exchange. replace (0 <? n) with true by lia.
  assert (P1 : 0 <= 1 < zlen A) by (rewrite LA; nia). assert (PN : 0 <= N < zlen A) by (rewrite LA; nia).
  rewrite !(zget_nthZ zero) by lia. cbn [obind]. rewrite zset_some by lia. cbn [obind]. rewrite zset_some by (rewrite zlen_zupd; lia). cbn [obind].
  set (A1 := zupd (zupd A 1 (opp (nthZ zero A N))) N (opp (nthZ zero A 1))).
  assert (LA1 : zlen A1 = N * (2 * h + 1)) by (unfold A1; rewrite !zlen_zupd; exact LA).
  assert (V1 : forall r, nthZ zero A1 r = if N =? r then opp (nthZ zero A 1) else if 1 =? r then opp (nthZ zero A N) else nthZ zero A r).
  { intros r. unfold A1. rewrite !nthZ_zupd by (rewrite ?zlen_zupd; lia). reflexivity. }
  assert (SD1 : forall l, l <> 1 -> same_degree N (2 * h + 1) l A A1).
  { intros l Hl i q Hi Hq D. rewrite V1. change (i + N * q) with (pos N i q).
    replace (N =? pos N i q) with false. 2:{ symmetry. apply Z.eqb_neq. intros X. replace N with (pos N 0 1) in X at 1 by (unfold pos; lia). apply pos_inj in X; lia. }
    replace (1 =? pos N i q) with false. 2:{ symmetry. apply Z.eqb_neq. intros X. replace 1 with (pos N 1 0) in X by (unfold pos; lia). apply pos_inj in X; lia. }
    reflexivity. }
  destruct (for_up_inv (fun l C => zlen C = N * (2 * h + 1) /\
     (forall k, 2 <= k < l -> exists P, zget J (k - 2) = Some P /\ plan_partial k = Some P /\ deg_out huge P N k A C) /\
     (forall k, k <= 1 \/ l <= k < N -> same_degree N (2 * h + 1) k A1 C) /\
     (forall k, N <= k -> forall i q, 0 <= i < N -> 0 <= q < 2 * h + 1 -> i + (q + 1) / 2 = k -> nthZ zero C (i + N * q) = nthZ zero A1 (i + N * q) \/ nthZ zero C (i + N * q) = zero))
    2 n (fun l A => exchange_degree huge J N l A) A1) as (A' & E & LA' & V & W & Z).
  - lia.
  - split; auto. split; [intros; lia|]. split; auto. intros k _ i q _ _ _. reflexivity.
  - intros l C Hl (LC & V & W & Z). destruct (HJ l Hl) as (P & EP & EPP & G). destruct G as (W1 & W2 & W3 & W4 & N1 & N2 & N3 & N4).
    destruct (exchange_degree_spec N h l ltac:(lia) ltac:(lia) huge J P C LC EP W1 W2 W3 W4 N1 N2 N3 N4) as (C' & E & LC' & H1 & H2 & H3 & H4 & H5).
    exists C'. split; auto. split; auto.
    assert (FR : forall k, k <> l -> k < N -> same_degree N (2 * h + 1) k C C').
    { intros k Hk HkN i q Hi Hq D. change (i + N * q) with (pos N i q). destruct (H5 (pos N i q)) as [X|(_ & j & Hj & X)]; auto.
      - intros m Hm X. unfold ps in X. apply pos_inj in X; lia.
      - intros m Hm X. unfold pc in X. apply pos_inj in X; lia.
      - destruct X as [X|X]; unfold sa, sb in X; apply pos_inj in X; lia. }
    split; [|split].
    + intros k Hk. destruct (Z.eq_dec k l) as [->|Ne].
      * exists P. split; auto. split; auto. apply (deg_out_in huge P N (2 * h + 1) l C); try lia; [|split; [|split; [|split]]; assumption].
        intros i q Hi Hq D. rewrite <- (W l ltac:(lia) i q Hi Hq D). symmetry. apply (SD1 l); auto; lia.
      * destruct (V k ltac:(lia)) as (P' & E' & E'' & H'). exists P'. split; auto. split; auto. apply (deg_out_out huge P' N (2 * h + 1) k A C); auto; try lia. apply FR; lia.
    + intros k Hk i q Hi Hq D. rewrite (W k ltac:(lia) i q Hi Hq D). apply (FR k); auto; lia.
    + intros k Hk i q Hi Hq D. destruct (H5 (pos N i q)) as [X|(X & _)].
      * intros m Hm X. unfold ps in X. apply pos_inj in X; lia.
      * intros m Hm X. unfold pc in X. apply pos_inj in X; lia.
      * unfold pos in X. rewrite X. apply (Z k); auto.
      * unfold pos in X. auto.
  - exists A'. split; auto. split; auto. split; auto. split; [|split; [|split]].
    + pose proof (W 1 ltac:(lia)) as S1. assert (X1 := S1 1 0 ltac:(lia) ltac:(lia) eq_refl). assert (X2 := S1 0 1 ltac:(lia) ltac:(lia) eq_refl). assert (X3 := S1 0 2 ltac:(lia) ltac:(lia) eq_refl).
      replace (1 + N * 0) with 1 in X1 by lia. replace (0 + N * 1) with N in X2 by lia. replace (0 + N * 2) with (N * 2) in X3 by lia. rewrite <- X1, <- X2, <- X3, !V1.
      replace (N =? 1) with false by lia. replace (1 =? 1) with true by lia. replace (N =? N) with true by lia. replace (N =? N * 2) with false by lia. replace (1 =? N * 2) with false by lia. auto.
    + exact V.
    + intros l Hl i q Hi Hq D. rewrite <- (W l ltac:(lia) i q Hi Hq D). apply (SD1 l); auto; lia.
    + intros l Hl i q Hi Hq D. rewrite (SD1 l ltac:(lia) i q Hi Hq D). apply (Z l); auto.
Qed.
Lemma exchange_degree_same huge n N h l A B : 2 <= n <= N -> n - 1 <= h -> l < N -> zlen A = N * (2 * h + 1) -> zlen B = N * (2 * h + 1) -> same_degree N (2 * h + 1) l A B ->
  exists J A' B', plan_isometry n = Some J /\ yz_exchange huge n J N (2 * h + 1) A = Some A' /\ yz_exchange huge n J N (2 * h + 1) B = Some B' /\
    zlen A' = N * (2 * h + 1) /\ zlen B' = N * (2 * h + 1) /\ same_degree N (2 * h + 1) l A' B'.
Proof.
  intros Hn Hh Hl LA LB S. destruct (yz_exchange_spec huge n N h A Hn Hh LA) as (J & A' & EJ & EA & L1 & D1 & V1 & W1 & _). destruct (yz_exchange_spec huge n N h B Hn Hh LB) as (J' & B' & EJ' & EB & L2 & D2 & V2 & W2 & _).
  rewrite EJ in EJ'. injection EJ' as <-. exists J, A', B'. split; auto. split; auto. split; auto. split; auto. split; auto.
  destruct (Z_lt_dec l 0). { intros i q Hi Hq D. lia. }
  destruct (Z.eq_dec l 1) as [->|N1].
  - destruct D1 as (a1 & a2 & a3), D2 as (b1 & b2 & b3). apply same_from; intros m Hm.
    + assert (m = 1) by lia. subst m. unfold ps, pos. replace (1 - 1 + N * (2 * 1 - 1)) with N by lia. rewrite a2, b2. f_equal. assert (X := S 1 0 ltac:(lia) ltac:(lia) eq_refl). now replace (1 + N * 0) with 1 in X by lia.
    + assert (Hm' : m = 0 \/ m = 1) by lia. destruct Hm' as [-> | ->]; unfold pc, pos.
      * replace (1 - 0 + N * (2 * 0)) with 1 by lia. rewrite a1, b1. f_equal. assert (X := S 0 1 ltac:(lia) ltac:(lia) eq_refl). now replace (0 + N * 1) with N in X by lia.
      * replace (1 - 1 + N * (2 * 1)) with (N * 2) by lia. rewrite a3, b3. assert (X := S 0 2 ltac:(lia) ltac:(lia) eq_refl). now replace (0 + N * 2) with (N * 2) in X by lia.
  - destruct (Z_lt_dec l n) as [Hln|Hln]; [destruct (Z.eq_dec l 0) as [->|N0]|].
    + intros i q Hi Hq D. rewrite <- (W1 0 ltac:(lia) i q Hi Hq D), <- (W2 0 ltac:(lia) i q Hi Hq D). apply S; auto.
    + destruct (V1 l ltac:(lia)) as (P & EP & _ & O1). destruct (V2 l ltac:(lia)) as (P' & EP' & _ & O2). rewrite EP in EP'. injection EP' as <-.
      apply (deg_out_in huge P N (2 * h + 1) l A B) in O1; auto; try lia. apply (deg_out_fun huge P N (2 * h + 1) l B); auto; lia.
    + intros i q Hi Hq D. rewrite <- (W1 l ltac:(lia) i q Hi Hq D), <- (W2 l ltac:(lia) i q Hi Hq D). apply S; auto.
Qed.
Lemma isometry_degree huge n N h l (Q : zyzr F) A B : 2 <= n <= N -> n - 1 <= h -> l < N -> zlen A = N * (2 * h + 1) -> zlen B = N * (2 * h + 1) -> same_degree N (2 * h + 1) l A B ->
  exists J A' B', plan_isometry n = Some J /\ sph_isometry huge n J Q N (2 * h + 1) A = Some A' /\ sph_isometry huge n J Q N (2 * h + 1) B = Some B' /\
    zlen A' = N * (2 * h + 1) /\ zlen B' = N * (2 * h + 1) /\ same_degree N (2 * h + 1) l A' B'.
Proof.
  intros Hn Hh Hl LA LB S. unfold sph_isometry. destruct (plan_isometry_good n) as (J & EJ & _). exists J.
  assert (X : exists A1 B1, (if zsign Q <? 0 then polar_reflection N (2 * h + 1) A else Some A) = Some A1 /\ (if zsign Q <? 0 then polar_reflection N (2 * h + 1) B else Some B) = Some B1 /\
    zlen A1 = N * (2 * h + 1) /\ zlen B1 = N * (2 * h + 1) /\ same_degree N (2 * h + 1) l A1 B1).
  { destruct (zsign Q <? 0); [apply reflection_degree; auto; lia|eauto 10]. }
  destruct X as (A1 & B1 & -> & -> & LA1 & LB1 & S1). cbn [obind].
  destruct (rotation_degree N h l (zs2 Q) (zc2 Q) A1 B1) as (A2 & B2 & -> & -> & LA2 & LB2 & S2); try lia; auto. cbn [obind].
  destruct (exchange_degree_same huge n N h l A2 B2) as (J' & A3 & B3 & EJ' & E1 & E2 & LA3 & LB3 & S3); try lia; auto. rewrite EJ in EJ'. injection EJ' as <-. rewrite E1, E2. cbn [obind]. clear E1 E2.
  destruct (rotation_degree N h l (opp (zs1 Q)) (zc1 Q) A3 B3) as (A4 & B4 & -> & -> & LA4 & LB4 & S4); try lia; auto. cbn [obind].
  destruct (exchange_degree_same huge n N h l A4 B4) as (J' & A5 & B5 & EJ' & E1 & E2 & LA5 & LB5 & S5); try lia; auto. rewrite EJ in EJ'. injection EJ' as <-. rewrite E1, E2. cbn [obind]. clear E1 E2.
  destruct (rotation_degree N h l (zs0 Q) (zc0 Q) A5 B5) as (A6 & B6 & -> & -> & LA6 & LB6 & S6); try lia; auto. eauto 10.
Qed.
End Deg.
