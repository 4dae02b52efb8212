(** * Divide and conquer: tearing and the recursion *)
From Coq Require Import ZArith List Lia Bool Reals Lra ZifyBool ZifyNat.
From Verif Require Import Arith Base BaseFacts SpecSum SpecLin PSum PTri MHier SpecHier PHier PHier2 MDprk MDprk2 SpecDprk PDprk PDprk2 PDprk3 PDprk7 PLinInv MTridiag SpecTri MTdc SpecTdc PTdc.
Import ListNotations.
Open Scope Z_scope.

Lemma zg (a : list R) i : 0 <= i < zlen a -> zget a i = Some (nR a i).
Proof. intros H. apply zget_nthZ; lia. Qed.
Lemma tear_first_val s rho (T : symtri R) : 1 <= s -> s <= zlen (st_a T) -> s - 1 <= zlen (st_b T) ->
  exists T1, tear_first s rho T = Some T1 /\ st_n T1 = s /\ zlen (st_a T1) = s /\ zlen (st_b T1) = s - 1 /\
    (forall i, 0 <= i < s -> nR (st_a T1) i = if i =? s - 1 then (nR (st_a T) i - Rabs rho)%R else nR (st_a T) i) /\
    (forall i, 0 <= i < s - 1 -> nR (st_b T1) i = nR (st_b T) i).
Proof.
  intros Hs Ha Hb. unfold tear_first.
  edestruct (for_up_inv (fun k ab => zlen (fst ab) = s /\ zlen (snd ab) = s - 1 /\
     (forall i, 0 <= i < k -> nR (fst ab) i = nR (st_a T) i) /\ (forall i, 0 <= i < k -> nR (snd ab) i = nR (st_b T) i)) 0 (s - 1)) as ((a & b) & E & La & Lb & Va & Vb).
  { lia. }
  { instantiate (1 := (zmake s zero, zmake (s - 1) zero)). cbn [fst snd]. rewrite !zlen_zmake by lia. repeat split; intros; lia. }
  2:{ rewrite E. cbn [obind fst snd] in *. rewrite zg by lia. cbn [obind]. rewrite zset_some by lia. cbn [obind].
      eexists; split; [reflexivity|]. cbn [st_n st_a st_b]. rewrite zlen_zupd. repeat split; auto.
      intros i Hi. rewrite nthZ_zupd by lia. rewrite (Z.eqb_sym (s - 1)). destruct (i =? s - 1) eqn:Ei.
      - replace i with (s - 1) by lia. change (nR (st_a T) (s - 1) + -1 * Rabs rho = nR (st_a T) (s - 1) - Rabs rho)%R. ring.
      - apply Va; lia. }
  intros k (a & b) Hk (La & Lb & Va & Vb). cbn [fst snd] in *. rewrite zg by lia. cbn [obind]. rewrite zset_some by lia. cbn [obind].
  rewrite zg by lia. cbn [obind]. rewrite zset_some by lia. cbn [obind].
  eexists; split; [reflexivity|]. cbn [fst snd]. rewrite !zlen_zupd. repeat split; auto.
  - intros i Hi. rewrite nthZ_zupd by lia. destruct (k =? i) eqn:E; [f_equal; lia|apply Va; lia].
  - intros i Hi. rewrite nthZ_zupd by lia. destruct (k =? i) eqn:E; [f_equal; lia|apply Vb; lia].
Qed.
Lemma tear_second_val n s rho (T : symtri R) : 1 <= s -> s < n -> n <= zlen (st_a T) -> n - 1 <= zlen (st_b T) ->
  exists T2, tear_second n s rho T = Some T2 /\ st_n T2 = n - s /\ zlen (st_a T2) = n - s /\ zlen (st_b T2) = n - s - 1 /\
    (forall i, 0 <= i < n - s -> nR (st_a T2) i = if i =? 0 then (nR (st_a T) s - Rabs rho)%R else nR (st_a T) (s + i)) /\
    (forall i, 0 <= i < n - s - 1 -> nR (st_b T2) i = nR (st_b T) (s + i)).
Proof.
  intros Hs Hn Ha Hb. unfold tear_second.
  edestruct (for_up_inv (fun k ab => zlen (fst ab) = n - s /\ zlen (snd ab) = n - s - 1 /\
     (forall i, 1 <= i <= k - s -> nR (fst ab) i = nR (st_a T) (s + i)) /\ (forall i, 0 <= i < k - s -> nR (snd ab) i = nR (st_b T) (s + i))) s (n - 1)) as ((a & b) & E & La & Lb & Va & Vb).
  { lia. }
  { instantiate (1 := (zmake (n - s) zero, zmake (n - s - 1) zero)). cbn [fst snd]. rewrite !zlen_zmake by lia. repeat split; intros; lia. }
  2:{ rewrite E. cbn [obind fst snd] in *. rewrite zg by lia. cbn [obind]. rewrite zset_some by lia. cbn [obind].
      eexists; split; [reflexivity|]. cbn [st_n st_a st_b]. rewrite zlen_zupd. repeat split; auto.
      - intros i Hi. rewrite nthZ_zupd by lia. rewrite (Z.eqb_sym 0). destruct (i =? 0) eqn:Ei.
        + change (nR (st_a T) s + -1 * Rabs rho = nR (st_a T) s - Rabs rho)%R. ring.
        + apply Va; lia.
      - intros i Hi. apply Vb; lia. }
  intros k (a & b) Hk (La & Lb & Va & Vb). cbn [fst snd] in *. rewrite zg by lia. cbn [obind]. rewrite zset_some by lia. cbn [obind].
  rewrite zg by lia. cbn [obind]. rewrite zset_some by lia. cbn [obind].
  eexists; split; [reflexivity|]. cbn [fst snd]. rewrite !zlen_zupd. repeat split; auto.
  - intros i Hi. rewrite nthZ_zupd by lia. destruct (k - s + 1 =? i) eqn:E; [f_equal; lia|apply Va; lia].
  - intros i Hi. rewrite nthZ_zupd by lia. destruct (k - s =? i) eqn:E; [f_equal; lia|apply Vb; lia].
Qed.
(** the entries of y *)
Notation yv := tear_dir.
Lemma tear_vector_val n s : 1 <= s -> s < n -> exists y, @tear_vector R R_arith n s = Some y /\ zlen y = n /\ forall i, 0 <= i < n -> nR y i = yv s i.
Proof.
  intros Hs Hn. unfold tear_vector. rewrite zset_some by (rewrite zlen_zmake by lia; lia). cbn [obind].
  rewrite zset_some by (rewrite zlen_zupd, zlen_zmake by lia; lia). eexists; split; [reflexivity|]. rewrite !zlen_zupd, zlen_zmake by lia. split; [reflexivity|].
  intros i Hi. rewrite nthZ_zupd by (rewrite zlen_zupd, zlen_zmake by lia; lia). rewrite nthZ_zupd by (rewrite zlen_zmake by lia; lia).
  unfold tear_dir. rewrite (Z.eqb_sym (s - 1)), (Z.eqb_sym s). destruct (i =? s) eqn:E1, (i =? s - 1) eqn:E2; try lia; try reflexivity.
  unfold nthZ. rewrite zget_zmake by lia. reflexivity.
Qed.
Notation nonpositive_b := nonpositive_off.
Lemma half_range n : 2 <= n -> 1 <= n / 2 <= n - 1.
Proof. intros. pose proof (Z.div_le_upper_bound n 2 (n - 1)); pose proof (Z.div_le_lower_bound n 2 1); lia. Qed.
Theorem halves_proof T : st_ok T -> 2 <= st_n T -> let n := st_n T in let s := n / 2 in
  exists T1 T2 rho, halves T = Some (T1, T2, rho) /\ tear_rho s T = Some rho /\ tear_first s rho T = Some T1 /\ tear_second n s rho T = Some T2 /\
    st_ok T1 /\ st_n T1 = s /\ st_ok T2 /\ st_n T2 = n - s /\
    rho = Rabs (nR (st_b T) (s - 1)) /\
    (nonpositive_b T -> nonpositive_b T1 /\ nonpositive_b T2) /\
    (forall i j, 0 <= i < n -> 0 <= j < n -> (blockdiag s (st_mat T1) (st_mat T2) i j + rho * yv s i * yv s j =
       if ((i =? s - 1) && (j =? s) || (i =? s) && (j =? s - 1))%bool then - Rabs (nR (st_b T) (s - 1)) else st_mat T i j)%R).
Proof.
  intros (H1 & Ha & Hb) H2 n s. pose proof (half_range n H2) as Hs. fold s in Hs. fold n in H1, H2, Ha, Hb. unfold halves. fold n. fold s.
  assert (Er : tear_rho s T = Some (Rabs (nR (st_b T) (s - 1)))).
  { unfold tear_rho. rewrite zg by lia. cbn [obind]. f_equal. change (1 * Rabs (nR (st_b T) (s - 1)) = Rabs (nR (st_b T) (s - 1)))%R. ring. }
  rewrite Er. cbn [obind]. set (r := Rabs (nR (st_b T) (s - 1))) in *.
  destruct (tear_first_val s r T) as (T1 & E1 & N1 & LA1 & LB1 & VA1 & VB1); try lia. rewrite E1. cbn [obind].
  destruct (tear_second_val n s r T) as (T2 & E2 & N2 & LA2 & LB2 & VA2 & VB2); try lia. rewrite E2. cbn [obind].
  exists T1, T2, r. assert (Rr : Rabs r = r) by (apply Rabs_pos_eq, Rabs_pos).
  repeat (split; [first [reflexivity | exact Er | exact E1 | exact E2 | exact N1 | exact N2 | unfold st_ok; lia]|]).
  split.
  - intros Hb0. split; intros i Hi.
    + rewrite VB1 by lia. apply Hb0. lia.
    + rewrite VB2 by lia. apply Hb0. lia.
  - intros i j Hi Hj. unfold blockdiag, st_mat, tear_dir. rewrite Rr in *.
    destruct (i <? s) eqn:Ei, (j <? s) eqn:Ej.
    + replace (i =? s) with false by lia. replace (j =? s) with false by lia. rewrite andb_false_r. cbn [orb andb].
      destruct (i =? j) eqn:Eij.
      * rewrite VA1 by lia. assert (i = j) by lia; subst j. destruct (i =? s - 1) eqn:Es; ring.
      * destruct (j =? i + 1) eqn:E3; [rewrite VB1 by lia; replace (i =? s - 1) with false by lia; ring|].
        destruct (i =? j + 1) eqn:E4; [rewrite VB1 by lia; replace (j =? s - 1) with false by lia; ring|].
        destruct (i =? s - 1) eqn:E5; [replace (j =? s - 1) with false by lia|]; ring.
    + replace (i =? s) with false by lia. replace (j =? s - 1) with false by lia. rewrite andb_false_r.
      destruct (i =? s - 1) eqn:E1'; destruct (j =? s) eqn:E2'; cbn [orb andb]; [ring| | |].
      all: replace (i =? j) with false by lia; replace (j =? i + 1) with false by lia; replace (i =? j + 1) with false by lia; ring.
    + replace (i =? s - 1) with false by lia. replace (j =? s) with false by lia. cbn [andb orb].
      destruct (i =? s) eqn:E1'; destruct (j =? s - 1) eqn:E2'; cbn [orb andb]; [ring| | |].
      all: replace (i =? j) with false by lia; replace (j =? i + 1) with false by lia; replace (i =? j + 1) with false by lia; ring.
    + replace (i =? s - 1) with false by lia. replace (j =? s - 1) with false by lia. cbn [andb orb]. rewrite andb_false_r.
      replace (i - s =? j - s) with (i =? j) by lia. replace (j - s =? i - s + 1) with (j =? i + 1) by lia. replace (i - s =? j - s + 1) with (i =? j + 1) by lia.
      destruct (i =? j) eqn:Eij.
      * assert (i = j) by lia; subst j. rewrite VA2 by lia. replace (i - s =? 0) with (i =? s) by lia. destruct (i =? s) eqn:Es.
        { replace i with s by lia. ring. } { replace (s + (i - s)) with i by ring. ring. }
      * destruct (j =? i + 1) eqn:E3; [rewrite VB2 by lia; replace (s + (i - s)) with i by ring; replace (j =? s) with false by lia; destruct (i =? s); ring|].
        destruct (i =? j + 1) eqn:E4; [rewrite VB2 by lia; replace (s + (j - s)) with j by ring; replace (i =? s) with false by lia; ring|].
        destruct (i =? s) eqn:E5; [replace (j =? s) with false by lia|]; ring.
Qed.
(** the tearing identity *)
Corollary tearing T T1 T2 rho : st_ok T -> 2 <= st_n T -> halves T = Some (T1, T2, rho) -> (nR (st_b T) (st_n T / 2 - 1) <= 0)%R ->
  forall i j, 0 <= i < st_n T -> 0 <= j < st_n T -> (st_mat T i j = blockdiag (st_n T / 2) (st_mat T1) (st_mat T2) i j + rho * yv (st_n T / 2) i * yv (st_n T / 2) j)%R.
Proof.
  intros HT Hn E Hb i j Hi Hj. destruct (halves_proof T HT Hn) as (T1' & T2' & rho' & E' & _ & _ & _ & _ & _ & _ & _ & _ & _ & H).
  rewrite E in E'. injection E' as <- <- <-. rewrite H by lia. set (s := st_n T / 2) in *.
  rewrite Rabs_left1 by exact Hb. rewrite Ropp_involutive. unfold st_mat.
  destruct (i =? s - 1) eqn:E1, (j =? s) eqn:E2, (i =? s) eqn:E3, (j =? s - 1) eqn:E4; cbn [orb andb]; try reflexivity; try lia.
  - replace (i =? j) with false by lia. replace (j =? i + 1) with true by lia. f_equal; lia.
  - replace (i =? j) with false by lia. replace (j =? i + 1) with false by lia. replace (i =? j + 1) with true by lia. f_equal; lia.
Qed.

Section Solve.
Context {V : Type}.
Variable M0 : dpeig R V -> Z -> Z -> R.
Variable ok0 : dpeig R V -> Prop.
Variable dmv0 : bool -> R -> dpeig R V -> list R -> R -> list R -> option (list R * list R * list Z * list Z).
Hypothesis Hdmv : forall t alpha E x beta y, ok0 E -> de_num E <= zlen x -> de_num E <= zlen y ->
  exists y', dmv0 t alpha E x beta y = Some (x, y', de_p E, de_q E) /\
    writes 0 (de_num E) y y' (fun i => (alpha * matvec (de_num E) (op t (M0 E)) (vec 0 x) i + beta * vec 0 y i)%R).
Lemma ok_lambda F : tdc_ok ok0 F -> zlen (tdc_lambda F) = tdc_n F.
Proof. destruct F; cbn; tauto. Qed.
Lemma merge_problem_val n s rho sigma y F1 F2 : tdc_ok ok0 F1 -> tdc_ok ok0 F2 -> tdc_n F1 = s -> tdc_n F2 = n - s -> 1 <= s -> s < n -> zlen y = n ->
  exists A B G1 G2, merge_problem dmv0 n s rho sigma y F1 F2 = Some (A, B, G1, G2) /\ same_tree F1 G1 /\ same_tree F2 G2 /\
    dp_ok A /\ dp_n A = n /\ dp_rho A = rho /\ ip_ok B /\ ip_n B = n /\ ip_sigma B = sigma /\
    (forall i, 0 <= i < n -> nR (dp_d A) i = catf s (nR (tdc_lambda F1)) (nR (tdc_lambda F2)) i) /\
    (forall k, 0 <= k < n -> nR (dp_z A) k = sumZ n (fun i => (blockdiag s (tdc_mat M0 F1) (tdc_mat M0 F2) i k * nR y i)%R)) /\
    (forall k, 0 <= k < n -> nR (ip_z B) k = nR (dp_z A) k).
Proof.
  intros K1 K2 N1 N2 Hs Hn Hy. unfold merge_problem.
  destruct (tmv_proof M0 ok0 dmv0 Hdmv F1 true 1%R y 0%R (zmake n 0%R) K1) as (G1 & z1 & E1 & S1 & W1); [lia|rewrite zlen_zmake by lia; lia|].
  change (@one R R_arith) with 1%R; change (@zero R R_arith) with 0%R. rewrite E1. cbn [obind].
  assert (Lz1 : zlen z1 = n) by (destruct W1 as (Q & _); rewrite Q, zlen_zmake by lia; lia).
  destruct (tmv_proof M0 ok0 dmv0 Hdmv F2 true 1%R (tailz s y) 0%R (tailz s z1) K2) as (G2 & z2 & E2 & S2 & W2); [rewrite zlen_tailz by lia; lia|rewrite zlen_tailz by lia; lia|].
  rewrite E2. cbn [obind].
  apply tail_writes in W2; [|lia|lia|lia]. rewrite N2 in W2. rewrite N1 in W1.
  pose proof (writes_join n s _ z1 _ _ _ ltac:(lia) W1 W2) as WJ. set (z3 := headz s z1 ++ z2) in *.
  assert (Lz3 : zlen z3 = n) by (destruct WJ as (Q & _); rewrite Q, zlen_zmake by lia; lia).
  destruct (same_n _ _ S1) as (NG1 & LG1), (same_n _ _ S2) as (NG2 & LG2).
  pose proof (ok_lambda _ K1) as LL1. pose proof (ok_lambda _ K2) as LL2. rewrite <- LG1, <- LG2.
  edestruct (for_up_inv (fun k d => zlen d = n /\ forall i, 0 <= i < k -> nR d i = nR (tdc_lambda F1) i) 0 s) as (d1 & D1 & Ld1 & V1).
  { lia. } { instantiate (1 := zmake n 0%R). rewrite zlen_zmake by lia. split; [lia|intros; lia]. }
  2:{ rewrite D1. cbn [obind].
      edestruct (for_up_inv (fun k d => zlen d = n /\ (forall i, 0 <= i < s -> nR d i = nR (tdc_lambda F1) i) /\ forall i, 0 <= i < k -> nR d (i + s) = nR (tdc_lambda F2) i) 0 (n - s)) as (d2 & D2 & Ld2 & V1' & V2).
      { lia. } { instantiate (1 := d1). split; [exact Ld1|split; [exact V1|intros; lia]]. }
      2:{ rewrite D2. cbn [obind]. destruct (copy_val n z3 ltac:(lia) ltac:(lia)) as (zb & EC & LC & VC). rewrite EC. cbn [obind].
          eexists _, _, G1, G2. split; [reflexivity|]. cbn [dp_d dp_z dp_rho dp_n ip_z ip_sigma ip_n].
          repeat (split; [first [exact S1|exact S2|reflexivity|unfold dp_ok; cbn; lia|unfold ip_ok; cbn; lia]|]).
          split; [|split].
          - intros i Hi. unfold catf. destruct (i <? s) eqn:Ei; [apply V1'; lia|]. rewrite <- V2 by lia. f_equal; ring.
          - intros k Hk. change (nR z3 k) with (vec 0 z3 k). rewrite (writes_vec _ _ _ _ _ k WJ Hk).
            change (sumZ n (fun i => (blockdiag s (tdc_mat M0 F1) (tdc_mat M0 F2) i k * nR y i)%R)) with (matvec n (op true (blockdiag s (tdc_mat M0 F1) (tdc_mat M0 F2))) (nR y) k).
            rewrite (mv_ext n _ _ _ (nR y) k (fun j _ => bd_op true _ _ _ k j) (fun j _ => eq_refl)), bd_matvec by lia. unfold catf. destruct (k <? s) eqn:Ek.
            + change (vec 0 y) with (nR y). ring.
            + rewrite (mv_ext (n - s) _ (op true (tdc_mat M0 F2)) _ (fun j => nR y (s + j)) (k - s) (fun j _ => eq_refl)). 1: ring.
              intros j Hj. rewrite vec_tailz by lia. reflexivity.
          - intros k Hk. apply nth_eq. apply VC. lia. }
      intros k d Hk (Ld & Va & Vb). rewrite zg by lia. cbn [obind]. rewrite zset_some by lia. eexists; split; [reflexivity|]. rewrite zlen_zupd. split; [lia|]. split.
      - intros i Hi. rewrite nthZ_zupd_other by lia. apply Va; lia.
      - intros i Hi. rewrite nthZ_zupd by lia. destruct (k + s =? i + s) eqn:E; [f_equal; lia|apply Vb; lia]. }
  intros k d Hk (Ld & Va). rewrite zg by lia. cbn [obind]. rewrite zset_some by lia. eexists; split; [reflexivity|]. rewrite zlen_zupd. split; [lia|].
  intros i Hi. rewrite nthZ_zupd by lia. destruct (k =? i) eqn:E; [f_equal; lia|apply Va; lia].
Qed.
Lemma identity_val n : 0 <= n -> exists I, @identity R R_arith n = Some I /\ zlen I = n * n /\ forall i j, 0 <= i < n -> 0 <= j < n -> mat 0 n I i j = delta i j.
Proof.
  intros Hn. unfold identity.
  edestruct (for_up_inv (fun k (I : list R) => zlen I = n * n /\ forall i j, 0 <= i < n -> 0 <= j < n -> mat 0 n I i j = if j <? k then delta i j else 0%R) 0 n) as (I & E & L & VI).
  { lia. } { instantiate (1 := zmake (n * n) 0%R). rewrite zlen_zmake by nia. split; [lia|]. intros i j Hi Hj. replace (j <? 0) with false by lia. unfold mat, nthZ. rewrite zget_zmake by nia. reflexivity. }
  2:{ exists I. split; [exact E|]. split; [exact L|]. intros i j Hi Hj. rewrite VI by lia. replace (j <? n) with true by lia. reflexivity. }
  intros k I Hk (L & VI). assert (0 <= k + k * n < zlen I) by nia. rewrite zset_some by lia. eexists; split; [reflexivity|]. rewrite zlen_zupd. split; [exact L|].
  intros i j Hi Hj. unfold mat. rewrite nthZ_zupd by lia. specialize (VI i j Hi Hj). unfold mat in VI. rewrite VI. unfold delta.
  destruct (k + k * n =? 0 + (i + j * n)) eqn:E.
  - assert (i = k /\ j = k) as (-> & ->) by (apply (idx2_inj i j k k n); lia). rewrite Z.eqb_refl. replace (k <? k + 1) with true by lia. reflexivity.
  - destruct (j <? k) eqn:E1; [replace (j <? k + 1) with true by lia; reflexivity|].
    destruct (j <? k + 1) eqn:E2; [|reflexivity]. assert (j = k) by lia; subst j. replace (i =? k) with false; [reflexivity|].
    symmetry. apply Z.eqb_neq. intros ->. lia.
Qed.
Variable bs : Z.
Variable leig : symtri R -> symtri R -> list R -> list R -> option (list R * list R).
Variable deig : dpr1 R -> idpr1 R -> option (dpeig R V).
Hypothesis Hbs : 2 <= bs.
Theorem sdtdc_proof fuel : forall T S, st_ok T -> st_ok S -> st_n S = st_n T -> nonpositive_b T -> nonpositive_b S -> (Z.to_nat (st_n T) <= fuel)%nat ->
  problems bs (leaf_solved leig) (merge_solved M0 ok0 deig) dmv0 leig deig fuel T S ->
  exists F, sdtdc_eig dmv0 bs leig deig fuel T S = Some F /\ tdc_ok ok0 F /\ tdc_n F = st_n T /\
    eigensystem (st_n T) (st_n T) (st_mat T) (st_mat S) (nthZ 0%R (tdc_lambda F)) (tdc_mat M0 F).
Proof.
  induction fuel as [|fuel IH]; intros T S HT HS HN BT BS Hf Hp; [unfold st_ok in HT; lia|].
  cbn [sdtdc_eig problems] in *. destruct (st_n T <? bs) eqn:Eb.
  - destruct (identity_val (st_n T)) as (I & E & L & VI); [unfold st_ok in HT; lia|]. change (@zero R R_arith) with 0%R. rewrite E. cbn [obind].
    destruct (Hp I (zmake (st_n T) 0%R) L) as (Vm & lam & El & LV & Ll & Hes); [apply zlen_zmake; unfold st_ok in HT; lia|exact VI|].
    rewrite El. cbn [obind]. eexists; split; [reflexivity|]. cbn [tdc_ok tdc_n tdc_lambda tdc_mat]. unfold st_ok in HT. repeat split; try lia; apply Hes; auto.
  - rewrite shiftr1. set (n := st_n T) in *. set (s := n / 2) in *.
    assert (Hn : 2 <= n) by lia. pose proof (half_range n Hn) as Hs. fold s in Hs.
    destruct (tear_vector_val n s) as (y & Ey & Ly & Vy); [lia|lia|]. rewrite Ey. cbn [obind].
    destruct (halves_proof T HT Hn) as (T1 & T2 & rho & EH & Er & E1 & E2 & OK1 & N1 & OK2 & N2 & Vr & NP & _). fold n in Er, E1, E2, N1, N2, Vr. fold s in Er, E1, E2, N1, N2, Vr. specialize (NP BT).
    assert (Hn' : 2 <= st_n S) by lia.
    destruct (halves_proof S HS Hn') as (S1 & S2 & sigma & EH' & Er' & E1' & E2' & OK1' & N1' & OK2' & N2' & Vr' & NP' & _). rewrite HN in Er', E1', E2', N1', N2', Vr'. fold s in Er', E1', E2', N1', N2', Vr'. specialize (NP' BS).
    rewrite Er, Er'. cbn [obind]. rewrite E1, E1', E2, E2'. cbn [obind].
    destruct (Hp _ _ _ _ _ _ EH EH') as (P1 & P2 & P0).
    destruct (IH T1 S1) as (F1 & EF1 & K1 & M1 & Y1); try tauto; try lia.
    destruct (IH T2 S2) as (F2 & EF2 & K2 & M2 & Y2); try tauto; try lia.
    rewrite EF1, EF2. cbn [obind].
    destruct (merge_problem_val n s rho sigma y F1 F2) as (A & B & G1 & G2 & EM & S1' & S2' & OA & NA & RA & OB & NB & SB & VD & VZ & VB); try lia; auto.
    rewrite EM. cbn [obind].
    destruct (P0 _ _ _ _ _ _ _ EF1 EF2 Ey EM) as (E0 & ED & OE & NE & LE & YE).
    { repeat split; try lia; try (apply OA); try (apply OB). - rewrite NA. exact VB. - rewrite SB, Vr'. apply Rabs_pos. }
    rewrite ED. cbn [obind].
    eexists; split; [reflexivity|].
    pose proof (same_ok ok0 _ _ S1' K1) as KG1. pose proof (same_ok ok0 _ _ S2' K2) as KG2.
    destruct (same_n _ _ S1') as (NG1 & LG1), (same_n _ _ S2') as (NG2 & LG2).
    split; [cbn [tdc_ok]; fold s; repeat split; auto; lia|]. split; [reflexivity|].
    cbn [tdc_lambda tdc_mat]. rewrite <- NG1, <- (same_mat M0 _ _ S1'), <- (same_mat M0 _ _ S2'), M1.
    rewrite NA in YE. rewrite N1 in Y1 |- *. rewrite N2 in Y2.
    pose proof (bd_system n s _ _ _ _ _ _ _ _ ltac:(lia) Y1 Y2) as Y0.
    eapply eigensystem_ext; [| |intros j Hj; reflexivity|intros i j Hi Hj; reflexivity|eapply (merge_system n _ _ _ (nR (dp_d A)) (yv s) (nR (dp_z A)) rho sigma _ _ ltac:(lia))].
    + intros i j Hi Hj. symmetry. apply (tearing T T1 T2 rho HT Hn EH); auto. apply BT. fold n. fold s. lia.
    + intros i j Hi Hj. symmetry. rewrite <- HN in Hi, Hj |- *. rewrite (tearing S S1 S2 sigma HS Hn' EH'); auto. 1: rewrite HN; reflexivity.
      apply BS. rewrite HN. fold s. lia.
    + eapply eigensystem_ext; [| | | |exact Y0]; intros; try reflexivity. symmetry. apply VD. lia.
    + intros k Hk. rewrite VZ by lia. apply sumZ_ext. intros i Hi. now rewrite Vy by lia.
    + eapply eigensystem_ext; [| | | |exact YE]; intros; try reflexivity.
      * unfold dp_mat. rewrite RA. reflexivity.
      * unfold ip_mat. rewrite SB, !VB by lia. reflexivity.
Qed.
End Solve.
