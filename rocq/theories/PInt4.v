(** * Index ranges of the permutations and the normalizations *)
From Coq Require Import ZArith List Lia Bool String ZifyBool ZifyNat.
From Verif Require Import Base MInt PInt PInt2 PInt3.
Import ListNotations.
Open Scope Z_scope.

Lemma ev_exact e a : forall v, ev e a = Some v -> v = exact e a.
Proof.
  induction a as [z|x|a IHa b IHb|a IHa b IHb|a IHa b IHb|a IHa b IHb|a IHa b IHb|a IHa|a IHa b IHb]; intros w; cbn [ev exact]; try (intros H; apply chk_some in H as [H _]; exact H);
    (destruct (ev e a) as [p|]; [|discriminate]); cbn [obind]; try (destruct (ev e b) as [q|]; [|discriminate]); cbn [obind]; rewrite <- ?(IHa _ eq_refl); rewrite <- ?(IHb _ eq_refl).
  - intros H; apply chk_some in H as [H _]; exact H.
  - intros H; apply chk_some in H as [H _]; exact H.
  - intros H; apply chk_some in H as [H _]; exact H.
  - destruct (q =? 0); [discriminate|]. intros H; apply chk_some in H as [H _]; exact H.
  - destruct (q =? 0); [discriminate|]. destruct (chk (p ÷ q)); [|discriminate]. cbn [obind]. intros H; apply chk_some in H as [H _]; exact H.
  - intros H; apply chk_some in H as [H _]; exact H.
  - intros H. now injection H.
Qed.
Lemma ev_none e a : int_max < exact e a -> ev e a = None.
Proof. intros H. destruct (ev e a) as [v|] eqn:E; [|reflexivity]. assert (R := ev_range _ _ _ E). apply ev_exact in E. lia. Qed.

Lemma for_up_div x a c b st body e v0 w w' : 0 < st -> ev e a = Some v0 -> (forall v, v0 <= v <= Z.max v0 (w' + st - 1) -> ev (upd e x v) b = Some w) -> (forall v, holds c v w = (v <? w')) -> int_min <= v0 -> w' + st - 1 <= int_max ->
  (forall v, v0 <= v < w' -> (st | v - v0) -> exec body (upd e x v) <> Overflow) -> exec (For x a c b st body) e <> Overflow.
Proof.
  intros S0 Ea Eb Hc H1 H2 HB. cbn [exec]. rewrite Ea. apply (loop_safe _ _ _ _ _ _ (fun v => v0 <= v <= Z.max v0 (w' + st - 1) /\ (st | v - v0))).
  - intros v [Hv D]. exists w. split; [apply Eb; lia|]. rewrite Hc. intros L. split; [apply HB; auto; lia|]. split; [lia|]. split; [lia|]. destruct D as [q D]. exists (q + 1). lia.
  - split; [lia|]. exists 0. lia.
Qed.

Definition envp (N M L : Z) : env := upd (upd (upd env0 "L"%string L) "M"%string M) "N"%string N.
Lemma rem_b u v : 0 <= u -> 0 < v -> Z.rem u v = u mod v. Proof. intros. apply Z.rem_mod_nonneg; lia. Qed.
Lemma quot_b u v : 0 <= u -> 0 < v -> Z.quot u v = u / v. Proof. intros. apply Z.quot_div_nonneg; lia. Qed.
Lemma permute_safe e N M L : e "N"%string = N -> e "M"%string = M -> e "L"%string = L -> 1 <= L -> (L | M) -> 0 <= N -> 0 <= M -> N * M <= int_max -> L * L * N <= int_max -> M + L <= int_max -> exec (c_permute L) e <> Overflow.
Proof.
  intros EN EM EL HL D HN HM HNM HLN HML. unfold c_permute.
  apply (for_up_div _ _ _ _ _ _ _ 0 M M); try rng; [evk; reflexivity|intros; evk; reflexivity|apply holds_lt|].
  intros j Hj Dj. assert (J : j + L <= M). { destruct D as [p ->], Dj as [q Dj]. replace (j - 0) with j in Dj by lia. subst j. assert (q < p) by (apply (Z.mul_lt_mono_pos_r L); lia). assert ((q + 1) * L <= p * L) by (apply Z.mul_le_mono_nonneg_r; lia). lia. }
  assert (G1 : N <= L * N) by nia. assert (G2 : L * N <= L * (L * N)) by nia. assert (G3 : L * (L * N) = L * L * N) by ring. assert (G4 : 0 <= L * N) by nia. assert (P1 : 0 <= L * N <= int_max) by lia. assert (N <= int_max) by lia. assert (P2 : 0 <= j * N /\ (j + L) * N <= int_max) by (split; [nia|]; assert ((j + L) * N <= M * N) by (apply Z.mul_le_mono_nonneg_r; lia); lia).
  apply (for_up _ _ _ _ _ _ _ 0 (L * N) (L * N)); try rng; [evk; reflexivity|intros; evk; reflexivity|apply holds_lt|].
  intros i Hi. assert (N1 : 0 < N) by nia. assert (P3 : 0 <= L * i <= int_max) by nia.
  assert (Q1 : Z.quot (L * i) (L * N) = i / N) by (rewrite quot_b by nia; apply Z.div_mul_cancel_l; lia).
  assert (Q2 : Z.rem (L * i) (L * N) = L * (i mod N)) by (rewrite rem_b by nia; apply Z.mul_mod_distr_l; lia).
  assert (B1 := Z.mod_pos_bound i N N1). assert (B2 : 0 <= i / N <= L - 1). { split; [apply Z.div_pos; lia|]. assert (i / N < L); [|lia]. apply Z.div_lt_upper_bound; lia. }
  assert (B3 : 0 <= L * (i mod N) <= L * N - L) by nia.
  apply uses_safe. intros x [<-|[<-|[]]]; eexists; [|evk; reflexivity].
  evk. destruct (L * N =? 0) eqn:Z0; [nia|]. evk. reflexivity.
Qed.
Lemma stepping_permute L : 1 <= L -> stepping (c_permute L). Proof. intros. cbn. repeat split; lia. Qed.
Lemma permute_sph_T N M L : 1 <= L -> 2 * L <= int_max -> 0 <= N -> 0 <= M -> N * M <= int_max -> L * L * N <= int_max -> M + L <= int_max -> exec (c_permute_sph L) (envp N M L) = Done.
Proof.
  intros HL HL2 HN HM HNM HLN HML. apply exec_done. { cbn; repeat split; lia. } unfold c_permute_sph, envp. assert (G1 : N <= L * N) by nia. assert (G2 : L * N <= L * (L * N)) by nia. assert (G3 : L * (L * N) = L * L * N) by ring. assert (N <= int_max) by lia.
  assert (B := Z.mod_pos_bound M (2 * L) ltac:(lia)). assert (B2 : M mod (2 * L) <= M) by (apply Z.mod_le; lia). assert (Q0 : 0 <= M / (2 * L) <= M). { split; [apply Z.div_pos; lia|]. apply Z.div_le_upper_bound; nia. }
  assert (P : 0 <= M mod (2 * L) * N <= int_max) by nia. assert (ER := rem_b M (2 * L) HM ltac:(lia)). assert (EQ := quot_b M (2 * L) HM ltac:(lia)).
  assert (EV : forall v, ev (upd (upd (upd (upd env0 "L"%string L) "M"%string M) "N"%string N) "i"%string v) (Mul (Rem (V "M") (Mul (K 2) (V "L"))) (V "N")) = Some (M mod (2 * L) * N)).
  { intros v. evk. destruct (2 * L =? 0) eqn:Z0; [lia|]. evk. reflexivity. }
  assert (EV0 : ev (upd (upd (upd env0 "L"%string L) "M"%string M) "N"%string N) (Mul (Rem (V "M") (Mul (K 2) (V "L"))) (V "N")) = Some (M mod (2 * L) * N)).
  { evk. destruct (2 * L =? 0) eqn:Z0; [lia|]. evk. reflexivity. }
  apply seq_safe. intros c [<-|[<-|[<-|[<-|[]]]]].
  - apply (for_up _ _ _ _ _ _ _ 0 (M mod (2 * L) * N) (M mod (2 * L) * N)); try rng; [evgo; reflexivity|intros; apply EV|apply holds_lt|]. intros i Hi. eapply use_safe. evgo. reflexivity.
  - eapply use_safe. exact EV0.
  - eapply use_safe. exact EV0.
  - apply (call_safe _ _ _ [("N", N); ("M", M - M mod (2 * L)); ("L", L)]%string).
    { evk. destruct (2 * L =? 0) eqn:Z0; [lia|]. evk. reflexivity. }
    apply (permute_safe _ N (M - M mod (2 * L)) L); auto; try lia. exists (2 * (M / (2 * L))). assert (X := Z.div_mod M (2 * L) ltac:(lia)). lia.
Qed.
Lemma permute_tri_T N M L : 1 <= L -> L <= int_max -> 0 <= N -> 0 <= M -> N * M <= int_max -> L * L * N <= int_max -> M + L <= int_max -> exec (c_permute_tri L) (envp N M L) = Done.
Proof.
  intros HL HL2 HN HM HNM HLN HML. apply exec_done. { cbn; repeat split; lia. } unfold c_permute_tri, envp. assert (G1 : N <= L * N) by nia. assert (G2 : L * N <= L * (L * N)) by nia. assert (G3 : L * (L * N) = L * L * N) by ring. assert (N <= int_max) by lia.
  assert (B := Z.mod_pos_bound M L ltac:(lia)). assert (B2 : M mod L <= M) by (apply Z.mod_le; lia). assert (Q0 : 0 <= M / L <= M). { split; [apply Z.div_pos; lia|]. apply Z.div_le_upper_bound; nia. }
  assert (P : 0 <= M mod L * N <= int_max) by nia. assert (ER := rem_b M L HM ltac:(lia)). assert (EQ := quot_b M L HM ltac:(lia)).
  assert (EV : forall v, ev (upd (upd (upd (upd env0 "L"%string L) "M"%string M) "N"%string N) "i"%string v) (Mul (Rem (V "M") (V "L")) (V "N")) = Some (M mod L * N)).
  { intros v. evk. destruct (L =? 0) eqn:Z0; [lia|]. evk. reflexivity. }
  assert (EV0 : ev (upd (upd (upd env0 "L"%string L) "M"%string M) "N"%string N) (Mul (Rem (V "M") (V "L")) (V "N")) = Some (M mod L * N)).
  { evk. destruct (L =? 0) eqn:Z0; [lia|]. evk. reflexivity. }
  apply seq_safe. intros c [<-|[<-|[<-|[<-|[]]]]].
  - apply (for_up _ _ _ _ _ _ _ 0 (M mod L * N) (M mod L * N)); try rng; [evgo; reflexivity|intros; apply EV|apply holds_lt|]. intros i Hi. eapply use_safe. evgo. reflexivity.
  - eapply use_safe. exact EV0.
  - eapply use_safe. exact EV0.
  - apply (call_safe _ _ _ [("N", N); ("M", M - M mod L); ("L", L)]%string).
    { evk. destruct (L =? 0) eqn:Z0; [lia|]. evk. reflexivity. }
    apply (permute_safe _ N (M - M mod L) L); auto; try lia. exists (M / L). assert (X := Z.div_mod M L ltac:(lia)). lia.
Qed.
Lemma permute_T N M L : 1 <= L -> (L | M) -> 0 <= N -> 0 <= M -> N * M <= int_max -> L * L * N <= int_max -> M + L <= int_max -> exec (c_permute L) (envp N M L) = Done.
Proof. intros. apply exec_done; [now apply stepping_permute|]. apply (permute_safe _ N M L); auto. Qed.
(** the largest product formed is L (L N - 1) *)
Lemma permute_over N M L : 1 <= L <= int_max -> 1 <= N <= int_max -> 1 <= M <= int_max -> int_max < L * (L * N - 1) -> exec (c_permute L) (envp N M L) = Overflow.
Proof.
  intros HL HN HM HO. apply exec_overflow; [apply stepping_permute; lia|]. unfold c_permute, envp.
  apply (for_hits' _ _ _ _ _ _ _ 0 M 0); [lia|evgo; reflexivity|intros k Hk; replace (0 + k * L) with 0 by (assert (k = 0) as -> by lia; lia); evgo; reflexivity|intros k Hk; assert (k = 0) as -> by lia; cbn [holds]; lia|].
  apply (for_hits _ _ _ _ _ _ _ (L * N - 1)); [nia| |].
  - intros v0 k w E Hk EW. revert E. evgo. intros E. injection E as <-. apply ev_exact in EW. revert EW. cbn [exact]. evx. intros ->. cbn [holds]. lia.
  - intros v0 E. revert E. evgo. intros E. injection E as <-. eapply uses_hits; [left; reflexivity|]. 
    match goal with |- ev ?e (Add (Add (Rem ?a ?b) ?c) ?d) = None => assert (X : ev e a = None) end. { apply ev_none. cbn [exact]. evx. lia. } cbn [ev] in X |- *. rewrite X. reflexivity.
Qed.

(** ** the normalizations *)
Lemma norm2d_T N M : 0 <= N <= int_max -> 0 <= M <= int_max -> exec c_chebyshev_normalization_2d (envp N M 0) = if N * M <=? 2 ^ 31 then Done else Overflow.
Proof.
  intros HN HM. destruct (N * M <=? 2 ^ 31) eqn:E.
  - assert (HNM : N * M <= int_max + 1) by (unfold int_max; lia). apply exec_done. { cbn; repeat split; lia. } unfold c_chebyshev_normalization_2d, envp. apply seq_safe. intros c [<-|[<-|[]]].
    + apply (for_up _ _ _ _ _ _ _ 0 N N); try rng; [evgo; reflexivity|intros; evgo; reflexivity|apply holds_lt|]. intros i Hi. eapply use_safe. evgo. reflexivity.
    + apply (for_up _ _ _ _ _ _ _ 0 M M); try rng; [evgo; reflexivity|intros; evgo; reflexivity|apply holds_lt|]. intros j Hj. assert (P : 0 <= j * N /\ j * N + N <= int_max + 1) by nia. assert (P2 : j * N <= int_max). { destruct (Z.eq_dec N 0) as [->|]; [unfold int_max; lia|lia]. } apply seq2_safe.
      * eapply use_safe. evgo. reflexivity.
      * apply (for_up _ _ _ _ _ _ _ 0 N N); try rng; [evgo; reflexivity|intros; evgo; reflexivity|apply holds_lt|]. intros i Hi. eapply use_safe. evgo. reflexivity.
  - assert (HNM : int_max + 1 < N * M) by (unfold int_max; lia). assert (1 <= N /\ 1 <= M) as [N1 M1] by nia. apply exec_overflow. { cbn; repeat split; lia. } unfold c_chebyshev_normalization_2d, envp. eapply seq_hits; [right; left; reflexivity|].
    apply (for_hits' _ _ _ _ _ _ _ 0 M (M - 1)); [lia|evgo; reflexivity|intros; evgo; reflexivity|intros; cbn [holds]; lia|]. apply seq2_hits_r.
    apply (for_hits' _ _ _ _ _ _ _ 0 N (N - 1)); [lia|evgo; reflexivity|intros; evgo; reflexivity|intros; cbn [holds]; lia|]. apply use_hits. apply ev_none. cbn [exact]. evx. nia.
Qed.
Lemma norm3d_T N L M : 1 <= N <= int_max -> 1 <= L <= int_max -> 0 <= M <= int_max -> N * L <= 2 ^ 31 -> exec c_chebyshev_normalization_3d (envp N M L) = if N * L * M <=? 2 ^ 31 then Done else Overflow.
Proof.
  intros HN HL HM HNL. destruct (N * L * M <=? 2 ^ 31) eqn:E.
  - assert (HNM : N * L * M <= int_max + 1) by (unfold int_max; lia). assert (HNL2 : N * L <= int_max + 1) by (unfold int_max; lia). apply exec_done. { cbn; repeat split; lia. } unfold c_chebyshev_normalization_3d, envp. apply seq_safe. intros c [<-|[<-|[]]].
    + apply (for_up _ _ _ _ _ _ _ 0 L L); try rng; [evgo; reflexivity|intros; evgo; reflexivity|apply holds_lt|]. intros j Hj. assert (P : 0 <= j * N /\ j * N + N <= int_max + 1) by nia.
      apply (for_up _ _ _ _ _ _ _ 0 N N); try rng; [evgo; reflexivity|intros; evgo; reflexivity|apply holds_lt|]. intros i Hi. eapply use_safe. evgo. reflexivity.
    + apply (for_up _ _ _ _ _ _ _ 0 M M); try rng; [evgo; reflexivity|intros; evgo; reflexivity|apply holds_lt|]. intros k Hk.
      assert (K1 : (k + 1) * (L * N) <= int_max + 1) by (assert ((k + 1) * (L * N) <= M * (L * N)) by (apply Z.mul_le_mono_nonneg_r; nia); lia). assert (K2 : 0 <= k * L) by nia. assert (K3 : (k + 1) * L <= (k + 1) * L * N) by nia. assert (K4 : k * L + L <= int_max + 1) by lia.
      assert (K5 : 0 <= k * L * N /\ k * L * N + L * N <= int_max + 1) by nia. assert (K6 : N <= L * N) by nia.
      apply seq_safe. intros c [<-|[<-|[]]].
      * apply (for_up _ _ _ _ _ _ _ 0 N N); try rng; [evgo; reflexivity|intros; evgo; reflexivity|apply holds_lt|]. intros i Hi. eapply use_safe. evgo. reflexivity.
      * apply (for_up _ _ _ _ _ _ _ 0 L L); try rng; [evgo; reflexivity|intros; evgo; reflexivity|apply holds_lt|]. intros j Hj. assert (P : 0 <= (j + k * L) * N /\ (j + k * L) * N + N <= int_max + 1) by nia. apply seq2_safe.
        -- eapply use_safe. evgo. reflexivity.
        -- apply (for_up _ _ _ _ _ _ _ 0 N N); try rng; [evgo; reflexivity|intros; evgo; reflexivity|apply holds_lt|]. intros i Hi. eapply use_safe. evgo. reflexivity.
  - assert (HNM : int_max + 1 < N * L * M) by (unfold int_max; lia). assert (1 <= M) by nia. apply exec_overflow. { cbn; repeat split; lia. } unfold c_chebyshev_normalization_3d, envp. eapply seq_hits; [right; left; reflexivity|].
    apply (for_hits' _ _ _ _ _ _ _ 0 M (M - 1)); [lia|evgo; reflexivity|intros; evgo; reflexivity|intros; cbn [holds]; lia|]. eapply seq_hits; [right; left; reflexivity|].
    apply (for_hits' _ _ _ _ _ _ _ 0 L (L - 1)); [lia|evgo; reflexivity|intros; evgo; reflexivity|intros; cbn [holds]; lia|]. apply seq2_hits_r.
    apply (for_hits' _ _ _ _ _ _ _ 0 N (N - 1)); [lia|evgo; reflexivity|intros; evgo; reflexivity|intros; cbn [holds]; lia|]. apply use_hits. apply ev_none. cbn [exact]. evx. nia.
Qed.

(** ** dense plans and the buffers of the sphere's FFTW plan *)
Lemma dense_T n : 0 <= n <= int_max -> exec c_dense_plan (upd env0 "n"%string n) = if n <=? 46340 then Done else Overflow.
Proof.
  intros H. destruct (n <=? 46340) eqn:E.
  - assert (P := mulb n n 46340 46340 ltac:(lia) ltac:(lia)). apply exec_done. { cbn; repeat split; lia. } unfold c_dense_plan. apply seq_safe. intros c [<-|[<-|[<-|[]]]].
    + eapply use_safe. evgo. reflexivity.
    + eapply use_safe. evgo. reflexivity.
    + apply (for_up _ _ _ _ _ _ _ 0 (n * n) (n * n)); try rng; [evgo; reflexivity|intros; evgo; reflexivity|apply holds_lt|]. intros i Hi. eapply use_safe. evgo. reflexivity.
  - apply exec_overflow. { cbn; repeat split; lia. } unfold c_dense_plan. eapply seq_hits; [left; reflexivity|]. apply use_hits. apply ev_none. cbn [exact]. evx. unfold int_max. nia.
Qed.
Lemma sph_fftw_T N M : 0 <= N <= int_max -> 0 <= M -> M + 3 <= int_max -> exec c_plan_sph_fftw (envp N M 0) = if (4 * N <=? int_max) && (N * (2 * (M / 2 + 1)) <=? int_max) then Done else Overflow.
Proof.
  intros HN HM HM3. destruct ((4 * N <=? int_max) && (N * (2 * (M / 2 + 1)) <=? int_max)) eqn:E.
  - assert (E1 : 4 * N <= int_max) by lia. assert (E2 : N * (2 * (M / 2 + 1)) <= int_max) by lia. assert (QE := quot2 M HM). assert (QA := quot_b (M + 3) 4 ltac:(lia) ltac:(lia)). assert (QB := quot_b (M + 2) 4 ltac:(lia) ltac:(lia)). assert (QC := quot_b (M + 1) 4 ltac:(lia) ltac:(lia)). assert (QD := quot_b M 4 ltac:(lia) ltac:(lia)). assert (G : 0 <= N * 2 * (M / 2 + 1) <= int_max) by nia. assert (G2 : 0 <= N * M <= int_max) by nia.
    apply exec_done. { cbn; repeat split; lia. } unfold envp. apply seq_safe. intros c HI. repeat (destruct HI as [<-|HI]; [eapply use_safe; evk; reflexivity|]). contradiction.
  - apply exec_overflow. { cbn; repeat split; lia. } unfold envp. destruct (Z_le_gt_dec (4 * N) int_max) as [L|G].
    + eapply seq_hits; [right; left; reflexivity|]. apply use_hits. apply ev_none. cbn [exact]. evx. rewrite quot2 by lia. nia.
    + eapply seq_hits; [left; reflexivity|]. apply use_hits. apply ev_none. cbn [exact]. evx. lia.
Qed.
