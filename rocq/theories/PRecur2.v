(** * Proofs about src/recurrence.c: Clenshaw and eigenfunction evaluation over R *)
From Coq Require Import ZArith List Lia Bool ZifyBool ZifyNat Reals Lra.
From Verif Require Import Arith Base BaseFacts MRecur SpecSum PSum PRecur.
Import ListNotations.
Open Scope Z_scope.
Notation rg := (nthZ 0%R).

Lemma chebT_0 x : chebT 0 x = 1%R. Proof. reflexivity. Qed.
Lemma chebT_1 x : chebT 1 x = x. Proof. reflexivity. Qed.
Lemma chebT2_snd k x : snd (chebT2 k x) = fst (chebT2 (S k) x).
Proof. cbn. destruct (chebT2 k x). reflexivity. Qed.
Lemma chebT_rec k x : 1 <= k -> chebT (k + 1) x = (2 * x * chebT k x - chebT (k - 1) x)%R.
Proof.
  intros. unfold chebT. replace (Z.to_nat (k + 1)) with (S (S (Z.to_nat (k - 1)))) by lia.
  replace (Z.to_nat k) with (S (Z.to_nat (k - 1))) by lia.
  generalize (Z.to_nat (k - 1)). intros q. rewrite <- !chebT2_snd. cbn [chebT2]. destruct (chebT2 q x). reflexivity.
Qed.

Definition clen_inv (n : Z) (c : Z -> R) (x : R) (k : Z) (b : R * R) : Prop :=
  sumZ n (fun i => (c i * chebT i x)%R) =
  (sumZ k (fun i => c i * chebT i x) + fst b * chebT k x - snd b * chebT (k - 1) x)%R.

Lemma clen_step n c x k b1 b2 : 1 <= k -> clen_inv n c x (k + 1) (b1, b2) ->
  clen_inv n c x k ((2 * x) * b1 + c k - b2, b1)%R.
Proof.
  unfold clen_inv. intros Hk H. rewrite H. cbn [fst snd]. rewrite sumZ_S by lia.
  rewrite chebT_rec by lia. replace (k + 1 - 1) with k by lia. lra.
Qed.
Lemma clen_fin n c x b : clen_inv n c x 1 b ->
  (x * fst b + c 0%Z - snd b)%R = sumZ n (fun i => (c i * chebT i x)%R).
Proof.
  unfold clen_inv. intros ->. rewrite (sumZ_S 0), sumZ_0 by lia. change (1 - 1) with 0.
  rewrite chebT_0, chebT_1. lra.
Qed.

Lemma clenshaw_point_val n (c : list R) incc x j : 1 <= n -> strided n c incc -> 0 <= j < zlen x ->
  clenshaw_point n c incc x j = Some (sumZ n (fun k => (rg c (k * incc) * chebT k (rg x j))%R)).
Proof.
  intros Hn Hc Hj. unfold clenshaw_point. rewrite (zget_nthZ 0%R x) by auto. cbn [obind].
  match goal with |- context[for_dn (n - 1) 1 ?b ?s] =>
    destruct (for_dn_inv (fun k => clen_inv n (fun k => rg c (k * incc)) (rg x j) (k + 1)) (n - 1) 1 b s) as [b' [E H]] end.
  - lia.
  - unfold clen_inv. replace (n - 1 + 1) with n by lia. cbn [fst snd zero R_arith]. lra.
  - intros k [b1 b2] Hk H. rewrite (zget_nthZ 0%R c) by (apply Hc; lia). cbn [obind]. eexists; split; [reflexivity|].
    replace (k - 1 + 1) with k by lia. apply (clen_step n (fun k => rg c (k * incc)) _ k b1 b2) in H; [|lia]. exact H.
  - rewrite E. cbn [obind]. specialize (Hc 0). rewrite (zget_nthZ 0%R c) by lia. cbn [obind]. f_equal.
    rewrite <- (clen_fin n _ _ b' H). cbn [sub add mul div ofZ R_arith]. rewrite Z.mul_0_l. unfold rg at 1 3. field.
Qed.

Lemma clenshaw_kernel_val muladd S L n (c : list R) incc m x f :
  (0 < S)%nat -> (0 < L)%nat -> strided n c incc -> 0 <= m -> m <= zlen x -> m <= zlen f ->
  (forall a b c : R, muladd a b c = a * b + c)%R ->
  exists f', clenshaw_kernel muladd S L n c incc m x f = Some f' /\
    evaluates m f f' (fun j => sumZ n (fun k => (rg c (k * incc) * chebT k (rg x j))%R)).
Proof.
  intros HS HL Hc Hm Hx Hf Hma. unfold clenshaw_kernel. destruct (Z.ltb_spec n 1).
  { destruct (zero_all_spec m f) as [f2 [E V]]; auto. exists f2. split; auto.
    eapply evaluates_ext; [|exact V]. intros. cbv beta. now rewrite sumZ_0 by lia. }
  match goal with |- context[blocked S L m x ?b ?s f] =>
    destruct (blocked_spec 0%R S L m x b s f (fun j v => v = sumZ n (fun k => (rg c (k * incc) * chebT k (rg x j))%R))) as [f' (E & L1 & G & O)]; auto
  end.
  - intros j Hj Hj1. cbv beta zeta. set (xx := fun l i => rg x (j + Z.of_nat S * Z.of_nat l + Z.of_nat i)).
    rewrite rmap_tab2, rall_tab2.
    match goal with |- context[for_dn (n - 1) 1 ?b ?s] =>
    destruct (for_dn_inv (fun k st => exists g1 g2, st = (tab2 L S g1, tab2 L S g2) /\ forall l i, (l < L)%nat -> (i < S)%nat ->
       clen_inv n (fun k => rg c (k * incc)) (xx l i) (k + 1) (g1 l i, g2 l i)) (n - 1) 1 b s) as [b' [E H1]] end.
    + lia.
    + do 2 eexists. split; [reflexivity|]. intros. unfold clen_inv. replace (n - 1 + 1) with n by lia. cbn [fst snd zero R_arith]. lra.
    + intros k st Hk (g1 & g2 & -> & H1). rewrite (zget_nthZ 0%R c) by (apply Hc; lia). cbn [obind]. eexists; split; [reflexivity|].
      rewrite rmap_tab2, rmap3_tab2. do 2 eexists. split; [reflexivity|]. intros l i Hl Hi. cbv beta.
      specialize (H1 l i Hl Hi). apply clen_step in H1; [|lia]. replace (k - 1 + 1) with k by lia. rewrite Hma.
      cbn [sub mul ofZ R_arith] in *. replace (2 * xx l i * g1 l i + (rg c (k * incc) - g2 l i))%R with (2 * xx l i * g1 l i + rg c (k * incc) - g2 l i)%R by lra. exact H1.
    + destruct H1 as (g1 & g2 & -> & H1). rewrite E. cbn [obind fst snd]. pose proof (Hc 0). rewrite (zget_nthZ 0%R c) by lia. cbn [obind].
      rewrite rmap3_tab2. eexists; split; [reflexivity|]. intros l i Hl Hi. cbv beta.
      specialize (H1 l i Hl Hi). apply clen_fin in H1. fold (xx l i). rewrite <- H1. cbn [sub mul add div ofZ R_arith fst snd].
      rewrite Z.mul_0_l. field.
  - intros j Hj. eexists; split; [apply clenshaw_point_val; auto; lia|reflexivity].
  - exists f'. split; [exact E|]. apply of_P; auto.
Qed.

Lemma clenshaw_default_val n (c : list R) incc m x f :
  strided n c incc -> 0 <= m -> m <= zlen x -> m <= zlen f ->
  exists f', clenshaw_default n c incc m x f = Some (x, f') /\
    evaluates m f f' (fun j => sumZ n (fun k => (rg c (k * incc) * chebT k (rg x j))%R)).
Proof.
  intros Hc Hm Hx Hf. unfold clenshaw_default. destruct (Z.ltb_spec n 1).
  { destruct (zero_all_spec m f) as [f2 [E V]]; auto. rewrite E. exists f2. split; auto.
    eapply evaluates_ext; [|exact V]. intros. cbv beta. now rewrite sumZ_0 by lia. }
  match goal with |- context[for_up 0 m ?b (x, f)] =>
    destruct (for_up_inv (fun j st => exists f', st = (x, f') /\ evaluates j f f' (fun j => sumZ n (fun k => (rg c (k * incc) * chebT k (rg x j))%R)))
       0 m b (x, f)) as [st [E (f' & -> & H1)]]; auto end.
  - exists f. split; auto. repeat split; auto. intros; lia.
  - intros j st Hj (f1 & -> & L1 & G1 & O1).
    rewrite (zget_nthZ 0%R x) by lia. cbn [obind]. rewrite zset_some by lia. cbn [obind].
    match goal with |- context[for_dn (n - 1) 1 ?b ?s] =>
      destruct (for_dn_inv (fun k => clen_inv n (fun k => rg c (k * incc)) (rg x j) (k + 1)) (n - 1) 1 b s) as [b' [E' H']] end.
    + lia.
    + unfold clen_inv. replace (n - 1 + 1) with n by lia. cbn [fst snd zero R_arith]. lra.
    + intros k [b1 b2] Hk H'. rewrite zget_zupd_same by lia. cbn [obind]. rewrite (zget_nthZ 0%R c) by (apply Hc; lia). cbn [obind]. eexists; split; [reflexivity|].
      replace (k - 1 + 1) with k by lia. apply (clen_step n (fun k => rg c (k * incc)) _ k b1 b2) in H'; [|lia].
      cbn [sub mul add ofZ R_arith]. replace (rg x j * 2)%R with (2 * rg x j)%R by lra. exact H'.
    + rewrite E'. cbn [obind]. rewrite zget_zupd_same by lia. cbn [obind]. rewrite zset_some by (rewrite zlen_zupd; lia). cbn [obind].
      rewrite zupd_zupd_same. replace (mul (mul (rg x j) (ofZ 2)) (div one (ofZ 2))) with (rg x j) by (cbn [mul div one ofZ R_arith]; field).
      rewrite zupd_same by (apply zget_nthZ; lia). rewrite (zget_nthZ 0%R x) by lia. cbn [obind].
      pose proof (Hc 0). rewrite (zget_nthZ 0%R c) by lia. cbn [obind]. rewrite zset_some by lia. cbn [obind].
      eexists; split; [reflexivity|]. eexists; split; [reflexivity|]. split; [now rewrite zlen_zupd|split].
      * intros p Hp. rewrite zget_zupd by lia. destruct (Z.eqb_spec j p); [subst p|apply G1; lia].
        f_equal. rewrite <- (clen_fin n _ _ b' H'). now rewrite Z.mul_0_l.
      * intros p Hp. rewrite zget_zupd_other by lia. apply O1. lia.
  - exists f'. split; auto.
Qed.

(** ** Three-term families *)
Section Op.
Variables (A B C : Z -> R).
Definition opm k x := fst (opoly2 A B C (Z.to_nat k) x).
Lemma opm_0 x : opm 0 x = 0%R. Proof. reflexivity. Qed.
Lemma opoly_0 x : opoly A B C 0 x = 1%R. Proof. reflexivity. Qed.
Lemma opm_S k x : 0 <= k -> opm (k + 1) x = opoly A B C k x.
Proof.
  intros. unfold opm, opoly. replace (Z.to_nat (k + 1)) with (S (Z.to_nat k)) by lia. cbn [opoly2].
  destruct (opoly2 A B C (Z.to_nat k) x). reflexivity.
Qed.
Lemma opoly_S k x : 0 <= k -> opoly A B C (k + 1) x = ((A k * x + B k) * opoly A B C k x - C k * opm k x)%R.
Proof.
  intros. unfold opm, opoly. replace (Z.to_nat (k + 1)) with (S (Z.to_nat k)) by lia. cbn [opoly2].
  rewrite Z2Nat.id by lia. destruct (opoly2 A B C (Z.to_nat k) x). reflexivity.
Qed.
Definition op_inv (n : Z) (c : Z -> R) (x : R) (k : Z) (b : R * R) : Prop :=
  sumZ n (fun i => (c i * opoly A B C i x)%R) =
  (sumZ k (fun i => c i * opoly A B C i x) + fst b * opoly A B C k x - C k * snd b * opm k x)%R.
Lemma op_step n c x k b1 b2 : 0 <= k -> op_inv n c x (k + 1) (b1, b2) ->
  op_inv n c x k ((A k * x + B k) * b1 - C (k + 1)%Z * b2 + c k, b1)%R.
Proof.
  unfold op_inv. intros Hk H. rewrite H. cbn [fst snd]. rewrite sumZ_S by lia.
  rewrite opoly_S, opm_S by lia. lra.
Qed.
Lemma op_fin n c x b : op_inv n c x 0 b -> fst b = sumZ n (fun i => (c i * opoly A B C i x)%R).
Proof. unfold op_inv. intros ->. rewrite sumZ_0, opoly_0, opm_0 by lia. lra. Qed.
End Op.

Definition op_sum (n : Z) (c : list R) incc (A B C x phi0 : list R) (j : Z) : R :=
  (rg phi0 j * sumZ n (fun k => rg c (k * incc)%Z * opoly (rg A) (rg B) (rg C) k (rg x j)))%R.

Lemma opc_point_val n (c : list R) incc A B C x phi0 j : 1 <= n -> strided n c incc ->
  n <= zlen A -> n <= zlen B -> n + 1 <= zlen C -> 0 <= j < zlen x -> j < zlen phi0 ->
  opc_point n c incc A B C x phi0 j = Some (op_sum n c incc A B C x phi0 j).
Proof.
  intros Hn Hc HA HB HC Hj Hp. unfold opc_point. rewrite (zget_nthZ 0%R x) by auto. cbn [obind].
  match goal with |- context[for_dn (n - 1) 0 ?b ?s] =>
    destruct (for_dn_inv (fun k st => fst (fst st) = snd (fst st) /\ op_inv (rg A) (rg B) (rg C) n (fun k => rg c (k * incc)) (rg x j) (k + 1) (snd (fst st), snd st)) (n - 1) 0 b s) as [b' [E [H0 H]]] end.
  - lia.
  - split; [reflexivity|]. unfold op_inv. replace (n - 1 + 1) with n by lia. cbn [fst snd zero R_arith]. lra.
  - intros k [[b0 b1] b2] Hk [_ H]. cbn [fst snd] in *.
    rewrite (zget_nthZ 0%R A), (zget_nthZ 0%R B), (zget_nthZ 0%R C) by lia. cbn [obind].
    rewrite (zget_nthZ 0%R c) by (apply Hc; lia). cbn [obind]. eexists; split; [reflexivity|].
    cbn [fst snd]. split; [reflexivity|].
    replace (k - 1 + 1) with k by lia. apply op_step in H; [|lia]. exact H.
  - rewrite E. cbn [obind]. rewrite (zget_nthZ 0%R phi0) by lia. cbn [obind]. unfold op_sum. cbn [mul R_arith]. do 2 f_equal.
    rewrite H0. apply op_fin in H. exact H.
Qed.

Lemma opc_default_val n (c : list R) incc A B C m x phi0 f : strided n c incc ->
  n <= zlen A -> n <= zlen B -> n + 1 <= zlen C -> 0 <= m -> m <= zlen x -> m <= zlen phi0 -> m <= zlen f ->
  exists f', opc_default n c incc A B C m x phi0 f = Some f' /\ evaluates m f f' (op_sum n c incc A B C x phi0).
Proof.
  intros. unfold opc_default. destruct (Z.ltb_spec n 1).
  { destruct (zero_all_spec m f) as [f2 [E V]]; auto. rewrite E. exists f2. split; auto.
    eapply evaluates_ext; [|exact V]. intros. cbv beta. unfold op_sum. rewrite sumZ_0 by lia. cbn; lra. }
  destruct (default_spec m (opc_point n c incc A B C x phi0) f (fun j v => v = op_sum n c incc A B C x phi0 j)) as [f' (E & L1 & G & O)]; auto.
  - intros j Hj. eexists; split; [apply opc_point_val; auto; lia|reflexivity].
  - exists f'. split; [exact E|]. apply of_P; auto.
Qed.

Lemma opc_kernel_val muladd mulsub S L n (c : list R) incc A B C m x phi0 f :
  (0 < S)%nat -> (0 < L)%nat -> strided n c incc ->
  n <= zlen A -> n <= zlen B -> n + 1 <= zlen C -> 0 <= m -> m <= zlen x -> m <= zlen phi0 -> m <= zlen f ->
  (forall a b c : R, muladd a b c = a * b + c)%R -> (forall a b c : R, mulsub a b c = a * b - c)%R ->
  exists f', opc_kernel muladd mulsub S L n c incc A B C m x phi0 f = Some f' /\ evaluates m f f' (op_sum n c incc A B C x phi0).
Proof.
  intros HS HL Hc HA HB HC Hm Hx Hp Hf Hma Hms. unfold opc_kernel. destruct (Z.ltb_spec n 1).
  { destruct (zero_all_spec m f) as [f2 [E V]]; auto. exists f2. split; auto.
    eapply evaluates_ext; [|exact V]. intros. cbv beta. unfold op_sum. rewrite sumZ_0 by lia. cbn; lra. }
  match goal with |- context[blocked S L m x ?b ?s f] =>
    destruct (blocked_spec 0%R S L m x b s f (fun j v => v = op_sum n c incc A B C x phi0 j)) as [f' (E & L1 & G & O)]; auto
  end.
  - intros j Hj Hj1. cbv beta zeta. set (xx := fun l i => rg x (j + Z.of_nat S * Z.of_nat l + Z.of_nat i)).
    rewrite rall_tab2.
    match goal with |- context[for_dn (n - 1) 0 ?b ?s] =>
    destruct (for_dn_inv (fun k st => exists g1 g2, st = (tab2 L S g1, tab2 L S g1, tab2 L S g2) /\ forall l i, (l < L)%nat -> (i < S)%nat ->
       op_inv (rg A) (rg B) (rg C) n (fun k => rg c (k * incc)) (xx l i) (k + 1) (g1 l i, g2 l i)) (n - 1) 0 b s) as [b' [E H1]] end.
    + lia.
    + do 2 eexists. split; [reflexivity|]. intros. unfold op_inv. replace (n - 1 + 1) with n by lia. cbn [fst snd zero R_arith]. lra.
    + intros k st Hk (g1 & g2 & -> & H1).
      rewrite (zget_nthZ 0%R A), (zget_nthZ 0%R B), (zget_nthZ 0%R C) by lia. cbn [obind].
      rewrite (zget_nthZ 0%R c) by (apply Hc; lia). cbn [obind]. eexists; split; [reflexivity|].
      rewrite !rmap_tab2, rmap3_tab2. do 2 eexists. split; [reflexivity|]. intros l i Hl Hi. cbv beta.
      specialize (H1 l i Hl Hi). apply op_step in H1; [|lia]. replace (k - 1 + 1) with k by lia. rewrite !Hms, Hma.
      match goal with |- op_inv _ _ _ _ _ _ _ (?u, _) => match type of H1 with op_inv _ _ _ _ _ _ _ (?v, _) => replace u with v by ring end end. exact H1.
    + destruct H1 as (g1 & g2 & -> & H1). rewrite E. cbn [obind fst snd]. rewrite (loadr_tab2 0%R) by lia. cbn [obind].
      rewrite rmap2_tab2. eexists; split; [reflexivity|]. intros l i Hl Hi. cbv beta.
      specialize (H1 l i Hl Hi). apply op_fin in H1. unfold op_sum. fold (xx l i). rewrite <- H1. reflexivity.
  - intros j Hj. eexists; split; [apply opc_point_val; auto; lia|reflexivity].
  - exists f'. split; [exact E|]. apply of_P; auto.
Qed.

(** ** Normalised eigenfunctions *)
Section Eig.
Variables (n : Z) (A B C c : Z -> R) (x : R).
Definition vd (d : Z) := fst (eigv2 n A B C (Z.to_nat d) x).
Definition wd (d : Z) := snd (eigv2 n A B C (Z.to_nat d) x).
Lemma vd_S d : 0 <= d -> vd (d + 1) = (A (n - 1 - d) * ((x + B (n - 1 - d)) * vd d + C (n - 1 - d) * wd d))%R /\ wd (d + 1) = vd d.
Proof.
  intros. unfold vd, wd. replace (Z.to_nat (d + 1)) with (S (Z.to_nat d)) by lia. cbn [eigv2].
  rewrite Z2Nat.id by lia. destruct (eigv2 n A B C (Z.to_nat d) x). cbn. auto.
Qed.
(** state (vkm1, vk, vkp1, nrm, sum) after [d] steps *)
Definition eig_inv (d : Z) (s : R * R * R * R * R) : Prop :=
  let '(vkm1, vk, vkp1, nrm, sum) := s in
  exists g, (0 < g)%R /\ vkm1 = (g * vd d)%R /\ vk = vkm1 /\ vkp1 = (g * wd d)%R /\
    nrm = (g * g * sumZ (d + 1) (fun i => vd i * vd i))%R /\ (0 < nrm)%R /\
    sum = (g * sumZ (d + 1) (fun i => vd i * c (n - 1 - i)%Z))%R.
Lemma eig_init vkm1 vk vkp1 nrm sum : vkm1 = 1%R -> vk = 1%R -> vkp1 = 0%R -> nrm = 1%R -> sum = c (n - 1) ->
  eig_inv 0 (vkm1, vk, vkp1, nrm, sum).
Proof.
  intros -> -> -> -> ->. exists 1%R. unfold vd, wd. cbn [eigv2 Z.to_nat fst snd].
  assert (E : forall f, sumZ (0 + 1) f = f 0) by (intros; rewrite (sumZ_S 0), sumZ_0 by lia; lra).
  rewrite !E. cbn [eigv2 Z.to_nat fst snd]. replace (n - 1 - 0) with (n - 1) by lia. repeat split; try lra.
Qed.
Lemma eig_step d vkm1 vk vkp1 nrm sum v' nrm' sum' : 0 <= d -> eig_inv d (vkm1, vk, vkp1, nrm, sum) ->
  v' = (A (n - 1 - d) * ((x + B (n - 1 - d)) * vk + C (n - 1 - d) * vkp1))%R ->
  nrm' = (nrm + v' * v')%R -> sum' = (sum + v' * c (n - 1 - d - 1)%Z)%R ->
  eig_inv (d + 1) (v', v', vk, nrm', sum').
Proof.
  intros Hd (g & Hg & E1 & E2 & E3 & E4 & Hp & E5) Ev En Es. destruct (vd_S d Hd) as [V W].
  exists g. rewrite V, W. rewrite !(sumZ_S (d + 1)), V by lia.
  assert (Ev' : v' = (g * (A (n - 1 - d) * ((x + B (n - 1 - d)) * vd d + C (n - 1 - d) * wd d)))%R) by (rewrite Ev; subst; ring).
  split; [auto|]. split; [exact Ev'|]. split; [auto|]. split; [subst; ring|].
  split; [rewrite En, E4, Ev'; ring|]. split.
  - rewrite En. pose proof (Rle_0_sqr v'). unfold Rsqr in *. lra.
  - rewrite Es, E5, Ev'. replace (n - 1 - (d + 1)) with (n - 1 - d - 1) by lia. ring.
Qed.
Lemma eig_rescale d vkm1 vk vkp1 nrm sum : eig_inv d (vkm1, vk, vkp1, nrm, sum) ->
  eig_inv d (1 / sqrt nrm * vkm1, 1 / sqrt nrm * vk, 1 / sqrt nrm * vkp1, 1, 1 / sqrt nrm * sum)%R.
Proof.
  intros (g & Hg & E1 & E2 & E3 & E4 & Hp & E5).
  assert (Hq : (0 < sqrt nrm)%R) by now apply sqrt_lt_R0.
  exists (1 / sqrt nrm * g)%R. split; [apply Rmult_lt_0_compat; auto; apply Rdiv_lt_0_compat; lra|].
  split; [subst; ring|]. split; [subst; ring|]. split; [subst; ring|]. split; [|split; [lra|subst; ring]].
  replace (1 / sqrt nrm * g * (1 / sqrt nrm * g) * sumZ (d + 1) (fun i => vd i * vd i))%R with
    (1 / (sqrt nrm * sqrt nrm) * (g * g * sumZ (d + 1) (fun i => vd i * vd i)))%R by (field; lra).
  rewrite <- E4, sqrt_sqrt by lra. field. lra.
Qed.
Lemma eig_fin sign vkm1 vk vkp1 nrm sum y : 1 <= n -> eig_inv (n - 1) (vkm1, vk, vkp1, nrm, sum) ->
  y = (1 / sqrt nrm * sum)%R ->
  (if R_ltb (IZR sign * vkm1) 0 then (- y)%R else y) = eig_value n A B C c sign x.
Proof.
  intros Hn (g & Hg & E1 & E2 & E3 & E4 & Hp & E5) Ey. unfold eig_value. cbv zeta.
  assert (EV : forall k, eigv n A B C k x = vd (n - 1 - k)) by reflexivity.
  assert (Y : y = (sumZ n (fun k => eigv n A B C k x * c k) / sqrt (sumZ n (fun k => eigv n A B C k x * eigv n A B C k x)))%R).
  { rewrite (sumZ_rev n (fun k => (eigv n A B C k x * c k)%R)), (sumZ_rev n (fun k => (eigv n A B C k x * eigv n A B C k x)%R)).
    rewrite (sumZ_ext n _ (fun i => (vd i * c (n - 1 - i)%Z)%R)) by (intros; rewrite EV; do 2 f_equal; lia).
    rewrite (sumZ_ext n (fun i => (eigv n A B C (n - 1 - i) x * eigv n A B C (n - 1 - i) x)%R) (fun i => (vd i * vd i)%R)) by (intros; rewrite EV; do 2 f_equal; lia).
    replace (n - 1 + 1) with n in * by lia. rewrite Ey, E5. set (N := sumZ n (fun i => (vd i * vd i)%R)) in *.
    assert (HN : (0 < N)%R).
    { assert (0 < g * g)%R by (apply Rmult_lt_0_compat; auto). destruct (Rlt_dec 0 N); auto. exfalso.
      assert (g * g * N <= g * g * 0)%R by (apply Rmult_le_compat_l; lra). lra. }
    rewrite E4, sqrt_mult, sqrt_square by (try apply Rle_0_sqr; lra || (apply Rmult_le_pos; lra)).
    pose proof (sqrt_lt_R0 N HN). field. split; lra. }
  rewrite <- Y. rewrite E1, EV. replace (n - 1 - 0) with (n - 1) by lia. unfold R_ltb.
  assert (S1 : (IZR sign * (g * vd (n - 1)) < 0 <-> IZR sign * vd (n - 1) < 0)%R).
  { replace (IZR sign * (g * vd (n - 1)))%R with (g * (IZR sign * vd (n - 1)))%R by ring. set (q := (IZR sign * vd (n - 1))%R). split; intros H.
    - destruct (Rlt_dec q 0); auto. exfalso. assert (0 <= g * q)%R by (apply Rmult_le_pos; lra). lra.
    - replace 0%R with (g * 0)%R by ring. apply Rmult_lt_compat_l; auto. }
  destruct (Rlt_dec (IZR sign * (g * vd (n - 1))) 0), (Rlt_dec (IZR sign * vd (n - 1)) 0); auto; tauto.
Qed.
End Eig.

Definition eig_val n (c : list R) incc A B C sign x j := eig_value n (rg A) (rg B) (rg C) (fun k => rg c (k * incc)) sign (rg x j).

Lemma eig_point_val huge n (c : list R) incc A B C sign x j : 1 <= n -> strided n c incc ->
  n <= zlen A -> n <= zlen B -> n <= zlen C -> 0 <= j < zlen x ->
  eig_point huge n c incc A B C sign x j = Some (eig_val n c incc A B C sign x j).
Proof.
  intros Hn Hc HA HB HC Hj. unfold eig_point. rewrite (zget_nthZ 0%R x) by auto. cbn [obind].
  rewrite (zget_nthZ 0%R c) by (apply Hc; lia). cbn [obind].
  match goal with |- context[for_dn (n - 1) 1 ?b ?s] =>
    destruct (for_dn_inv (fun k => eig_inv n (rg A) (rg B) (rg C) (fun k => rg c (k * incc)) (rg x j) (n - 1 - k)) (n - 1) 1 b s) as [b' [E H]] end.
  - lia.
  - rewrite Z.sub_diag. apply eig_init; reflexivity.
  - intros k [[[[vkm1 vk] vkp1] nrm] sum] Hk H.
    rewrite (zget_nthZ 0%R A), (zget_nthZ 0%R B), (zget_nthZ 0%R C) by lia. cbn [obind].
    rewrite (zget_nthZ 0%R c) by (apply Hc; lia). cbn [obind].
    replace (n - 1 - (k - 1)) with (n - 1 - k + 1) by lia.
    eapply eig_step in H; [|lia|reflexivity..]. replace (n - 1 - (n - 1 - k)) with k in H by lia.
    cbn [add mul sub div one R_arith sqrtA] in *.
    destruct (ltb huge _); (eexists; split; [reflexivity|]); [|exact H].
    apply eig_rescale in H. rewrite !(Rmult_comm _ (1 / _)). exact H.
  - rewrite E. cbn [obind]. destruct b' as [[[[vkm1 vk] vkp1] nrm] sum]. f_equal.
    replace (n - 1 - (1 - 1)) with (n - 1) in H by lia.
    unfold eig_val. rewrite <- (eig_fin _ _ _ _ _ _ sign _ _ _ _ _ _ Hn H eq_refl).
    cbn [mul ltb ofZ div one opp sqrtA zero R_arith]. destruct (R_ltb _ _); unfold Rdiv; ring.
Qed.

Lemma eig_default_val huge n (c : list R) incc A B C m x sign f : strided n c incc ->
  n <= zlen A -> n <= zlen B -> n <= zlen C -> 0 <= m -> m <= zlen x -> m <= zlen f ->
  exists f', eig_default huge n c incc A B C m x sign f = Some f' /\
    evaluates m f f' (fun j => if n <? 1 then 0%R else eig_val n c incc A B C sign x j).
Proof.
  intros. unfold eig_default. destruct (Z.ltb_spec n 1).
  { destruct (zero_all_spec m f) as [f2 [E V]]; auto. rewrite E. exists f2. split; auto. }
  destruct (default_spec m (eig_point huge n c incc A B C sign x) f (fun j v => v = eig_val n c incc A B C sign x j)) as [f' (E & L1 & G & O)]; auto.
  - intros j Hj. eexists; split; [apply eig_point_val; auto; lia|reflexivity].
  - exists f'. split; [exact E|]. apply of_P; auto.
Qed.

Lemma eig_kernel_val muladd S L huge n (c : list R) incc A B C m x sign f :
  (0 < S)%nat -> (0 < L)%nat -> strided n c incc ->
  n <= zlen A -> n <= zlen B -> n <= zlen C -> 0 <= m -> m <= zlen x -> m <= zlen f ->
  (forall a b c : R, muladd a b c = a * b + c)%R ->
  exists f', eig_kernel muladd S L huge n c incc A B C m x sign f = Some f' /\
    evaluates m f f' (fun j => if n <? 1 then 0%R else eig_val n c incc A B C sign x j).
Proof.
  intros HS HL Hc HA HB HC Hm Hx Hf Hma. unfold eig_kernel. destruct (Z.ltb_spec n 1).
  { destruct (zero_all_spec m f) as [f2 [E V]]; auto. exists f2. split; auto. }
  match goal with |- context[blocked S L m x ?b ?s f] =>
    destruct (blocked_spec 0%R S L m x b s f (fun j v => v = eig_val n c incc A B C sign x j)) as [f' (E & L1 & G & O)]; auto
  end.
  - intros j Hj Hj1. cbv beta zeta. set (xx := fun l i => rg x (j + Z.of_nat S * Z.of_nat l + Z.of_nat i)).
    rewrite (zget_nthZ 0%R c) by (apply Hc; lia). cbn [obind]. rewrite !rall_tab2.
    match goal with |- context[for_dn (n - 1) 1 ?b ?s] =>
    destruct (for_dn_inv (fun k st => exists g1 g2 g3 g4 g5, st = (tab2 L S g1, tab2 L S g2, tab2 L S g3, tab2 L S g4, tab2 L S g5) /\ forall l i, (l < L)%nat -> (i < S)%nat ->
       eig_inv n (rg A) (rg B) (rg C) (fun k => rg c (k * incc)) (xx l i) (n - 1 - k) (g1 l i, g2 l i, g3 l i, g4 l i, g5 l i)) (n - 1) 1 b s) as [b' [E H1]] end.
    + lia.
    + do 5 eexists. split; [reflexivity|]. intros. rewrite Z.sub_diag. apply eig_init; reflexivity.
    + intros k st Hk (g1 & g2 & g3 & g4 & g5 & -> & H1).
      rewrite (zget_nthZ 0%R A), (zget_nthZ 0%R B), (zget_nthZ 0%R C) by lia. cbn [obind].
      rewrite (zget_nthZ 0%R c) by (apply Hc; lia). cbn [obind].
      replace (n - 1 - (k - 1)) with (n - 1 - k + 1) by lia.
      rewrite rmap3_tab2, !rmap2_tab2.
      destruct (existsb _ _); (eexists; split; [reflexivity|]); rewrite ?rmap_tab2, ?rmap2_tab2; do 5 eexists; (split; [reflexivity|]);
      intros l i Hl Hi; specialize (H1 l i Hl Hi); (eapply eig_step in H1; [|lia|reflexivity..]);
      replace (n - 1 - (n - 1 - k)) with k in H1 by lia; cbv beta; rewrite !Hma;
      cbn [add mul sub div one R_arith sqrtA] in *; rewrite !(Rplus_comm (_ * _) (g4 l i)), !(Rplus_comm (_ * _) (g5 l i)).
      * apply eig_rescale in H1. exact H1.
      * exact H1.
    + destruct H1 as (g1 & g2 & g3 & g4 & g5 & -> & H1). rewrite E. cbn [obind fst snd].
      rewrite rmap_tab2, !rmap2_tab2. eexists; split; [reflexivity|]. intros l i Hl Hi. cbv beta.
      specialize (H1 l i Hl Hi). replace (n - 1 - (1 - 1)) with (n - 1) in H1 by lia.
      unfold eig_val. fold (xx l i). rewrite <- (eig_fin _ _ _ _ _ _ sign _ _ _ _ _ _ H H1 eq_refl). reflexivity.
  - intros j Hj. eexists; split; [apply eig_point_val; auto; lia|reflexivity].
  - exists f'. split; [exact E|]. apply of_P; auto.
Qed.
