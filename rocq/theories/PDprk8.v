(** * Proofs: the eigensolver drivers *)
From Coq Require Import ZArith List Lia Bool ZifyBool ZifyNat Reals Lra.
From Verif Require Import Arith Base BaseFacts SpecSum PSum SpecLin PTri MHier SpecHier PHier2 SpecSort MDprk MDprk2 SpecDprk PDprk PDprk2 PDprk3 PDprk4 PDprk7.
Import ListNotations.
Open Scope Z_scope.

Section Drivers.
Variables (eps fm : R) (A : dpr1 R) (B : idpr1 R).
Variable eigvals : dpr1 R -> idpr1 R -> list R -> list R -> option (list R * list R).
Let n := dp_n A.
Hypothesis ok : dp_ok A.
Hypothesis Heps : (0 <= eps)%R.

Lemma dpr1_eig_proof : dp_simple (defl_tol false eps A B) 0 A ->
  (forall B1, exact_roots fm (dp_rho A) 0 (fun A lo hi => eigvals A B1 lo hi)) ->
  exists E, dpr1_eig eps fm eigvals A B = Some E /\ dpe_dense_ok E /\ de_num E = n /\ zlen (de_lambda E) = n /\ nondecreasing (de_lambda E) 0 (n - 1) /\
    eigensystem n n (dp_mat A) delta (nR (de_lambda E)) (dpe_dense E).
Proof.
  intros (H1 & H2 & H3) HE. unfold dpr1_eig.
  destruct (eig_proof false eps fm eigvals (fun A B _ lo hi m => dpr1_eigvecs A lo hi m) (fun iz id => iz) A B (fun m Q => mat 0 m Q) (fun m Q => zlen Q = m * m)) as (E & EE & O & Nn & Id & OV & L & Srt & S); auto.
  - intros A2 B2 lt lot hit m ok2 N2 R2 _ _ Llo Lhi _ Hr Hd.
    destruct (eigvecs_proof A2 lot hit m ok2 ltac:(destruct ok2; lia) ltac:(lia) ltac:(lia) Hr Hd) as (Q & E & L & S & _). exists Q. split; auto. rewrite N2 in *. split; auto.
    eapply eigensystem_ext; [| | | |exact S]; auto. intros i j Hi Hj. unfold bfun. lra.
  - intros; discriminate.
  - exists E. split; [exact EE|]. split; [|split; [auto|split; [auto|split; [auto|]]]].
    + split; auto. rewrite Nn, Id in *. fold n in OV. rewrite OV. unfold n. nia.
    + eapply eigensystem_ext; [| | | |exact S]; auto.
      * intros i j Hi Hj. unfold bfun. lra.
      * intros i j Hi Hj. unfold dpe_dense. now rewrite Nn.
Qed.

Hypothesis HB : ip_ok B /\ ip_n B = n.
Hypothesis Hz : forall i, 0 <= i < n -> nR (ip_z B) i = nR (dp_z A) i.
Hypothesis Hs : (0 <= ip_sigma B)%R.
Lemma posdef_ip (B2 : idpr1 R) m : (0 <= ip_sigma B2)%R -> posdef m (ip_mat B2).
Proof.
  intros H v Hv. pose proof (posdef_rank1 m (nR (ip_z B2)) (ip_sigma B2) H v Hv) as X. rewrite (sumZ_ext m _ (fun i => (v i * matvec m (fun i j => (delta i j * 1 + ip_sigma B2 * nR (ip_z B2) i * nR (ip_z B2) j)%R) v i)%R)); auto.
  intros i Hi. f_equal. apply mv_ext; auto. intros k Hk. unfold ip_mat. lra.
Qed.
Lemma definite_dpr1_eig_proof : dp_simple (defl_tol true eps A B) (ip_sigma B) A ->
  (forall B1, ip_sigma B1 = ip_sigma B -> exact_roots fm (dp_rho A) (ip_sigma B) (fun A lo hi => eigvals A B1 lo hi)) ->
  exists E, definite_dpr1_eig eps fm eigvals A B = Some E /\ dpe_dense_ok E /\ de_num E = n /\ zlen (de_lambda E) = n /\ nondecreasing (de_lambda E) 0 (n - 1) /\
    eigensystem n n (dp_mat A) (ip_mat B) (nR (de_lambda E)) (dpe_dense E).
Proof.
  intros (H1 & H2 & H3) HE. unfold definite_dpr1_eig.
  destruct (eig_proof true eps fm eigvals (fun A B _ lo hi m => definite_dpr1_eigvecs A B lo hi m) (fun iz id => iz + id) A B (fun m Q => mat 0 m Q) (fun m Q => zlen Q = m * m)) as (E & EE & O & Nn & Id & OV & L & Srt & S); auto; [intros; lia| |].
  - intros A2 B2 lt lot hit m ok2 N2 R2 H _ Llo Lhi _ Hr Hd. destruct (H eq_refl) as (Bo & Bn & Bs & Bz).
    destruct (definite_eigvecs_proof A2 lot hit m ok2 ltac:(destruct ok2; lia) ltac:(lia) ltac:(lia) B2 ltac:(lia)) as (Q & E & L & S & _); auto.
    { intros i Hi. apply Bz. lia. } { apply posdef_ip. now rewrite Bs. } { now rewrite Bs. }
    exists Q. split; auto. rewrite N2 in *. split; auto.
    eapply eigensystem_ext; [| | | |exact S]; auto. intros i j Hi Hj. unfold bfun, ip_mat. rewrite !Bz, Bs by lia. lra.
  - exists E. split; [exact EE|]. split; [|split; [auto|split; [auto|split; [auto|]]]].
    + split; auto. rewrite Nn, Id in *. fold n in OV. rewrite OV. unfold n. nia.
    + eapply eigensystem_ext; [| | | |exact S]; auto.
      * intros i j Hi Hj. unfold bfun, ip_mat. rewrite !Hz by auto. lra.
      * intros i j Hi Hj. unfold dpe_dense. now rewrite Nn.
Qed.
End Drivers.

Section DriversFMM.
Variables (eps fm : R) (A : dpr1 R) (B : idpr1 R).
Variable eigvals : dpr1 R -> idpr1 R -> list R -> list R -> option (list R * list R).
Variable sample : list R -> list R -> list R -> list R -> Z -> Z -> option (hmat R * hmat R).
Let n := dp_n A.
Hypothesis ok : dp_ok A.
Hypothesis Heps : (0 <= eps)%R.
Hypothesis HK : exact_kernels sample.

Definition okH (m : Z) (H : hmat R) : Prop := h_ok H /\ hrows H = m /\ hcols H = m.

Lemma sampled (A2 : dpr1 R) (lt lot hit : list R) m s : dp_ok A2 -> dp_n A2 = m -> zlen lt = m -> zlen lot = m -> zlen hit = m ->
  (forall j, 0 <= j < m -> nR lt j = (nR hit j + nR lot j)%R) -> (forall j, 0 <= j < m -> pencil_root A2 s (nR hit j + nR lot j)) ->
  exists Q N, sample (dp_d A2) lt lot hit (dp_n A2) m = Some (Q, N) /\
   (h_ok Q /\ hrows Q = m /\ hcols Q = m /\ forall i j, 0 <= i < m -> 0 <= j < m -> h_mat Q i j = (/ (nR (dp_d A2) i - (nR hit j + nR lot j)))%R) /\
   (h_ok N /\ hrows N = m /\ hcols N = m /\ forall i j, 0 <= i < m -> 0 <= j < m -> h_mat N i j = (/ (nR (dp_d A2) i - (nR hit j + nR lot j)) * / (nR (dp_d A2) i - (nR hit j + nR lot j)))%R).
Proof.
  intros ok2 N2 L1 L2 L3 Hl Hr. rewrite N2. assert (Hd : m <= zlen (dp_d A2)) by (destruct ok2 as (? & ? & ?); lia). assert (0 <= m) by (destruct ok2; lia).
  destruct (HK (dp_d A2) lt lot hit m m) as (Q & N & E & Q1 & Q2 & Q3 & N1 & N2' & N3 & V); auto; try lia.
  { intros i j Hi Hj. rewrite Hl by auto. destruct (Hr j Hj) as (Ho & _). apply Ho. lia. }
  exists Q, N. split; auto. split.
  - split; auto. split; auto. split; auto. intros i j Hi Hj. destruct (V i j Hi Hj) as (-> & _). now rewrite Hl.
  - split; auto. split; auto. split; auto. intros i j Hi Hj. destruct (V i j Hi Hj) as (_ & ->). rewrite Hl by auto. rewrite Rinv_mult. reflexivity.
Qed.

Lemma dpr1_eig_FMM_proof : dp_simple (defl_tol false eps A B) 0 A ->
  (forall B1, exact_roots fm (dp_rho A) 0 (fun A lo hi => eigvals A B1 lo hi)) ->
  exists E, dpr1_eig_FMM sample eps fm eigvals A B = Some E /\ dpe_hier_ok E /\ de_num E = n /\ zlen (de_lambda E) = n /\ nondecreasing (de_lambda E) 0 (n - 1) /\
    eigensystem n n (dp_mat A) delta (nR (de_lambda E)) (dpe_hier E).
Proof.
  intros (H1 & H2 & H3) HE. unfold dpr1_eig_FMM.
  match goal with |- context [eig _ _ _ _ ?f ?g A B] => destruct (eig_proof false eps fm eigvals f g A B (fun m H => h_mat H) okH) as (E & EE & O & Nn & Id & OV & L & Srt & S); auto end.
  - intros A2 B2 lt lot hit m ok2 N2 R2 _ Ll Llo Lhi Hl Hr Hd.
    destruct (sampled A2 lt lot hit m 0%R) as (Q & N & -> & HQ & HN); auto. cbn [obind fst snd].
    destruct (eigvecs_FMM_proof A2 (fun j => (nR hit j + nR lot j)%R) m Q N ok2 ltac:(destruct ok2; lia)) as (H & E & O1 & O2 & O3 & S); auto; try (rewrite N2; auto).
    exists H. split; auto. rewrite N2 in *. split; [split; auto|].
    eapply eigensystem_ext; [| | | |exact S]; auto. intros i j Hi Hj. unfold bfun. lra.
  - intros; discriminate.
  - exists E. split; [exact EE|]. split; [|split; [auto|split; [auto|split; [auto|]]]].
    + destruct OV as (V1 & V2 & V3). split; auto. split; auto. rewrite Nn, Id in *. split; lia.
    + eapply eigensystem_ext; [| | | |exact S]; auto. intros i j Hi Hj. unfold bfun. lra.
Qed.

Hypothesis HB : ip_ok B /\ ip_n B = n.
Hypothesis Hz : forall i, 0 <= i < n -> nR (ip_z B) i = nR (dp_z A) i.
Hypothesis Hs : (0 <= ip_sigma B)%R.
Lemma definite_dpr1_eig_FMM_proof : dp_simple (defl_tol true eps A B) (ip_sigma B) A ->
  (forall B1, ip_sigma B1 = ip_sigma B -> exact_roots fm (dp_rho A) (ip_sigma B) (fun A lo hi => eigvals A B1 lo hi)) ->
  exists E, definite_dpr1_eig_FMM sample eps fm eigvals A B = Some E /\ dpe_hier_ok E /\ de_num E = n /\ zlen (de_lambda E) = n /\ nondecreasing (de_lambda E) 0 (n - 1) /\
    eigensystem n n (dp_mat A) (ip_mat B) (nR (de_lambda E)) (dpe_hier E).
Proof.
  intros (H1 & H2 & H3) HE. unfold definite_dpr1_eig_FMM.
  match goal with |- context [eig _ _ _ _ ?f ?g A B] => destruct (eig_proof true eps fm eigvals f g A B (fun m H => h_mat H) okH) as (E & EE & O & Nn & Id & OV & L & Srt & S); auto end; [intros; lia| |].
  - intros A2 B2 lt lot hit m ok2 N2 R2 HB2 Ll Llo Lhi Hl Hr Hd. destruct (HB2 eq_refl) as (Bo & Bn & Bs & Bz).
    destruct (sampled A2 lt lot hit m (ip_sigma B)) as (Q & N & -> & HQ & HN); auto. cbn [obind fst snd].
    destruct (definite_eigvecs_FMM_proof A2 (fun j => (nR hit j + nR lot j)%R) m Q N ok2 ltac:(destruct ok2; lia)) with (B := B2) as (H & E & O1 & O2 & O3 & S); auto; try (rewrite N2; auto).
    { apply posdef_ip. now rewrite Bs. } { now rewrite Bs. }
    exists H. split; auto. rewrite N2 in *. split; [split; auto|].
    eapply eigensystem_ext; [| | | |exact S]; auto. intros i j Hi Hj. unfold bfun, ip_mat. rewrite !Bz, Bs by lia. lra.
  - exists E. split; [exact EE|]. split; [|split; [auto|split; [auto|split; [auto|]]]].
    + destruct OV as (V1 & V2 & V3). split; auto. split; auto. rewrite Nn, Id in *. split; lia.
    + eapply eigensystem_ext; [| | | |exact S]; auto. intros i j Hi Hj. unfold bfun, ip_mat. rewrite !Hz by auto. lra.
Qed.
End DriversFMM.
