(** * Proofs about the divide-and-conquer eigenvector planners: the plan of tb_eig_ADI *)
From Coq Require Import ZArith List Lia Bool Reals Lra ZifyBool ZifyNat.
From Verif Require Import Arith Base BaseFacts SpecSum PSum SpecLin SpecBanded PTri PTri2 MBanded MHier SpecHier PHier5 MSort SpecSort PPerm PSort PSortThms MEig SpecEig PInter PEig PEigThms MButter SpecButter PButter2 PHier2 MEigPlan SpecEigPlan PEigPlan PEigPlan2 PEigPlan3 PEigPlan4 PEigPlan5.
Import ListNotations.
Open Scope Z_scope.

Section ADI.
Variables (BS : Z) (adi : Z -> list R -> Z -> list R -> Z -> list R -> list R -> option (lowrank R)).
Hypothesis HBS : 2 <= BS. Hypothesis Hadi : exact_sylvester adi.

Theorem tb_eig_ADI_proof fuel : forall A B,
  tb_ok A -> tb_ok B -> tb_n B = tb_n A -> tb_b B <= tb_b A -> tb_b A <= BS / 2 -> nonzero_diag (tb_n A) (tb_mat B) ->
  (forall i j, 0 <= i < j -> j < tb_n A -> pencil_eig A B i <> pencil_eig A B j) -> tb_n A < Z.of_nat fuel ->
  exists E la, tb_eig_ADI BS 0%R adi fuel A B = Some (E, la) /\ tbadi_n E = tb_n A /\
    ad_wf BS E /\ zlen la = tb_n A /\ (forall j, 0 <= j < tb_n A -> nthZ 0%R la j = pencil_eig A B j) /\
    eigenvectors_of (tb_n A) (tb_mat A) (tb_mat B) (fun _ => 1%R) (ad_V E).
Proof.
  induction fuel as [|fuel IH]; intros A B HA HB Hn Hbb HbB HD Hd Hf.
  { pose proof (proj1 HA). lia. }
  assert (H0 : 0 <= tb_n A) by apply HA. assert (Hb0 : 0 <= tb_b A) by apply HA.
  cbn [tb_eig_ADI]. destruct (Z.ltb_spec (tb_n A) BS).
  - destruct (eig_leaf_spec A B (fun _ => Some 1%R) (fun _ => 1%R) HA HB Hn HD Hd) as (V & la & E & LV & Ll & Pl & PV).
    { reflexivity. }
    cbn [one R_arith]. rewrite E. cbn [obind fst snd]. exists (ADLeaf (tb_n A) V), la. split; [reflexivity|]. cbn [tbadi_n ad_wf ad_V]. split; auto. split; [lia|]. auto.
  - set (n := tb_n A) in *. set (s := n / 2). set (m := n - s).
    assert (Hs : 1 <= s /\ s <= m /\ BS / 2 <= s /\ m < n /\ s < n).
    { unfold m, s. pose proof (Z.div_le_mono BS n 2). pose proof (Z.div_mod n 2). pose proof (Z.mod_pos_bound n 2). pose proof (Z.div_le_mono 2 n 2). change (2 / 2) with 1 in *. lia. }
    replace (Z.max (tb_b A) (tb_b B)) with (tb_b A) by lia. set (b := tb_b A) in *.
    assert (EA1 : tb_n (view_tbanded A 0 s) = s) by (unfold view_tbanded; cbn [tb_n]; lia).
    assert (EA2 : tb_n (view_tbanded A s n) = m) by (unfold view_tbanded; cbn [tb_n]; lia).
    assert (HA1 : tb_ok (view_tbanded A 0 s)) by (apply view_ok; auto; fold n; lia).
    assert (HB1 : tb_ok (view_tbanded B 0 s)) by (apply view_ok; auto; lia).
    assert (HA2 : tb_ok (view_tbanded A s n)) by (apply view_ok; auto; fold n; lia).
    assert (HB2 : tb_ok (view_tbanded B s n)) by (apply view_ok; auto; lia).
    assert (MA1 : forall i j, 0 <= i -> 0 <= j -> tb_mat (view_tbanded A 0 s) i j = tb_mat A i j) by (intros; rewrite view_mat by (auto; fold n; lia); reflexivity).
    assert (MB1 : forall i j, 0 <= i -> 0 <= j -> tb_mat (view_tbanded B 0 s) i j = tb_mat B i j) by (intros; rewrite view_mat by (auto; lia); reflexivity).
    assert (MA2 : forall i j, 0 <= i -> 0 <= j -> tb_mat (view_tbanded A s n) i j = tb_mat A (s + i) (s + j)) by (intros; rewrite view_mat by (auto; fold n; lia); reflexivity).
    assert (MB2 : forall i j, 0 <= i -> 0 <= j -> tb_mat (view_tbanded B s n) i j = tb_mat B (s + i) (s + j)) by (intros; rewrite view_mat by (auto; lia); reflexivity).
    assert (P1 : forall j, 0 <= j -> pencil_eig (view_tbanded A 0 s) (view_tbanded B 0 s) j = pencil_eig A B j) by (intros; unfold pencil_eig; now rewrite MA1, MB1 by lia).
    assert (P2 : forall j, 0 <= j -> pencil_eig (view_tbanded A s n) (view_tbanded B s n) j = pencil_eig A B (s + j)) by (intros; unfold pencil_eig; now rewrite MA2, MB2 by lia).
    destruct (IH (view_tbanded A 0 s) (view_tbanded B 0 s)) as (E1 & la1 & R1 & N1 & W1 & L1 & G1 & V1); auto; rewrite ?EA1.
    { intros i Hi. rewrite MB1 by lia. apply HD. lia. }
    { intros i j Hi Hj. rewrite !P1 by lia. apply Hd; lia. }
    { lia. }
    destruct (IH (view_tbanded A s n) (view_tbanded B s n)) as (E2 & la2 & R2 & N2 & W2 & L2 & G2 & V2); auto; rewrite ?EA2.
    { intros i Hi. rewrite MB2 by lia. apply HD. lia. }
    { intros i j Hi Hj. rewrite !P2 by lia. apply Hd; lia. }
    { lia. }
    rewrite EA1 in *. rewrite EA2 in *. rewrite R1. cbn [obind]. rewrite R2. cbn [obind].
    assert (V1' : eigenvectors_of s (tb_mat A) (tb_mat B) (fun _ => 1%R) (ad_V E1)).
    { revert V1. apply eigenvectors_ext; [intros; apply MA1; lia|intros; apply MB1; lia|reflexivity]. }
    assert (V2' : eigenvectors_of m (fun i j => tb_mat A (s + i) (s + j)) (fun i j => tb_mat B (s + i) (s + j)) (fun _ => 1%R) (ad_V E2)).
    { revert V2. apply eigenvectors_ext; [intros; apply MA2; lia|intros; apply MB2; lia|reflexivity]. }
    assert (ND1 : nonzero_diag s (ad_V E1)) by (apply (eigenvectors_diag _ _ _ _ _ V1'); intros; lra).
    destruct (eig_X_spec (-(1))%R (bfsv_ADI BS false E1) (view_tbanded B 0 s) s b (ad_V E1)) as (X & EX & LX & PX); auto.
    { intros i Hi. rewrite MB1 by lia. apply HD. lia. }
    { lia. }
    { intros x o' Hx. destruct (bfsv_ADI_proof BS E1 W1 ltac:(rewrite N1; exact ND1) false x o') as (x' & Ex & Ax); [now rewrite N1|]. rewrite N1 in Ax. exists x'. split; [exact Ex|exact Ax]. }
    cbn [one opp R_arith]. rewrite EX. cbn [obind].
    destruct (eig_Y_spec (bfmv_ADI BS true E2) A B n s la2 (ad_V E2) (fun c => pencil_eig A B (s + c))) as (Y & EY & LY & PY); auto; fold m; try (fold b; lia).
    { intros c Hc. rewrite G2 by lia. apply P2. lia. }
    { intros x o' Hx. destruct (bfmv_ADI_proof BS E2 W2 true x o') as (x' & Ex & Ax); [now rewrite N2|]. rewrite N2 in Ax. exists x'. split; [exact Ex|exact Ax]. }
    fold b m in PY, LY. rewrite EY. cbn [obind].
    destruct (Hadi s la1 m la2 b X Y) as (F0 & EF & Hok & Hr & Hc & HF); try lia.
    { intros i k Hi Hk. rewrite G1, G2, P1, P2 by lia. apply Hd; lia. }
    rewrite EF. cbn [obind].
    eexists _, _. split; [reflexivity|]. cbn [tbadi_n]. split; [reflexivity|].
    split.
    { cbn [ad_wf]. fold s m. rewrite N1, N2. split; [lia|]. split; [lia|]. auto 10. }
    split; [rewrite zlen_app; lia|]. split.
    { intros j Hj. destruct (Z_lt_dec j s).
      - rewrite nthZ_app_l by lia. rewrite G1 by lia. apply P1. lia.
      - replace j with (zlen la1 + (j - s)) at 1 by lia. rewrite nthZ_app_r by lia. rewrite G2 by lia. rewrite P2 by lia. f_equal. lia. }
    cbn [ad_V]. fold s m. fold n. replace n with (s + m) at 1 by lia.
    assert (UA : upper_tri (s + m) (tb_mat A)) by apply tb_upper.
    assert (UB : upper_tri (s + m) (tb_mat B)) by apply tb_upper.
    assert (HZ : forall i r, 0 <= i < s - b -> 0 <= r < m -> tb_mat A i (s + r) = 0%R /\ tb_mat B i (s + r) = 0%R).
    { intros i r Hi Hr'. split; apply outB; lia. }
    apply (node_eigenvectors s m b (tb_mat A) (tb_mat B) (ad_V E1) (ad_V E2) (fun a k => - mat 0 s X a k)%R (mat 0 m Y)); auto; try lia.
    + intros k i Hk Hi. specialize (PX k i Hk Hi).
      unfold matvec at 1 in PX. unfold matvec at 1.
      rewrite (sumZ_ext s _ (fun a => (-1) * (tb_mat (view_tbanded B 0 s) i a * matvec s (ad_V E1) (fun a0 => mat 0 s X a0 k) a))%R).
      2:{ intros a Ha. rewrite MB1 by lia. unfold matvec. rewrite (sumZ_ext s (fun k0 => ad_V E1 a k0 * - mat 0 s X k0 k)%R (fun k0 => (-1) * (ad_V E1 a k0 * mat 0 s X k0 k))%R) by (intros; ring). rewrite sumZ_scal. ring. }
      rewrite sumZ_scal, PX. ring.
    + intros a c Ha Hc'. specialize (HF a c Ha Hc'). rewrite G1, G2, P1, P2 in HF by lia. unfold pencil_eig in HF.
      rewrite (sumZ_ext b _ (fun k => (-1) * (mat 0 s X a k * mat 0 m Y c k))%R) by (intros; ring). rewrite sumZ_scal, <- HF. ring.
Qed.
End ADI.
