(** The refutation and the example of Properties_Harmonic.v *)
From Coq Require Import ZArith List Lia Bool Reals Lra ZifyBool ZifyNat.
From Verif Require Import Base Arith BaseFacts SpecSum PSum SpecLin MRotations MDrivers SpecRot MHarmonic SpecHarm MRefBlas PRefBlas PHarm4.
Import ListNotations.
Open Scope Z_scope.
Lemma scale3_nz : (2 / PI * sqrt (2 / PI) * / sqrt 2 * / sqrt 2 * / sqrt 2 <> 0)%R.
Proof.
  pose proof PI_RGT_0. assert (0 < 2 / PI)%R by (apply Rdiv_lt_0_compat; lra).
  assert (0 < sqrt (2 / PI))%R by (apply sqrt_lt_R0; auto). assert (0 < sqrt 2)%R by (apply sqrt_lt_R0; lra).
  assert (0 < / sqrt 2)%R by (now apply Rinv_0_lt_compat). 
  assert (G : forall x y z : R, (0 < x -> 0 < y -> 0 < z -> y * x * z * z * z <> 0)%R).
  { intros x y z Hx Hy Hz. assert (0 < y * x * z * z * z)%R by (repeat apply Rmult_lt_0_compat; auto). lra. }
  now apply G.
Qed.
Lemma sum2 f : sumZ 2 f = (f 0%Z + f 1%Z)%R.
Proof. change 2 with (0 + 1 + 1). rewrite !sumZ_S by lia. rewrite sumZ_0 by lia. cbn. ring. Qed.
Lemma tet_third_refuted :
  ~ (forall BL : blas R, blas_ok BL -> forall (hi lo : list R -> option (list R)) (P0 P1 P2 : list R) (N L : Z) (A A1 : list R),
     0 < L <= N -> zlen P0 = N * N -> zlen P1 = N * N -> zlen P2 = N * N -> hi A = Some A1 -> zlen A1 = N * L * N ->
     exists A4 A', tet2cheb BL hi lo (chebyshev_normalization_3d (/ sqrt 2)%R (2 / PI * sqrt (2 / PI))%R N L N) false false true P0 P1 P2 false N L N A = Some A' /\
       mode (N * L) N 1 (fun _ => utri N P2) A1 A4 /\ scaled3 N L N A4 A').
Proof.
  intros H. pose (T := [1;0;1;1]%R). pose (A := [0;0;1;0]%R).
  destruct (H ref_blas ref_blas_ok (fun A => Some A) (fun A => Some A) T T T 2 1 A A) as (A4 & A' & E & M1 & S1); try reflexivity; try lia.
  destruct (H35_tet ref_blas ref_blas_ok (fun A => Some A) (fun A => Some A) T T T false false true 2 1 A A) as (B2 & B3 & B4 & B' & E' & -> & -> & M2 & S2); try reflexivity; try lia.
  assert (B' = A') by congruence. subst B'.
  destruct S1 as (_ & S1), S2 as (_ & S2). specialize (S1 0 0 0 ltac:(lia) ltac:(lia) ltac:(lia)). specialize (S2 0 0 0 ltac:(lia) ltac:(lia) ltac:(lia)).
  rewrite S1 in S2. cbn [Z.eqb Z.add Z.mul] in S2. apply Rmult_eq_reg_l in S2; [|apply scale3_nz].
  destruct M1 as (_ & _ & M1), M2 as (_ & _ & M2). specialize (M1 0 0 0 ltac:(lia) ltac:(lia) ltac:(lia)). specialize (M2 0 0 0 ltac:(lia) ltac:(lia) ltac:(lia)).
  unfold entry in M1, M2. rewrite sum2 in M1, M2. unfold transp, utri, mat in *. cbn [Z.add Z.mul Z.leb Z.compare Pos.add Pos.mul Pos.compare Pos.compare_cont] in *.
  change (nthZ 0%R T 0) with 1%R in *. change (nthZ 0%R T 2) with 1%R in *. change (nthZ 0%R A 0) with 0%R in *. change (nthZ 0%R A 2) with 1%R in *. lra.
Qed.
Lemma ex_hyps : let exRP := RotPlan 2 [3/5; 3/5; 3/5]%R [4/5; 4/5; 4/5]%R in let exP := [1; 0; 1; 2]%R in let exQ := [1; 0; -1/2; 1/2]%R in
  blas_ok ref_blas /\ 0 < rp_n exRP /\ 3 mod 2 = 1 /\ tri_tables exRP /\ unit_tri exRP /\ inverse_tables 2 exP exQ.
Proof.
  cbv zeta. split; [apply ref_blas_ok|]. split; [cbn; lia|]. split; [reflexivity|]. split; [repeat split; cbn; lia|]. split.
  - intros l m Hm Hl HH. cbn [rp_n] in HH. assert (Hc : (l = 0 /\ m = 0) \/ (l = 1 /\ m = 0) \/ (l = 0 /\ m = 1)) by lia.
    exists (3/5)%R, (4/5)%R. destruct Hc as [(-> & ->)|[(-> & ->)|(-> & ->)]]; (split; [reflexivity|split; [reflexivity|lra]]).
  - split; [reflexivity|]. split; [reflexivity|]. intros i j Hi Hj. unfold matmul. rewrite !sum2.
    assert (Hc : (i = 0 \/ i = 1) /\ (j = 0 \/ j = 1)) by lia. destruct Hc as ([-> | ->] & [-> | ->]); unfold utri, mat, delta;
      cbn [Z.add Z.mul Z.leb Z.eqb Z.compare Pos.add Pos.mul Pos.compare Pos.compare_cont Pos.eqb];
      change (nthZ 0%R [1; 0; 1; 2]%R 0) with 1%R; change (nthZ 0%R [1; 0; 1; 2]%R 2) with 1%R; change (nthZ 0%R [1; 0; 1; 2]%R 3) with 2%R;
      change (nthZ 0%R [1; 0; -1/2; 1/2]%R 0) with 1%R; change (nthZ 0%R [1; 0; -1/2; 1/2]%R 2) with (-1/2)%R; change (nthZ 0%R [1; 0; -1/2; 1/2]%R 3) with (1/2)%R; split; lra.
Qed.
Lemma ex_value : let exRP := RotPlan 2 [3/5; 3/5; 3/5]%R [4/5; 4/5; 4/5]%R in let exP := [1; 0; 1; 2]%R in
  exists A', sph2fourier ref_blas (execute_sph_default (kernel_sph_hi2lo givens exRP) 2 3)
    (execute_sph_default (kernel_sph_lo2hi givens_t exRP) 2 3) exP exP false 2 3 [1;1;1;1;1;1]%R = Some A' /\ nthZ 0%R A' 0 = 2%R.
Proof.
  cbv zeta. destruct (H35_sph ref_blas ref_blas_ok (execute_sph_default (kernel_sph_hi2lo givens (RotPlan 2 [3/5; 3/5; 3/5]%R [4/5; 4/5; 4/5]%R)) 2 3)
    (execute_sph_default (kernel_sph_lo2hi givens_t (RotPlan 2 [3/5; 3/5; 3/5]%R [4/5; 4/5; 4/5]%R)) 2 3) [1; 0; 1; 2]%R [1; 0; 1; 2]%R 2 3 [1;1;1;1;1;1]%R [1;1;1;1;1;1]%R) as (A' & E & M1); try lia; try reflexivity.
  exists A'. split; auto. destruct M1 as (_ & _ & M1). specialize (M1 0 0 0 ltac:(lia) ltac:(lia) ltac:(lia)). unfold entry in M1. rewrite sum2 in M1.
  unfold utri, mat in *. cbn [Z.add Z.mul Z.leb Z.eqb Z.compare Pos.add Pos.mul Pos.compare Pos.compare_cont Pos.eqb Z.modulo Z.div_eucl orb snd] in M1.
  change (nthZ 0%R [1; 0; 1; 2]%R 0) with 1%R in M1. change (nthZ 0%R [1; 0; 1; 2]%R 2) with 1%R in M1.
  change (nthZ 0%R [1; 1; 1; 1; 1; 1]%R 0) with 1%R in M1. change (nthZ 0%R [1; 1; 1; 1; 1; 1]%R 1) with 1%R in M1. lra.
Qed.
