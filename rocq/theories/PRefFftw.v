(** A reference FFTW, by the formulas: the contract of SpecFftw.v can be met *)
From Coq Require Import ZArith List Lia Bool Reals Lra ZifyBool ZifyNat.
From Verif Require Import Base Arith BaseFacts SpecSum PSum SpecLin PTri MHarmonic SpecHarm PDrivers4 PHarm MFftw SpecFftw PTrig PFftw PFftw2 PFftw3 PFftw5.
Import ListNotations.
Open Scope Z_scope.

Definition zrange (n : Z) : list Z := map Z.of_nat (seq 0 (Z.to_nat n)).
Lemma in_zrange n i : In i (zrange n) <-> 0 <= i < n.
Proof.
  unfold zrange. rewrite in_map_iff. split.
  - intros (k & <- & H). apply in_seq in H. lia.
  - intros H. exists (Z.to_nat i). split; [lia|]. apply in_seq. lia.
Qed.
Definition find_line (n m s d o p : Z) : option (Z * Z) := find (fun ji => o + fst ji * d + snd ji * s =? p) (list_prod (zrange m) (zrange n)).
Lemma find_line_some n m s d o p j i : find_line n m s d o p = Some (j, i) -> 0 <= j < m /\ 0 <= i < n /\ o + j * d + i * s = p.
Proof. intros H. apply find_some in H. destruct H as (H & E). apply in_prod_iff in H. rewrite !in_zrange in H. cbn [fst snd] in E. lia. Qed.
Lemma find_line_none n m s d o p j i : find_line n m s d o p = None -> 0 <= j < m -> 0 <= i < n -> o + j * d + i * s <> p.
Proof.
  intros H Hj Hi E. assert (I : In (j, i) (list_prod (zrange m) (zrange n))) by (apply in_prod_iff; rewrite !in_zrange; lia).
  pose proof (find_none _ _ H (j, i) I) as F. cbn [fst snd] in F. lia.
Qed.

Definition ref_r2r (n m s d : Z) (k : kind) (X : list R) (o : Z) : list R :=
  ztab (zlen X) (fun p => match find_line n m s d o p with
    | Some (j, i) => sumZ n (fun l => (kind_mat k n i l * nthZ 0 X (o + j * d + l * s))%R)
    | None => nthZ 0%R X p end).
Definition ref_r2r2 (n0 n1 : Z) (k0 k1 : kind) (X : list R) : list R :=
  ztab (n0 * n1) (fun p => sumZ n0 (fun j0 => sumZ n1 (fun j1 => (kind_mat k0 n0 (p / n1)%Z j0 * kind_mat k1 n1 (p mod n1)%Z j1 * nthZ 0%R X (j0 * n1 + j1)%Z)%R))).
Definition ref_r2r3 (n0 n1 n2 : Z) (k0 k1 k2 : kind) (X : list R) : list R :=
  ztab (n0 * n1 * n2) (fun p => sumZ n0 (fun j0 => sumZ n1 (fun j1 => sumZ n2 (fun j2 =>
    (kind_mat k0 n0 (p / n2 / n1)%Z j0 * kind_mat k1 n1 ((p / n2) mod n1)%Z j1 * kind_mat k2 n2 (p mod n2)%Z j2 * nthZ 0%R X ((j0 * n1 + j1) * n2 + j2)%Z)%R)))).
Definition ref_c2r (n s : Z) (Y X : list R) : list R :=
  ztab (s * n) (fun p => let i := p mod s in let j := p / s in
    (re Y i + 2 * sumZ (n / 2) (fun k => re Y (i + (k + 1) * s)%Z * cos (angle n j (k + 1)) - im Y (i + (k + 1) * s)%Z * sin (angle n j (k + 1))))%R).
Definition ref_r2c (n s : Z) (X Y : list R) : list R :=
  ztab (2 * (s * (n / 2 + 1))) (fun p => let i := (p / 2) mod s in let k := p / 2 / s in
    if p mod 2 =? 0 then sumZ n (fun j => nthZ 0%R X (i + j * s)%Z * cos (angle n j k))%R
    else (- sumZ n (fun j => nthZ 0%R X (i + j * s)%Z * sin (angle n j k)))%R).
Definition ref_dft (back : bool) (n s : Z) (X Y : list R) : list R :=
  let g := if back then 1%R else (-1)%R in
  ztab (2 * (s * n)) (fun p => let i := (p / 2) mod s in let k := p / 2 / s in
    if p mod 2 =? 0 then sumZ n (fun j => re X (i + j * s)%Z * cos (angle n j k) - g * (im X (i + j * s)%Z * sin (angle n j k)))%R
    else sumZ n (fun j => im X (i + j * s)%Z * cos (angle n j k) + g * (re X (i + j * s)%Z * sin (angle n j k)))%R).
Definition ref_fftw : fftw R := Fftw
  (fun n m s d k X o => Some (ref_r2r n m s d k X o)) (fun n0 n1 k0 k1 X => Some (ref_r2r2 n0 n1 k0 k1 X)) (fun n0 n1 n2 k0 k1 k2 X => Some (ref_r2r3 n0 n1 n2 k0 k1 k2 X))
  (fun n s _ Y X => Some (ref_c2r n s Y X)) (fun n s _ X Y => Some (ref_r2c n s X Y)) (fun b n s _ X Y => Some (ref_dft b n s X Y)).

Lemma nth_tab n f p : 0 <= p < n -> nthZ 0%R (ztab n f) p = f p.
Proof. intros H. apply nthZ_zget. now apply zget_ztab. Qed.
Lemma rowcol i j s : 0 <= i < s -> (i + j * s) mod s = i /\ (i + j * s) / s = j.
Proof. intros H. destruct (blk s j i H) as (A & B). rewrite (Z.add_comm i). auto. Qed.
Lemma even_half p : (2 * p) mod 2 = 0 /\ 2 * p / 2 = p /\ (2 * p + 1) mod 2 = 1 /\ (2 * p + 1) / 2 = p. Proof. lia. Qed.
Lemma ref_ok : fftw_ok ref_fftw.
Proof.
  split; cbn [r2r r2r2 r2r3 c2r r2c dft ref_fftw].
  - intros n m s d k X o Hn Hm Hin Hinj. eexists. split; [reflexivity|]. unfold ref_r2r. split; [apply zlen_ztab, zlen_nonneg|]. split.
    + intros j i Hj Hi. pose proof (Hin j i Hj Hi) as B. rewrite nth_tab by lia. destruct (find_line n m s d o (o + j * d + i * s)) as [(j', i')|] eqn:E.
      * apply find_line_some in E. destruct E as (Hj' & Hi' & E). destruct (Hinj j' i' j i) as (-> & ->); auto; lia.
      * exfalso. apply (find_line_none _ _ _ _ _ _ j i E); auto.
    + intros p Hp. destruct (Z_lt_le_dec p 0) as [H0|H0]; [|destruct (Z_lt_le_dec p (zlen X)) as [H1|H1]].
      * rewrite !zget_none by lia. reflexivity.
      * rewrite zget_ztab by lia. destruct (find_line n m s d o p) as [(j', i')|] eqn:E.
        -- apply find_line_some in E. destruct E as (Hj' & Hi' & E). exfalso. apply (Hp j' i'); auto.
        -- symmetry. now apply zget_nthZ.
      * rewrite !zget_none; auto; [lia|]. rewrite zlen_ztab by apply zlen_nonneg. lia.
  - intros n0 n1 k0 k1 X H0 H1 LX. eexists. split; [reflexivity|]. unfold ref_r2r2. split; [apply zlen_ztab; nia|]. intros i0 i1 Hi0 Hi1.
    rewrite nth_tab by nia. destruct (blk n1 i0 i1 Hi1) as (-> & ->). reflexivity.
  - intros n0 n1 n2 k0 k1 k2 X H0 H1 H2 LX. eexists. split; [reflexivity|]. unfold ref_r2r3. split; [apply zlen_ztab; nia|]. intros i0 i1 i2 Hi0 Hi1 Hi2.
    assert (B : 0 <= i0 * n1 + i1 < n0 * n1) by nia. rewrite nth_tab by nia. destruct (blk n2 (i0 * n1 + i1) i2 Hi2) as (-> & ->). destruct (blk n1 i0 i1 Hi1) as (-> & ->). reflexivity.
  - intros n s Y X Hn Ho Hs LX LY. eexists. split; [reflexivity|]. unfold ref_c2r. split; [apply zlen_ztab; nia|]. intros i j Hi Hj.
    rewrite nth_tab by nia. cbv zeta. destruct (rowcol i j s Hi) as (-> & ->). reflexivity.
  - intros n s X Y Hn Hs LX LY. assert (0 <= n / 2) by lia. eexists. split; [reflexivity|]. unfold ref_r2c. split; [apply zlen_ztab; nia|]. intros i k Hi Hk. unfold re, im.
    assert (B : 0 <= i + k * s < s * (n / 2 + 1)) by nia. rewrite !nth_tab by lia. cbv zeta. destruct (even_half (i + k * s)) as (-> & -> & -> & ->). destruct (rowcol i k s Hi) as (-> & ->). auto.
  - intros b n s X Y Hn Hs LX LY. eexists. split; [reflexivity|]. unfold ref_dft. split; [apply zlen_ztab; nia|]. intros i k Hi Hk. cbv zeta.
    assert (B : 0 <= i + k * s < s * n) by nia. destruct (even_half (i + k * s)) as (A1 & A2 & A3 & A4). destruct (rowcol i k s Hi) as (A5 & A6).
    split; [unfold re at 1|unfold im at 1]; rewrite nth_tab by lia; rewrite ?A1, ?A2, ?A3, ?A4, A5, A6; reflexivity.
Qed.
