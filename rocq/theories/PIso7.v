(** * The exchange of the y and z axes is an involution and preserves the norm of each degree *)
From Coq Require Import ZArith List Lia Bool Reals Lra ZifyBool ZifyNat.
From Verif Require Import Base BaseFacts Arith SpecSum PSum MRecur PRecur PRecur2 MIso SpecIso PIso PIso2 PIso3 PIso4 PIso5 PKraw PKraw2 PDual PIso6.
Import ListNotations.
Open Scope Z_scope.

Definition MB (l nu0 m0 : Z) (v p : Z) : R := SS l (nu0 + 2 * v) (m0 + 2 * p).
(** the starting orders of a block and of its transpose, and the number of orders *)
Definition fits (l nu0 m0 n : Z) (c : bool) : Prop :=
  2 <= l /\ 1 <= n /\ Z.even (l - nu0) = c /\
  (if c then 0 else 1) <= m0 <= (if c then 1 else 2) /\ 0 <= nu0 /\
  (m0 + 2 * (n - 1) = l \/ (m0 + 2 * (n - 1) = l - 1 /\ 1 <= nu0)) /\ nu0 + 2 * (n - 1) <= l.

Lemma block_tri l nu0 m0 n c : fits l nu0 m0 n c ->
  tri n (fun p => ya c l (m0 + 2 * p)) (fun p => yb l (m0 + 2 * p)) (fun v => zv l (nu0 + 2 * v)) (MB l nu0 m0).
Proof.
  intros (Hl & Hn & Hc & Hm & Hnu & Hlast & Hlast') v p Hv Hp. unfold tapp, MB.
  assert (E : Z.even (l - (nu0 + 2 * v)) = c).
  { rewrite <- Hc. replace (l - (nu0 + 2 * v)) with (l - nu0 + 2 * (- v)) by ring. apply Z.even_add_mul_2. }
  rewrite (SS_row l (nu0 + 2 * v) (m0 + 2 * p) ltac:(lia) ltac:(lia) ltac:(lia) c E ltac:(destruct c; lia)).
  replace (m0 + 2 * (p + 1)) with (m0 + 2 * p + 2) by ring. replace (m0 + 2 * (p - 1)) with (m0 + 2 * p - 2) by ring.
  f_equal; [f_equal|].
  - destruct (p + 1 <? n) eqn:Q; [reflexivity|]. unfold yb. rewrite kB_zero; [ring|]. assert (X : p = n - 1) by lia. subst p.
    destruct Hlast as [Y|(Y & _)]; rewrite Y; [replace (l - l - 2 + 2) with 0 by ring|replace (l - (l - 1) - 2 + 1) with 0 by ring]; ring.
  - replace ((if c then 2 else 3) <=? m0 + 2 * p) with (0 <? p) by (destruct c; lia). reflexivity.
Qed.

(** ** what a block computes *)
Definition isblock (E : seig R) (l nu0 m0 n : Z) (c : bool) (sign : Z) : Prop :=
  wf E /\ se_n E = n /\ se_sign E = sign /\
  (forall k, 1 <= k < n -> nthZ 0%R (se_A E) k = (1 / yb l (m0 + 2 * (k - 1)))%R /\ nthZ 0%R (se_B E) k = (- ya c l (m0 + 2 * k))%R) /\
  (forall k, 1 <= k < n - 1 -> nthZ 0%R (se_C E) k = (- yb l (m0 + 2 * k))%R) /\
  (forall k, 0 <= k < n -> nthZ 0%R (se_lam E) k = zv l (nu0 + 2 * k)).
Definition kapB (l nu0 m0 n sign : Z) : R := kap n (MB l nu0 m0) sign.
Lemma MB_t l nu0 m0 : (fun v p => MB l nu0 m0 p v) = (fun v p => MB l nu0 m0 p v).
Proof. reflexivity. Qed.
Lemma tri_ext n a b lam M M' : (forall v p, M v p = M' v p) -> tri n a b lam M -> tri n a b lam M'.
Proof. intros H T v p Hv Hp. specialize (T v p Hv Hp). unfold tapp in *. rewrite <- !H. exact T. Qed.
Lemma block_tri_t l nu0 m0 n c' : fits l m0 nu0 n c' ->
  tri n (fun p => ya c' l (nu0 + 2 * p)) (fun p => yb l (nu0 + 2 * p)) (fun v => zv l (m0 + 2 * v)) (fun v p => MB l nu0 m0 p v).
Proof. intros F. apply (tri_ext _ _ _ _ (MB l m0 nu0)); [intros; apply SS_sym|now apply block_tri]. Qed.
Lemma fits_last l nu0 m0 n c : fits l nu0 m0 n c -> forall v, 0 <= v < n -> MB l nu0 m0 v (n - 1) <> 0%R.
Proof. intros (Hl & Hn & Hc & Hm & Hnu & Hlast & Hlast') v Hv. unfold MB. apply SS_last; lia. Qed.
Lemma fits_b l nu0 m0 n c : fits l nu0 m0 n c -> forall p, 0 <= p < n - 1 -> (0 < yb l (m0 + 2 * p))%R.
Proof. intros (Hl & Hn & Hc & Hm & Hnu & Hlast & Hlast') p Hp. apply yb_pos. destruct c; lia. Qed.
Lemma fits_lam l nu0 m0 n c : fits l nu0 m0 n c -> forall v w, 0 <= v < w -> w < n -> (zv l (nu0 + 2 * w) < zv l (nu0 + 2 * v))%R.
Proof. intros (Hl & Hn & Hc & Hm & Hnu & _) v w Hv Hw. apply zv_dec. lia. Qed.
Lemma fits_last_t l nu0 m0 n c' : fits l m0 nu0 n c' -> forall v, 0 <= v < n -> MB l nu0 m0 (n - 1) v <> 0%R.
Proof. intros F v Hv. unfold MB. rewrite SS_sym. apply (fits_last l m0 nu0 n c' F v Hv). Qed.

Lemma block_value huge E l nu0 m0 n c c' sign x v : isblock E l nu0 m0 n c sign -> fits l nu0 m0 n c -> fits l m0 nu0 n c' -> sign = 1 \/ sign = -1 ->
  zlen x = n -> 0 <= v < n ->
  ev huge E x v = (kapB l nu0 m0 n sign * dot n (MB l nu0 m0 v) (nthZ 0%R x))%R.
Proof.
  intros (W & EN & ES & HAB & HC & HL) F F' Hs Lx Hv. unfold ev. destruct W as (W0 & WA & WB & WC & WL). assert (Hn : 1 <= n) by (destruct F; lia).
  rewrite eig_point_val; try lia. 2:{ intros k Hk. lia. }
  unfold eig_val. rewrite EN, ES. cbv beta zeta. rewrite (HL v Hv).
  rewrite (dual_value n (fun p => ya c l (m0 + 2 * p)) (fun p => yb l (m0 + 2 * p)) (fun v => zv l (nu0 + 2 * v)) (fun p => ya c' l (nu0 + 2 * p)) (fun p => yb l (nu0 + 2 * p)) (fun v => zv l (m0 + 2 * v)) (MB l nu0 m0)); auto.
  - unfold kapB. f_equal. apply sumZ_ext. intros k Hk. now rewrite Z.mul_1_r.
  - now apply block_tri.
  - now apply block_tri_t.
  - now apply (fits_b l nu0 m0 n c).
  - now apply (fits_b l m0 nu0 n c').
  - now apply (fits_lam l nu0 m0 n c).
  - now apply (fits_lam l m0 nu0 n c').
  - now apply (fits_last l nu0 m0 n c).
  - now apply (fits_last_t l nu0 m0 n c').
  - intros k Hk. now apply HAB.
  - intros k Hk. now apply HAB.
Qed.
Section Ortho.
Variables (l nu0 m0 n : Z) (c c' : bool) (sign : Z).
Hypothesis F : fits l nu0 m0 n c.
Hypothesis F' : fits l m0 nu0 n c'.
Hypothesis Hs : sign = 1 \/ sign = -1.
Let Hn : 1 <= n. Proof. destruct F; lia. Qed.
Lemma kapB_t : kapB l m0 nu0 n sign = kapB l nu0 m0 n sign.
Proof.
  unfold kapB. rewrite <- (kap_t n (fun p => ya c l (m0 + 2 * p)) (fun p => yb l (m0 + 2 * p)) (fun v => zv l (nu0 + 2 * v)) (fun p => ya c' l (nu0 + 2 * p)) (fun p => yb l (nu0 + 2 * p)) (fun v => zv l (m0 + 2 * v)) (MB l nu0 m0) Hn
    (block_tri _ _ _ _ _ F) (block_tri_t _ _ _ _ _ F') (fits_b _ _ _ _ _ F) (fits_b _ _ _ _ _ F') (fits_lam _ _ _ _ _ F) (fits_lam _ _ _ _ _ F') (fits_last _ _ _ _ _ F) (fits_last_t _ _ _ _ _ F')).
  unfold kap, DD, MB. rewrite (SS_sym l (m0 + 2 * 0)). f_equal. f_equal. apply sumZ_ext. intros p Hp. rewrite (SS_sym l (m0 + 2 * 0)). reflexivity.
Qed.
Lemma block_rows v w : 0 <= v < n -> 0 <= w < n -> (kapB l nu0 m0 n sign * kapB l nu0 m0 n sign * dot n (MB l nu0 m0 v) (MB l nu0 m0 w) = if v =? w then 1 else 0)%R.
Proof.
  intros Hv Hw. rewrite (rows_orth n (fun p => ya c l (m0 + 2 * p)) (fun p => yb l (m0 + 2 * p)) (fun v => zv l (nu0 + 2 * v)) (fun p => ya c' l (nu0 + 2 * p)) (fun p => yb l (nu0 + 2 * p)) (fun v => zv l (m0 + 2 * v)) (MB l nu0 m0) Hn
    (block_tri _ _ _ _ _ F) (block_tri_t _ _ _ _ _ F') (fits_b _ _ _ _ _ F) (fits_b _ _ _ _ _ F') (fits_lam _ _ _ _ _ F) (fits_lam _ _ _ _ _ F') (fits_last _ _ _ _ _ F) (fits_last_t _ _ _ _ _ F')) by auto.
  destruct (v =? w); [|ring].
  apply (kap_sq n (fun p => yb l (m0 + 2 * p)) (fun v => zv l (nu0 + 2 * v)) (fun p => yb l (nu0 + 2 * p)) (fun v => zv l (m0 + 2 * v)) (MB l nu0 m0) Hn
    (fits_b _ _ _ _ _ F) (fits_b _ _ _ _ _ F') (fits_lam _ _ _ _ _ F) (fits_lam _ _ _ _ _ F') (fits_last _ _ _ _ _ F) (fits_last_t _ _ _ _ _ F') sign Hs).
Qed.
End Ortho.
Lemma block_cols l nu0 m0 n c c' sign : fits l nu0 m0 n c -> fits l m0 nu0 n c' -> sign = 1 \/ sign = -1 -> forall v w, 0 <= v < n -> 0 <= w < n ->
  (kapB l nu0 m0 n sign * kapB l nu0 m0 n sign * dot n (fun p => MB l nu0 m0 p v) (fun p => MB l nu0 m0 p w) = if v =? w then 1 else 0)%R.
Proof.
  intros F F' Hs v w Hv Hw. rewrite <- (block_rows l m0 nu0 n c' c sign F' F Hs v w Hv Hw). rewrite (kapB_t l nu0 m0 n c c') by auto. f_equal.
  apply dot_ext; intros; apply SS_sym.
Qed.

(** applying a block and then its transpose; the norm *)
Lemma block_twice l nu0 m0 n c c' sign x y z : fits l nu0 m0 n c -> fits l m0 nu0 n c' -> sign = 1 \/ sign = -1 ->
  (forall v, 0 <= v < n -> y v = (kapB l nu0 m0 n sign * dot n (MB l nu0 m0 v) x)%R) ->
  (forall v, 0 <= v < n -> z v = (kapB l m0 nu0 n sign * dot n (MB l m0 nu0 v) y)%R) -> forall v, 0 <= v < n -> z v = x v.
Proof.
  intros F F' Hs Hy Hz v Hv. rewrite Hz by auto. rewrite (kapB_t l nu0 m0 n c c') by auto. set (k := kapB l nu0 m0 n sign).
  unfold dot. rewrite (sumZ_ext n _ (fun p => sumZ n (fun q => (k * (MB l nu0 m0 p v * MB l nu0 m0 p q) * x q)%R))).
  2:{ intros p Hp. rewrite Hy by auto. fold k. unfold dot. rewrite <- !sumZ_scal. apply sumZ_ext. intros q Hq. unfold MB at 1. rewrite SS_sym. fold (MB l nu0 m0 p v). ring. }
  rewrite sumZ_swap, <- sumZ_scal. rewrite (sumZ_single n v); auto.
  - rewrite sumZ_scal_r. rewrite sumZ_scal. change (sumZ n (fun i => (MB l nu0 m0 i v * MB l nu0 m0 i v)%R)) with (dot n (fun p => MB l nu0 m0 p v) (fun p => MB l nu0 m0 p v)).
    assert (E := block_cols l nu0 m0 n c c' sign F F' Hs v v Hv Hv). replace (v =? v) with true in E by lia. fold k in E. rewrite <- !Rmult_assoc, E. ring.
  - intros q Hq Ne. rewrite sumZ_scal_r, sumZ_scal. change (sumZ n (fun i => (MB l nu0 m0 i v * MB l nu0 m0 i q)%R)) with (dot n (fun p => MB l nu0 m0 p v) (fun p => MB l nu0 m0 p q)).
    assert (E := block_cols l nu0 m0 n c c' sign F F' Hs v q Hv Hq). replace (v =? q) with false in E by lia. fold k in E. rewrite <- !Rmult_assoc, E. ring.
Qed.
Lemma block_norm l nu0 m0 n c c' sign x y : fits l nu0 m0 n c -> fits l m0 nu0 n c' -> sign = 1 \/ sign = -1 ->
  (forall v, 0 <= v < n -> y v = (kapB l nu0 m0 n sign * dot n (MB l nu0 m0 v) x)%R) -> dot n y y = dot n x x.
Proof.
  intros F F' Hs Hy. pose (z := fun v => (kapB l m0 nu0 n sign * dot n (MB l m0 nu0 v) y)%R).
  assert (T := block_twice l nu0 m0 n c c' sign x y z F F' Hs Hy (fun v _ => eq_refl)).
  transitivity (dot n z x). 2:{ apply dot_ext; auto. }
  unfold dot. rewrite (sumZ_ext n (fun p => (z p * x p)%R) (fun p => sumZ n (fun q => (kapB l m0 nu0 n sign * MB l nu0 m0 q p * y q * x p)%R))).
  2:{ intros p Hp. unfold z, dot. rewrite <- sumZ_scal, <- sumZ_scal_r. apply sumZ_ext. intros q Hq. unfold MB at 1. rewrite SS_sym. fold (MB l nu0 m0 q p). ring. }
  rewrite sumZ_swap. apply sumZ_ext. intros q Hq. rewrite (Hy q Hq) at 2. rewrite <- (kapB_t l nu0 m0 n c c') by auto. unfold dot. rewrite <- !sumZ_scal. apply sumZ_ext. intros. ring.
Qed.
