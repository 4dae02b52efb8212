(** * Model of src/isometries.c: rotations and reflections of spherical harmonic expansions

    [hypot] of the C library and M_FLT_MIN are arguments.  A 3 by 3 matrix
    (ft_orthogonal_transformation) is its nine entries, by columns; the C code accesses them at
    constant indices only.  A coefficient array A is stored by columns of N entries; column 0
    holds order 0, columns 2m-1 and 2m hold the sines and cosines of order m, row i has degree
    i+m.  The omp loop of yz_axis_exchange runs in index order here. *)
From Coq Require Import ZArith List Lia Bool.
From Verif Require Import Base Arith MRecur.
Import ListNotations.
Open Scope Z_scope.

(** fasttransforms.h ft_orthogonal_transformation: double Q[9] *)
Record o3 F := O3 { q0 : F; q1 : F; q2 : F; q3 : F; q4 : F; q5 : F; q6 : F; q7 : F; q8 : F }.
Arguments O3 {F}. Arguments q0 {F}. Arguments q1 {F}. Arguments q2 {F}. Arguments q3 {F}. Arguments q4 {F}.
Arguments q5 {F}. Arguments q6 {F}. Arguments q7 {F}. Arguments q8 {F}.
(** ft_ZYZR: double s[3], c[3]; int sign *)
Record zyzr F := ZYZR { zs0 : F; zs1 : F; zs2 : F; zc0 : F; zc1 : F; zc2 : F; zsign : Z }.
Arguments ZYZR {F}. Arguments zs0 {F}. Arguments zs1 {F}. Arguments zs2 {F}. Arguments zc0 {F}. Arguments zc1 {F}. Arguments zc2 {F}. Arguments zsign {F}.
(** symmetric_tridiagonal_symmetric_eigen (tridiagonal_source.h) *)
Record seig F := SEig { se_A : list F; se_B : list F; se_C : list F; se_lam : list F; se_sign : Z; se_n : Z }.
Arguments SEig {F}. Arguments se_A {F}. Arguments se_B {F}. Arguments se_C {F}. Arguments se_lam {F}. Arguments se_sign {F}. Arguments se_n {F}.
(** ft_partial_sph_isometry_plan, without l *)
Record partial_iso F := PIso { f11 : seig F; f21 : seig F; f12 : seig F; f22 : seig F }.
Arguments PIso {F}. Arguments f11 {F}. Arguments f21 {F}. Arguments f12 {F}. Arguments f22 {F}.

Section Model.
Context {F : Type} {AF : Arith F}.

(** ** 3 by 3 orthogonal matrices *)
(** isometries.c 4-14 compute_givens: (c, s, r) *)
Definition compute_givens (hypot : F -> F -> F) (tiny x y : F) : F * F * F :=
  let r := hypot x y in
  if leb r tiny then (one, zero, r) else (div x r, div y r, r).
(** 20-24, 37-41: the sign change *)
Definition flip (b : bool) (g : F * F * F) : F * F * F :=
  let '(c, s, r) := g in if b then (opp c, opp s, opp r) else g.
(** 16-56 ft_create_ZYZR; [U], [V] are the contents of Q.Q after lines 33 and 52 *)
Definition create_ZYZR (hypot : F -> F -> F) (tiny : F) (Q : o3 F) : zyzr F :=
  let g := compute_givens hypot tiny (q6 Q) (q7 Q) in
  let t1 := let '(c, s, _) := g in sub (mul c (q4 Q)) (mul s (q3 Q)) in
  let '(c0, s0, r) := flip (ltb t1 zero) g in
  let U := O3 (add (mul c0 (q0 Q)) (mul s0 (q1 Q))) (sub (mul c0 (q1 Q)) (mul s0 (q0 Q))) (q2 Q)
              (add (mul c0 (q3 Q)) (mul s0 (q4 Q))) (sub (mul c0 (q4 Q)) (mul s0 (q3 Q))) (q5 Q)
              r zero (q8 Q) in
  let g := compute_givens hypot tiny (q8 U) (q6 U) in
  let t1 := let '(c, s, _) := g in sub (mul c (q0 U)) (mul s (q2 U)) in
  let '(c1, s1, r) := flip (ltb t1 zero) g in
  let V := O3 (sub (mul c1 (q0 U)) (mul s1 (q2 U))) (q1 U) (add (mul c1 (q2 U)) (mul s1 (q0 U)))
              (sub (mul c1 (q3 U)) (mul s1 (q5 U))) (q4 U) (add (mul c1 (q5 U)) (mul s1 (q3 U)))
              zero (q7 U) r in
  let '(c2, s2, _) := compute_givens hypot tiny (q4 V) (q3 V) in
  ZYZR s0 (opp s1) (opp s2) c0 c1 c2 (if ltb zero (q8 V) then 1 else -1).

(** 58-107 ft_apply_ZYZR *)
Definition apply_ZYZR (Q : zyzr F) (U : o3 F) : o3 F :=
  let U := if zsign Q <? 0 then O3 (q0 U) (q1 U) (opp (q2 U)) (q3 U) (q4 U) (opp (q5 U)) (q6 U) (q7 U) (opp (q8 U)) else U in
  let U := let c := zc2 Q in let s := zs2 Q in
    O3 (sub (mul c (q0 U)) (mul s (q1 U))) (add (mul c (q1 U)) (mul s (q0 U))) (q2 U)
       (sub (mul c (q3 U)) (mul s (q4 U))) (add (mul c (q4 U)) (mul s (q3 U))) (q5 U)
       (sub (mul c (q6 U)) (mul s (q7 U))) (add (mul c (q7 U)) (mul s (q6 U))) (q8 U) in
  let U := let c := zc1 Q in let s := zs1 Q in
    O3 (sub (mul c (q0 U)) (mul s (q2 U))) (q1 U) (add (mul c (q2 U)) (mul s (q0 U)))
       (sub (mul c (q3 U)) (mul s (q5 U))) (q4 U) (add (mul c (q5 U)) (mul s (q3 U)))
       (sub (mul c (q6 U)) (mul s (q8 U))) (q7 U) (add (mul c (q8 U)) (mul s (q6 U))) in
  let c := zc0 Q in let s := zs0 Q in
    O3 (sub (mul c (q0 U)) (mul s (q1 U))) (add (mul c (q1 U)) (mul s (q0 U))) (q2 U)
       (sub (mul c (q3 U)) (mul s (q4 U))) (add (mul c (q4 U)) (mul s (q3 U))) (q5 U)
       (sub (mul c (q6 U)) (mul s (q7 U))) (add (mul c (q7 U)) (mul s (q6 U))) (q8 U).

(** 109-128 ft_apply_reflection; ft_reflection is the vector w[3] *)
Definition apply_reflection (w0 w1 w2 : F) (U : o3 F) : o3 F :=
  let gamma := div (ofZ 2) (add (add (mul w0 w0) (mul w1 w1)) (mul w2 w2)) in
  let col x y z := mul gamma (add (add (mul w0 x) (mul w1 y)) (mul w2 z)) in
  let a := col (q0 U) (q1 U) (q2 U) in
  let b := col (q3 U) (q4 U) (q5 U) in
  let c := col (q6 U) (q7 U) (q8 U) in
  O3 (sub (q0 U) (mul a w0)) (sub (q1 U) (mul a w1)) (sub (q2 U) (mul a w2))
     (sub (q3 U) (mul b w0)) (sub (q4 U) (mul b w1)) (sub (q5 U) (mul b w2))
     (sub (q6 U) (mul c w0)) (sub (q7 U) (mul c w1)) (sub (q8 U) (mul c w2)).

(** ** coefficient arrays *)
(** 130-146 ft_execute_sph_polar_rotation; state (A, s, c, sold, cold) *)
Definition polar_rotation (N M : Z) (s c : F) (A : list F) : option (list F) :=
  let tc := mul (ofZ 2) c in
  do r <- for_up 1 (M / 2 + 1) (fun m st =>
    let '(A, s, c, sold, cold) := st in
    do A <- for_up 0 (N - m) (fun i A =>
      do t1 <- zget A (i + N * (2 * m - 1));
      do t2 <- zget A (i + N * (2 * m));
      do A <- zset A (i + N * (2 * m - 1)) (add (mul c t1) (mul s t2));
      zset A (i + N * (2 * m)) (sub (mul c t2) (mul s t1))) A;
    Some (A, sub (mul tc s) sold, sub (mul tc c) cold, s, c)) (A, s, c, zero, one);
  Some (fst (fst (fst (fst r)))).

(** 148-156 ft_execute_sph_polar_reflection *)
Definition polar_reflection (N M : Z) (A : list F) : option (list F) :=
  do A <- for_upst 1 N 2 (fun i A => do x <- zget A i; zset A i (opp x)) A;
  for_up 1 (M / 2 + 1) (fun m A =>
    for_upst 1 (N - m) 2 (fun i A =>
      do x <- zget A (i + N * (2 * m - 1));
      do A <- zset A (i + N * (2 * m - 1)) (opp x);
      do y <- zget A (i + N * (2 * m));
      zset A (i + N * (2 * m)) (opp y)) A) A.

(** ** the exchange of the y and z axes *)
(** 204-224 Gy_index_i_plus_j_eq_2l_no_den *)
Definition gy2l (l i j : Z) : F :=
  if (l + 2 <=? i) && (i <=? 2 * l) then sqrtA (ofZ ((j + 1) * (j + 2)))
  else if (0 <=? i) && (i <=? l - 1) then opp (sqrtA (ofZ ((2 * l + 1 - i) * (2 * l + 2 - i))))
  else if (i =? l + 1) && (j =? l - 1) then sqrtA (ofZ (2 * l * (l + 1)))
  else if (i =? l) && (j =? l) then opp (sqrtA (ofZ (2 * (l + 1) * (l + 2))))
  else zero.
(** 226-238 Gy_index_i_plus_j_eq_2l_plus_2_no_den *)
Definition gy2l2 (l i j : Z) : F :=
  if (2 <=? i) && (i <=? l) then opp (sqrtA (ofZ ((i - 1) * i)))
  else if (l + 3 <=? i) && (i <=? 2 * l + 2) then sqrtA (ofZ ((2 * l + 1 - j) * (2 * l + 2 - j)))
  else zero.
(** 240-260 Gy_index_squared_i_plus_j_eq_2l_no_den; the products are ints stored in a double *)
Definition gysq2l (l i j : Z) : F :=
  if (l + 2 <=? i) && (i <=? 2 * l) then ofZ ((j + 1) * (j + 2))
  else if (0 <=? i) && (i <=? l - 1) then ofZ ((2 * l + 1 - i) * (2 * l + 2 - i))
  else if (i =? l + 1) && (j =? l - 1) then ofZ (2 * l * (l + 1))
  else if (i =? l) && (j =? l) then ofZ (2 * (l + 1) * (l + 2))
  else zero.
(** 261-273 Gy_index_squared_i_plus_j_eq_2l_plus_2_no_den *)
Definition gysq2l2 (l i j : Z) : F :=
  if (2 <=? i) && (i <=? l) then ofZ ((i - 1) * i)
  else if (l + 3 <=? i) && (i <=? 2 * l + 2) then ofZ ((2 * l + 1 - j) * (2 * l + 2 - j))
  else zero.
(** 279-283 Y_index_j_eq_i_no_den *)
Definition y_diag (l i : Z) : F := add (gysq2l l (2 * l - i) i) (gysq2l2 l (2 * l - i + 2) i).
(** 285-290 Y_index_j_eq_i_plus_2_no_den *)
Definition y_off (l i : Z) : F := mul (gy2l l (2 * l - i) i) (gy2l2 l (2 * l - i) (i + 2)).
(** 301-308 Z_index_no_den(l, j, j) *)
Definition z_diag (l j : Z) : F := ofZ (4 * (j + 1) * (2 * l + 1 - j)).

(** tridiagonal_source.c 346-371 symmetric_tridiagonal_symmetric_eig(T, lambda, sign); [a], [b] are T->a, T->b *)
Definition symmetric_eig (n : Z) (a b lam : list F) (sign : Z) : option (seig F) :=
  do AB <- (if 1 <? n then
      do x <- zget b (n - 2); do y <- zget a (n - 1);
      do A <- zset (zmake n zero) (n - 1) (div one x); do B <- zset (zmake n zero) (n - 1) (opp y);
      Some (A, B)
    else Some (zmake n zero, zmake n zero));
  do ABC <- for_dn (n - 2) 1 (fun i ABC =>
    let '(A, B, C) := ABC in
    do x <- zget b (i - 1); do y <- zget a i; do z <- zget b i;
    do A <- zset A i (div one x); do B <- zset B i (opp y); do C <- zset C i (opp z);
    Some (A, B, C)) (AB, zmake n zero);
  let '(A, B, C) := ABC in
  do L <- for_up 0 n (fun i L => do x <- zget lam i; zset L i x) (zmake n zero);
  Some (SEig A B C L sign n).

(** tridiagonal_source.c 374-376 semv(F, A+x, incx, A+y) with both vectors in the array A:
    recurrence_default.c 111-141 (eigen_eval_default), see MRecur.v *)
Definition semv (huge : F) (E : seig F) (A : list F) (x incx y : Z) : option (list F) :=
  if se_n E <? 1 then Some A
  else for_up 0 (se_n E) (fun j A =>
    do v <- eig_point huge (se_n E) (skipn (Z.to_nat x) A) incx (se_A E) (se_B E) (se_C E) (se_sign E) (se_lam E) j;
    zset A (y + j) v) A.

(** filling an array of [n] entries: [for (i = 0; i < n; i++) a[p i] = f i] *)
Definition fill (n : Z) (p : Z -> Z) (f : Z -> F) : option (list F) :=
  for_up 0 n (fun i a => zset a (p i) (f i)) (zmake n zero).

(** 324-430 ft_plan_partial_sph_isometry: the four blocks *)
Definition plan_partial (l : Z) : option (partial_iso F) :=
  let n11 := l / 2 in
  do a11 <- fill n11 (fun i => n11 - 1 - i) (fun i => y_diag l (2 * i + 1));
  do b11 <- fill (n11 - 1) (fun i => n11 - 2 - i) (fun i => y_off l (2 * i + 1));
  do l11 <- fill n11 (fun i => n11 - 1 - i) (fun i => z_diag l (2 * i + 1));
  do F11 <- symmetric_eig n11 a11 b11 l11 (if (l mod 4) / 2 =? 1 then 1 else -1);
  let n21 := (l + 1) / 2 in
  do a21 <- fill n21 (fun i => n21 - 1 - i) (fun i => y_diag l (2 * i));
  do b21 <- fill (n21 - 1) (fun i => n21 - 2 - i) (fun i => y_off l (2 * i));
  do l21 <- fill n21 (fun i => i) (fun i => z_diag l (l + 1 - l mod 2 + 2 * i));
  let sign := if ((l + 1) mod 4) / 2 =? 1 then -1 else 1 in
  do F21 <- symmetric_eig n21 a21 b21 l21 sign;
  let n12 := (l + 1) / 2 in
  do a12 <- fill n12 (fun i => i) (fun i => y_diag l (2 * i + l - l mod 2 + 1));
  do b12 <- fill (n12 - 1) (fun i => i) (fun i => y_off l (2 * i + l - l mod 2 + 1));
  do l12 <- fill n12 (fun i => n12 - 1 - i) (fun i => z_diag l (2 * i));
  do F12 <- symmetric_eig n12 a12 b12 l12 sign;
  let n22 := (l + 2) / 2 in
  do a22 <- fill n22 (fun i => i) (fun i => y_diag l (2 * i + l + l mod 2));
  do b22 <- fill (n22 - 1) (fun i => i) (fun i => y_off l (2 * i + l + l mod 2));
  do l22 <- fill n22 (fun i => i) (fun i => z_diag l (l + l mod 2 + 2 * i));
  do F22 <- symmetric_eig n22 a22 b22 l22 (if (l mod 4) / 2 =? 1 then -1 else 1);
  Some (PIso F11 F21 F12 F22).

(** 432-439 ft_plan_sph_isometry: J->F, with J->F[l-2] the plan of degree l *)
Definition plan_isometry (n : Z) : option (list (partial_iso F)) :=
  itero (Z.to_nat (n - 2)) (fun k J => do P <- plan_partial (Z.of_nat k + 2); Some (J ++ [P])) [].

(** 457-460, 461-464: [for (i < n) { A[i*stride+p] = A[i+o]; A[i+o] = 0.0; }] *)
Definition copy_back (n stride p o : Z) (A : list F) : option (list F) :=
  for_up 0 n (fun i A => do x <- zget A (i + o); do A <- zset A (i * stride + p) x; zset A (i + o) zero) A.

(** 449-474: the body of the loop over l *)
Definition exchange_degree (huge : F) (J : list (partial_iso F)) (N l : Z) (A : list F) : option (list F) :=
  do P <- zget J (l - 2);
  let stride := 4 * N - 2 in
  let outa := N * (2 * l - 1) + N - l in
  let outb := N * (2 * l) + N - l in
  let in11 := l + N - 1 + (l mod 2) * (2 * N - 1) in
  let in22 := l + (l mod 2) * (2 * N - 1) in
  do A <- semv huge (f11 P) A in11 stride outa;
  do A <- semv huge (f22 P) A in22 stride outb;
  do A <- copy_back (se_n (f11 P)) stride in11 outa A;
  do A <- copy_back (se_n (f22 P)) stride in22 outb A;
  let in21 := l - 1 + N + (1 - l mod 2) * (2 * N - 1) in
  let in12 := l + (1 - l mod 2) * (2 * N - 1) in
  do A <- semv huge (f21 P) A in21 stride outa;
  do A <- semv huge (f12 P) A in12 stride outb;
  for_up 0 (se_n (f21 P)) (fun i A =>
    do x <- zget A (i + outb); do A <- zset A (i * stride + in21) x; do A <- zset A (i + outb) zero;
    do y <- zget A (i + outa); do A <- zset A (i * stride + in12) y; zset A (i + outa) zero) A.

(** 441-476 ft_execute_sph_yz_axis_exchange; [n] is J->n *)
Definition yz_exchange (huge : F) (n : Z) (J : list (partial_iso F)) (N M : Z) (A : list F) : option (list F) :=
  do A <- (if 0 <? n then
      do x <- zget A 1; do y <- zget A N;
      do A <- zset A 1 (opp y); zset A N (opp x)
    else Some A);
  for_up 2 n (fun l A => exchange_degree huge J N l A) A.

(** 478-486 ft_execute_sph_isometry *)
Definition sph_isometry (huge : F) (n : Z) (J : list (partial_iso F)) (Q : zyzr F) (N M : Z) (A : list F) : option (list F) :=
  do A <- (if zsign Q <? 0 then polar_reflection N M A else Some A);
  do A <- polar_rotation N M (zs2 Q) (zc2 Q) A;
  do A <- yz_exchange huge n J N M A;
  do A <- polar_rotation N M (opp (zs1 Q)) (zc1 Q) A;
  do A <- yz_exchange huge n J N M A;
  polar_rotation N M (zs0 Q) (zc0 Q) A.

(** 499-501 ft_execute_sph_orthogonal_transformation, 493-497 ft_execute_sph_reflection *)
Definition sph_orthogonal_transformation (huge : F) (hypot : F -> F -> F) (tiny : F) (n : Z) (J : list (partial_iso F)) (Q : o3 F) (N M : Z) (A : list F) : option (list F) :=
  sph_isometry huge n J (create_ZYZR hypot tiny Q) N M A.
Definition sph_reflection (huge : F) (hypot : F -> F -> F) (tiny : F) (n : Z) (J : list (partial_iso F)) (w0 w1 w2 : F) (N M : Z) (A : list F) : option (list F) :=
  let U := O3 one zero zero zero one zero zero zero one in
  sph_orthogonal_transformation huge hypot tiny n J (apply_reflection w0 w1 w2 U) N M A.
(** 488-491 ft_execute_sph_rotation, with sin and cos of the C library *)
Definition sph_rotation (huge : F) (fsin fcos : F -> F) (n : Z) (J : list (partial_iso F)) (alpha beta gamma : F) (N M : Z) (A : list F) : option (list F) :=
  sph_isometry huge n J (ZYZR (fsin alpha) (fsin beta) (fsin gamma) (fcos alpha) (fcos beta) (fcos gamma) 1) N M A.
End Model.
