(** * Model of the operators of classical orthogonal polynomials, src/banded_source.c 1684-2198

    Three-term recurrences (rec_A, rec_B, rec_C), differentiation, multiplication, raising and
    lowering operators, and diagonal connection coefficients.  Integer subexpressions are
    evaluated in [Z] (int) and converted by [ofZ] where C converts them; [norm] is the test
    [if (norm)].  A sequence of set_banded_index calls on column j is [set_col j].  [tgamma]
    and [pow2] stand for Y(tgamma) and Y(pow)(2, .). *)
From Coq Require Import ZArith List Bool.
From Verif Require Import Arith Base MBanded.
Import ListNotations.
Open Scope Z_scope.

Section Model.
Context {F : Type} {AF : Arith F}.
Local Infix "+!" := add (at level 50, left associativity).
Local Infix "-!" := sub (at level 50, left associativity).
Local Infix "*!" := mul (at level 40, left associativity).
Local Infix "/!" := div (at level 40, left associativity).
Local Notation "# z" := (ofZ z) (at level 8, z at level 0, format "# z").

(** ** Recurrence coefficients: p_{n+1} = (A_n x + B_n) p_n - C_n p_{n-1} *)
(** 1684-1697 rec_A_jacobi *)
Definition rec_A_jacobi (norm : bool) (n : Z) (a b : F) : F :=
  if norm then
    if n =? 0 then (a +! b +! #2) /! #2 *! sqrtA ((a +! b +! #3) /! ((a +! #1) *! (b +! #1)))
    else sqrtA (((#(2*n) +! a +! b +! #1) *! (#(2*n) +! a +! b +! #2) *! (#(2*n) +! a +! b +! #2) *! (#(2*n) +! a +! b +! #3)) /!
                (#(n+1) *! (#n +! a +! #1) *! (#n +! b +! #1) *! (#n +! a +! b +! #1))) /! #2
  else
    if n =? 0 then (a +! b +! #2) /! #2
    else ((#(2*n) +! a +! b +! #1) *! (#(2*n) +! a +! b +! #2)) /! (#(2*(n+1)) *! (#n +! a +! b +! #1)).
(** 1699-1712 rec_B_jacobi *)
Definition rec_B_jacobi (norm : bool) (n : Z) (a b : F) : F :=
  if norm then
    if n =? 0 then (a -! b) /! #2 *! sqrtA ((a +! b +! #3) /! ((a +! #1) *! (b +! #1)))
    else ((a -! b) *! (a +! b)) /! (#2 *! (#(2*n) +! a +! b)) *!
         sqrtA (((#(2*n) +! a +! b +! #1) *! (#(2*n) +! a +! b +! #3)) /! (#(n+1) *! (#n +! a +! #1) *! (#n +! b +! #1) *! (#n +! a +! b +! #1)))
  else
    if n =? 0 then (a -! b) /! #2
    else ((a -! b) *! (a +! b) *! (#(2*n) +! a +! b +! #1)) /! (#(2*(n+1)) *! (#n +! a +! b +! #1) *! (#(2*n) +! a +! b)).
(** 1714-1724 rec_C_jacobi *)
Definition rec_C_jacobi (norm : bool) (n : Z) (a b : F) : F :=
  if norm then
    if n =? 1 then (a +! b +! #4) /! (a +! b +! #2) *!
      sqrtA (((a +! #1) *! (b +! #1) *! (a +! b +! #5)) /! (#2 *! (a +! #2) *! (b +! #2) *! (a +! b +! #2)))
    else (#(2*n) +! a +! b +! #2) /! (#(2*n) +! a +! b) *!
      sqrtA ((#n *! (#n +! a) *! (#n +! b) *! (#n +! a +! b)) /! (#(n+1) *! (#n +! a +! #1) *! (#n +! b +! #1) *! (#n +! a +! b +! #1)) *!
             (#(2*n) +! a +! b +! #3) /! (#(2*n) +! a +! b -! #1))
  else ((#n +! a) *! (#n +! b) *! (#(2*n) +! a +! b +! #2)) /! (#(n+1) *! (#n +! a +! b +! #1) *! (#(2*n) +! a +! b)).
(** 1726-1733 rec_A_laguerre *)
Definition rec_A_laguerre (norm : bool) (n : Z) (a : F) : F :=
  if norm then #(-1) /! sqrtA (#(n+1) *! (#n +! a +! #1)) else opp one /! #(n+1).
(** 1735-1742 rec_B_laguerre *)
Definition rec_B_laguerre (norm : bool) (n : Z) (a : F) : F :=
  if norm then (#(2*n) +! a +! #1) /! sqrtA (#(n+1) *! (#n +! a +! #1)) else (#(2*n) +! a +! #1) /! #(n+1).
(** 1744-1751 rec_C_laguerre *)
Definition rec_C_laguerre (norm : bool) (n : Z) (a : F) : F :=
  if norm then sqrtA ((#n *! (#n +! a)) /! (#(n+1) *! (#n +! a +! #1))) else (#n +! a) /! #(n+1).
(** 1753-1760 rec_A_hermite *)
Definition rec_A_hermite (norm : bool) (n : Z) : F := if norm then sqrtA (#2 /! (#n +! one)) else #2.
(** 1762 rec_B_hermite *)
Definition rec_B_hermite (norm : bool) (n : Z) : F := #0.
(** 1764-1771 rec_C_hermite *)
Definition rec_C_hermite (norm : bool) (n : Z) : F := if norm then sqrtA (#n /! (#n +! one)) else #(2*n).

(** ** Operators *)
(** 127-138 malloc_banded; [data] is the fresh block, of arbitrary contents *)
Definition malloc_banded (data : list F) (m n l u : Z) : banded F := Banded data m n l u.
(** set_banded_index(A, v, i, j) for each (i, v) in turn *)
Definition set_col (j : Z) (col : list (Z * F)) (A : banded F) : option (banded F) :=
  fold_left (fun A iv => do A <- A; bd_set A (snd iv) (fst iv) j) col (Some A).
Definition set_cols (lo hi : Z) (col : Z -> list (Z * F)) (A : banded F) : option (banded F) :=
  for_up lo hi (fun j A => set_col j (col j) A) A.
(** v = 1; for (k = 0; k < order; k++) v *= f(k) *)
Definition prod_up (order : Z) (f : Z -> F) : option F := for_up 0 order (fun k v => Some (v *! f k)) #1.
(** the loop of the derivatives: for (j = order; j < n; j++) set v_j at (j-order, j) *)
Definition derivative_loop (n order : Z) (v : Z -> option F) (A : banded F) : option (banded F) :=
  for_up order n (fun j A => do x <- v j; bd_set A x (j - order) j) A.

(** 1774-1794 create_jacobi_derivative *)
Definition create_jacobi_derivative (data : list F) (norm : bool) (m n order : Z) (a b : F) : option (banded F) :=
  derivative_loop n order (fun j =>
    if norm then do v <- prod_up order (fun k => #(j-k) *! (#j +! a +! b +! #k +! #1)); Some (sqrtA v)
    else prod_up order (fun k => (#j +! a +! b +! #k +! #1) /! #2)) (malloc_banded data m n (- order) order).
(** 1797-1840 create_jacobi_multiplication *)
Definition jacobi_mult_col (norm : bool) (a b : F) (j : Z) : list (Z * F) :=
  let s := #(2*j) +! a +! b in
  let v00 := (b -! a) /! (a +! b +! #2) in
  let vd := ((b -! a) *! (a +! b)) /! (s *! (s +! #2)) in
  if norm then
    let v1 := #2 *! sqrtA (((a +! #1) *! (b +! #1)) /! ((a +! b +! #2) *! (a +! b +! #2) *! (a +! b +! #3))) in
    let up := if j =? 1 then v1
      else #2 *! sqrtA ((#j *! (#j +! a) *! (#j +! b) *! (#j +! a +! b)) /! ((s -! #1) *! s *! s *! (s +! #1))) in
    if j =? 0 then [(j - 1, up); (0, v00); (1, v1)]
    else [(j - 1, up); (j, vd);
          (j + 1, #2 *! sqrtA ((#(j+1) *! (#j +! a +! #1) *! (#j +! b +! #1) *! (#j +! a +! b +! #1)) /! ((s +! #1) *! (s +! #2) *! (s +! #2) *! (s +! #3))))]
  else
    let up := (#2 *! (#j +! a) *! (#j +! b)) /! (s *! (s +! #1)) in
    if j =? 0 then [(j - 1, up); (0, v00); (1, #2 /! (a +! b +! #2))]
    else [(j - 1, up); (j, vd); (j + 1, (#(2*(j+1)) *! (#j +! a +! b +! #1)) /! ((s +! #1) *! (s +! #2)))].
Definition create_jacobi_multiplication (norm : bool) (m n : Z) (a b : F) : option (banded F) :=
  set_cols 0 n (jacobi_mult_col norm a b) (calloc_banded m n 1 1).
(** 1843-1872 create_jacobi_raising *)
Definition jacobi_raise_col (norm : bool) (a b : F) (j : Z) : list (Z * F) :=
  let s := #(2*j) +! a +! b in
  if norm then
    [(j - 2, #(-2) *! sqrtA ((#((j-1)*j) *! (#j +! a) *! (#j +! b)) /! ((s -! #1) *! s *! s *! (s +! #1))));
     (j - 1, #2 *! (a -! b) *! sqrtA (#j *! (#j +! a +! b +! #1)) /! (s *! (s +! #2)));
     (j, if j =? 0 then #2 *! sqrtA (((a +! #1) *! (b +! #1)) /! ((a +! b +! #2) *! (a +! b +! #3)))
         else #2 *! sqrtA (((#j +! a +! #1) *! (#j +! b +! #1) *! (#j +! a +! b +! #1) *! (#j +! a +! b +! #2)) /! ((s +! #1) *! (s +! #2) *! (s +! #2) *! (s +! #3))))]
  else
    [(j - 2, opp ((#j +! a) *! (#j +! b)) /! (s *! (s +! #1)));
     (j - 1, ((a -! b) *! (#j +! a +! b +! #1)) /! (s *! (s +! #2)));
     (j, if j =? 0 then #1 else ((#j +! a +! b +! #1) *! (#j +! a +! b +! #2)) /! ((s +! #1) *! (s +! #2)))].
Definition create_jacobi_raising (norm : bool) (m n : Z) (a b : F) : option (banded F) :=
  set_cols 0 n (jacobi_raise_col norm a b) (calloc_banded m n 0 2).
(** 1875-1902 create_jacobi_lowering *)
Definition jacobi_lower_col (norm : bool) (a b : F) (j : Z) : list (Z * F) :=
  let s := #(2*j) +! a +! b in
  if norm then
    [(j, if j =? 0 then #2 *! sqrtA (((a +! #1) *! (b +! #1)) /! ((a +! b +! #2) *! (a +! b +! #3)))
         else #2 *! sqrtA (((#j +! a +! #1) *! (#j +! b +! #1) *! (#j +! a +! b +! #1) *! (#j +! a +! b +! #2)) /! ((s +! #1) *! (s +! #2) *! (s +! #2) *! (s +! #3))));
     (j + 1, #2 *! (a -! b) *! sqrtA (#(j+1) *! (#j +! a +! b +! #2)) /! ((s +! #2) *! (s +! #4)));
     (j + 2, #(-2) *! sqrtA ((#((j+1)*(j+2)) *! (#j +! a +! #2) *! (#j +! b +! #2)) /! ((s +! #3) *! (s +! #4) *! (s +! #4) *! (s +! #5))))]
  else
    [(j, (#4 *! (#j +! a +! #1) *! (#j +! b +! #1)) /! ((s +! #2) *! (s +! #3)));
     (j + 1, (#4 *! (a -! b) *! #(j+1)) /! ((s +! #2) *! (s +! #4)));
     (j + 2, #(-(4*(j+1)*(j+2))) /! ((s +! #3) *! (s +! #4)))].
Definition create_jacobi_lowering (norm : bool) (m n : Z) (a b : F) : option (banded F) :=
  set_cols 0 n (jacobi_lower_col norm a b) (calloc_banded m n 2 0).
(** 1905-1925 create_laguerre_derivative *)
Definition create_laguerre_derivative (data : list F) (norm : bool) (m n order : Z) (a : F) : option (banded F) :=
  derivative_loop n order (fun j =>
    if norm then do v <- prod_up order (fun k => #(j-k)); let v := sqrtA v in Some (if Z.rem order 2 =? 0 then v else opp v)
    else Some (if Z.rem order 2 =? 0 then #1 else opp #1)) (malloc_banded data m n (- order) order).
(** 1928-1945 create_laguerre_multiplication *)
Definition laguerre_mult_col (norm : bool) (a : F) (j : Z) : list (Z * F) :=
  if norm then [(j - 1, opp (sqrtA (#j *! (#j +! a)))); (j, #(2*j) +! a +! #1); (j + 1, opp (sqrtA (#(j+1) *! (#j +! a +! #1))))]
  else [(j - 1, opp (#j +! a)); (j, #(2*j) +! a +! #1); (j + 1, #(-(j+1)))].
Definition create_laguerre_multiplication (norm : bool) (m n : Z) (a : F) : option (banded F) :=
  set_cols 0 n (laguerre_mult_col norm a) (calloc_banded m n 1 1).
(** 1948-1963 create_laguerre_raising *)
Definition laguerre_raise_col (norm : bool) (a : F) (j : Z) : list (Z * F) :=
  if norm then [(j - 1, opp (sqrtA #j)); (j, sqrtA (#j +! a +! #1))] else [(j - 1, #(-1)); (j, #1)].
Definition create_laguerre_raising (norm : bool) (m n : Z) (a : F) : option (banded F) :=
  set_cols 0 n (laguerre_raise_col norm a) (calloc_banded m n 0 1).
(** 1966-1981 create_laguerre_lowering *)
Definition laguerre_lower_col (norm : bool) (a : F) (j : Z) : list (Z * F) :=
  if norm then [(j, sqrtA (#j +! a +! #1)); (j + 1, opp (sqrtA #(j+1)))] else [(j, #j +! a +! #1); (j + 1, #(-(j+1)))].
Definition create_laguerre_lowering (norm : bool) (m n : Z) (a : F) : option (banded F) :=
  set_cols 0 n (laguerre_lower_col norm a) (calloc_banded m n 1 0).
(** 1984-2004 create_hermite_derivative *)
Definition create_hermite_derivative (data : list F) (norm : bool) (m n order : Z) : option (banded F) :=
  derivative_loop n order (fun j =>
    do v <- prod_up order (fun k => #(2*(j-k))); Some (if norm then sqrtA v else v)) (malloc_banded data m n (- order) order).
(** 2007-2021 create_hermite_multiplication; 0.5 is 1/2 *)
Definition hermite_mult_col (norm : bool) (j : Z) : list (Z * F) :=
  if norm then [(j - 1, sqrtA (#j /! #2)); (j + 1, sqrtA (#(j+1) /! #2))] else [(j - 1, #j); (j + 1, #1 /! #2)].
Definition create_hermite_multiplication (norm : bool) (m n : Z) : option (banded F) :=
  set_cols 0 n (hermite_mult_col norm) (calloc_banded m n 1 1).

(** ** Diagonal connection coefficients *)
Variables (tgamma pow2 : F -> F).
(** D[0] = d0 (if n > 0), D[INCD] = d1 D[0] (if n > 1), D[i*INCD] = step i D[(i-1)*INCD] *)
Definition diag_loop (from n incd : Z) (step : Z -> F -> F) (D : list F) : option (list F) :=
  for_up from n (fun i D => do d <- zget D ((i-1)*incd); zset D (i*incd) (step i d)) D.
Definition set_if (c : bool) (i : Z) (v : F) (D : list F) : option (list F) := if c then zset D i v else Some D.

(** 2024-2061 create_legendre_to_chebyshev_diagonal_connection_coefficient; 0.5 and 1.5 are quotients *)
Definition leg2cheb_diag (nl nc : bool) (n incd : Z) (D : list F) : option (list F) :=
  let h := #1 /! #2 in let th := #3 /! #2 in
  do D <- set_if (0 <? n) 0 (if nl then (if nc then sqrtA h *! tgamma h else sqrtA h) else if nc then tgamma h else #1) D;
  do D <- (if 1 <? n then
      do d0 <- zget D 0;
      zset D incd (if nl then (if nc then sqrtA th *! d0 else sqrtA th) else if nc then d0 /! sqrtA #2 else #1) else Some D);
  diag_loop 2 n incd (fun i d =>
    if nl then sqrtA (#(2*i+1) *! (#(2*i) -! one)) *! d /! #(2*i) else #(2*i-1) *! d /! #(2*i)) D.
(** 2063-2100 create_chebyshev_to_legendre_diagonal_connection_coefficient *)
Definition cheb2leg_diag (nc nl : bool) (n incd : Z) (D : list F) : option (list F) :=
  let h := #1 /! #2 in let th := #3 /! #2 in
  do D <- set_if (0 <? n) 0 (if nc then (if nl then sqrtA #2 /! tgamma h else #1 /! tgamma h) else if nl then sqrtA #2 else #1) D;
  do D <- (if 1 <? n then
      do d0 <- zget D 0;
      zset D incd (if nc then (if nl then d0 /! sqrtA th else sqrtA #2 *! d0) else if nl then #1 /! sqrtA th else #1) else Some D);
  diag_loop 2 n incd (fun i d =>
    if nl then #(2*i) /! sqrtA (#(2*i+1) *! (#(2*i) -! one)) *! d else #(2*i) *! d /! #(2*i-1)) D.
(** 2102-2131 create_ultraspherical_to_ultraspherical_diagonal_connection_coefficient *)
Definition ultra_diag (n1 n2 : bool) (n : Z) (lam mu : F) (incd : Z) (D : list F) : option (list F) :=
  let h := #1 /! #2 in
  let wl := sqrtA (tgamma (lam +! #1) /! (tgamma h *! tgamma (lam +! h))) in
  let wm := sqrtA (tgamma h *! tgamma (mu +! h) /! tgamma (mu +! #1)) in
  let rm i := sqrtA ((#(i-1) +! mu) /! #i *! (#(i-1) +! #2 *! mu) /! (#i +! mu)) in
  let rl i := sqrtA (#i /! (#(i-1) +! lam) *! (#i +! lam) /! (#(i-1) +! #2 *! lam)) in
  do D <- set_if (0 <? n) 0 (if n1 then (if n2 then wl *! wm else wl) else if n2 then wm else #1) D;
  diag_loop 1 n incd (fun i d =>
    if n1 then (if n2 then rm i *! rl i *! (#(i-1) +! lam) /! (#(i-1) +! mu) *! d else rl i *! (#(i-1) +! lam) /! (#(i-1) +! mu) *! d)
    else if n2 then rm i *! (#(i-1) +! lam) /! (#(i-1) +! mu) *! d else (#(i-1) +! lam) /! (#(i-1) +! mu) *! d) D.
(** 2133-2170 create_jacobi_to_jacobi_diagonal_connection_coefficient *)
Definition jacobi_diag (n1 n2 : bool) (n : Z) (a b c e : F) (incd : Z) (D : list F) : option (list F) :=
  let ab := a +! b in let ce := c +! e in
  do D <- set_if (0 <? n) 0
    (if n1 then
      if n2 then sqrtA (tgamma (ab +! #2) /! (pow2 (ab +! #1) *! tgamma (a +! #1) *! tgamma (b +! #1)) *! (pow2 (ce +! #1) *! tgamma (c +! #1) *! tgamma (e +! #1)) /! tgamma (ce +! #2))
      else sqrtA (tgamma (ab +! #2) /! (pow2 (ab +! #1) *! tgamma (a +! #1) *! tgamma (b +! #1)))
     else if n2 then sqrtA ((pow2 (ce +! #1) *! tgamma (c +! #1) *! tgamma (e +! #1)) /! tgamma (ce +! #2)) else #1) D;
  do D <- (if 1 <? n then
      do d0 <- zget D 0;
      zset D incd
       (if n1 then
          if n2 then (ab +! #2) /! (ce +! #2) *! sqrtA ((ab +! #3) /! ((a +! #1) *! (b +! #1)) *! ((c +! #1) *! (e +! #1)) /! (ce +! #3)) *! d0
          else (ab +! #2) /! (ce +! #2) *! sqrtA ((ab +! #3) /! ((a +! #1) *! (b +! #1))) *! d0
        else if n2 then (ab +! #2) /! (ce +! #2) *! sqrtA (((c +! #1) *! (e +! #1)) /! (ce +! #3)) *! d0
        else (ab +! #2) /! (ce +! #2)) else Some D);
  diag_loop 2 n incd (fun i d =>
    let s := #(2*i) +! a +! b in let t := #(2*i) +! c +! e in
    if n1 then
      if n2 then s /! t *! sqrtA (((s -! #1) *! (s +! #1)) /! ((#i +! a) *! (#i +! b) *! (#i +! a +! b)) *! ((#i +! c) *! (#i +! e) *! (#i +! c +! e)) /! ((t -! #1) *! (t +! #1))) *! d
      else sqrtA (((s -! #1) *! s *! s *! (s +! #1)) /! (#i *! (#i +! a) *! (#i +! b) *! (#i +! a +! b))) *! (#i *! (#i +! c +! e)) /! ((t -! #1) *! t) *! d
    else
      if n2 then ((s -! #1) *! s) /! (#i *! (#i +! a +! b)) *! sqrtA ((#i *! (#i +! c) *! (#i +! e) *! (#i +! c +! e)) /! ((t -! #1) *! t *! t *! (t +! #1))) *! d
      else ((s -! #1) *! s *! (#i +! c +! e)) /! ((#i +! a +! b) *! (t -! #1) *! t) *! d) D.
(** 2172-2198 create_laguerre_to_laguerre_diagonal_connection_coefficient *)
Definition laguerre_diag (n1 n2 : bool) (n : Z) (a b : F) (incd : Z) (D : list F) : option (list F) :=
  if n1 || n2 then
    do D <- set_if (0 <? n) 0 (if n1 then (if n2 then sqrtA (tgamma (b +! #1) /! tgamma (a +! #1)) else #1 /! sqrtA (tgamma (a +! #1)))
                               else sqrtA (tgamma (b +! #1))) D;
    diag_loop 1 n incd (fun i d =>
      if n1 then (if n2 then sqrtA ((#i +! b) /! (#i +! a)) *! d else sqrtA (#i /! (#i +! a)) *! d) else sqrtA ((#i +! b) /! #i) *! d) D
  else for_up 0 n (fun i D => zset D (i*incd) #1) D.
End Model.
