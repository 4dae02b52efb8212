(** * Model of src/dprk_source.c: diagonal-plus-rank-one matrices and their eigensolver

    [X(diff)(x, y)] is [x - y] (hierarchical_source.c 934).  [copysign] looks at the sign by
    comparing with zero: signed zeros and NaN are not distinguished.  [eps] and [floatmin] are
    arguments.  The code in block comments (246-256, 279-289, 314-324, 426-446, 663-825,
    831-898) is not modelled. *)
From Coq Require Import ZArith List Bool.
From Verif Require Import Arith Base MSort MHier.
Import ListNotations.
Open Scope Z_scope.

(** dprk_source.h: D + rho z z^T and I + sigma z z^T *)
Record dpr1 F := Dpr1 { dp_d : list F; dp_z : list F; dp_rho : F; dp_n : Z }.
Record idpr1 F := IDpr1 { ip_z : list F; ip_sigma : F; ip_n : Z }.
Arguments Dpr1 {F}. Arguments dp_d {F}. Arguments dp_z {F}. Arguments dp_rho {F}. Arguments dp_n {F}.
Arguments IDpr1 {F}. Arguments ip_z {F}. Arguments ip_sigma {F}. Arguments ip_n {F}.
(** symmetric_dpr1_eigen and symmetric_dpr1_eigen_FMM: the two differ in the type [V] of the
    field V, a column-major array or a hierarchical matrix *)
Record dpeig F V := DpEig { de_v : list F; de_V : V; de_lambda : list F; de_lo : list F; de_hi : list F;
  de_p : list Z; de_q : list Z; de_num : Z; de_iz : Z; de_id : Z }.
Arguments DpEig {F V}. Arguments de_v {F V}. Arguments de_V {F V}. Arguments de_lambda {F V}. Arguments de_lo {F V}.
Arguments de_hi {F V}. Arguments de_p {F V}. Arguments de_q {F V}. Arguments de_num {F V}. Arguments de_iz {F V}. Arguments de_id {F V}.

Section Model.
Context {F : Type} {AF : Arith F}.

Definition copysignA (a b : F) : F := if ltb b zero then opp (absA a) else absA a.
(** the accumulation t += z[i]*z[i] *)
Definition sum_sq (n : Z) (z : list F) : option F :=
  for_up 0 n (fun i t => do zi <- zget z i; Some (add t (mul zi zi))) zero.
(** the copy y[i] = z[i], i < n, into a fresh block *)
Definition copy (n : Z) (z : list F) : option (list F) :=
  for_up 0 n (fun i y => do zi <- zget z i; zset y i zi) (zmake n zero).

(** 52-70 symmetric_idpr1_factorize *)
Definition idpr1_factorize (A : idpr1 F) : option (idpr1 F) :=
  let n := ip_n A in let sigma := ip_sigma A in
  do y <- copy n (ip_z A);
  do tau <- sum_sq n (ip_z A);
  Some (IDpr1 y (div sigma (add one (sqrtA (add one (mul sigma tau))))) n).
(** 72-90 symmetric_idpr1_inv *)
Definition idpr1_inv (A : idpr1 F) : option (idpr1 F) :=
  let n := ip_n A in let sigma := ip_sigma A in
  do y <- copy n (ip_z A);
  do tau <- sum_sq n (ip_z A);
  Some (IDpr1 y (div (opp sigma) (add one (mul sigma tau))) n).
(** 92-114 symmetric_dpr1_inv *)
Definition dpr1_inv (A : dpr1 F) : option (dpr1 F) :=
  let n := dp_n A in let rho := dp_rho A in
  do eys <- for_up 0 n (fun i eys =>
    let '(e, y, s) := eys in
    do di <- zget (dp_d A) i;
    do e <- zset e i (div one di);
    do zi <- zget (dp_z A) i; do ei <- zget e i;
    do y <- zset y i (mul ei zi);
    do yi <- zget y i;
    Some (e, y, add s (mul zi yi))) (zmake n zero, zmake n zero, zero);
  let '(e, y, s) := eys in
  Some (Dpr1 e y (div (opp rho) (add one (mul rho s))) n).

(** 116-127 symmetric_dpr1_synthesize: overwrites z *)
Definition dpr1_synthesize (A : dpr1 F) (lo hi : list F) : option (dpr1 F) :=
  let n := dp_n A in let d := dp_d A in let rho := dp_rho A in
  do z <- for_up 0 n (fun k z =>
    do hk <- zget hi k; do dk <- zget d k; do lk <- zget lo k;
    let factor := fun i zk => do hi_ <- zget hi i; do li <- zget lo i; do di <- zget d i;
                              Some (mul zk (div (add (sub hi_ dk) li) (sub di dk))) in
    do zk <- for_up 0 k factor (div (add (sub hk dk) lk) rho);
    do zk <- for_up (k + 1) n factor zk;
    do old <- zget z k;
    zset z k (copysignA (sqrtA zk) old)) (dp_z A);
  Some (Dpr1 d z rho n).
(** 129-142 symmetric_definite_dpr1_synthesize: overwrites z of A and of B *)
Definition definite_dpr1_synthesize (A : dpr1 F) (B : idpr1 F) (lo hi : list F) : option (dpr1 F * idpr1 F) :=
  let n := dp_n A in let d := dp_d A in let rho := dp_rho A in let sigma := ip_sigma B in
  do zs <- for_up 0 n (fun k zs =>
    let '(z, zsum) := zs in
    do hk <- zget hi k; do dk <- zget d k; do lk <- zget lo k;
    let factor := fun i z => do zk <- zget z k; do hi_ <- zget hi i; do li <- zget lo i; do di <- zget d i;
                             zset z k (mul zk (div (add (sub hi_ dk) li) (sub di dk))) in
    do z <- zset z k (div (add (sub hk dk) lk) (sub rho (mul sigma dk)));
    do z <- for_up 0 k factor z;
    do z <- for_up (k + 1) n factor z;
    do zk <- zget z k;
    Some (z, add zsum zk)) (dp_z A, zero);
  let '(z, zsum) := zs in
  do zb <- for_up 0 n (fun k zb =>
    let '(z, b) := zb in
    do zk <- zget z k; do bk <- zget b k;
    let v := copysignA (sqrtA (div zk (sub one (mul sigma zsum)))) bk in
    do z <- zset z k v; do b <- zset b k v; Some (z, b)) (z, ip_z B);
  let '(z, b) := zb in
  Some (Dpr1 d z rho n, IDpr1 b sigma (ip_n B)).

(** the accumulation ztx += z[i]*x[i] *)
Definition dotA (n : Z) (z x : list F) : option F :=
  for_up 0 n (fun i t => do zi <- zget z i; do xi <- zget x i; Some (add t (mul zi xi))) zero.
(** 145-155 drmv (TRANS is 'N' or 'T': the same code) *)
Definition drmv (A : dpr1 F) (x : list F) : option (list F) :=
  let n := dp_n A in
  do ztx <- dotA n (dp_z A) x;
  let ztx := mul ztx (dp_rho A) in
  for_up 0 n (fun i x => do di <- zget (dp_d A) i; do xi <- zget x i; do zi <- zget (dp_z A) i;
                         zset x i (add (mul di xi) (mul ztx zi))) x.
(** 158-168 irmv *)
Definition irmv (A : idpr1 F) (x : list F) : option (list F) :=
  let n := ip_n A in
  do ztx <- dotA n (ip_z A) x;
  let ztx := mul ztx (ip_sigma A) in
  for_up 0 n (fun i x => do xi <- zget x i; do zi <- zget (ip_z A) i; zset x i (add xi (mul ztx zi))) x.

(** 171-196 dvmv and 199-224 dfmv have the same text except for the call on F->V, which is
    [vmul trans alpha x ox beta y oy].  The arrays x, p, q are modified and restored, so they
    are part of the result: (x, y, p, q). *)
Section Dmv.
Context {V : Type}.
Variable vmul : dpeig F V -> bool -> F -> list F -> Z -> F -> list F -> Z -> option (list F).
Definition dmv (trans : bool) (alpha : F) (E : dpeig F V) (x : list F) (beta : F) (y : list F) : option (list F * list F * list Z * list Z) :=
  let n := de_num E in let iz := de_iz E in let id := de_id E in let v := de_v E in
  if trans then
    do xp <- perm false x (de_p E) n; let '(x, p) := xp in
    do yq <- perm true y (de_q E) n; let '(y, q) := yq in
    do y <- for_up 0 iz (fun i y => do xi <- zget x i; do yi <- zget y i; zset y i (add (mul alpha xi) (mul beta yi))) y;
    do y <- for_up iz (iz + id) (fun i y => do vi <- zget v (i - iz); do xi <- zget x i; do yi <- zget y i;
                                            zset y i (add (mul (mul alpha vi) xi) (mul beta yi))) y;
    do y <- vmul E true alpha x iz beta y (iz + id);
    do xp <- perm true x p n; let '(x, p) := xp in
    do yq <- perm false y q n; let '(y, q) := yq in
    Some (x, y, p, q)
  else
    do xq <- perm true x (de_q E) n; let '(x, q) := xq in
    do yp <- perm false y (de_p E) n; let '(y, p) := yp in
    do y <- for_up 0 iz (fun i y => do xi <- zget x i; do yi <- zget y i; zset y i (add (mul alpha xi) (mul beta yi))) y;
    do y <- vmul E false alpha x (iz + id) beta y iz;
    do y <- for_up iz (iz + id) (fun i y => do yi <- zget y i; do vi <- zget v (i - iz); do xi <- zget x i;
                                            zset y i (add yi (mul (mul alpha vi) xi))) y;
    do xq <- perm false x q n; let '(x, q) := xq in
    do yp <- perm true y p n; let '(y, p) := yp in
    Some (x, y, p, q).
End Dmv.
Definition dvmv := dmv (fun (E : dpeig F (list F)) trans alpha x ox beta y oy =>
  gemv trans (de_num E - de_iz E) (de_num E - de_iz E - de_id E) alpha (de_V E) 0 (de_num E - de_iz E) x ox beta y oy).
Definition dfmv := dmv (fun (E : dpeig F (hmat F)) trans alpha x ox beta y oy => ghmv trans alpha (de_V E) x ox beta y oy).

(** z[i]/(diff(d[i], lambdahi) - lambdalo) *)
Definition quot (d z : list F) (i : Z) (lo hi : F) : option F :=
  do zi <- zget z i; do di <- zget d i; Some (div zi (sub (sub di hi) lo)).
(** 226-234 secular *)
Definition secular (A : dpr1 F) (lo hi : F) : option F :=
  for_up 0 (dp_n A) (fun i ret => do t <- quot (dp_d A) (dp_z A) i lo hi; do zi <- zget (dp_z A) i; Some (add ret (mul zi t)))
    (div one (dp_rho A)).
(** sigma*(diff(rho/sigma, lambdahi) - lambdalo) *)
Definition gpole (rho sigma lo hi : F) : F := mul sigma (sub (sub (div rho sigma) hi) lo).
(** 236-244 generalized_secular *)
Definition generalized_secular (A : dpr1 F) (B : idpr1 F) (lo hi : F) : option F :=
  for_up 0 (dp_n A) (fun i ret => do t <- quot (dp_d A) (dp_z A) i lo hi; do zi <- zget (dp_z A) i; Some (add ret (mul zi t)))
    (div one (gpole (dp_rho A) (ip_sigma B) lo hi)).
(** 258-266 secular_derivative *)
Definition secular_derivative (A : dpr1 F) (lo hi : F) : option F :=
  for_up 0 (dp_n A) (fun i ret => do t <- quot (dp_d A) (dp_z A) i lo hi; Some (add ret (mul t t))) zero.
(** 268-277 generalized_secular_derivative *)
Definition generalized_secular_derivative (A : dpr1 F) (B : idpr1 F) (lo hi : F) : option F :=
  do ret <- secular_derivative A lo hi;
  let t := gpole (dp_rho A) (ip_sigma B) lo hi in
  Some (add (div (ip_sigma B) (mul t t)) ret).
(** the loop of 291-312, which stops before n-1 *)
Definition second_sum (A : dpr1 F) (lo hi : F) : option F :=
  for_up 0 (dp_n A - 1) (fun i ret => do t <- quot (dp_d A) (dp_z A) i lo hi; do di <- zget (dp_d A) i;
                                     Some (add ret (div (mul t t) (sub (sub di hi) lo)))) zero.
(** 291-300 secular_second_derivative *)
Definition secular_second_derivative (A : dpr1 F) (lo hi : F) : option F :=
  do ret <- second_sum A lo hi; Some (mul (ofZ 2) ret).
(** 302-312 generalized_secular_second_derivative *)
Definition generalized_secular_second_derivative (A : dpr1 F) (B : idpr1 F) (lo hi : F) : option F :=
  do ret <- second_sum A lo hi;
  let sigma := ip_sigma B in
  let t := gpole (dp_rho A) sigma lo hi in
  Some (mul (ofZ 2) (add (div (mul (div sigma t) sigma) (mul t t)) ret)).

(** 326 exterior_initial_guess *)
Definition exterior_initial_guess (d0n nrmz2 rho : F) : F := add d0n (mul rho nrmz2).
(** 2*c/(b+sqrt(b*b-4*a*c)), the last line of every update *)
Definition quad_step (a b c : F) : F :=
  div (mul (ofZ 2) c) (add b (sqrtA (sub (mul b b) (mul (mul (ofZ 4) a) c)))).
(** the loop of 328-394: alpha += t*t*(de-d[i])/(diff(lambdahi, d[i]) + lambdalo), from i = from to upto-1 *)
Definition end_alpha (A : dpr1 F) (from upto : Z) (de lo hi : F) : option F :=
  for_up from upto (fun i alpha => do t <- quot (dp_d A) (dp_z A) i lo hi; do di <- zget (dp_d A) i;
    Some (add alpha (div (mul (mul t t) (sub de di)) (add (sub hi di) lo)))) one.
(** the common text of 328-394 after f and fp: the pole [de] is d[0] or d[n-1] *)
Definition end_update (A : dpr1 F) (from upto at_ : Z) (f fp lo hi : F) : option F :=
  do de <- zget (dp_d A) at_;
  do alpha <- end_alpha A from upto de lo hi;
  let a := div alpha (add (sub hi de) lo) in
  let b := add fp (div f (add (sub hi de) lo)) in
  Some (quad_step a b (opp f)).
(** 328-343 first_pick_zero_update, 362-377 last_pick_zero_update *)
Definition first_pick_zero_update (A : dpr1 F) (lo hi : F) : option F :=
  do f <- secular A lo hi; do fp <- secular_derivative A lo hi; end_update A 1 (dp_n A) 0 f fp lo hi.
Definition last_pick_zero_update (A : dpr1 F) (lo hi : F) : option F :=
  do f <- secular A lo hi; do fp <- secular_derivative A lo hi; end_update A 0 (dp_n A - 1) (dp_n A - 1) f fp lo hi.
(** the common text of 396-424 after f, fp, fpp *)
Definition mid_update (x0 x1 f fp fpp lo hi : F) : F :=
  let c1 := div one (sub (sub x0 hi) lo) in
  let c2 := div one (sub (sub x1 hi) lo) in
  let c2g := div (sub fpp (mul (mul (ofZ 2) c1) fp)) (mul (mul (ofZ 2) (sub c2 c1)) c2) in
  let c1b := div (sub fp (mul c2 c2g)) c1 in
  let alpha := sub (sub f c1b) c2g in
  let a := div alpha (mul (sub (sub x0 hi) lo) (add (sub hi x1) lo)) in
  let b := sub fp (mul (add c1 c2) f) in
  quad_step a b (opp f).
(** 396-409 pick_zero_update, 411-424 generalized_pick_zero_update *)
Definition pick_zero_update (A : dpr1 F) (x0 x1 lo hi : F) : option F :=
  do f <- secular A lo hi; do fp <- secular_derivative A lo hi; do fpp <- secular_second_derivative A lo hi;
  Some (mid_update x0 x1 f fp fpp lo hi).
Definition generalized_pick_zero_update (A : dpr1 F) (B : idpr1 F) (x0 x1 lo hi : F) : option F :=
  do f <- generalized_secular A B lo hi; do fp <- generalized_secular_derivative A B lo hi;
  do fpp <- generalized_secular_second_derivative A B lo hi;
  Some (mid_update x0 x1 f fp fpp lo hi).

(** one column of 901-935 / 955-994: Q[i+j*n] = z[i]/(diff(d[i], lambdahi[j]) - lambdalo[j]), i < n *)
Definition raw_column (A : dpr1 F) (lo hi : list F) (j : Z) (Q : list F) : option (list F) :=
  for_up 0 (dp_n A) (fun i Q => do hj <- zget hi j; do lj <- zget lo j; do t <- quot (dp_d A) (dp_z A) i lj hj; zset Q (i + j * dp_n A) t) Q.
(** Q[i+j*n] *= nrm, i < n *)
Definition scale_column (n j : Z) (nrm : F) (Q : list F) : option (list F) :=
  for_up 0 n (fun i Q => do q <- zget Q (i + j * n); zset Q (i + j * n) (mul q nrm)) Q.
(** 901-935 symmetric_dpr1_eigvecs *)
Definition dpr1_eigvecs (A : dpr1 F) (lo hi : list F) (m : Z) : option (list F) :=
  let n := dp_n A in
  for_up 0 m (fun j Q =>
    do Q <- raw_column A lo hi j Q;
    do nrm <- for_up 0 n (fun i nrm => do q <- zget Q (i + j * n); Some (add nrm (mul q q))) zero;
    do qj <- zget Q (j + j * n);
    scale_column n j (copysignA (div one (sqrtA nrm)) qj) Q) (zmake (n * m) zero).
(** 955-995 symmetric_definite_dpr1_eigvecs *)
Definition definite_dpr1_eigvecs (A : dpr1 F) (B : idpr1 F) (lo hi : list F) (m : Z) : option (list F) :=
  let n := dp_n A in
  for_up 0 m (fun j Q =>
    do Q <- raw_column A lo hi j Q;
    do nrms <- for_up 0 n (fun i nrms => let '(n1, n2) := nrms in do q <- zget Q (i + j * n); do zi <- zget (dp_z A) i;
                                       Some (add n1 (mul q q), add n2 (mul q zi))) (zero, zero);
    let '(n1, n2) := nrms in
    do qj <- zget Q (j + j * n);
    scale_column n j (copysignA (div one (sqrtA (add n1 (mul (mul (ip_sigma B) n2) n2)))) qj) Q) (zmake (n * m) zero).

(** 938-952 symmetric_dpr1_eigvecs_FMM and 998-1019 symmetric_definite_dpr1_eigvecs_FMM; the two
    hierarchical matrices sampled from the Cauchy kernel 1/(d-lambda) and the Coulomb kernel
    1/(d-lambda)^2 are arguments (sampling is treated under C29) *)
Definition dpr1_eigvecs_FMM (A : dpr1 F) (Q N : hmat F) (m : Z) : option (hmat F) :=
  do N <- scale_rows one N (dp_z A) 0;
  do q <- ghmv true one N (dp_z A) 0 zero (zmake m zero) 0;
  do q <- for_up 0 m (fun j q => do qj <- zget q j; zset q j (sqrtA (div one qj))) q;
  do Q <- scale_rows one Q (dp_z A) 0;
  scale_columns one Q q 0.
Definition definite_dpr1_eigvecs_FMM (A : dpr1 F) (B : idpr1 F) (V N : hmat F) (m : Z) : option (hmat F) :=
  do V <- scale_rows one V (dp_z A) 0;
  do N <- scale_rows one N (dp_z A) 0;
  do v <- ghmv true one V (dp_z A) 0 zero (zmake m zero) 0;
  do v <- for_up 0 m (fun j v => do vj <- zget v j; zset v j (mul vj vj)) v;
  do v <- ghmv true one N (dp_z A) 0 (ip_sigma B) v 0;
  do v <- for_up 0 m (fun j v => do vj <- zget v j; zset v j (sqrtA (div one vj))) v;
  scale_columns one V v 0.
End Model.
