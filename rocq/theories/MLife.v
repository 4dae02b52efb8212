(** * Model of the allocations and frees of the banded, hierarchical and eigenvector plans

    Only the memory blocks are modelled: which blocks a function allocates and frees, in which order,
    which struct fields point to them, and which structs are read on the way.  The contents of the
    arrays are the subject of the other models.  A struct is a record of its pointers and sizes
    together with its own address [.._self]; reading a field through a pointer p is preceded by
    [use p].  Sizes that depend on floating-point data come from [pick].  The extended-precision and
    the working-precision versions of a function allocate the same blocks and are one definition. *)
From Coq Require Import ZArith List Bool.
From Verif Require Import SpecHeap MHeap.
Import ListNotations.
Open Scope Z_scope.
Open Scope prog_scope.

(** free(s->f), s being the address of a struct and p the value of its field *)
Definition freef (s p : Z) : prog unit := use s;; free p.

(** ** Banded matrices: src/banded.h, src/banded_source.c *)
Record sparse := Sparse { sp_self : Z; sp_p : Z; sp_q : Z; sp_v : Z; sp_m : Z; sp_n : Z; sp_nnz : Z }.
Record banded := Banded { bd_self : Z; bd_data : Z; bd_m : Z; bd_n : Z; bd_l : Z; bd_u : Z }.
Record tbanded := TBanded { tb_self : Z; tb_data : Z; tb_n : Z; tb_b : Z }.
Record bqr := BQR { qr_self : Z; qr_factors : banded; qr_tau : Z }.
(** banded_source.c 1-6 *)
Definition destroy_sparse (A : sparse) : prog unit :=
  freef (sp_self A) (sp_p A);; freef (sp_self A) (sp_q A);; freef (sp_self A) (sp_v A);; free (sp_self A).
(** 8-11 *)
Definition destroy_banded (A : banded) : prog unit := freef (bd_self A) (bd_data A);; free (bd_self A).
(** 13-16 *)
Definition destroy_tbanded (A : tbanded) : prog unit := freef (tb_self A) (tb_data A);; free (tb_self A).
(** 18-25 *)
Definition destroy_bqr (F : bqr) : prog unit :=
  use (qr_self F);; destroy_banded (qr_factors F);; freef (qr_self F) (qr_tau F);; free (qr_self F).
(** 107-127 *)
Definition malloc_sparse (m n nnz : Z) : prog sparse :=
  self <- new;; p <- malloc nnz;; q <- malloc nnz;; v <- malloc nnz;; ret (Sparse self p q v m n nnz).
(** 129-149: malloc_banded and calloc_banded *)
Definition alloc_banded (m n l u : Z) : prog banded :=
  data <- malloc (n * (l + u + 1));; self <- new;; ret (Banded self data m n l u).
(** 151-167: malloc_triangular_banded and calloc_triangular_banded *)
Definition alloc_tbanded (n b : Z) : prog tbanded :=
  data <- malloc (n * (b + 1));; self <- new;; ret (TBanded self data n b).
(** 169-183 *)
Definition realloc_tbanded (A : tbanded) (b : Z) : prog tbanded :=
  use (tb_self A);; data <- malloc (tb_n A * (b + 1));; freef (tb_self A) (tb_data A);;
  ret (TBanded (tb_self A) data (tb_n A) b).
(** 186-192: the data of a view belong to the matrix; the view is only a struct *)
Definition view_tbanded (A : tbanded) (start stop : Z) : prog tbanded :=
  self <- new;; use (tb_self A);; ret (TBanded self (tb_data A) (stop - start) (tb_b A)).
(** 204-222 *)
Definition convert_banded (A : banded) : prog tbanded :=
  self <- new;; use (bd_self A);;
  if bd_l A =? 0 then free (bd_self A);; ret (TBanded self (bd_data A) (bd_n A) (bd_u A))
  else data <- malloc ((bd_u A + 1) * bd_n A);; destroy_banded A;; ret (TBanded self data (bd_n A) (bd_u A)).
(** 238-243 *)
Definition create_I_tbanded (n b : Z) : prog tbanded := alloc_tbanded n b.
(** 357-379 (and 382-...): the loop exchanges the three pointers Bk, Bk1 and Bk2 *)
Fixpoint rotate_pointers (k : nat) (Bk Bk1 Bk2 : banded) : banded * banded * banded :=
  match k with O => (Bk, Bk1, Bk2) | S k => rotate_pointers k Bk2 Bk Bk1 end.
Definition op_clenshaw (n : Z) (X : banded) : prog banded :=
  use (bd_self X);; let m := bd_m X in
  Bk <- alloc_banded m m (n - 1) (n - 1);;
  Bk1 <- alloc_banded m m (n - 1) (n - 1);;
  Bk2 <- alloc_banded m m (n - 1) (n - 1);;
  let '(Bk, Bk1, Bk2) := rotate_pointers (Z.to_nat n) Bk Bk1 Bk2 in
  destroy_banded Bk1;; destroy_banded Bk2;; ret Bk.
(** 531-554 and 587-610: banded_qrfact with [ql = false] and banded_qlfact with [ql = true] *)
Definition banded_fact (ql : bool) (A : banded) : prog bqr :=
  use (bd_self A);; let m := bd_m A in let n := bd_n A in let l := bd_l A in let u := bd_u A in
  R <- (if ql then alloc_banded m n (l + u) u else alloc_banded m n l (l + u));;
  tau <- malloc (Z.min m n);;
  self <- new;; ret (BQR self R tau).
(** 655-676 *)
Definition partial_bqmm (F : bqr) (A : banded) : prog unit :=
  use (qr_self F);; use (bd_self (qr_factors F));; use (bd_self A);;
  x <- malloc (bd_l A + bd_u A + 1 + bd_u (qr_factors F));; free x.

(** ** Tridiagonal matrices: src/tridiagonal_source.c *)
Record symtri := SymTri { st_self : Z; st_a : Z; st_b : Z; st_n : Z }.
Record bidiag := Bidiag { bi_self : Z; bi_c : Z; bi_d : Z }.
(** 1-5 *)
Definition destroy_symtri (A : symtri) : prog unit :=
  freef (st_self A) (st_a A);; freef (st_self A) (st_b A);; free (st_self A).
(** 12-16 *)
Definition destroy_bidiag (A : bidiag) : prog unit :=
  freef (bi_self A) (bi_c A);; freef (bi_self A) (bi_d A);; free (bi_self A).
(** malloc(sizeof(symmetric_tridiagonal)) and its two arrays, e.g. tdc_source.c 77-87 *)
Definition new_symtri (n : Z) : prog symtri :=
  self <- new;; a <- malloc n;; b <- malloc (n - 1);; ret (SymTri self a b n).
(** 26-44 *)
Definition st_cholesky (A : symtri) : prog bidiag :=
  use (st_self A);; c <- malloc (st_n A);; d <- malloc (st_n A - 1);; self <- new;; ret (Bidiag self c d).
(** 134-234 *)
Definition st_eig (A : symtri) : prog unit :=
  use (st_self A);; d <- malloc (st_n A);; e <- malloc (st_n A);; free d;; free e.
(** 242-337 *)
Definition st_congruence (A B : symtri) : prog symtri :=
  R <- st_cholesky B;; use (st_self A);; a <- malloc (st_n A);; b <- malloc (st_n A - 1);;
  destroy_bidiag R;; self <- new;; ret (SymTri self a b (st_n A)).
(** 236-240 *)
Definition st_definite_eig (A B : symtri) : prog unit :=
  AS <- st_congruence A B;; st_eig AS;; destroy_symtri AS.
(** banded_source.c 224-236 *)
Definition convert_banded_symtri (A : banded) : prog symtri :=
  self <- new;; use (bd_self A);; a <- malloc (bd_n A);; b <- malloc (bd_n A - 1);; destroy_banded A;;
  ret (SymTri self a b (bd_n A)).
Record stqr := STQR { sq_self : Z; sq_s : Z; sq_c : Z; sq_R : tbanded }.
(** banded_source.c 61-66 *)
Definition destroy_stqr (F : stqr) : prog unit :=
  freef (sq_self F) (sq_s F);; freef (sq_self F) (sq_c F);; use (sq_self F);; destroy_tbanded (sq_R F);; free (sq_self F).
(** banded_source.c 1429-1458 *)
Definition st_qrfact (A : symtri) : prog stqr :=
  use (st_self A);; let n := st_n A in
  s <- malloc (n - 1);; c <- malloc (n - 1);; R <- alloc_tbanded n 2;; self <- new;; ret (STQR self s c R).
(** banded_source.c 1641-1650 *)
Definition jacobi_similarity (n : Z) : prog symtri :=
  self <- new;; a <- malloc (n - 1);; b <- malloc (n - 2);; ret (SymTri self a b (n - 1)).

(** ** Hierarchical matrices: src/hierarchical_source.c *)
Record dense := DenseM { dn_self : Z; dn_A : Z }.
Record lowrank := LowRankM { lr_self : Z; lr_U : Z; lr_S : Z; lr_V : Z; lr_t1 : Z; lr_t2 : Z }.
(** the struct with its four arrays, its dimensions and the entries of the arrays: hash(m, n) and the
    pointers hierarchicalmatrices(m, n), densematrices(m, n), lowrankmatrices(m, n), if written *)
Inductive hmat :=
| HMat (self hier dens lowr hash M N : Z) (cells : list (Z * option hmat * option dense * option lowrank)).
(** 75-78 *)
Definition destroy_dense (A : dense) : prog unit := freef (dn_self A) (dn_A A);; free (dn_self A).
(** 80-87 *)
Definition destroy_lowrank (L : lowrank) : prog unit :=
  freef (lr_self L) (lr_U L);; freef (lr_self L) (lr_S L);; freef (lr_self L) (lr_V L);;
  freef (lr_self L) (lr_t1 L);; freef (lr_self L) (lr_t2 L);; free (lr_self L).
(** 89-105; the two loops visit the entries of the arrays in the order of their positions m + M*n *)
Fixpoint destroy_hmat (H : hmat) : prog unit :=
  match H with
  | HMat self hier dens lowr hash M N cells =>
    use self;;
    (fix loop (cells : list (Z * option hmat * option dense * option lowrank)) (k : nat) : prog unit :=
       match cells with
       | [] => match k with O => ret tt | S _ => ub end
       | (tag, h, d, l) :: cells =>
         match k with
         | O => ret tt
         | S k =>
           use self;; use hash;;
           (if tag =? 1 then use hier;; match h with Some h => destroy_hmat h | None => ub end
            else if tag =? 2 then use dens;; match d with Some d => destroy_dense d | None => ub end
            else if tag =? 3 then use lowr;; match l with Some l => destroy_lowrank l | None => ub end
            else ret tt);;
           loop cells k
         end
       end) cells (Z.to_nat (M * N));;
    freef self hier;; freef self dens;; freef self lowr;; freef self hash;; free self
  end.
(** 108-122 *)
Definition alloc_dense (m n : Z) : prog dense := self <- new;; A <- malloc (m * n);; ret (DenseM self A).
(** 146-182; sz is r for '2' and r*r for '3', [thr] the number of threads *)
Definition alloc_lowrank (thr m n r sz : Z) : prog lowrank :=
  self <- new;; U <- malloc (m * r);; Sg <- malloc sz;; V <- malloc (n * r);;
  t1 <- malloc (r * thr);; t2 <- malloc (r * thr);; ret (LowRankM self U Sg V t1 t2).
(** 124-144: sample_densematrix, sample_accurately_densematrix *)
Definition sample_dense : prog dense := M <- pick;; N <- pick;; alloc_dense M N.
Section Sizes.
Variables (thr rank : Z). (* FT_GET_MAX_THREADS(), BLOCKRANK *)
(** 184-213; chebyshev_points and chebyshev_barycentric_weights (1-36) each return one array *)
Definition sample_lowrank : prog lowrank :=
  M <- pick;; N <- pick;; L <- alloc_lowrank thr M N rank (rank * rank);;
  xc1 <- malloc rank;; xc2 <- malloc rank;; lc <- malloc rank;;
  use (lr_self L);; free xc1;; free xc2;; free lc;; ret L.
(** 216-225 *)
Definition malloc_hmat (M N : Z) : prog (Z * Z * Z * Z * Z) :=
  self <- new;; hier <- malloc (M * N);; dens <- malloc (M * N);; lowr <- malloc (M * N);; hash <- malloc (M * N);;
  ret (self, hier, dens, lowr, hash).
(** 239-316 and 318-395, given what is done at each of the four sub-blocks *)
Definition sample_blocks (s00 s10 s01 s11 : prog (Z * option hmat * option dense * option lowrank)) : prog hmat :=
  p <- malloc_hmat 2 2;;
  let '(self, hier, dens, lowr, hash) := p in
  c00 <- s00;; use self;; use hash;; c10 <- s10;; use self;; use hash;;
  c01 <- s01;; use self;; use hash;; c11 <- s11;; use self;; use hash;;
  ret (HMat self hier dens lowr hash 2 2 [c00; c10; c01; c11]).
(** e.g. 262-274: the shape says which of the three cases holds *)
Fixpoint sample_cell (t : shape) : prog (Z * option hmat * option dense * option lowrank) :=
  match t with
  | Dense => d <- sample_dense;; ret (2, None, Some d, None)
  | LowRank => l <- sample_lowrank;; ret (3, None, None, Some l)
  | Split a b c d =>
    h <- sample_blocks (sample_cell a) (sample_cell b) (sample_cell c) (sample_cell d);; ret (1, Some h, None, None)
  end.
(** the outermost call: the shapes of its four blocks depend on the data *)
Definition sample_hierarchical : prog hmat :=
  a <- pick_shape;; b <- pick_shape;; c <- pick_shape;; d <- pick_shape;;
  sample_blocks (sample_cell a) (sample_cell b) (sample_cell c) (sample_cell d).

(** ** Eigenvector plans of triangular banded pencils: banded_source.c *)
Inductive tbeig :=
| TBLeaf (self n b V lambda : Z)
| TBNode (self n b : Z) (F0 : hmat) (F1 F2 : tbeig) (Sp : sparse) (X Y t1 t2 lambda p1 p2 : Z).
Definition tbe_self (F : tbeig) : Z := match F with TBLeaf self _ _ _ _ => self | TBNode self _ _ _ _ _ _ _ _ _ _ _ _ _ => self end.
Variable BS : Z. (* TB_EIGEN_BLOCKSIZE *)
(** 27-46; reading F->V of a node or F->F0 of a leaf, which were never written, is undefined *)
Fixpoint destroy_tbeig (F : tbeig) : prog unit :=
  match F with
  | TBLeaf self n b V lambda =>
    use self;;
    if n <? BS then freef self V;; freef self lambda;; free self else ub
  | TBNode self n b F0 F1 F2 Sp X Y t1 t2 lambda p1 p2 =>
    use self;;
    if n <? BS then ub else
      use self;; destroy_hmat F0;; use self;; destroy_tbeig F1;; use self;; destroy_tbeig F2;;
      use self;; destroy_sparse Sp;; freef self X;; freef self Y;; freef self t1;; freef self t2;;
      freef self lambda;; freef self p1;; freef self p2;; free self
  end.
(** 882-912 *)
Definition get_sparse (F1 : tbeig) (A B : tbanded) (n s idx : Z) : prog sparse :=
  Sp <- malloc_sparse s (n - s) idx;; V <- malloc n;;
  use (tb_self A);; use (tb_self B);; use (tbe_self F1);; use (sp_self Sp);; free V;; ret Sp.
(** 914-1008; the recursion is on the size, which is halved, and [fuel] exceeds its depth *)
Fixpoint tb_eig_FMM (fuel : nat) (A B : tbanded) : prog tbeig :=
  match fuel with
  | O => ub
  | S fuel =>
    use (tb_self A);; use (tb_self B);;
    let n := tb_n A in let b1 := tb_b A in let b2 := tb_b B in let b := Z.max b1 b2 in
    self <- new;;
    if n <? BS then
      V <- malloc (n * n);; lambda <- malloc n;; ret (TBLeaf self n b V lambda)
    else
      let s := Z.shiftr n 1 in
      A1 <- view_tbanded A 0 s;; B1 <- view_tbanded B 0 s;;
      A2 <- view_tbanded A s n;; B2 <- view_tbanded B s n;;
      F1 <- tb_eig_FMM fuel A1 B1;; F2 <- tb_eig_FMM fuel A2 B2;;
      lambda <- malloc n;; use (tbe_self F1);; use (tbe_self F2);;
      X <- malloc (s * b);; use (tb_self B1);; use (tbe_self F1);;
      Y <- malloc ((n - s) * b);; use (tb_self A);;
      Y2 <- malloc ((n - s) * b2);; use (tb_self B);; use (tbe_self F2);;
      p1 <- malloc s;; p2 <- malloc (n - s);;
      idx <- pick;; p3 <- malloc idx;; p4 <- malloc idx;;
      Sp <- get_sparse F1 A B n s idx;;
      free p3;; free p4;;
      F0 <- sample_hierarchical;;
      t1 <- malloc (s * thr);; t2 <- malloc ((n - s) * thr);;
      free (tb_self A1);; free (tb_self B1);; free (tb_self A2);; free (tb_self B2);; free Y2;;
      ret (TBNode self n b F0 F1 F2 Sp X Y t1 t2 lambda p1 p2)
  end.
(** drop_precision.c 133-141 *)
Definition drop_sparse (S2 : sparse) : prog sparse :=
  use (sp_self S2);; Sp <- malloc_sparse (sp_m S2) (sp_n S2) (sp_nnz S2);; use (sp_self S2);; ret Sp.
(** drop_precision.c 145-190 *)
Fixpoint drop_tbeig (F : tbeig) : prog tbeig :=
  match F with
  | TBLeaf self2 n b V2 lambda2 =>
    use self2;; self <- new;;
    if n <? BS then V <- malloc (n * n);; use V2;; lambda <- malloc n;; use lambda2;; ret (TBLeaf self n b V lambda) else ub
  | TBNode self2 n b F02 F12 F22 S2 X2 Y2 t12 t22 lambda2 p12 p22 =>
    use self2;; self <- new;;
    if n <? BS then ub else
      let s := Z.shiftr n 1 in
      p1 <- malloc s;; p2 <- malloc (n - s);; lambda <- malloc n;;
      use p12;; use p22;; use lambda2;;
      F0 <- sample_hierarchical;;
      use self2;; F1 <- drop_tbeig F12;; use self2;; F2 <- drop_tbeig F22;; use self2;; Sp <- drop_sparse S2;;
      X <- malloc (s * b);; use self2;; Y <- malloc ((n - s) * b);; use self2;;
      t1 <- malloc (s * thr);; t2 <- malloc ((n - s) * thr);;
      ret (TBNode self n b F0 F1 F2 Sp X Y t1 t2 lambda p1 p2)
  end.

(** *** Alternating direction implicit plans, 48-59, 1010-1081, 3196-3220 *)
Inductive adieig :=
| ADILeaf (self n b V lambda : Z)
| ADINode (self n b : Z) (F0 : lowrank) (F1 F2 : adieig) (lambda : Z).
Definition adi_self (F : adieig) : Z := match F with ADILeaf self _ _ _ _ => self | ADINode self _ _ _ _ _ _ => self end.
(** 48-59 *)
Fixpoint destroy_adieig (F : adieig) : prog unit :=
  match F with
  | ADILeaf self n b V lambda =>
    use self;; if n <? BS then freef self V;; freef self lambda;; free self else ub
  | ADINode self n b F0 F1 F2 lambda =>
    use self;;
    if n <? BS then ub else
      use self;; destroy_lowrank F0;; use self;; destroy_adieig F1;; use self;; destroy_adieig F2;;
      freef self lambda;; free self
  end.
(** 3196-3220, with 3171-3194 *)
Definition ddfadi (m n r : Z) : prog lowrank :=
  J <- pick;; p <- malloc J;; q <- malloc J;;
  Z <- alloc_lowrank thr m n (r * J) (r * J);; use (lr_self Z);; free p;; free q;; ret Z.
(** 1010-1081 *)
Fixpoint tb_eig_ADI (fuel : nat) (A B : tbanded) : prog adieig :=
  match fuel with
  | O => ub
  | S fuel =>
    use (tb_self A);; use (tb_self B);;
    let n := tb_n A in let b1 := tb_b A in let b2 := tb_b B in let b := Z.max b1 b2 in
    self <- new;;
    if n <? BS then
      V <- malloc (n * n);; lambda <- malloc n;; ret (ADILeaf self n b V lambda)
    else
      let s := Z.shiftr n 1 in
      A1 <- view_tbanded A 0 s;; B1 <- view_tbanded B 0 s;;
      A2 <- view_tbanded A s n;; B2 <- view_tbanded B s n;;
      F1 <- tb_eig_ADI fuel A1 B1;; F2 <- tb_eig_ADI fuel A2 B2;;
      lambda <- malloc n;; use (adi_self F1);; use (adi_self F2);;
      X <- malloc (s * b);; use (tb_self B1);; use (adi_self F1);;
      Y <- malloc ((n - s) * b);; use (tb_self A);;
      Y2 <- malloc ((n - s) * b2);; use (tb_self B);; use (adi_self F2);;
      F0 <- ddfadi s (n - s) b;;
      free (tb_self A1);; free (tb_self B1);; free (tb_self A2);; free (tb_self B2);; free Y2;;
      ret (ADINode self n b F0 F1 F2 lambda)
  end.

(** ** 2x2-block triangular banded matrices: src/blockbanded_source.c *)
Record block2 := Block2 { b2_self : Z; b2_00 : tbanded; b2_01 : tbanded; b2_10 : tbanded; b2_11 : tbanded; b2_n : Z; b2_b : Z }.
Record btbeig := BTBEig { be_self : Z; be_F : tbeig; be_s : Z; be_c : Z; be_t : Z; be_n : Z }.
(** 1-7 *)
Definition destroy_block2 (A : block2) : prog unit :=
  use (b2_self A);; destroy_tbanded (b2_00 A);; use (b2_self A);; destroy_tbanded (b2_01 A);;
  use (b2_self A);; destroy_tbanded (b2_10 A);; use (b2_self A);; destroy_tbanded (b2_11 A);; free (b2_self A).
(** 9-15 *)
Definition destroy_btbeig (F : btbeig) : prog unit :=
  use (be_self F);; destroy_tbeig (be_F F);; freef (be_self F) (be_s F);; freef (be_self F) (be_c F);;
  freef (be_self F) (be_t F);; free (be_self F).
(** 17-37; exit_failure ends the process *)
Definition create_block2 (d00 d01 d10 d11 : tbanded) : prog block2 :=
  self <- new;; use (tb_self d00);; use (tb_self d01);; use (tb_self d10);; use (tb_self d11);;
  let n := tb_n d00 in
  if (negb (tb_n d01 =? n) || negb (tb_n d10 =? n) || negb (tb_n d11 =? n))%bool then ub else
    let b := Z.max (Z.max (tb_b d00) (tb_b d01)) (Z.max (tb_b d10) (tb_b d11)) in
    d00 <- (if tb_b d00 =? b then ret d00 else realloc_tbanded d00 b);;
    d01 <- (if tb_b d01 =? b then ret d01 else realloc_tbanded d01 b);;
    d10 <- (if tb_b d10 =? b then ret d10 else realloc_tbanded d10 b);;
    d11 <- (if tb_b d11 =? b then ret d11 else realloc_tbanded d11 b);;
    ret (Block2 self d00 d01 d10 d11 n b).
(** 39-46 *)
Definition convert_block2 (A : block2) : prog tbanded :=
  use (b2_self A);; T <- alloc_tbanded (2 * b2_n A) (2 * b2_b A + 1);;
  use (tb_self (b2_00 A));; use (tb_self (b2_01 A));; use (tb_self (b2_10 A));; use (tb_self (b2_11 A));; ret T.
(** the fuel given to the recursion of tb_eig_FMM *)
Definition depth (n : Z) : nat := S (Z.to_nat n).
(** 286-338 *)
Definition btb_eig_FMM (A B : block2) : prog btbeig :=
  use (b2_self A);; use (b2_self B);; let n := b2_n A in
  s <- malloc n;; c <- malloc n;;
  TA <- convert_block2 A;; TB <- convert_block2 B;;
  F <- tb_eig_FMM (depth (tb_n TA)) TA TB;;
  destroy_tbanded TA;; destroy_tbanded TB;;
  self <- new;; t <- malloc (2 * n * thr);; ret (BTBEig self F s c t n).
(** drop_precision.c 192-207 *)
Definition drop_btbeig (F2 : btbeig) : prog btbeig :=
  use (be_self F2);; let n := be_n F2 in
  self <- new;; use (be_self F2);; F <- drop_tbeig (be_F F2);;
  s <- malloc n;; c <- malloc n;; use (be_self F2);; t <- malloc (2 * n * thr);; ret (BTBEig self F s c t n).

(** ** Diagonal plus rank one: src/dprk_source.c *)
Record dpr1 := DPR1 { d1_self : Z; d1_d : Z; d1_z : Z; d1_n : Z }.
Record idpr1 := IDPR1 { id_self : Z; id_z : Z }.
Record dpr1eig := DPR1Eig { de_self : Z; de_v : Z; de_V : Z; de_lambda : Z; de_lo : Z; de_hi : Z; de_p : Z; de_q : Z; de_n : Z; de_iz : Z; de_id : Z }.
Record dpr1fmm := DPR1FMM { df_self : Z; df_A : dpr1; df_B : idpr1; df_v : Z; df_V : hmat; df_lambda : Z; df_lo : Z; df_hi : Z; df_p : Z; df_q : Z; df_n : Z; df_iz : Z; df_id : Z }.
(** 1-10 *)
Definition destroy_dpr1 (A : dpr1) : prog unit :=
  freef (d1_self A) (d1_d A);; freef (d1_self A) (d1_z A);; free (d1_self A).
Definition destroy_idpr1 (A : idpr1) : prog unit := freef (id_self A) (id_z A);; free (id_self A).
(** 12-21 *)
Definition destroy_dpr1eig (F : dpr1eig) : prog unit :=
  let s := de_self F in
  freef s (de_v F);; freef s (de_V F);; freef s (de_lambda F);; freef s (de_lo F);; freef s (de_hi F);;
  freef s (de_p F);; freef s (de_q F);; free s.
(** 23-34 *)
Definition destroy_dpr1fmm (F : dpr1fmm) : prog unit :=
  let s := df_self F in
  use s;; destroy_dpr1 (df_A F);; use s;; destroy_idpr1 (df_B F);; freef s (df_v F);; use s;; destroy_hmat (df_V F);;
  freef s (df_lambda F);; freef s (df_lo F);; freef s (df_hi F);; freef s (df_p F);; freef s (df_q F);; free s.
(** 998-1017 *)
Definition definite_eigvecs_FMM (A : dpr1) (m : Z) : prog hmat :=
  use (d1_self A);; V <- sample_hierarchical;; N <- sample_hierarchical;; v <- malloc m;;
  destroy_hmat N;; free v;; ret V.
(** 1133-1187; A->n becomes n - iz.  The variant for a single matrix (1019-1070) allocates the same blocks *)
Definition definite_dpr1_eig (A : dpr1) (B : idpr1) : prog dpr1eig :=
  use (d1_self A);; let n := d1_n A in
  lo <- malloc n;; hi <- malloc n;; p1 <- malloc n;; use (id_self B);;
  iz <- pick;; p2 <- malloc (n - iz);; id <- pick;;
  v <- malloc id;; p <- malloc n;; free p1;; free p2;;
  q <- malloc n;; lambda <- malloc n;; V <- malloc ((n - iz) * (n - iz - id));;
  self <- new;; ret (DPR1Eig self v V lambda lo hi p q n iz id).
(** 1189-1261 (1072-1131 for a single matrix) *)
Definition definite_dpr1_eig_FMM (A : dpr1) (B : idpr1) : prog dpr1fmm :=
  use (d1_self A);; let n := d1_n A in
  lo <- malloc n;; hi <- malloc n;; p1 <- malloc n;; use (id_self B);;
  iz <- pick;; p2 <- malloc (n - iz);; id <- pick;;
  v <- malloc id;; p <- malloc n;; free p1;; free p2;;
  q <- malloc n;; lambda <- malloc n;; V <- definite_eigvecs_FMM A (n - iz - id);;
  fa <- new;; fb <- new;; d <- malloc (n - iz);; z <- malloc (n - iz);; zb <- malloc (n - iz);;
  self <- new;; ret (DPR1FMM self (DPR1 fa d z (n - iz)) (IDPR1 fb zb) v V lambda lo hi p q n iz id).
(** drop_precision.c 47-77 *)
Definition drop_dpr1eig (F2 : dpr1eig) : prog dpr1eig :=
  use (de_self F2);; let n := de_n F2 in let iz := de_iz F2 in let id := de_id F2 in
  p <- malloc n;; q <- malloc n;; lambda <- malloc n;; lo <- malloc n;; hi <- malloc n;;
  v <- malloc id;; V <- malloc ((n - iz) * (n - iz - id));; use (de_self F2);;
  self <- new;; ret (DPR1Eig self v V lambda lo hi p q n iz id).
(** drop_precision.c 79-131 *)
Definition drop_dpr1fmm (F2 : dpr1fmm) : prog dpr1fmm :=
  use (df_self F2);; let n := df_n F2 in let iz := df_iz F2 in let id := df_id F2 in
  p <- malloc n;; q <- malloc n;; lambda <- malloc n;; lo <- malloc n;; hi <- malloc n;; v <- malloc id;;
  fa <- new;; fb <- new;; use (df_self F2);; use (d1_self (df_A F2));; let m := d1_n (df_A F2) in
  d <- malloc m;; z <- malloc m;; zb <- malloc m;; use (id_self (df_B F2));;
  let A := DPR1 fa d z m in
  V <- definite_eigvecs_FMM A (n - iz - id);;
  self <- new;; ret (DPR1FMM self A (IDPR1 fb zb) v V lambda lo hi p q n iz id).

(** ** Divide-and-conquer tridiagonal eigensolver: src/tdc_source.c *)
Variable TS : Z. (* TDC_EIGEN_BLOCKSIZE *)
(** tdc_eigen and tdc_eigen_FMM, which differ in the type of F0, its planner and its destructor *)
Section Tdc.
Context {E : Type} (eig : dpr1 -> idpr1 -> prog E) (drop : E -> prog E) (destroy_E : E -> prog unit).
Inductive tdceig :=
| TDCLeaf (self n V lambda : Z)
| TDCNode (self n : Z) (F0 : E) (F1 F2 : tdceig) (z : Z).
Definition tdc_self (F : tdceig) : Z := match F with TDCLeaf self _ _ _ => self | TDCNode self _ _ _ _ _ => self end.
(** 1-27 *)
Fixpoint destroy_tdceig (F : tdceig) : prog unit :=
  match F with
  | TDCLeaf self n V lambda => use self;; if n <? TS then freef self V;; freef self lambda;; free self else ub
  | TDCNode self n F0 F1 F2 z =>
    use self;;
    if n <? TS then ub else
      use self;; destroy_E F0;; use self;; destroy_tdceig F1;; use self;; destroy_tdceig F2;; freef self z;; free self
  end.
(** 54-170 and 172-288 *)
Fixpoint sdtdc_eig (fuel : nat) (T Sm : symtri) : prog tdceig :=
  match fuel with
  | O => ub
  | S fuel =>
    use (st_self T);; let n := st_n T in
    self <- new;;
    if n <? TS then
      V <- malloc (n * n);; lambda <- malloc n;; st_definite_eig T Sm;; ret (TDCLeaf self n V lambda)
    else
      let s := Z.shiftr n 1 in
      y <- malloc n;; use (st_self T);; use (st_self Sm);;
      T1 <- new_symtri s;; S1 <- new_symtri s;; T2 <- new_symtri (n - s);; S2 <- new_symtri (n - s);;
      F1 <- sdtdc_eig fuel T1 S1;; F2 <- sdtdc_eig fuel T2 S2;;
      z <- malloc n;; use (tdc_self F1);; use (tdc_self F2);;
      d <- malloc n;; use (tdc_self F1);; use (tdc_self F2);;
      a <- new;; let A := DPR1 a d z n in
      zb <- malloc n;; b <- new;; let B := IDPR1 b zb in
      F0 <- eig A B;;
      destroy_symtri T1;; destroy_symtri T2;; destroy_symtri S1;; destroy_symtri S2;;
      destroy_dpr1 A;; destroy_idpr1 B;;
      ret (TDCNode self n F0 F1 F2 y)
  end.
(** drop_precision.c 1-23 and 25-45 *)
Fixpoint drop_tdceig (F : tdceig) : prog tdceig :=
  match F with
  | TDCLeaf self2 n V2 lambda2 =>
    use self2;; self <- new;;
    if n <? TS then V <- malloc (n * n);; use V2;; lambda <- malloc n;; use lambda2;; ret (TDCLeaf self n V lambda) else ub
  | TDCNode self2 n F02 F12 F22 z2 =>
    use self2;; self <- new;;
    if n <? TS then ub else
      F0 <- drop F02;; use self2;; F1 <- drop_tdceig F12;; use self2;; F2 <- drop_tdceig F22;; z <- malloc n;;
      ret (TDCNode self n F0 F1 F2 z)
  end.
End Tdc.
End Sizes.
Arguments TDCLeaf {E} self n V lambda.
Arguments TDCNode {E} self n F0 F1 F2 z.
