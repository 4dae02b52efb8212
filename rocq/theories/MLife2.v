(** * Model of the allocations and frees of the connection transforms and of the modified plans

    As in MLife.v, only the memory blocks are modelled.  Parameters of the polynomial families, which
    do not decide which blocks are allocated, are left out. *)
From Coq Require Import ZArith List Bool.
From Verif Require Import SpecHeap MHeap MLife.
Import ListNotations.
Open Scope Z_scope.
Open Scope prog_scope.

(** ** Operators of the classical polynomials: src/banded_source.c *)
(** 1774-1794, 1905-1925, 1984-2004: create_{jacobi,laguerre,hermite}_derivative *)
Definition op_derivative (m n order : Z) : prog banded := alloc_banded m n (- order) order.
(** 1797-1840, 1928-1945, 2007-2022: create_{jacobi,laguerre,hermite}_multiplication *)
Definition op_multiplication (m n : Z) : prog banded := alloc_banded m n 1 1.
(** 1843-1872 and 1875-1902: create_jacobi_raising, create_jacobi_lowering *)
Definition op_jacobi_raising (m n : Z) : prog banded := alloc_banded m n 0 2.
Definition op_jacobi_lowering (m n : Z) : prog banded := alloc_banded m n 2 0.
(** 1948-1963 and 1966-1981: create_laguerre_raising, create_laguerre_lowering *)
Definition op_laguerre_raising (m n : Z) : prog banded := alloc_banded m n 0 1.
Definition op_laguerre_lowering (m n : Z) : prog banded := alloc_banded m n 1 0.
(** a multiplication or sum of operators reads the structs and writes into the third *)
Definition read2 (A B : banded) : prog unit := use (bd_self A);; use (bd_self B).

(** ** Pencils *)
(** 2316-2430: create_{A,B}_legendre_to_chebyshev, _chebyshev_to_legendre, _ultraspherical_to_ultraspherical *)
Definition pencil_direct (n : Z) : prog tbanded := alloc_tbanded n 2.
(** 2432-2451 *)
Definition A_jacobi (n : Z) : prog tbanded :=
  A <- alloc_banded n n 0 2;;
  D1 <- op_derivative n n 1;; D2 <- op_derivative n n 2;; L1 <- op_jacobi_lowering n n;; M1 <- op_multiplication n n;;
  read2 D1 D2;; read2 L1 M1;;
  destroy_banded D1;; destroy_banded D2;; destroy_banded L1;; destroy_banded M1;;
  convert_banded A.
(** 2453-2456 *)
Definition B_jacobi (n : Z) : prog tbanded := B <- op_jacobi_raising n n;; convert_banded B.
(** 2458-2473 *)
Definition A_laguerre (n : Z) : prog tbanded := alloc_tbanded n 1.
(** 2475-2478 *)
Definition B_laguerre (n : Z) : prog tbanded := B <- op_laguerre_raising n n;; convert_banded B.
(** 2480-2577 *)
Definition A_associated_jacobi (n : Z) : prog tbanded :=
  A <- alloc_banded n n 0 4;;
  D1 <- op_derivative n n 1;; D2 <- op_derivative n n 2;; D3 <- op_derivative n n 3;; D4 <- op_derivative n n 4;;
  R0 <- op_jacobi_raising n n;; R1 <- op_jacobi_raising n n;;
  L1 <- op_jacobi_lowering n n;; L2 <- op_jacobi_lowering n n;; L3 <- op_jacobi_lowering n n;;
  M2 <- op_multiplication n n;;
  A4a <- alloc_banded n n (-2) 4;; read2 L3 D4;; A4 <- alloc_banded n n 0 4;; read2 L2 A4a;;
  A3a <- alloc_banded n n (-1) 3;; read2 L2 D3;; A3 <- alloc_banded n n 0 4;; read2 M2 A3a;;
  A2a <- alloc_banded n n 0 2;; read2 L1 D2;; A2b <- alloc_banded n n 0 4;; read2 R1 A2a;;
  A2c <- alloc_banded n n (-1) 3;; read2 R1 D2;; A2 <- alloc_banded n n 0 4;; read2 M2 A2c;;
  A1a <- alloc_banded n n (-1) 3;; read2 R1 D1;; A1b <- alloc_banded n n 0 4;; read2 M2 A1a;;
  A1 <- alloc_banded n n 0 4;; read2 A1a A1b;;
  A0 <- alloc_banded n n 0 4;; read2 R1 R0;; read2 A4 A3;; read2 A2 A1;; read2 A0 A;;
  destroy_banded D1;; destroy_banded D2;; destroy_banded D3;; destroy_banded D4;;
  destroy_banded R0;; destroy_banded R1;; destroy_banded L1;; destroy_banded L2;; destroy_banded L3;; destroy_banded M2;;
  destroy_banded A4a;; destroy_banded A4;; destroy_banded A3a;; destroy_banded A3;;
  destroy_banded A2a;; destroy_banded A2b;; destroy_banded A2c;; destroy_banded A2;;
  destroy_banded A1a;; destroy_banded A1b;; destroy_banded A1;; destroy_banded A0;;
  convert_banded A.
(** 2579-2622 *)
Definition B_associated_jacobi (n : Z) : prog tbanded :=
  B <- alloc_banded n n 0 4;;
  D1 <- op_derivative n n 1;; D2 <- op_derivative n n 2;; R0 <- op_jacobi_raising n n;; R1 <- op_jacobi_raising n n;;
  L1 <- op_jacobi_lowering n n;; M2 <- op_multiplication n n;;
  B2a <- alloc_banded n n 0 2;; read2 L1 D2;; B2 <- alloc_banded n n 0 4;; read2 R1 B2a;;
  B1a <- alloc_banded n n (-1) 3;; read2 R1 D1;; B1 <- alloc_banded n n 0 4;; read2 M2 B1a;; read2 R1 R0;; read2 B2 B1;;
  destroy_banded D1;; destroy_banded D2;; destroy_banded R0;; destroy_banded R1;; destroy_banded L1;; destroy_banded M2;;
  destroy_banded B2a;; destroy_banded B2;; destroy_banded B1a;; destroy_banded B1;;
  convert_banded B.
(** 2624-2636 *)
Definition C_associated_jacobi (n : Z) : prog tbanded :=
  C <- alloc_banded n n 0 4;; R0 <- op_jacobi_raising n n;; R1 <- op_jacobi_raising n n;; read2 R1 R0;;
  destroy_banded R0;; destroy_banded R1;; convert_banded C.
(** 2638-2725 *)
Definition A_associated_laguerre (n : Z) : prog tbanded :=
  A <- alloc_banded n n 0 4;;
  D1 <- op_derivative n n 1;; D2 <- op_derivative n n 2;; D3 <- op_derivative n n 3;; D4 <- op_derivative n n 4;;
  R0 <- op_laguerre_raising n n;; R1 <- op_laguerre_raising n n;;
  L2 <- op_laguerre_lowering n n;; L3 <- op_laguerre_lowering n n;; M2 <- op_multiplication n n;;
  A4a <- alloc_banded n n (-3) 4;; read2 L3 D4;; A4 <- alloc_banded n n (-2) 4;; read2 L2 A4a;;
  A3 <- alloc_banded n n (-2) 3;; read2 L2 D3;;
  A2a <- alloc_banded n n (-1) 3;; read2 R1 D2;; A2b <- alloc_banded n n 0 4;; read2 M2 A2a;;
  A2 <- alloc_banded n n 0 4;; read2 A2a A2b;;
  A1a <- alloc_banded n n (-1) 2;; read2 R1 D1;; A1b <- alloc_banded n n 0 3;; read2 M2 A1a;;
  A1 <- alloc_banded n n 0 3;; read2 A1a A1b;;
  A0 <- alloc_banded n n 0 2;; read2 R1 R0;; read2 A4 A3;; read2 A2 A1;; read2 A0 A;;
  destroy_banded D1;; destroy_banded D2;; destroy_banded D3;; destroy_banded D4;;
  destroy_banded R0;; destroy_banded R1;; destroy_banded L2;; destroy_banded L3;; destroy_banded M2;;
  destroy_banded A4a;; destroy_banded A4;; destroy_banded A3;; destroy_banded A2a;; destroy_banded A2b;; destroy_banded A2;;
  destroy_banded A1a;; destroy_banded A1b;; destroy_banded A1;; destroy_banded A0;;
  convert_banded A.
(** 2727-2758 *)
Definition B_associated_laguerre (n : Z) : prog tbanded :=
  B <- alloc_banded n n 0 3;;
  D1 <- op_derivative n n 1;; D2 <- op_derivative n n 2;; R1 <- op_laguerre_raising n n;; M2 <- op_multiplication n n;;
  B2 <- alloc_banded n n (-1) 3;; read2 R1 D2;; B1 <- alloc_banded n n (-1) 2;; read2 R1 D1;; read2 B2 B1;; read2 M2 B;;
  destroy_banded D1;; destroy_banded D2;; destroy_banded R1;; destroy_banded M2;;
  destroy_banded B2;; destroy_banded B1;;
  convert_banded B.
(** 2760-2772 *)
Definition C_associated_laguerre (n : Z) : prog tbanded :=
  C <- alloc_banded n n 0 2;; R0 <- op_laguerre_raising n n;; R1 <- op_laguerre_raising n n;; read2 R1 R0;;
  destroy_banded R0;; destroy_banded R1;; convert_banded C.
(** 2774-2836 *)
Definition A_associated_hermite (n : Z) : prog tbanded :=
  A <- alloc_banded n n 0 4;;
  D1 <- op_derivative n n 1;; D2 <- op_derivative n n 2;; D4 <- op_derivative n n 4;;
  M1 <- op_multiplication n n;; Ma <- op_multiplication n (n + 1);; Mb <- op_multiplication (n + 1) n;;
  M2 <- alloc_banded n n 2 2;; read2 Ma Mb;;
  A4 <- alloc_banded n n (-4) 4;; read2 D4 A4;;
  A2a <- alloc_banded n n 0 4;; read2 M2 D2;; A2 <- alloc_banded n n 0 4;; read2 A2a D2;;
  A1 <- alloc_banded n n 0 2;; read2 M1 D1;; A0 <- alloc_banded n n 0 0;; read2 A4 A2;; read2 A1 A0;; use (bd_self A);;
  destroy_banded D1;; destroy_banded D2;; destroy_banded D4;; destroy_banded M1;;
  destroy_banded Ma;; destroy_banded Mb;; destroy_banded M2;;
  destroy_banded A4;; destroy_banded A2a;; destroy_banded A2;; destroy_banded A1;; destroy_banded A0;;
  convert_banded A.
(** 2838-2845: D2 is not destroyed *)
Definition B_associated_hermite (n : Z) : prog tbanded :=
  B <- alloc_banded n n 0 2;; D2 <- op_derivative n n 2;; read2 B D2;; convert_banded B.
(** 2847 *)
Definition C_associated_hermite (n : Z) : prog tbanded := create_I_tbanded n 0.
(** 2850-2911 and 2944-3003: create_A_half_chebyshev_to_chebyshev, create_A_chebyshev_to_half_chebyshev *)
Definition A_half_chebyshev (n : Z) : prog tbanded :=
  A <- alloc_banded n n 0 4;;
  DTU <- alloc_banded n n (-1) 1;; D12 <- alloc_banded n n (-1) 1;; R12 <- alloc_banded n n 0 2;; X2 <- alloc_banded n n 1 1;;
  A2 <- alloc_banded n n 0 4;; A2a <- alloc_banded n n 0 2;; read2 D12 DTU;; A2b <- alloc_banded n n 1 3;; read2 X2 A2a;;
  A1 <- alloc_banded n n 0 4;; A1a <- alloc_banded n n 1 3;; read2 R12 DTU;; read2 A2 A2b;; read2 A1 A1a;; use (bd_self A);;
  destroy_banded DTU;; destroy_banded D12;; destroy_banded R12;; destroy_banded X2;;
  destroy_banded A2a;; destroy_banded A2b;; destroy_banded A2;; destroy_banded A1a;; destroy_banded A1;;
  convert_banded A.
(** 2913-2941 and 3003 *)
Definition B_half_chebyshev (n : Z) : prog tbanded :=
  B <- alloc_banded n n 0 4;; RTU <- alloc_banded n n 0 2;; R12 <- alloc_banded n n 0 2;; read2 R12 RTU;; use (bd_self B);;
  destroy_banded RTU;; destroy_banded R12;; convert_banded B.

(** the families of connection problems with a pencil A, B *)
Inductive family := Legendre_Chebyshev | Ultraspherical | Jacobi | Laguerre | Half_Chebyshev.
Definition create_A (f : family) (n : Z) : prog tbanded :=
  match f with
  | Legendre_Chebyshev | Ultraspherical => pencil_direct n
  | Jacobi => A_jacobi n
  | Laguerre => A_laguerre n
  | Half_Chebyshev => A_half_chebyshev n
  end.
Definition create_B (f : family) (n : Z) : prog tbanded :=
  match f with
  | Legendre_Chebyshev | Ultraspherical => pencil_direct n
  | Jacobi => B_jacobi n
  | Laguerre => B_laguerre n
  | Half_Chebyshev => B_half_chebyshev n
  end.
(** the families of associated polynomials, with a quadratic pencil A, B, C *)
Inductive associated := Associated_Jacobi | Associated_Laguerre | Associated_Hermite.
Definition associated_A (f : associated) (n : Z) : prog tbanded :=
  match f with Associated_Jacobi => A_associated_jacobi n | Associated_Laguerre => A_associated_laguerre n | Associated_Hermite => A_associated_hermite n end.
Definition associated_B (f : associated) (n : Z) : prog tbanded :=
  match f with Associated_Jacobi => B_associated_jacobi n | Associated_Laguerre => B_associated_laguerre n | Associated_Hermite => B_associated_hermite n end.
Definition associated_C (f : associated) (n : Z) : prog tbanded :=
  match f with Associated_Jacobi => C_associated_jacobi n | Associated_Laguerre => C_associated_laguerre n | Associated_Hermite => C_associated_hermite n end.

(** ** Dense plans: src/transforms.c *)
(** 50-64, 66-80, 82-96, 98-112, 114-128, 265-279, 297-311 *)
Definition plan_dense (f : family) (n : Z) : prog Z :=
  A <- create_A f n;; B <- create_B f n;; Vl <- malloc (n * n);; use (tb_self A);; use (tb_self B);;
  V <- malloc (n * n);; destroy_tbanded A;; destroy_tbanded B;; free Vl;; ret V.
(** the scaling of rows or columns when the standard normalization is asked for, e.g. 130-144 *)
Definition rescale (norm : bool) (n : Z) : prog unit := if norm then ret tt else scl <- malloc n;; free scl.
(** 130-144 and 146-160: plan_jacobi_to_ultraspherical, plan_ultraspherical_to_jacobi;
    162-173 and 175-186: plan_jacobi_to_chebyshev, plan_chebyshev_to_jacobi *)
Definition plan_dense_scaled (norm : bool) (n : Z) : prog Z := V <- plan_dense Jacobi n;; rescale norm n;; ret V.
(** 188-199 and 201-212: plan_ultraspherical_to_chebyshev, plan_chebyshev_to_ultraspherical *)
Definition plan_dense_scaled2 (norm1 norm2 : bool) (n : Z) : prog Z :=
  V <- plan_dense_scaled norm1 n;; rescale norm2 n;; ret V.
(** 214-230, 232-248, 250-263 *)
Definition plan_dense_associated (f : associated) (n : Z) : prog Z :=
  A <- associated_A f n;; B <- associated_B f n;; C <- associated_C f n;; Vl <- malloc (n * n);;
  use (tb_self A);; use (tb_self B);; use (tb_self C);; V <- malloc (n * n);;
  destroy_tbanded A;; destroy_tbanded B;; destroy_tbanded C;; free Vl;; ret V.

(** ** Fast plans: src/transforms_source.c *)
Section Fast.
Variables (thr rank BS : Z).
(** 1-69 *)
Definition plan_fast (f : family) (n : Z) : prog tbeig :=
  A <- create_A f n;; B <- create_B f n;; D <- malloc n;;
  F2 <- tb_eig_FMM thr rank BS (depth (tb_n A)) A B;;
  F <- drop_tbeig thr rank BS F2;;
  destroy_tbanded A;; destroy_tbanded B;; destroy_tbeig BS F2;; free D;; ret F.
(** 71-129 *)
Definition plan_fast_scaled (norm : bool) (n : Z) : prog tbeig :=
  F <- plan_fast Jacobi n;; use (tbe_self F);; rescale norm n;; ret F.
(** 131-161 *)
Definition plan_fast_scaled2 (norm1 norm2 : bool) (n : Z) : prog tbeig :=
  F <- plan_fast_scaled norm1 n;; use (tbe_self F);; rescale norm2 n;; ret F.
(** the bandwidth of the blocks of the second matrix, e.g. 165 *)
Definition associated_band (f : associated) : Z :=
  match f with Associated_Jacobi => 4 | Associated_Laguerre => 2 | Associated_Hermite => 0 end.
(** 163-179, 181-197, 199-212 *)
Definition plan_fast_associated (f : associated) (n : Z) : prog btbeig :=
  a00 <- associated_A f n;; a01 <- associated_B f n;; a10 <- alloc_tbanded n 4;; a11 <- create_I_tbanded n 4;;
  b00 <- alloc_tbanded n (associated_band f);; b01 <- associated_C f n;;
  b10 <- create_I_tbanded n (associated_band f);; b11 <- alloc_tbanded n (associated_band f);;
  A <- create_block2 a00 a01 a10 a11;; B <- create_block2 b00 b01 b10 b11;; D <- malloc (2 * n);;
  F2 <- btb_eig_FMM thr rank BS A B;; F <- drop_btbeig thr rank BS F2;;
  destroy_block2 A;; destroy_block2 B;; destroy_btbeig BS F2;; free D;; ret F.
End Fast.

(** ** Modified plans: src/banded_source.c *)
Record modplan := ModPlan { mp_self : Z; mp_K : option tbanded; mp_R : tbanded; mp_n : Z; mp_nu : Z; mp_nv : Z }.
(** 68-78 *)
Definition destroy_modplan (P : modplan) : prog unit :=
  use (mp_self P);;
  (if mp_nv P <? 1 then destroy_tbanded (mp_R P)
   else K <- field (mp_K P);; destroy_tbanded K;; use (mp_self P);; destroy_tbanded (mp_R P));;
  free (mp_self P).
(** 3006-3080: operator_normalized_{jacobi,laguerre,hermite}_clenshaw *)
Definition normalized_clenshaw (n nc : Z) : prog banded :=
  X <- op_multiplication (n + nc) (n + nc);; A <- malloc nc;; B <- malloc nc;; C <- malloc (nc + 1);;
  Mlong <- op_clenshaw nc X;; M <- alloc_banded n n (nc - 1) (nc - 1);; use (bd_self M);; use (bd_self Mlong);;
  destroy_banded X;; destroy_banded Mlong;; free A;; free B;; free C;; ret M.
Section Modified.
Variable NMAX : Z. (* FT_MODIFIED_NMAX *)
(** 1521-1561: the loop on the dimension N of the QL factorization; whether the bound of 1553 holds depends on the data *)
Fixpoint modified_ql (fuel : nat) (N nu nv : Z) : prog bqr :=
  match fuel with
  | O => ub
  | S fuel =>
    V <- normalized_clenshaw (N + nu + nv) nv;; Vb <- malloc (N * (nv - 1));; use (bd_self V);;
    let V := Banded (bd_self V) (bd_data V) N N (bd_l V) (bd_u V) in
    F <- banded_fact true V;; use (qr_self F);; free Vb;; destroy_banded V;;
    small <- pick;;
    if ((NMAX <? N) || negb (small =? 0))%bool then ret F else destroy_bqr F;; modified_ql fuel (Z.shiftl N 1) nu nv
  end.
(** 1504-1607 *)
Definition plan_modified (fuel : nat) (n nu nv : Z) : prog modplan :=
  self <- new;;
  if nv <? 1 then
    U <- normalized_clenshaw n nu;; use (bd_self U);; R <- convert_banded U;; ret (ModPlan self None R n nu nv)
  else
    F <- modified_ql fuel (2 * n) nu nv;;
    use (qr_self F);; use (bd_self (qr_factors F));;
    let m := n + nu + nv in
    U <- normalized_clenshaw m nu;;
    Lt <- alloc_banded m m 0 (bd_l (qr_factors F));; use (qr_self F);; use (bd_self (qr_factors F));;
    D <- malloc m;;
    ULt <- alloc_banded m m (nu + nv - 2) (nu + 2 * nv - 3);; read2 U Lt;;
    partial_bqmm F ULt;;
    QtULt <- alloc_banded n n (nu + nv - 2) (nu + nv - 2);; read2 QtULt ULt;;
    K <- convert_banded QtULt;;
    use (bd_self Lt);; R <- alloc_tbanded n (bd_u Lt);;
    free D;; destroy_banded U;; destroy_banded Lt;; destroy_banded ULt;; destroy_bqr F;;
    ret (ModPlan self (Some K) R n nu nv).
End Modified.
