(** * Connection coefficients of classical orthogonal polynomials (C56) and their eigenvalue problems (C57)

    The families are characterised by their three-term recurrences and their squared norms ([SpecClassical],
    [SpecConn]); [fam true P h] is the orthonormal family, [fam false P h] the standard one.  tgamma and
    pow(2, .) are arguments; their values enter through the mass h 0 of each weight. *)
From Coq Require Import ZArith List Bool Reals Lra Lia.
From Verif Require Import Arith Base SpecBanded SpecEig SpecClassical SpecConn MBanded MClassical MConn PClass6 PClass8 PPoly PPenJ PPenU PPenC PPenL PDiag.
Import ListNotations.
Open Scope Z_scope.

(** ** C56: the matrix of connection coefficients exists, is unique, and the library's arrays hold its diagonal *)
Theorem C56_one_connection_jacobi : forall n1 n2 n a b c e P Q hP hQ, (-1 < a)%R -> (-1 < b)%R -> (-1 < c)%R -> (-1 < e)%R ->
  is_jacobi a b P -> is_jacobi c e Q -> jacobi_norms a b hP -> jacobi_norms c e hQ -> one_connection n (fam n1 P hP) (fam n2 Q hQ).
Proof. exact jac_one. Qed.
Print Assumptions C56_one_connection_jacobi.
Theorem C56_one_connection_laguerre : forall n1 n2 n a b P Q hP hQ, (-1 < a)%R -> (-1 < b)%R ->
  is_laguerre a P -> is_laguerre b Q -> laguerre_norms a hP -> laguerre_norms b hQ -> one_connection n (fam n1 P hP) (fam n2 Q hQ).
Proof. exact lag_one. Qed.
Print Assumptions C56_one_connection_laguerre.
Theorem C56_one_connection_ultraspherical : forall n1 n2 n la mu P Q hP hQ, (- 1 / 2 < la)%R -> la <> 0%R -> (- 1 / 2 < mu)%R -> mu <> 0%R ->
  is_ultraspherical la P -> is_ultraspherical mu Q -> ultraspherical_norms la hP -> ultraspherical_norms mu hQ -> one_connection n (fam n1 P hP) (fam n2 Q hQ).
Proof. exact ult_one. Qed.
Print Assumptions C56_one_connection_ultraspherical.
Theorem C56_one_connection_legendre_chebyshev : forall n1 n2 n P Q hP hQ, is_jacobi 0 0 P -> is_chebyshev Q -> jacobi_norms 0 0 hP -> chebyshev_norms hQ ->
  one_connection n (fam n1 P hP) (fam n2 Q hQ) /\ one_connection n (fam n2 Q hQ) (fam n1 P hP).
Proof. exact legcheb_one. Qed.
Print Assumptions C56_one_connection_legendre_chebyshev.

Theorem C56_jacobi_diagonal : forall (tgamma pow2 : R -> R) (n1 n2 : bool) (n incd : Z) (a b c e : R) (P Q : Z -> R -> R) (hP hQ : Z -> R) (U : Z -> Z -> R) (D : list R),
  (-1 < a)%R -> (-1 < b)%R -> (-1 < c)%R -> (-1 < e)%R -> 0 <= n -> 1 <= incd -> (n - 1) * incd < zlen D ->
  is_jacobi a b P -> is_jacobi c e Q -> jacobi_norms a b hP -> jacobi_norms c e hQ ->
  (forall x, (0 < x)%R -> (0 < tgamma x)%R) -> (forall x, (0 < pow2 x)%R) ->
  hP 0 = (pow2 (a + b + 1) * tgamma (a + 1) * tgamma (b + 1) / tgamma (a + b + 2))%R ->
  hQ 0 = (pow2 (c + e + 1) * tgamma (c + 1) * tgamma (e + 1) / tgamma (c + e + 2))%R ->
  connects n U (fam n1 P hP) (fam n2 Q hQ) ->
  exists D', jacobi_diag tgamma pow2 n1 n2 n a b c e incd D = Some D' /\ holds_diag n incd U D D'.
Proof. exact jac_diag_ok. Qed.
Print Assumptions C56_jacobi_diagonal.
Theorem C56_laguerre_diagonal : forall (tgamma : R -> R) (n1 n2 : bool) (n incd : Z) (a b : R) (P Q : Z -> R -> R) (hP hQ : Z -> R) (U : Z -> Z -> R) (D : list R),
  (-1 < a)%R -> (-1 < b)%R -> 0 <= n -> 1 <= incd -> (n - 1) * incd < zlen D ->
  is_laguerre a P -> is_laguerre b Q -> laguerre_norms a hP -> laguerre_norms b hQ ->
  hP 0 = tgamma (a + 1)%R -> hQ 0 = tgamma (b + 1)%R -> connects n U (fam n1 P hP) (fam n2 Q hQ) ->
  exists D', laguerre_diag tgamma n1 n2 n a b incd D = Some D' /\ holds_diag n incd U D D'.
Proof. exact lag_diag_ok. Qed.
Print Assumptions C56_laguerre_diagonal.
Theorem C56_ultraspherical_diagonal : forall (tgamma : R -> R) (n1 n2 : bool) (n incd : Z) (la mu : R) (P Q : Z -> R -> R) (hP hQ : Z -> R) (U : Z -> Z -> R) (D : list R),
  (- 1 / 2 < la)%R -> la <> 0%R -> (- 1 / 2 < mu)%R -> mu <> 0%R -> 0 <= n -> 1 <= incd -> (n - 1) * incd < zlen D ->
  is_ultraspherical la P -> is_ultraspherical mu Q -> ultraspherical_norms la hP -> ultraspherical_norms mu hQ ->
  (forall x, (0 < x)%R -> (0 < tgamma x)%R) ->
  hP 0 = (tgamma (1/2) * tgamma (la + 1/2) / tgamma (la + 1))%R -> hQ 0 = (tgamma (1/2) * tgamma (mu + 1/2) / tgamma (mu + 1))%R ->
  connects n U (fam n1 P hP) (fam n2 Q hQ) ->
  exists D', ultra_diag tgamma n1 n2 n la mu incd D = Some D' /\ holds_diag n incd U D D'.
Proof. exact ult_diag_ok. Qed.
Print Assumptions C56_ultraspherical_diagonal.
Theorem C56_legendre_to_chebyshev_diagonal : forall (tgamma : R -> R) (nl nc : bool) (n incd : Z) (P Q : Z -> R -> R) (hP hQ : Z -> R) (U : Z -> Z -> R) (D : list R),
  0 <= n -> 1 <= incd -> (n - 1) * incd < zlen D -> is_jacobi 0 0 P -> is_chebyshev Q -> jacobi_norms 0 0 hP -> chebyshev_norms hQ ->
  (0 < tgamma (1/2))%R -> hP 0 = 2%R -> hQ 0 = (tgamma (1/2) * tgamma (1/2))%R -> connects n U (fam nl P hP) (fam nc Q hQ) ->
  exists D', leg2cheb_diag tgamma nl nc n incd D = Some D' /\ holds_diag n incd U D D'.
Proof. exact leg2cheb_diag_ok. Qed.
Print Assumptions C56_legendre_to_chebyshev_diagonal.
Theorem C56_chebyshev_to_legendre_diagonal : forall (tgamma : R -> R) (nl nc : bool) (n incd : Z) (P Q : Z -> R -> R) (hP hQ : Z -> R) (U : Z -> Z -> R) (D : list R),
  0 <= n -> 1 <= incd -> (n - 1) * incd < zlen D -> is_jacobi 0 0 P -> is_chebyshev Q -> jacobi_norms 0 0 hP -> chebyshev_norms hQ ->
  (0 < tgamma (1/2))%R -> hP 0 = 2%R -> hQ 0 = (tgamma (1/2) * tgamma (1/2))%R -> connects n U (fam nc Q hQ) (fam nl P hP) ->
  exists D', cheb2leg_diag tgamma nc nl n incd D = Some D' /\ holds_diag n incd U D D'.
Proof. exact cheb2leg_diag_ok. Qed.
Print Assumptions C56_chebyshev_to_legendre_diagonal.

(** ** C57: the connection coefficients are the generalized eigenvectors of the library's banded pencils *)
Theorem C57_jacobi_pencil : forall n1 n2 n a b c e P Q hP hQ d1 d2, (-1 < a)%R -> (-1 < b)%R -> (-1 < c)%R -> (-1 < e)%R -> 0 <= n ->
  n <= zlen d1 -> n <= zlen d2 -> is_jacobi a b P -> jacobi_norms a b hP -> is_jacobi c e Q -> jacobi_norms c e hQ ->
  exists A B, create_A_jacobi_to_jacobi d1 d2 n2 n a b c e = Some A /\ create_B_jacobi_to_jacobi n2 n c e = Some B /\ tb_b A = 2 /\ tb_b B = 2 /\
    forall U, connects n U (fam n1 P hP) (fam n2 Q hQ) -> diagonalizes n A B U (fun j => (IZR j * (IZR j + a + b + 1))%R).
Proof. exact jacobi_pencil_proof. Qed.
Print Assumptions C57_jacobi_pencil.
Theorem C57_laguerre_pencil : forall n1 n2 n a b P Q hP hQ data, (-1 < a)%R -> (-1 < b)%R -> 0 <= n -> 2 * n <= zlen data ->
  is_laguerre a P -> laguerre_norms a hP -> is_laguerre b Q -> laguerre_norms b hQ ->
  exists A B, create_A_laguerre_to_laguerre data n2 n a b = Some A /\ create_B_laguerre_to_laguerre n2 n b = Some B /\ tb_b A = 1 /\ tb_b B = 1 /\
    forall U, connects n U (fam n1 P hP) (fam n2 Q hQ) -> diagonalizes n A B U (fun j => IZR j).
Proof. exact laguerre_pencil_proof. Qed.
Print Assumptions C57_laguerre_pencil.
Theorem C57_ultraspherical_pencil : forall n1 n2 n la mu P Q hP hQ, (- 1 / 2 < la)%R -> la <> 0%R -> (- 1 / 2 < mu)%R -> mu <> 0%R -> 0 <= n ->
  is_ultraspherical la P -> ultraspherical_norms la hP -> is_ultraspherical mu Q -> ultraspherical_norms mu hQ ->
  exists A B, create_A_ultraspherical_to_ultraspherical n2 n la mu = Some A /\ create_B_ultraspherical_to_ultraspherical n2 n mu = Some B /\ tb_b A = 2 /\ tb_b B = 2 /\
    forall U, connects n U (fam n1 P hP) (fam n2 Q hQ) -> diagonalizes n A B U (fun j => (IZR j * (IZR j + 2 * la))%R).
Proof. exact ultra_pencil_proof. Qed.
Print Assumptions C57_ultraspherical_pencil.
Theorem C57_legendre_to_chebyshev_pencil : forall n1 n2 n P Q hP hQ, 0 <= n ->
  is_jacobi 0 0 P -> jacobi_norms 0 0 hP -> is_chebyshev Q -> chebyshev_norms hQ ->
  exists A B, create_A_legendre_to_chebyshev n2 n = Some A /\ create_B_legendre_to_chebyshev n2 n = Some B /\ tb_b A = 2 /\ tb_b B = 2 /\
    forall U, connects n U (fam n1 P hP) (fam n2 Q hQ) -> diagonalizes n A B U (fun j => (IZR j * (IZR j + 1))%R).
Proof. exact leg2cheb_pencil_proof. Qed.
Print Assumptions C57_legendre_to_chebyshev_pencil.
Theorem C57_chebyshev_to_legendre_pencil : forall n1 n2 n P Q hP hQ, 0 <= n ->
  is_chebyshev P -> chebyshev_norms hP -> is_jacobi 0 0 Q -> jacobi_norms 0 0 hQ ->
  exists A B, create_A_chebyshev_to_legendre n2 n = Some A /\ create_B_chebyshev_to_legendre n2 n = Some B /\ tb_b A = 2 /\ tb_b B = 2 /\
    forall U, connects n U (fam n1 P hP) (fam n2 Q hQ) -> diagonalizes n A B U (fun j => (IZR j * IZR j)%R).
Proof. exact cheb2leg_pencil_proof. Qed.
Print Assumptions C57_chebyshev_to_legendre_pencil.

(** ** Non-vacuity: families with the required norms exist *)
Example C56_C57_nonvacuous_jacobi : exists P hP Q hQ, is_jacobi (1/2) 0 P /\ jacobi_norms (1/2) 0 hP /\ is_jacobi 0 (-1/2) Q /\ jacobi_norms 0 (-1/2) hQ /\
  hP 0 = (exp (1/2 + 0 + 1) * 1 * 1 / 1)%R /\ hQ 0 = (exp (0 + -1/2 + 1) * 1 * 1 / 1)%R /\ exists U, connects 5 U (fam true P hP) (fam false Q hQ).
Proof.
  exists (std_jacobi (1/2) 0), (std_jacobi_norms (1/2) 0 (exp (1/2+0+1) * 1 * 1 / 1)%R), (std_jacobi 0 (-1/2)), (std_jacobi_norms 0 (-1/2) (exp (0+-1/2+1) * 1 * 1 / 1)%R).
  assert (H1 : is_jacobi (1/2) 0 (std_jacobi (1/2) 0)) by (apply std_jacobi_ok; lra). assert (H2 : is_jacobi 0 (-1/2) (std_jacobi 0 (-1/2))) by (apply std_jacobi_ok; lra).
  assert (N1 : jacobi_norms (1/2) 0 (std_jacobi_norms (1/2) 0 (exp (1/2+0+1) * 1 * 1 / 1)%R)) by (apply std_jacobi_norms_ok; try lra; pose proof (exp_pos (1/2+0+1)); lra).
  assert (N2 : jacobi_norms 0 (-1/2) (std_jacobi_norms 0 (-1/2) (exp (0+-1/2+1) * 1 * 1 / 1)%R)) by (apply std_jacobi_norms_ok; try lra; pose proof (exp_pos (0+-1/2+1)); lra).
  do 4 (split; [assumption|]). split; [reflexivity|split; [reflexivity|]]. apply (jac_one true false 5 (1/2) 0 0 (-1/2)); auto; lra.
Qed.
Example C56_C57_nonvacuous_ultraspherical : exists P hP Q hQ, is_ultraspherical (-1/4) P /\ ultraspherical_norms (-1/4) hP /\ is_ultraspherical 2 Q /\ ultraspherical_norms 2 hQ /\
  hP 0 = 1%R /\ hQ 0 = 1%R /\ exists U, connects 5 U (fam true P hP) (fam false Q hQ).
Proof.
  exists (std_ult (-1/4)), (std_ult_norms (-1/4) 1), (std_ult 2), (std_ult_norms 2 1).
  assert (N1 : ultraspherical_norms (-1/4) (std_ult_norms (-1/4) 1)) by (apply std_ult_norms_ok; lra). assert (N2 : ultraspherical_norms 2 (std_ult_norms 2 1)) by (apply std_ult_norms_ok; lra).
  split; [apply std_ult_ok|split; [exact N1|split; [apply std_ult_ok|split; [exact N2|]]]]. split; [reflexivity|split; [reflexivity|]].
  apply (ult_one true false 5 (-1/4) 2); auto using std_ult_ok; lra.
Qed.
Example C56_C57_nonvacuous_legendre_chebyshev : exists P hP Q hQ, is_jacobi 0 0 P /\ jacobi_norms 0 0 hP /\ is_chebyshev Q /\ chebyshev_norms hQ /\ hP 0 = 2%R /\ hQ 0 = (2 * 2)%R /\
  (exists U, connects 5 U (fam true P hP) (fam false Q hQ)) /\ exists U, connects 5 U (fam false Q hQ) (fam true P hP).
Proof.
  exists (std_jacobi 0 0), (std_jacobi_norms 0 0 2), std_cheb, (std_cheb_norms (2*2)).
  assert (H1 : is_jacobi 0 0 (std_jacobi 0 0)) by (apply std_jacobi_ok; lra). assert (N1 : jacobi_norms 0 0 (std_jacobi_norms 0 0 2)) by (apply std_jacobi_norms_ok; lra).
  assert (N2 : chebyshev_norms (std_cheb_norms (2*2))) by (apply std_cheb_norms_ok; lra).
  split; [auto|split; [auto|split; [apply std_cheb_ok|split; [auto|]]]]. split; [reflexivity|split; [reflexivity|]].
  destruct (legcheb_one true false 5 _ _ _ _ H1 std_cheb_ok N1 N2) as [[A _] [B _]]. split; auto.
Qed.
Example C56_C57_nonvacuous_laguerre : exists P hP Q hQ, is_laguerre 0 P /\ laguerre_norms 0 hP /\ is_laguerre (3/2) Q /\ laguerre_norms (3/2) hQ /\ hP 0 = 1%R /\ hQ 0 = 1%R /\
  exists U, connects 5 U (fam true P hP) (fam false Q hQ).
Proof.
  exists (std_laguerre 0), (std_laguerre_norms 0 1), (std_laguerre (3/2)), (std_laguerre_norms (3/2) 1).
  assert (N1 : laguerre_norms 0 (std_laguerre_norms 0 1)) by (apply std_laguerre_norms_ok; lra). assert (N2 : laguerre_norms (3/2) (std_laguerre_norms (3/2) 1)) by (apply std_laguerre_norms_ok; lra).
  split; [apply std_laguerre_ok|split; [exact N1|split; [apply std_laguerre_ok|split; [exact N2|]]]]. split; [reflexivity|split; [reflexivity|]].
  apply (lag_one true false 5 0 (3/2)); auto using std_laguerre_ok; lra.
Qed.
