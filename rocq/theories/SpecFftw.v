(** * Vocabulary for synthesis and analysis: the FFTW contract, grids, bases *)
From Coq Require Import ZArith List Reals Bool.
From Verif Require Import Base Arith SpecSum SpecLin MFftw MHarmonic SpecHarm.
Open Scope Z_scope.

(** The matrices of FFTW's real-to-real kinds (FFTW manual, sections 4.8.3 and 4.8.4): output [i], input [j]. *)
Definition kind_mat (k : kind) (n i j : Z) : R :=
  (let x := IZR i in let y := IZR j in let m := IZR n in
   match k with
   | REDFT10 => 2 * cos (PI * (y + / 2) * x / m)
   | REDFT01 => if (j =? 0)%Z then 1 else 2 * cos (PI * y * (x + / 2) / m)
   | RODFT10 => 2 * sin (PI * (y + / 2) * (x + 1) / m)
   | RODFT01 => if (j =? n - 1)%Z then (if Z.even i then 1 else -1) else 2 * sin (PI * (y + 1) * (x + / 2) / m)
   | REDFT11 => 2 * cos (PI * (y + / 2) * (x + / 2) / m)
   end)%R.

(** real and imaginary parts of the ft_complex at position [p] *)
Definition re (Y : list R) (p : Z) : R := nthZ 0%R Y (2 * p).
Definition im (Y : list R) (p : Z) : R := nthZ 0%R Y (2 * p + 1).
(** the angle 2 pi j k / n *)
Definition angle (n j k : Z) : R := (2 * PI * IZR j * IZR k / IZR n)%R.

(** The FFTW contract. *)
Record fftw_ok (FT : fftw R) : Prop := {
  (* [m] in-place transforms of length [n] on lines that lie in the array and do not meet *)
  ok_r2r : forall n m s d k X o, 0 < n -> 0 <= m ->
    (forall j i, 0 <= j < m -> 0 <= i < n -> 0 <= o + j * d + i * s < zlen X) ->
    (forall j i j' i', 0 <= j < m -> 0 <= i < n -> 0 <= j' < m -> 0 <= i' < n -> j * d + i * s = j' * d + i' * s -> j = j' /\ i = i') ->
    exists X', r2r FT n m s d k X o = Some X' /\ lines n s m (fun j => o + j * d) (fun _ => kind_mat k n) X X';
  (* row-major two- and three-dimensional transforms *)
  ok_r2r2 : forall n0 n1 k0 k1 X, 0 < n0 -> 0 < n1 -> zlen X = n0 * n1 ->
    exists X', r2r2 FT n0 n1 k0 k1 X = Some X' /\ zlen X' = n0 * n1 /\
      forall i0 i1, 0 <= i0 < n0 -> 0 <= i1 < n1 ->
      nthZ 0%R X' (i0 * n1 + i1) = sumZ n0 (fun j0 => sumZ n1 (fun j1 =>
        (kind_mat k0 n0 i0 j0 * kind_mat k1 n1 i1 j1 * nthZ 0%R X (j0 * n1 + j1)%Z)%R));
  ok_r2r3 : forall n0 n1 n2 k0 k1 k2 X, 0 < n0 -> 0 < n1 -> 0 < n2 -> zlen X = n0 * n1 * n2 ->
    exists X', r2r3 FT n0 n1 n2 k0 k1 k2 X = Some X' /\ zlen X' = n0 * n1 * n2 /\
      forall i0 i1 i2, 0 <= i0 < n0 -> 0 <= i1 < n1 -> 0 <= i2 < n2 ->
      nthZ 0%R X' ((i0 * n1 + i1) * n2 + i2) = sumZ n0 (fun j0 => sumZ n1 (fun j1 => sumZ n2 (fun j2 =>
        (kind_mat k0 n0 i0 j0 * kind_mat k1 n1 i1 j1 * kind_mat k2 n2 i2 j2 * nthZ 0%R X ((j0 * n1 + j1) * n2 + j2)%Z)%R)));
  (* [s] inverse transforms of odd length [n], stride [s]: input Hermitian, the first [n/2+1] entries given *)
  ok_c2r : forall n s Y X, 0 < n -> Z.odd n = true -> 0 < s -> zlen X = s * n -> zlen Y = 2 * (s * (n / 2 + 1)) ->
    exists X', c2r FT n s s Y X = Some X' /\ zlen X' = s * n /\
      forall i j, 0 <= i < s -> 0 <= j < n -> nthZ 0%R X' (i + j * s) =
        (re Y i + 2 * sumZ (n / 2) (fun k => re Y (i + (k + 1) * s)%Z * cos (angle n j (k + 1)) - im Y (i + (k + 1) * s)%Z * sin (angle n j (k + 1))))%R;
  (* [s] forward transforms of real data of length [n], stride [s] *)
  ok_r2c : forall n s X Y, 0 < n -> 0 < s -> zlen X = s * n -> zlen Y = 2 * (s * (n / 2 + 1)) ->
    exists Y', r2c FT n s s X Y = Some Y' /\ zlen Y' = 2 * (s * (n / 2 + 1)) /\
      forall i k, 0 <= i < s -> 0 <= k < n / 2 + 1 ->
        re Y' (i + k * s) = sumZ n (fun j => nthZ 0%R X (i + j * s)%Z * cos (angle n j k))%R /\
        im Y' (i + k * s) = (- sumZ n (fun j => nthZ 0%R X (i + j * s)%Z * sin (angle n j k)))%R;
  (* [s] complex transforms of length [n], stride [s], with exp(+i ..) when [back] *)
  ok_dft : forall (back : bool) n s X Y, 0 < n -> 0 < s -> zlen X = 2 * (s * n) -> zlen Y = 2 * (s * n) ->
    exists Y', dft FT back n s s X Y = Some Y' /\ zlen Y' = 2 * (s * n) /\
      forall i k, 0 <= i < s -> 0 <= k < n ->
        let g := if back then 1%R else (-1)%R in
        re Y' (i + k * s) = sumZ n (fun j => re X (i + j * s)%Z * cos (angle n j k) - g * (im X (i + j * s)%Z * sin (angle n j k)))%R /\
        im Y' (i + k * s) = sumZ n (fun j => im X (i + j * s)%Z * cos (angle n j k) + g * (re X (i + j * s)%Z * sin (angle n j k)))%R }.

(** the constants of ftinternal.h and math.h, exactly *)
Definition real_const : fconst R :=
  (Fconst (sqrt 2) (/ sqrt 2) (/ (4 * sqrt PI)) (4 * sqrt PI) (/ (2 * sqrt PI)) (2 * sqrt PI) (/ (2 * sqrt (2 * PI))) (2 * sqrt (2 * PI)))%R.

(** ** grids and bases *)
Definition theta (N k : Z) : R := (PI * (IZR k + / 2) / IZR N)%R.      (* (2k+1) pi / (2N) *)
Definition phi (M j : Z) : R := (2 * PI * IZR j / IZR M)%R.
(** the Fourier basis functions in the order cos 0, sin 1, cos 1, sin 2, cos 2, .., orthonormal on [0, 2 pi] *)
Definition azimuth (z : Z) (p : R) : R :=
  (if (z =? 0)%Z then / sqrt (2 * PI) else
   if Z.odd z then sin (IZR ((z + 1) / 2)%Z * p) / sqrt PI else cos (IZR (z / 2)%Z * p) / sqrt PI)%R.
(** columns of even order (0, 3, 4, 7, 8, ..) and of odd order (1, 2, 5, 6, ..) *)
Definition even_order (z : Z) : bool := (z mod 4 =? 0) || (z mod 4 =? 3).
Definition cosine (N l : Z) (t : R) : R := cos (IZR l * t).
(** sin t, .., sin((N-1) t), and half of sin(N t).  The last function is not in the span of the
    functions sin((l+1) t), l <= N-2, that the expansions of degree less than N need; the library
    passes its coefficient to FFTW as it is, and FFTW's convention (RODFT01) gives it half weight. *)
Definition sine (N l : Z) (t : R) : R := ((if (l =? N - 1)%Z then / 2 else 1) * sin ((IZR l + 1) * t))%R.
Definition half_cosine (N l : Z) (t : R) : R := cos ((IZR l + / 2) * t).
Definition sph_polar (N z l : Z) (t : R) : R := if even_order z then cosine N l t else sine N l t.
Definition sphv_polar (N z l : Z) (t : R) : R := if even_order z then sine N l t else cosine N l t.
(** on the disk, with radius cos(t/2): T_{2l}(r) = cos(l t), T_{2l+1}(r) = cos((l+1/2) t) *)
Definition disk_radial (N z l : Z) (t : R) : R := if even_order z then cosine N l t else half_cosine N l t.
(** on the rectangularised disk: cosines in the even columns, sines in the odd ones *)
Definition rectdisk_first (N z l : Z) (t : R) : R := if Z.even z then cosine N l t else sine N l t.
(** on the annulus of inner radius [rho]: the radius r at the angle t, r^2 = cos^2(t/2) + rho^2 sin^2(t/2);
    columns of odd order carry the factor r sqrt(2 / (1 - rho^2)) *)
Definition ann_radius (rho t : R) : R := sqrt (cos (t / 2) * cos (t / 2) + rho * rho * (sin (t / 2) * sin (t / 2))).
Definition ann_radial (rho : R) (N z l : Z) (t : R) : R :=
  ((if even_order z then 1 else ann_radius rho t * sqrt (2 / (1 - rho * rho))) * cosine N l t)%R.

(** [X] holds [N] by [M] coefficients, [X'] the values on the grid of the series with these coefficients
    in the functions [basis l z], at the points [(k, j)] *)
Definition grid_values (N M : Z) (basis : Z -> Z -> Z -> Z -> R) (X X' : list R) : Prop :=
  zlen X' = N * M /\
  forall k j, 0 <= k < N -> 0 <= j < M ->
    nthZ 0%R X' (k + j * N) = sumZ M (fun z => sumZ N (fun l => (basis l z k j * nthZ 0%R X (l + z * N)%Z)%R)).
(** [p] succeeds on every [N] by [M] array of coefficients and evaluates the series on the grid *)
Definition evaluates (N M : Z) (basis : Z -> Z -> Z -> Z -> R) (p : list R -> option (list R)) : Prop :=
  forall X, zlen X = N * M -> exists X', p X = Some X' /\ grid_values N M basis X X'.
(** the same in three variables, for [N] by [L] by [M] arrays and products of three functions *)
Definition evaluates3 (N L M : Z) (bN bL bM : Z -> Z -> R) (p : list R -> option (list R)) : Prop :=
  forall X, zlen X = N * L * M -> exists X', p X = Some X' /\ zlen X' = N * L * M /\
    forall i j k, 0 <= i < N -> 0 <= j < L -> 0 <= k < M ->
      nthZ 0%R X' (i + (j + k * L) * N) = sumZ M (fun c => sumZ L (fun b => sumZ N (fun a =>
        (bN a i * bL b j * bM c k * nthZ 0%R X (a + (b + c * L) * N)%Z)%R))).
(** ** complex series (functions of nonzero spin weight) *)
(** the orders of the columns: 0, -1, 1, -2, 2, .. *)
Definition order (z : Z) : Z := if Z.odd z then - ((z + 1) / 2) else z / 2.
Definition spin_polar (S N z l : Z) (t : R) : R := if Z.even S then sph_polar N z l t else sphv_polar N z l t.
(** as [evaluates], for complex coefficients and basis functions [br + i bi] *)
Definition cevaluates (N M : Z) (br bi : Z -> Z -> Z -> Z -> R) (p : list R -> option (list R)) : Prop :=
  forall X, zlen X = 2 * (N * M) -> exists X', p X = Some X' /\ zlen X' = 2 * (N * M) /\
    forall k j, 0 <= k < N -> 0 <= j < M ->
      re X' (k + j * N) = sumZ M (fun z => sumZ N (fun l => br l z k j * re X (l + z * N)%Z - bi l z k j * im X (l + z * N)%Z)%R) /\
      im X' (k + j * N) = sumZ M (fun z => sumZ N (fun l => br l z k j * im X (l + z * N)%Z + bi l z k j * re X (l + z * N)%Z)%R).
