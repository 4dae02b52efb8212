(** * Vocabulary: vector fields on the sphere in the arrays of the "sphv" transforms *)
From Coq Require Import ZArith List Reals Lra Factorial.
From Verif Require Import Base Arith SpecSum SpecIso SpecGeo.
Open Scope R_scope.

(** The polar factor of entry i of a column of azimuthal order m of a "sphv" array: the normalised
    associated Legendre function of order mu and degree mu+i (see SpecGeo.v), where mu = 1 for m = 0
    and mu = m-1 otherwise (drivers.c 204-220: columns of order m are transformed with order m-1) *)
Definition vsphP (m i : Z) (t : R) : R :=
  let mu := (if m =? 0 then 1 else m - 1)%Z in
  sqrt ((IZR (mu + i) + 1 / 2) * (INR (fact (Z.to_nat i)) / INR (fact (Z.to_nat (2 * mu + i))))) * fst (legendre2 (Z.to_nat mu) t (Z.to_nat i)) *
  sqrt ((if (m =? 0)%Z then 1 else 2) / (2 * PI)).

(** The component, at colatitude t and longitude phi, of the vector field with coefficients [A], an N by 2h+1 array
    with N entries in column 0 and N+1-m entries in the two columns of order m *)
Definition vector_series (N h : Z) (A : list R) (t phi : R) : R :=
  sumZ N (fun i => vsphP 0%Z i t * nthZ 0 A i) +
  sumZ h (fun k => let m := (k + 1)%Z in
    sumZ (N + 1 - m) (fun i => vsphP m i t * (nthZ 0 A (i + N * (2 * m - 1))%Z * sin (IZR m * phi) + nthZ 0 A (i + N * (2 * m))%Z * cos (IZR m * phi)))).

(** no coefficients of degree N or more: entry (i, q) has degree i + (q+1)/2 *)
Definition degrees_up_to (N M : Z) (A : list R) : Prop :=
  forall i q, (0 <= i < N -> 0 <= q < M -> N <= i + (q + 1) / 2 -> nthZ 0%R A (i + N * q) = 0%R)%Z.
