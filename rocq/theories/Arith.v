(** * Arithmetic of array elements

    Models are polymorphic in the operations on array elements.  Theorems that hold for
    every [Arith] (no laws assumed) are bit-exact statements: they hold for IEEE
    double/single precision as well as for exact arithmetic.  [R_arith] is exact real
    arithmetic. *)
From Coq Require Import ZArith Reals.

Class Arith (F : Type) := {
  zero : F; one : F;
  add : F -> F -> F; sub : F -> F -> F; mul : F -> F -> F; div : F -> F -> F;
  opp : F -> F; sqrtA : F -> F; absA : F -> F;
  ltb : F -> F -> bool; leb : F -> F -> bool; eqb : F -> F -> bool;
  ofZ : Z -> F
}.

Definition R_ltb (x y : R) : bool := if Rlt_dec x y then true else false.
Definition R_leb (x y : R) : bool := if Rle_dec x y then true else false.
Definition R_eqb (x y : R) : bool := if Req_EM_T x y then true else false.

#[global] Instance R_arith : Arith R := {|
  zero := 0%R; one := 1%R;
  add := Rplus; sub := Rminus; mul := Rmult; div := Rdiv;
  opp := Ropp; sqrtA := R_sqrt.sqrt; absA := Rabs;
  ltb := R_ltb; leb := R_leb; eqb := R_eqb; ofZ := IZR
|}.

(** Integer instance, used only for computed examples ([div] and [sqrt] truncate). *)
Definition Z_arith : Arith Z := {|
  zero := 0%Z; one := 1%Z;
  add := Z.add; sub := Z.sub; mul := Z.mul; div := Z.div;
  opp := Z.opp; sqrtA := Z.sqrt; absA := Z.abs;
  ltb := Z.ltb; leb := Z.leb; eqb := Z.eqb; ofZ := fun z => z
|}.
