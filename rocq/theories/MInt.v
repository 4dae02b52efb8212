(** * Index arithmetic in 32-bit int

    The int expressions of a function, in the order in which they are evaluated, with the loops
    around them.  Every operation is checked: a result outside [-2^31, 2^31-1], or a division by zero, is
    undefined behaviour in C and is the outcome [Overflow] here.  Values of other types (double,
    size_t) are not modelled: an expression stops where it is converted. *)
From Coq Require Import ZArith List Bool String.
From Verif Require Import Base.
Import ListNotations.
Open Scope Z_scope.

Definition int_min : Z := -2147483648.
Definition int_max : Z := 2147483647.
(** a result of type int *)
Definition chk (z : Z) : option Z := if (int_min <=? z) && (z <=? int_max) then Some z else None.

Definition env := string -> Z.
Definition upd (e : env) (x : string) (v : Z) : env := fun y => if String.eqb x y then v else e y.

(** int expressions: literals, variables, + - * / % and abs *)
Inductive iexp :=
| K (z : Z) | V (x : string) | Add (a b : iexp) | Sub (a b : iexp) | Mul (a b : iexp) | Quo (a b : iexp) | Rem (a b : iexp) | Abs (a : iexp) | Min (a b : iexp).
Fixpoint ev (e : env) (a : iexp) : option Z :=
  match a with
  | K z => chk z
  | V x => chk (e x)
  | Add a b => do u <- ev e a; do v <- ev e b; chk (u + v)
  | Sub a b => do u <- ev e a; do v <- ev e b; chk (u - v)
  | Mul a b => do u <- ev e a; do v <- ev e b; chk (u * v)
  | Quo a b => do u <- ev e a; do v <- ev e b; if v =? 0 then None else chk (Z.quot u v)
  | Rem a b => do u <- ev e a; do v <- ev e b; if v =? 0 then None else do _ <- chk (Z.quot u v); chk (Z.rem u v)
  | Abs a => do u <- ev e a; chk (Z.abs u)
  | Min a b => do u <- ev e a; do v <- ev e b; Some (Z.min u v)
  end.

(** the mathematical value of an expression *)
Fixpoint exact (e : env) (a : iexp) : Z :=
  match a with
  | K z => z | V x => e x | Add a b => exact e a + exact e b | Sub a b => exact e a - exact e b | Mul a b => exact e a * exact e b
  | Quo a b => Z.quot (exact e a) (exact e b) | Rem a b => Z.rem (exact e a) (exact e b) | Abs a => Z.abs (exact e a) | Min a b => Z.min (exact e a) (exact e b)
  end.

(** the order in a loop condition: x < b, x <= b, x >= b *)
Inductive cmp := Lt | Le | Ge.
Definition holds (c : cmp) (u v : Z) : bool := match c with Lt => u <? v | Le => u <=? v | Ge => v <=? u end.

Inductive cmd :=
| Use (a : iexp)                                             (* evaluate *)
| Seq (c d : cmd)
| For (x : string) (a : iexp) (c : cmp) (b : iexp) (st : Z) (body : cmd)   (* for (int x = a; x c b; x += st) body *)
| Call (ps : list (string * iexp)) (body : cmd).             (* a call: int parameters and their arguments *)

Inductive outcome := Done | Overflow | Endless.

(** a loop whose variable never takes a value twice ends within 2^32 rounds *)
Definition rounds : nat := Z.to_nat (2 ^ 32).
Fixpoint loop (r : nat) (body : env -> outcome) (x : string) (c : cmp) (b : iexp) (st : Z) (e : env) (v : Z) : outcome :=
  match r with
  | O => Endless
  | S r' =>
    match ev (upd e x v) b with
    | None => Overflow
    | Some w =>
      if holds c v w then
        match body (upd e x v) with
        | Done => match chk (v + st) with None => Overflow | Some v' => loop r' body x c b st e v' end
        | o => o
        end
      else Done
    end
  end.
Fixpoint args (e : env) (ps : list (string * iexp)) : option (list (string * Z)) :=
  match ps with [] => Some [] | (x, a) :: ps' => do v <- ev e a; do vs <- args e ps'; Some ((x, v) :: vs) end.
Fixpoint bindall (e : env) (vs : list (string * Z)) : env := match vs with [] => e | (x, v) :: vs' => upd (bindall e vs') x v end.
Fixpoint exec (c : cmd) (e : env) : outcome :=
  match c with
  | Use a => match ev e a with None => Overflow | Some _ => Done end
  | Seq c d => match exec c e with Done => exec d e | o => o end
  | For x a c b st body => match ev e a with None => Overflow | Some v => loop rounds (exec body) x c b st e v end
  | Call ps body => match args e ps with None => Overflow | Some vs => exec body (bindall e vs) end
  end.

(** several expressions in a row *)
Definition seq (cs : list cmd) : cmd := fold_right Seq (Use (K 0)) cs.
Definition uses (es : list iexp) : cmd := seq (map Use es).
Definition env0 : env := fun _ => 0.

Local Open Scope string_scope.
Declare Scope int_scope.
Delimit Scope int_scope with I.
Bind Scope int_scope with iexp.
Infix "+" := Add : int_scope.
Infix "-" := Sub : int_scope.
Infix "*" := Mul : int_scope.
Infix "/" := Quo : int_scope.
Infix "mod" := Rem : int_scope.
Local Notation n := (V "n").
Local Notation m := (V "m").
Local Notation l := (V "l").
Local Notation j := (V "j").
Local Notation k := (V "k").
Local Notation i := (V "i").
Local Notation NN := (V "N").
Local Notation MM := (V "M").
Local Notation LL := (V "L").
Local Notation SS := (V "S").
Local Notation as_ := (V "as").
Notation "0" := (K 0) : int_scope. Notation "1" := (K 1) : int_scope. Notation "2" := (K 2) : int_scope. Notation "3" := (K 3) : int_scope.
Notation "4" := (K 4) : int_scope. Notation "5" := (K 5) : int_scope.

(** the index macros of rotations.c 113-114, 170-171, 439-443 (and rotations/rotations.h) *)
Definition ix (a b : iexp) : iexp := (a + b * (2 * n + 1 - b) / 2)%I.
Definition ixd (a b : iexp) : iexp := (a + b * n - (b / 2) * ((b + 1) / 2))%I.
Definition ix1 (a b : iexp) : iexp := (a + b * n)%I.
Definition ix2 (a d b : iexp) : iexp := (a + d * n + b * as_ * n)%I.

(** ft_plan_rotsphere, rotations.c 116-133 *)
Definition c_plan_rotsphere : cmd :=
  seq [ Use (n * (n + 1) / 2)%I; Use (n * (n + 1) / 2)%I;
        For "m" (K 0) Lt n 1
         (For "l" (K 0) Lt (n - m)%I 1
           (uses [ ((l + 1) * (l + 2))%I; ((2 * m + 2) * (2 * l + 2 * m + 5))%I; ((l + 2 * m + 3) * (l + 2 * m + 4))%I; ix l m; ix l m ])) ].
(** ft_plan_rottriangle, rotations.c 143-160; the int parts of the mixed expressions *)
Definition c_plan_rottriangle : cmd :=
  seq [ Use (n * (n + 1) / 2)%I; Use (n * (n + 1) / 2)%I;
        For "m" (K 0) Lt n 1
         (For "l" (K 0) Lt (n - m)%I 1
           (uses [ (l + 1)%I; (2 * m)%I; (2 * l + 2 * m)%I; (l + 2 * m)%I; (l + 2 * m)%I; ix l m; ix l m ])) ].
(** ft_plan_rotdisk, rotations.c 173-190 *)
Definition c_plan_rotdisk : cmd :=
  seq [ Use (n * n)%I; Use (n * n)%I;
        For "m" (K 0) Lt (2 * n - 1)%I 1
         (For "l" (K 0) Lt (n - (m + 1) / 2)%I 1
           (uses [ (l + 1)%I; (2 * l + m)%I; (l + m)%I; (l + m)%I; ixd l m; ixd l m ])) ].
(** ft_plan_rotrectdisk, rotations.c 270-287 *)
Definition c_plan_rotrectdisk : cmd :=
  seq [ Use (n * (n + 1) / 2)%I; Use (n * (n + 1) / 2)%I;
        For "m" (K 0) Lt n 1
         (For "l" (K 0) Lt (n - m)%I 1
           (uses [ ((l + 1) * (l + 2))%I; (2 * m)%I; (2 * l + 2 * m)%I; (l + 2 * m)%I; (l + 2 * m)%I; ix l m; ix l m ])) ].
(** ft_plan_rotspinsphere, rotations.c 445-477 *)
Definition c_plan_rotspinsphere : cmd :=
  Call [ ("as", Abs (V "s")) ]
  (seq [ Use (n * n)%I; Use (n * n)%I;
        For "m" (K 0) Lt n 1
         (For "l" (K 0) Lt (n - m)%I 1
           (uses [ ((l + 1) * (l + 2))%I; ((2 * m + 2) * (2 * l + 2 * m + 5))%I; ((l + 2 * m + 3) * (l + 2 * m + 4))%I; ix1 l m; ix1 l m ]));
        Use (as_ * n * n)%I; Use (as_ * n * n)%I;
        For "m" (K 0) Lt n 1
         (For "j" (K 0) Lt as_ 1
           (For "l" (K 0) Lt (n - m - j)%I 1
             (uses [ ((l + 1) * (l + m + 1))%I; ((2 * j + m + 1) * (2 * l + 2 * j + 2 * m + 3))%I; ((l + 2 * j + m + 2) * (l + 2 * j + 2 * m + 2))%I; ix2 l j m; ix2 l j m ]))) ]).

(** kernel_sph_hi2lo_default (and kernel_rectdisk_hi2lo_default), rotations_default.c 33-38, 73-78 *)
Definition c_kernel_sph_hi2lo : cmd :=
  For "j" (V "m2" - 2)%I Ge (V "m1") (-2)
   (For "k" (n - 3 - j)%I Ge (K 0) (-1) (uses [ ix k j; ix k j; (k * SS)%I; ((k + 2) * SS)%I ])).
(** kernel_sph_lo2hi_default (and kernel_rectdisk_lo2hi_default), rotations_default.c 40-45, 80-85 *)
Definition c_kernel_sph_lo2hi : cmd :=
  For "j" (V "m1") Lt (V "m2") 2
   (For "k" (K 0) Le (n - 3 - j)%I 1 (uses [ ix k j; ix k j; (k * SS)%I; ((k + 2) * SS)%I ])).
(** kernel_tri_hi2lo_default, kernel_tri_lo2hi_default, rotations_default.c 47-59 *)
Definition c_kernel_tri_hi2lo : cmd :=
  For "j" (V "m2" - 1)%I Ge (V "m1") (-1)
   (For "k" (n - 2 - j)%I Ge (K 0) (-1) (uses [ ix k j; ix k j; (k * SS)%I; ((k + 1) * SS)%I ])).
Definition c_kernel_tri_lo2hi : cmd :=
  For "j" (V "m1") Lt (V "m2") 1
   (For "k" (K 0) Le (n - 2 - j)%I 1 (uses [ ix k j; ix k j; (k * SS)%I; ((k + 1) * SS)%I ])).
(** kernel_disk_hi2lo_default, kernel_disk_lo2hi_default, rotations_default.c 61-73 *)
Definition c_kernel_disk_hi2lo : cmd :=
  For "j" (V "m2" - 2)%I Ge (V "m1") (-2)
   (For "k" (n - 2 - (j + 1) / 2)%I Ge (K 0) (-1) (uses [ ixd k j; ixd k j; (k * SS)%I; ((k + 1) * SS)%I ])).
Definition c_kernel_disk_lo2hi : cmd :=
  For "j" (V "m1") Lt (V "m2") 2
   (For "k" (K 0) Le (n - 2 - (j + 1) / 2)%I 1 (uses [ ixd k j; ixd k j; (k * SS)%I; ((k + 1) * SS)%I ])).

(** a kernel called on the columns from N*(...) on *)
Definition kcall (kern : cmd) (m1 m2 off : iexp) : cmd := Seq (Use off) (Call [ ("n", NN); ("m1", m1); ("m2", m2); ("S", K 1) ] kern).
(** execute_sph_*_default and execute_disk_*_default, drivers.c 90-106, 414-430: thread t of T *)
Definition c_execute_sph (T : Z) (kern : cmd) : cmd :=
  For "m" (2 + V "t")%I Le (MM / 2)%I T
   (Seq (kcall kern (m mod 2) m (NN * (2 * m - 1))%I) (kcall kern (m mod 2) m (NN * (2 * m))%I)).
(** execute_tri_*_default, drivers.c 314-326 *)
Definition c_execute_tri (T : Z) (kern : cmd) : cmd :=
  For "m" (1 + V "t")%I Lt MM T (kcall kern (K 0) m (NN * m)%I).
(** execute_rectdisk_*_default, drivers.c 496-508 *)
Definition c_execute_rectdisk (T : Z) (kern : cmd) : cmd :=
  For "m" (2 + V "t")%I Lt MM T (kcall kern (m mod 2) m (NN * m)%I).

(** permute and permute_t, permute.c 5-14 *)
Definition c_permute (L : Z) : cmd :=
  For "j" (K 0) Lt MM L
   (For "i" (K 0) Lt (LL * NN)%I 1
     (uses [ ((LL * i) mod (LL * NN) + (LL * i) / (LL * NN) + j * NN)%I; (i + j * NN)%I ])).
(** permute_sph and permute_t_sph, permute.c 16-26 *)
Definition c_permute_sph (L : Z) : cmd :=
  seq [ For "i" (K 0) Lt (MM mod (2 * LL) * NN)%I 1 (Use i);
        Use (MM mod (2 * LL) * NN)%I; Use (MM mod (2 * LL) * NN)%I;
        Call [ ("N", NN); ("M", (MM - MM mod (2 * LL))%I); ("L", LL) ] (c_permute L) ].
(** permute_tri and permute_t_tri, permute.c 28-38 *)
Definition c_permute_tri (L : Z) : cmd :=
  seq [ For "i" (K 0) Lt (MM mod LL * NN)%I 1 (Use i);
        Use (MM mod LL * NN)%I; Use (MM mod LL * NN)%I;
        Call [ ("N", NN); ("M", (MM - MM mod LL)%I); ("L", LL) ] (c_permute L) ].
(** chebyshev_normalization_2d and _t, drivers.c 6-24 *)
Definition c_chebyshev_normalization_2d : cmd :=
  seq [ For "i" (K 0) Lt NN 1 (Use i);
        For "j" (K 0) Lt MM 1 (Seq (Use (j * NN)%I) (For "i" (K 0) Lt NN 1 (Use (i + j * NN)%I))) ].
(** chebyshev_normalization_3d and _t, drivers.c 26-54 *)
Definition c_chebyshev_normalization_3d : cmd :=
  seq [ For "j" (K 0) Lt LL 1 (For "i" (K 0) Lt NN 1 (Use (i + j * NN)%I));
        For "k" (K 0) Lt MM 1
         (seq [ For "i" (K 0) Lt NN 1 (Use (i + k * LL * NN)%I);
                For "j" (K 0) Lt LL 1 (Seq (Use ((j + k * LL) * NN)%I) (For "i" (K 0) Lt NN 1 (Use (i + (j + k * LL) * NN)%I))) ]) ].
(** the dense connection planners, e.g. plan_legendre_to_chebyshev, transforms.c 50-63: allocation and copy of V *)
Definition c_dense_plan : cmd := seq [ Use (n * n)%I; Use (n * n)%I; For "i" (K 0) Lt (n * n)%I 1 (Use i) ].
(** ft_plan_sph_with_kind, fftw.c 75-102: strides, batch sizes and buffers *)
Definition c_plan_sph_fftw : cmd :=
  uses [ (4 * NN)%I; (NN * 2 * (MM / 2 + 1))%I; ((MM + 3) / 4)%I; ((MM + 2) / 4)%I; ((MM + 1) / 4)%I; (MM / 4)%I; (NN * MM)%I ].
(** the int parameters of a call from outside *)
Definition params (vs : list (string * Z)) : env := bindall env0 vs.
